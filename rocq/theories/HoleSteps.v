(** The steps of the sweep, as HoleFacts.v sees them: which output polygon is drawn at each place
    of the active edge list. *)

From Coq Require Import List ZArith Bool Arith Lia.
From Verif Require Import Sweep Hole HoleFacts SweepActs SweepRings.
Import ListNotations.

(** ** Equal functions *)
Lemma ends_ext : forall F F', (forall x, F' x = F x) -> forall c, ends_at F c -> ends_at F' c.
Proof. intros F F' E c H. induction H; constructor. rewrite E. assumption. Qed.
Lemma up_ext : forall (lv lv' : nat -> Prop) F F', (forall x, F' x = F x) -> (forall x, lv' x <-> lv x) ->
  forall c r, up lv F c r -> up lv' F' c r.
Proof.
  intros lv lv' F F' E V c r H. induction H; [constructor|constructor; apply V; assumption|].
  apply up_dead; [rewrite V; assumption|]. rewrite E. assumption.
Qed.
Lemma parity_ext : forall A (P P' : nat -> option A), (forall x, P' x = P x) -> forall n, parity P' n = parity P n.
Proof. intros A P P' E n. induction n as [|n IH]; [reflexivity|]. cbn [parity]. rewrite E, IH. reflexivity. Qed.
Lemma related_ext : forall P P' L R r k, (forall x, P' x = P x) -> related P L R r k -> related P' L R r k.
Proof.
  intros P P' L R r k E. assert (V : forall i, live P' L i <-> live P L i) by (intros i; unfold live; rewrite E; tauto).
  destruct r as [f|]; cbn [related].
  - intros [A [[B C] | C]]; (split; [apply V, A|]).
    + left. split; [exact B|]. intros e Le. apply C, V, Le.
    + right. intros e Le. apply C, V, Le.
  - intros A e Le. apply A, V, Le.
Qed.
Lemma good_ext : forall P L R F H N P' F' H', good P L R F H N ->
  (forall x, P' x = P x) -> (forall x, F' x = F x) -> (forall x, H' x = H x) -> good P' L R F' H' N.
Proof.
  intros P L R F H N P' F' H' G EP EF EH.
  assert (V : forall i, live P' L i <-> live P L i) by (intros i; unfold live; rewrite EP; tauto).
  constructor.
  - intros x i A. rewrite EP in A. destruct (g_at _ _ _ _ _ _ G x i A) as (B1 & B2 & B3 & B4 & B5). rewrite !EP. auto.
  - intros i k A B. apply (g_cross _ _ _ _ _ _ G); apply V; assumption.
  - intros i k A B. apply (g_order _ _ _ _ _ _ G); apply V; assumption.
  - intros k A. apply V in A. destruct (g_up _ _ _ _ _ _ G k A) as (r & U & Q). exists r. split.
    + rewrite EF. apply (up_ext (live P L) (live P' L) F F' EF V _ _ U).
    + apply (related_ext P P' L R r k EP Q).
  - intros x. rewrite EF. apply (ends_ext F F' EF), (g_ends _ _ _ _ _ _ G).
  - intros x y. rewrite EF. apply (g_bound _ _ _ _ _ _ G).
  - intros i A. apply V in A. rewrite EH, !(parity_ext _ P P' EP). apply (g_hole _ _ _ _ _ _ G i A).
Qed.

(** ** Lists *)
Definition at_place (l : list edge) (x : nat) : option nat := nth x (map out l) None.
Lemma at_left : forall u v x, x < length u -> at_place (u ++ v) x = at_place u x.
Proof. intros u v x A. unfold at_place. rewrite map_app, app_nth1; [reflexivity|rewrite map_length; exact A]. Qed.
Lemma at_right : forall u v x, length u <= x -> at_place (u ++ v) x = at_place v (x - length u).
Proof. intros u v x A. unfold at_place. rewrite map_app, app_nth2; rewrite map_length; [reflexivity|lia]. Qed.
Lemma at_two : forall u a b v x, at_place (u ++ a :: b :: v) x =
  if Nat.eqb x (length u) then out a else if Nat.eqb x (S (length u)) then out b else
  if Nat.ltb x (length u) then at_place u x else at_place v (x - length u - 2).
Proof.
  intros u a b v x. destruct (Nat.eqb_spec x (length u)) as [-> | D1]; [rewrite at_right, Nat.sub_diag by lia; reflexivity|].
  destruct (Nat.eqb_spec x (S (length u))) as [-> | D2].
  - rewrite at_right by lia. replace (S (length u) - length u) with 1 by lia. reflexivity.
  - destruct (Nat.ltb_spec x (length u)) as [A|A]; [apply at_left, A|]. rewrite at_right by lia.
    replace (x - length u) with (S (S (x - length u - 2))) by lia. unfold at_place. cbn [map nth]. f_equal. lia.
Qed.
Lemma at_relabel : forall h l, (forall x y, at_place l x = Some (obsolete h) -> at_place l y = Some (obsolete h) -> x = y) ->
  forall x, at_place (relabel h l) x = if option_eq (at_place l x) (obsolete h) then Some (ok h) else at_place l x.
Proof.
  intros h l. induction l as [|e l IH]; intros U x.
  - cbn [relabel]. replace (at_place [] x) with (@None nat) by (destruct x; reflexivity). reflexivity.
  - assert (UL : forall x y, at_place l x = Some (obsolete h) -> at_place l y = Some (obsolete h) -> x = y).
    { intros a b A B. enough (S a = S b) by lia. apply U; assumption. }
    cbn [relabel]. destruct (out e) as [i|] eqn:E; [destruct (Nat.eqb_spec i (obsolete h)) as [-> | D]|].
    + destruct x as [|x]; unfold at_place; cbn [map nth].
      * rewrite E. cbn [option_eq]. rewrite Nat.eqb_refl. reflexivity.
      * destruct (nth x (map out l) None) as [f|] eqn:Ef; cbn [option_eq]; [|reflexivity].
        destruct (Nat.eqb_spec f (obsolete h)) as [-> | D]; [|reflexivity].
        enough (0 = S x) by lia. apply U; [exact E|exact Ef].
    + destruct x as [|x]; [|apply (IH UL x)]. unfold at_place. cbn [map nth]. rewrite E. cbn [option_eq].
      destruct (Nat.eqb_spec i (obsolete h)); [contradiction|reflexivity].
    + destruct x as [|x]; [|apply (IH UL x)]. unfold at_place. cbn [map nth]. rewrite E. reflexivity.
Qed.

Lemma set_rec_length : forall rs i r, length (set_rec rs i r) = length rs.
Proof. induction rs as [|x rs IH]; intros [|i] r; cbn; auto. Qed.
Lemma set_rec_at : forall rs i r x, i < length rs -> rec_at (set_rec rs i r) x = if Nat.eqb x i then r else rec_at rs x.
Proof.
  induction rs as [|y rs IH]; intros i r x A; [cbn in A; lia|]. destruct i as [|i]; destruct x as [|x]; try reflexivity.
  cbn [set_rec]. apply (IH i r x). cbn in A. lia.
Qed.
Definition lefts (rs : list outrec) (x : nat) : option nat := first_left (rec_at rs x).
Definition holes (rs : list outrec) (x : nat) : bool := is_hole (rec_at rs x).

(** The loop of SetHoleState. *)
Lemma loop_scan : forall P u tmp, (forall x, x < length u -> P x = at_place u x) ->
  hole_loop tmp (rev (map out u)) = scan P (length u) tmp.
Proof.
  intros P u. induction u as [|e u IH] using rev_ind; intros tmp A; [reflexivity|].
  rewrite map_app, rev_app_distr, app_length, Nat.add_1_r. cbn [map rev app scan hole_loop].
  assert (E : P (length u) = out e).
  { rewrite A by (rewrite app_length; cbn; lia). rewrite at_right, Nat.sub_diag by lia. reflexivity. }
  assert (K : forall t, hole_loop t (rev (map out u)) = scan P (length u) t).
  { intros t. apply IH. intros x Hx. rewrite A by (rewrite app_length; cbn; lia). apply at_left, Hx. }
  rewrite E. destruct (out e) as [i|]; cbn [look]; [|apply K]. destruct tmp as [t|]; [|apply K].
  destruct (Nat.eqb t i); apply K.
Qed.

(** The loop of OutRec1RightOfOutRec2 finds whatever can be reached. *)
Section Right.
Variables (rs : list outrec).
Hypothesis E : forall x, ends_at (lefts rs) (lefts rs x).
Hypothesis B : forall x y, lefts rs x = Some y -> x < length rs /\ y < length rs.
Lemma right_reach : forall n a b, right_of n rs a b = true -> reach (lefts rs) (lefts rs a) b.
Proof.
  induction n as [|n IH]; intros a b A; [discriminate|]. cbn [right_of] in A. unfold lefts at 2.
  destruct (first_left (rec_at rs a)) as [c|]; [|discriminate]. destruct (Nat.eqb_spec c b) as [Q|D]; [rewrite Q; apply reach_here|].
  apply reach_next, IH, A.
Qed.
Lemma reach_right : forall n a b vis, NoDup (a :: vis) -> (forall v, In v vis -> reach (lefts rs) (lefts rs v) a) ->
  (forall v, In v (a :: vis) -> v < length rs) -> length rs <= n + length vis -> reach (lefts rs) (lefts rs a) b ->
  right_of n rs a b = true.
Proof.
  induction n as [|n IH]; intros a b vis ND V LT LN A.
  - exfalso. assert (Q : length (a :: vis) <= length (seq 0 (length rs))).
    { apply NoDup_incl_length; [exact ND|]. intros v Hv. apply in_seq. specialize (LT v Hv). lia. }
    rewrite seq_length in Q. cbn in Q. lia.
  - cbn [right_of]. unfold lefts at 2 in A. destruct (first_left (rec_at rs a)) as [c|] eqn:F; [|inversion A].
    destruct (Nat.eqb_spec c b) as [_ | D]; [reflexivity|].
    inversion A as [q Q|q b' A' Q]; subst; [contradiction|].
    assert (VC : forall v, In v (a :: vis) -> reach (lefts rs) (lefts rs v) c).
    { intros v [<- | Hv]; [unfold lefts at 2; rewrite F; apply reach_here|].
      eapply reach_trans; [apply V, Hv|]. unfold lefts at 2. rewrite F. apply reach_here. }
    apply (IH c b (a :: vis)); [|exact VC| |cbn; lia|exact A'].
    + constructor; [|exact ND]. intros K. apply VC in K. revert K. apply (acyclic (lefts rs) (Some c)); [|reflexivity].
      constructor. apply E.
    + intros v [<- | Hv]; [apply (B a c F)|apply LT, Hv].
Qed.
Lemma right_iff : forall k a b, right_of (length rs + k) rs a b = true <-> reach (lefts rs) (lefts rs a) b.
Proof.
  intros k a b. split; [apply right_reach|]. intros A. destruct (lefts rs a) as [c|] eqn:F; [|inversion A].
  apply (reach_right _ a b []); [repeat constructor; intros []|intros v []| |cbn; lia|rewrite F; exact A].
  intros v [<- | []]. apply (B a c F).
Qed.
End Right.

(** ** The invariant *)
Definition tidy (s : state) (rs : list outrec) : Prop :=
  length rs = length (polys s) /\ exists L R, good (at_place (ael s)) L R (lefts rs) (holes rs) (length rs).

(** Two outlines joined, or one closed, at neighbouring places. *)
Definition joins (P : nat -> option nat) (a : nat) (i k : nat) (h : option handover) (rs : list outrec) (lower : bool) : Prop :=
  exists L' R', good (if Nat.eqb i k then fun x => if Nat.eqb x a || Nat.eqb x (S a) then None else P x
                      else merged_at P a (Nat.min i k) (Nat.max i k))
                     L' R' (lefts (handed h lower rs)) (holes (handed h lower rs)) (length rs).
Definition hands (i k : nat) (h : option handover) : Prop :=
  (i = k /\ h = None) \/ (i <> k /\ exists g, h = Some g /\ ok g = Nat.min i k /\ obsolete g = Nat.max i k).
Lemma join_good : forall P L R rs a i k h lower,
  good P L R (lefts rs) (holes rs) (length rs) -> P a = Some i -> P (S a) = Some k -> hands i k h ->
  joins P a i k h rs lower.
Proof.
  intros P L R rs a i k h lower G Ha Hb [[<- ->] | (D & g & -> & Ok & Ob)]; unfold joins.
  { rewrite Nat.eqb_refl. exists L, R. cbn [handed]. apply (close _ _ _ _ _ _ G a i); [exact Ha|exact Hb|reflexivity]. }
  destruct (Nat.eqb_spec i k) as [C|_]; [contradiction|]. cbn [handed]. rewrite Ok, Ob.
  set (m := Nat.min i k). set (o := Nat.max i k).
  assert (Hmo : m = i /\ o = k \/ m = k /\ o = i) by (unfold m, o; lia). assert (Hlt : m < o) by (unfold m, o; lia).
  destruct (g_at _ _ _ _ _ _ G _ _ Ha) as (I1 & I2 & I3 & I4 & I5). destruct (g_at _ _ _ _ _ _ G _ _ Hb) as (K1 & K2 & K3 & K4 & K5).
  assert (M : m < length rs) by (unfold m; lia). assert (O : o < length rs) by (unfold o; lia).
  pose proof (laminar _ _ _ _ _ _ G i k I2 K2 D) as LA.
  assert (RI : forall x y, right_of (length rs) rs x y = true <-> reach (lefts rs) (lefts rs x) y).
  { intros x y. pose proof (right_iff rs (g_ends _ _ _ _ _ _ G) (g_bound _ _ _ _ _ _ G) 0 x y) as Q. rewrite Nat.add_0_r in Q. exact Q. }
  assert (LL : forall x, lefts (append_holes rs m o lower) x =
    upd (upd (lefts rs) m (if takes_second rs m o lower then (if option_eqb (lefts rs o) m then lefts rs m else lefts rs o) else lefts rs m)) o (Some m) x).
  { intros x. unfold append_holes, lefts, upd. rewrite set_rec_at by (rewrite set_rec_length; exact O). rewrite set_rec_at by exact M.
    destruct (Nat.eqb x o); [reflexivity|]. destruct (Nat.eqb x m); [|reflexivity]. destruct (takes_second rs m o lower); reflexivity. }
  assert (HH : forall x, holes (append_holes rs m o lower) x =
    upd (holes rs) m (if takes_second rs m o lower then holes rs o else holes rs m) x).
  { intros x. unfold append_holes, holes, upd. rewrite set_rec_at by (rewrite set_rec_length; exact O). rewrite set_rec_at by exact M.
    destruct (Nat.eqb_spec x o) as [-> | _]; [destruct (Nat.eqb_spec o m); [lia|reflexivity]|].
    destruct (Nat.eqb x m); [|reflexivity]. destruct (takes_second rs m o lower); reflexivity. }
  assert (NEST : forall u v, (m = i /\ o = k /\ a = L m /\ S a = L o /\ u = R o /\ v = R m \/ m = k /\ o = i /\ a = R o /\ S a = R m /\ u = L m /\ v = L o) ->
    encl L R m o -> exists L' R', good (merged_at P a m o) L' R' (lefts (append_holes rs m o lower)) (holes (append_holes rs m o lower)) (length rs)).
  { intros u v C EN. assert (Lm : live P L m) by (destruct Hmo as [[-> _] | [-> _]]; assumption).
    assert (Lo : live P L o) by (destruct Hmo as [[_ ->] | [_ ->]]; assumption).
    pose proof (encloser_reach _ _ _ _ _ _ G m o Lm Lo EN) as RO.
    assert (T : takes_second rs m o lower = false).
    { unfold takes_second. destruct (right_of (length rs) rs m o) eqn:Q.
      - apply RI in Q. contradiction (no_cycle _ _ _ _ _ _ G m). eapply reach_trans; [exact Q|exact RO].
      - rewrite (proj2 (RI o m) RO). reflexivity. }
    exists (upd L m u), (upd R m v).
    apply (good_ext _ _ _ _ _ _ _ _ _ (merge_nested _ _ _ _ _ _ G a i k m o u v Ha Hb C (Nat.lt_neq _ _ Hlt) EN)).
    - reflexivity.
    - intros x. rewrite LL, T. unfold upd. destruct (Nat.eqb x o); [reflexivity|]. destruct (Nat.eqb_spec x m) as [-> | _]; reflexivity.
    - intros x. rewrite HH, T. unfold upd. destruct (Nat.eqb_spec x m) as [-> | _]; reflexivity. }
  destruct I5 as [EA|EA]; destruct K5 as [EB|EB].
  - (* two left ends *)
    assert (EN : encl L R i k) by (clear - LA EA EB I4 K4; unfold lam in LA; unfold encl; lia).
    pose proof (g_order _ _ _ _ _ _ G i k I2 K2 EN) as Q.
    assert (Em : m = i) by (unfold m; lia). assert (Eo : o = k) by (unfold o; lia).
    apply (NEST (R o) (R m)); [left|]; rewrite Em, Eo; auto 10.
  - exfalso. clear - LA EA EB I4 K4. unfold lam in LA. lia.
  - (* side by side *)
    set (t := takes_second rs m o lower) in *. set (hh := if t then o else m).
    assert (HC : hh = m /\ ~ reach (lefts rs) (lefts rs m) o \/ hh = o /\ ~ reach (lefts rs) (lefts rs o) m).
    { unfold hh, t, takes_second. destruct (right_of (length rs) rs m o) eqn:Q1; [|destruct (right_of (length rs) rs o m) eqn:Q2].
      - right. split; [reflexivity|]. intros Q2. apply RI in Q1. apply (no_cycle _ _ _ _ _ _ G m). eapply reach_trans; [exact Q1|exact Q2].
      - left. split; [reflexivity|]. rewrite <- RI, Q1. discriminate.
      - destruct lower; [right|left]; (split; [reflexivity|]); rewrite <- RI; [rewrite Q2|rewrite Q1]; discriminate. }
    exists (upd L m (L i)), (upd R m (R k)).
    apply (good_ext _ _ _ _ _ _ _ _ _ (merge_side _ _ _ _ _ _ G a i k m o hh Ha Hb EA EB Hmo Hlt HC)).
    + reflexivity.
    + intros x. rewrite LL. unfold upd. destruct (Nat.eqb x o); [reflexivity|]. destruct (Nat.eqb x m); [|reflexivity].
      unfold hh in *. destruct t; [|reflexivity].
      destruct HC as [[C _] | [_ C]]; [lia|]. destruct (lefts rs o) as [f|] eqn:F; cbn [option_eqb]; [|reflexivity].
      destruct (Nat.eqb_spec f m) as [-> | _]; [|reflexivity]. contradiction C. apply reach_here.
    + intros x. rewrite HH. unfold upd, hh. destruct (Nat.eqb x m); [|reflexivity]. destruct t; reflexivity.
  - (* two right ends *)
    assert (EN : encl L R k i) by (clear - LA EA EB I4 K4; unfold lam in LA; unfold encl; lia).
    pose proof (g_order _ _ _ _ _ _ G k i K2 I2 EN) as Q.
    assert (Em : m = k) by (unfold m; lia). assert (Eo : o = i) by (unfold o; lia).
    apply (NEST (L m) (L o)); [right|]; rewrite Em, Eo; auto 10.
Qed.

(** ** What an event does to the places *)
Lemma add_out_drawn : forall o e p, drawn e = true -> exists o', add_out o e p = (o', e) /\ length o' = length o.
Proof.
  intros o e p D. unfold add_out, drawn in *. destruct (out e) as [i|]; [|discriminate].
  destruct (nth i o None) as [r|]; [|exists o; auto]. eexists. split; [reflexivity|].
  destruct (hand e); [destruct (pt_eqb p (hd nowhere r))|destruct (pt_eqb p (last r nowhere))]; rewrite ?put_length; reflexivity.
Qed.
Lemma local_max_effect : forall o e1 e2 p i k, out e1 = Some i -> out e2 = Some k ->
  exists o' f1 f2 h, local_max o e1 e2 p = (o', f1, f2, h) /\ length o' = length o /\ out f1 = None /\ out f2 = None /\ hands i k h.
Proof.
  intros o e1 e2 p i k E1 E2. unfold local_max.
  destruct (add_out_drawn o e1 p) as (o' & -> & Len); [unfold drawn; rewrite E1; reflexivity|]. rewrite E1, E2.
  destruct (Nat.eqb_spec i k) as [-> | D]; [do 4 eexists; split; [reflexivity|]; repeat split; auto; left; auto|].
  destruct (Nat.ltb_spec i k) as [A|A]; unfold append; do 4 eexists; (split; [reflexivity|]); rewrite !put_length;
    (repeat split; auto); right; (split; [exact D|]); eexists; (split; [reflexivity|]); cbn; lia.
Qed.
Lemma local_min_effect : forall o e1 e2 p b, out e1 = None -> out e2 = None ->
  exists o' f1 f2, local_min o e1 e2 p b = (o', f1, f2) /\ length o' = S (length o) /\ out f1 = Some (length o) /\ out f2 = Some (length o).
Proof.
  intros o e1 e2 p b E1 E2. unfold local_min, add_out. destruct b; [rewrite E1|rewrite E2]; cbn; do 3 eexists;
    (split; [reflexivity|]); rewrite app_length; cbn; repeat split; lia.
Qed.
Definition effect (n : nat) (a1 a2 : option nat) (n' : nat) (b1 b2 : option nat) (h : option handover) : Prop :=
  (n' = n /\ h = None /\ b2 = a1 /\ b1 = a2) \/
  (n' = n /\ h = None /\ b1 = a1 /\ b2 = a2 /\ (a1 = None \/ a2 = None)) \/
  (n' = S n /\ h = None /\ a1 = None /\ a2 = None /\ b1 = Some n /\ b2 = Some n) \/
  (n' = n /\ b1 = None /\ b2 = None /\ exists i k, a1 = Some i /\ a2 = Some k /\ hands i k h).
Lemma intersect_effect : forall j o e1 e2 p b, let '(o', f1, f2, h) := intersect j o e1 e2 p b in
  effect (length o) (out e1) (out e2) (length o') (out f1) (out f2) h.
Proof.
  intros j o e1 e2 p b. rewrite intersect_act. pose proof (cross_keeps j e1 e2) as K.
  destruct (cross_counts j e1 e2) as [g1 g2]. destruct K as (_ & _ & O1 & _ & _ & _ & O2 & _). rewrite <- O1, <- O2.
  assert (D1 : drawn e1 = drawn g1) by (unfold drawn; rewrite O1; reflexivity).
  assert (D2 : drawn e2 = drawn g2) by (unfold drawn; rewrite O2; reflexivity). rewrite D1, D2. clear D1 D2 O1 O2.
  unfold effect, decide. destruct (drawn g1) eqn:D1; destruct (drawn g2) eqn:D2; cbn [andb].
  - match goal with |- context [if ?x then Closes else Both] => destruct x end; cbn [perform].
    + pose proof D1 as C1. pose proof D2 as C2. unfold drawn in C1, C2. destruct (out g1) as [i|] eqn:E1; [|discriminate]. destruct (out g2) as [k|] eqn:E2; [|discriminate].
      destruct (local_max_effect o g1 g2 p i k E1 E2) as (o' & f1 & f2 & h & -> & A & B & C & Q). right. right. right.
      repeat split; auto. exists i, k. auto.
    + destruct (add_out_drawn o g1 p D1) as (o1 & -> & A1). destruct (add_out_drawn o1 g2 p D2) as (o2 & -> & A2).
      cbn. left. repeat split; lia.
  - match goal with |- context [if ?x then Pass1 else Nothing] => destruct x end; cbn [perform].
    + destruct (add_out_drawn o g1 p D1) as (o1 & -> & A1). cbn. left. repeat split; lia.
    + right. left. repeat split; auto. unfold drawn in D2. destruct (out g2); [discriminate|auto].
  - match goal with |- context [if ?x then Pass2 else Nothing] => destruct x end; cbn [perform].
    + destruct (add_out_drawn o g2 p D2) as (o1 & -> & A1). cbn. left. repeat split; lia.
    + right. left. repeat split; auto. unfold drawn in D1. destruct (out g1); [discriminate|auto].
  - unfold drawn in D1, D2. destruct (out g1) as [i|] eqn:E1; [discriminate|]. destruct (out g2) as [k|] eqn:E2; [discriminate|].
    match goal with |- context [perform ?x] => set (act := x) end.
    assert (A : act = Nothing \/ act = Sides \/ act = Opens).
    { unfold act. repeat match goal with |- context [if ?x then _ else _] => destruct x; auto end. }
    clearbody act. destruct A as [-> | [-> | ->]]; cbn [perform].
    + left. auto.
    + cbn. left. rewrite E1, E2. auto.
    + destruct (local_min_effect o g1 g2 p b E1 E2) as (o' & f1 & f2 & -> & A & B & C). right. right. left. auto 10.
Qed.

Lemma gap : forall l u v a b, l = u ++ v -> out a = None -> out b = None ->
  forall L R F H N, good (at_place l) L R F H N -> exists L' R', good (at_place (u ++ a :: b :: v)) L' R' F H N.
Proof.
  intros l u v a b -> A B L R F H N G. set (n := length u).
  set (phi := fun x => if Nat.ltb x n then x else x + 2). set (P' := at_place (u ++ a :: b :: v)).
  assert (M : forall x, P' (phi x) = at_place (u ++ v) x).
  { intros x. unfold P', phi. rewrite at_two. fold n. destruct (Nat.ltb_spec x n) as [Q|Q].
    - destruct (Nat.eqb_spec x n); [lia|]. destruct (Nat.eqb_spec x (S n)); [lia|]. destruct (Nat.ltb_spec x n); [|lia].
      symmetry. apply at_left, Q.
    - destruct (Nat.eqb_spec (x + 2) n); [lia|]. destruct (Nat.eqb_spec (x + 2) (S n)); [lia|]. destruct (Nat.ltb_spec (x + 2) n); [lia|].
      rewrite at_right by exact Q. fold n. f_equal. lia. }
  assert (V : P' n = None /\ P' (S n) = None).
  { unfold P'. rewrite !at_two. fold n. rewrite !Nat.eqb_refl. destruct (Nat.eqb_spec (S n) n); [lia|]. auto. }
  exists (fun i => phi (L i)), (fun i => phi (R i)). apply (rekey _ _ _ _ _ _ G P' phi).
  - intros x y i k _ _ Q. unfold phi. destruct (Nat.ltb_spec x n); destruct (Nat.ltb_spec y n); lia.
  - intros x i E. rewrite M. exact E.
  - intros y i E. destruct (Nat.ltb_spec y n) as [Q|Q].
    + exists y. assert (EY : phi y = y) by (unfold phi; destruct (Nat.ltb_spec y n); [reflexivity|lia]). rewrite <- M, EY. auto.
    + destruct (Nat.eq_dec y n) as [-> | D1]; [rewrite (proj1 V) in E; discriminate|].
      destruct (Nat.eq_dec y (S n)) as [-> | D2]; [rewrite (proj2 V) in E; discriminate|].
      exists (y - 2). assert (EY : phi (y - 2) = y) by (unfold phi; destruct (Nat.ltb_spec (y - 2) n); lia). rewrite <- M, EY. auto.
  - assert (K : forall x, parity P' (phi x) = parity (at_place (u ++ v)) x); [|intros x i _; apply K].
    assert (K1 : forall x, x <= n -> parity P' x = parity (at_place (u ++ v)) x).
    { induction x as [|x IH]; intros Q; [reflexivity|]. cbn [parity]. rewrite IH by lia. f_equal. f_equal.
      rewrite <- M. unfold phi. destruct (Nat.ltb_spec x n); [reflexivity|lia]. }
    assert (K2 : forall k, parity P' (n + k + 2) = parity (at_place (u ++ v)) (n + k)).
    { induction k as [|k IH].
      - rewrite Nat.add_0_r. replace (n + 2) with (S (S n)) by lia. cbn [parity]. destruct V as [-> ->]. cbn [some xorb]. rewrite K1 by lia.
        destruct (parity _ n); reflexivity.
      - replace (n + S k + 2) with (S (n + k + 2)) by lia. replace (n + S k) with (S (n + k)) by lia. cbn [parity]. rewrite IH. f_equal. f_equal.
        rewrite <- M. unfold phi. destruct (Nat.ltb_spec (n + k) n); [lia|reflexivity]. }
    intros x. unfold phi. destruct (Nat.ltb_spec x n) as [Q|Q]; [apply K1; lia|]. replace x with (n + (x - n)) by lia. apply K2.
Qed.
(** Two neighbouring places, at least one of them vacant, change places. *)
Lemma swap : forall u v a b a' b', out a' = out a -> out b' = out b -> (out a = None \/ out b = None) ->
  forall L R F H N, good (at_place (u ++ a :: b :: v)) L R F H N ->
  exists L' R', good (at_place (u ++ b' :: a' :: v)) L' R' F H N.
Proof.
  intros u v a b a' b' EA EB V L R F H N G. set (n := length u). set (P := at_place (u ++ a :: b :: v)) in *.
  set (phi := fun x => if Nat.eqb x n then S n else if Nat.eqb x (S n) then n else x). set (P' := at_place (u ++ b' :: a' :: v)).
  assert (M : forall x, P' (phi x) = P x).
  { intros x. unfold P, P', phi. rewrite !at_two. fold n. destruct (Nat.eqb_spec x n) as [-> | D1].
    - rewrite Nat.eqb_refl. destruct (Nat.eqb_spec (S n) n); [lia|exact EA].
    - destruct (Nat.eqb_spec x (S n)) as [-> | D2]; [rewrite Nat.eqb_refl; exact EB|].
      destruct (Nat.eqb_spec x n); [contradiction|]. destruct (Nat.eqb_spec x (S n)); [contradiction|reflexivity]. }
  assert (PV : P n = None \/ P (S n) = None).
  { unfold P. rewrite !at_two. fold n. rewrite !Nat.eqb_refl. destruct (Nat.eqb_spec (S n) n); [lia|exact V]. }
  assert (II : forall y, phi (phi y) = y).
  { intros y. unfold phi. destruct (Nat.eqb_spec y n) as [-> | D1].
    - rewrite Nat.eqb_refl. destruct (Nat.eqb_spec (S n) n); [lia|reflexivity].
    - destruct (Nat.eqb_spec y (S n)) as [-> | D2]; [rewrite Nat.eqb_refl; reflexivity|].
      destruct (Nat.eqb_spec y n); [contradiction|]. destruct (Nat.eqb_spec y (S n)); [contradiction|reflexivity]. }
  exists (fun i => phi (L i)), (fun i => phi (R i)). apply (rekey _ _ _ _ _ _ G P' phi).
  - intros x y i k X Y Q. assert (W : ~ (x = n /\ y = S n)) by (intros [-> ->]; destruct PV; congruence).
    unfold phi. destruct (Nat.eqb_spec x n); destruct (Nat.eqb_spec y n); destruct (Nat.eqb_spec x (S n)); destruct (Nat.eqb_spec y (S n)); lia.
  - intros x i E. rewrite M. exact E.
  - intros y i E. exists (phi y). rewrite II. split; [reflexivity|]. rewrite <- M, II. exact E.
  - assert (E0 : P' n = P (S n)) by (rewrite <- M; unfold phi; rewrite Nat.eqb_refl; destruct (Nat.eqb_spec (S n) n); [lia|reflexivity]).
    assert (E1 : P' (S n) = P n) by (rewrite <- M; unfold phi; rewrite Nat.eqb_refl; reflexivity).
    assert (K : forall x, x <> S n -> parity P' x = parity P x).
    { apply parity_pair.
      - intros x D1 D2. rewrite <- M. unfold phi. destruct (Nat.eqb_spec x n); [contradiction|]. destruct (Nat.eqb_spec x (S n)); [contradiction|reflexivity].
      - rewrite E0, E1. apply xorb_comm. }
    intros x i X. destruct (Nat.eq_dec x n) as [-> | D1]; [|destruct (Nat.eq_dec x (S n)) as [-> | D2]].
    + unfold phi. rewrite Nat.eqb_refl. cbn [parity]. rewrite E0, K by lia. destruct PV as [Q| ->]; [congruence|]. cbn [some]. destruct (parity P n); reflexivity.
    + unfold phi. rewrite Nat.eqb_refl. destruct (Nat.eqb_spec (S n) n); [lia|]. rewrite K by lia. cbn [parity].
      destruct PV as [-> | Q]; [|congruence]. cbn [some]. destruct (parity P n); reflexivity.
    + unfold phi. destruct (Nat.eqb_spec x n); [contradiction|]. destruct (Nat.eqb_spec x (S n)); [contradiction|]. apply K, D2.
Qed.
(** Two vacant places are taken away. *)
Lemma ungap : forall P u v, P (length u) = None -> P (S (length u)) = None ->
  (forall x, x <> length u -> x <> S (length u) -> P x = if Nat.ltb x (length u) then at_place u x else at_place v (x - length u - 2)) ->
  forall L R F H N, good P L R F H N -> exists L' R', good (at_place (u ++ v)) L' R' F H N.
Proof.
  intros P u v V1 V2 E L R F H N G. set (n := length u) in *.
  set (phi := fun x => if Nat.ltb x n then x else x - 2). set (P' := at_place (u ++ v)).
  assert (M : forall x, x <> n -> x <> S n -> P' (phi x) = P x).
  { intros x D1 D2. rewrite E by assumption. unfold P', phi. destruct (Nat.ltb_spec x n) as [Q|Q]; [apply at_left, Q|].
    rewrite at_right by (fold n; lia). fold n. f_equal. lia. }
  assert (W : forall x i, P x = Some i -> x <> n /\ x <> S n) by (intros x i X; split; intros ->; congruence).
  exists (fun i => phi (L i)), (fun i => phi (R i)). apply (rekey _ _ _ _ _ _ G P' phi).
  - intros x y i k X Y Q. apply W in X. apply W in Y. unfold phi. destruct (Nat.ltb_spec x n); destruct (Nat.ltb_spec y n); lia.
  - intros x i X. destruct (W _ _ X). rewrite M by assumption. exact X.
  - intros y i Y. set (x := if Nat.ltb y n then y else y + 2).
    assert (PX : phi x = y) by (unfold phi, x; destruct (Nat.ltb_spec y n); [destruct (Nat.ltb_spec y n); lia|destruct (Nat.ltb_spec (y + 2) n); lia]).
    assert (D : x <> n /\ x <> S n) by (unfold x; destruct (Nat.ltb_spec y n); lia).
    exists x. split; [symmetry; exact PX|]. rewrite <- M by apply D. rewrite PX. exact Y.
  - assert (K1 : forall x, x <= n -> parity P' x = parity P x).
    { induction x as [|x IH]; intros Q; [reflexivity|]. cbn [parity]. rewrite IH by lia. f_equal. f_equal.
      rewrite <- M by lia. unfold phi. destruct (Nat.ltb_spec x n); [reflexivity|lia]. }
    assert (K2 : forall k, parity P' (n + k) = parity P (n + k + 2)).
    { induction k as [|k IH].
      - rewrite Nat.add_0_r. replace (n + 2) with (S (S n)) by lia. cbn [parity]. rewrite V1, V2. cbn [some]. rewrite K1 by lia.
        destruct (parity P n); reflexivity.
      - replace (n + S k + 2) with (S (n + k + 2)) by lia. replace (n + S k) with (S (n + k)) by lia. cbn [parity]. rewrite IH. f_equal. f_equal.
        rewrite <- M by lia. unfold phi. destruct (Nat.ltb_spec (n + k + 2) n); [lia|]. f_equal. lia. }
    intros x i X. destruct (W _ _ X). unfold phi. destruct (Nat.ltb_spec x n) as [Q|Q]; [apply K1; lia|].
    replace (x - 2) with (n + (x - n - 2)) by lia. rewrite K2. f_equal. lia.
Qed.

Lemma rec_snoc : forall rs r x, rec_at (rs ++ [r]) x = if Nat.eqb x (length rs) then r else rec_at rs x.
Proof.
  intros rs r x. unfold rec_at. destruct (Nat.eqb_spec x (length rs)) as [-> | D].
  - rewrite app_nth2, Nat.sub_diag by lia. reflexivity.
  - destruct (Nat.lt_ge_cases x (length rs)) as [A|A]; [apply app_nth1, A|].
    rewrite !nth_overflow; [reflexivity|lia|rewrite app_length; cbn; lia].
Qed.
Lemma open_good : forall u v a b a' b' rs L R, out a = None -> out b = None ->
  out a' = Some (length rs) -> out b' = Some (length rs) ->
  good (at_place (u ++ a :: b :: v)) L R (lefts rs) (holes rs) (length rs) ->
  exists L' R', good (at_place (u ++ a' :: b' :: v)) L' R' (lefts (rs ++ [hole_state rs u])) (holes (rs ++ [hole_state rs u]))
                     (length (rs ++ [hole_state rs u])).
Proof.
  intros u v a b a' b' rs L R A B A' B' G. set (P := at_place (u ++ a :: b :: v)) in *.
  assert (V1 : P (length u) = None) by (unfold P; rewrite at_two, Nat.eqb_refl; exact A).
  assert (V2 : P (S (length u)) = None).
  { unfold P. rewrite at_two, Nat.eqb_refl. destruct (Nat.eqb_spec (S (length u)) (length u)); [lia|exact B]. }
  pose proof (create _ _ _ _ _ _ G (length u) V1 V2) as C.
  assert (S : hole_loop None (rev (map out u)) = scan P (length u) None) by (apply loop_scan; intros x Hx; apply at_left, Hx).
  rewrite app_length, Nat.add_1_r. do 2 eexists. apply (good_ext _ _ _ _ _ _ _ _ _ C).
  - intros x. unfold created_at, P. rewrite !at_two. destruct (Nat.eqb x (length u)); [exact A'|]. cbn [orb].
    destruct (Nat.eqb x (Datatypes.S (length u))); [exact B'|reflexivity].
  - intros x. unfold lefts, upd. rewrite rec_snoc. destruct (Nat.eqb x (length rs)); [|reflexivity].
    unfold hole_state. rewrite S. destruct (scan P (length u) None); reflexivity.
  - intros x. unfold holes, upd. rewrite rec_snoc. destruct (Nat.eqb x (length rs)); [|reflexivity].
    unfold hole_state. rewrite S. destruct (scan P (length u) None); reflexivity.
Qed.

Lemma relabel_length : forall h l, length (relabel h l) = length l.
Proof.
  intros h l. induction l as [|e l IH]; [reflexivity|]. cbn [relabel]. destruct (out e) as [i|]; [destruct (Nat.eqb i (obsolete h))|]; cbn; auto.
Qed.
Lemma handed_length : forall h lower rs, length (handed h lower rs) = length rs.
Proof. intros [h|] lower rs; [|reflexivity]. cbn [handed]. unfold append_holes. rewrite !set_rec_length. reflexivity. Qed.
Lemma hands_sym : forall i k h, hands k i h -> hands i k h.
Proof.
  intros i k h [[A B] | (A & g & B & C & D)]; [left; auto|right]. split; [auto|]. exists g. rewrite Nat.min_comm, Nat.max_comm. auto.
Qed.

(** What is left of the places when two drawn ones are vacated. *)
Section Vacated.
Variables (u v : list edge) (e1 e2 : edge) (rs : list outrec) (L R : nat -> nat) (i k : nat) (h : option handover).
Let l := u ++ e1 :: e2 :: v.
Hypothesis G : good (at_place l) L R (lefts rs) (holes rs) (length rs).
Hypothesis E1 : out e1 = Some i.
Hypothesis E2 : out e2 = Some k.
Hypothesis Hh : hands i k h.
Let n := length u.
Definition vacated (x : nat) : option nat :=
  (if Nat.eqb i k then fun x => if Nat.eqb x n || Nat.eqb x (S n) then None else at_place l x
   else merged_at (at_place l) n (Nat.min i k) (Nat.max i k)) x.
Lemma first_place : at_place l n = Some i.
Proof. unfold l, n. rewrite at_two, Nat.eqb_refl. exact E1. Qed.
Lemma second_place : at_place l (S n) = Some k.
Proof. unfold l, n. rewrite at_two, Nat.eqb_refl. destruct (Nat.eqb_spec (S (length u)) (length u)); [lia|exact E2]. Qed.
Lemma vacated_good : forall lower, exists L' R', good vacated L' R' (lefts (handed h lower rs)) (holes (handed h lower rs)) (length rs).
Proof.
  intros lower. destruct (join_good _ L R rs n i k h lower G first_place second_place Hh) as (L' & R' & J). exists L', R'.
  apply (good_ext _ _ _ _ _ _ _ _ _ J); reflexivity.
Qed.
Lemma vacated_none : forall x, x = n \/ x = S n -> vacated x = None.
Proof.
  intros x D. assert (Z : Nat.eqb x n || Nat.eqb x (S n) = true) by (apply orb_true_iff; destruct D as [-> | ->]; rewrite Nat.eqb_refl; auto).
  unfold vacated, merged_at. destruct (Nat.eqb i k); rewrite Z; reflexivity.
Qed.
(** A list with the same other places, relabelled. *)
Lemma vacated_handing : forall l' (phi : nat -> nat),
  (forall x y, x <> n -> x <> S n -> y <> n -> y <> S n -> phi x = phi y -> x = y) ->
  (forall x, x <> n -> x <> S n -> at_place l' (phi x) = at_place l x) ->
  (forall y f, at_place l' y = Some f -> exists x, x <> n /\ x <> S n /\ y = phi x) ->
  forall x, x <> n -> x <> S n -> at_place (handing h l') (phi x) = vacated x.
Proof.
  intros l' phi J M Sj x D1 D2.
  assert (Z : Nat.eqb x n || Nat.eqb x (S n) = false).
  { destruct (Nat.eqb_spec x n); [contradiction|]. destruct (Nat.eqb_spec x (S n)); [contradiction|reflexivity]. }
  destruct Hh as [[Q ->] | (D & g & -> & Ok & Ob)].
  - cbn [handing]. rewrite M by assumption. unfold vacated. rewrite Q, Nat.eqb_refl. rewrite Z. reflexivity.
  - cbn [handing]. rewrite at_relabel, M by (first [assumption|
      intros a b A B; rewrite Ob in *;
      destruct (Sj _ _ A) as (xa & A1 & A2 & ->); destruct (Sj _ _ B) as (xb & B1 & B2 & ->);
      rewrite M in A by assumption; rewrite M in B by assumption; f_equal;
      destruct (g_at _ _ _ _ _ _ G _ _ A) as (_ & _ & _ & _ & A5); destruct (g_at _ _ _ _ _ _ G _ _ B) as (_ & _ & _ & _ & B5);
      destruct (g_at _ _ _ _ _ _ G _ _ first_place) as (_ & _ & _ & _ & C5); destruct (g_at _ _ _ _ _ _ G _ _ second_place) as (_ & _ & _ & _ & D5);
      destruct (Nat.max_spec i k) as [[_ W] | [_ W]]; rewrite W in A5, B5; clear - A1 A2 B1 B2 A5 B5 C5 D5; lia ]).
    unfold vacated, merged_at. destruct (Nat.eqb_spec i k); [contradiction|]. rewrite Z, Ok, Ob. reflexivity.
Qed.
Lemma cross_vacated : forall f1 f2 lower, out f1 = None -> out f2 = None ->
  exists L' R', good (at_place (handing h (u ++ f2 :: f1 :: v))) L' R' (lefts (handed h lower rs)) (holes (handed h lower rs)) (length rs).
Proof.
  intros f1 f2 lower F1 F2. destruct (vacated_good lower) as (L' & R' & V). exists L', R'.
  assert (P0 : forall x, x <> n -> x <> S n -> at_place (u ++ f2 :: f1 :: v) x = at_place l x).
  { intros x D1 D2. unfold l. rewrite !at_two. fold n. destruct (Nat.eqb_spec x n); [contradiction|]. destruct (Nat.eqb_spec x (S n)); [contradiction|reflexivity]. }
  assert (P1 : at_place (u ++ f2 :: f1 :: v) n = None) by (unfold n; rewrite at_two, Nat.eqb_refl; exact F2).
  assert (P2 : at_place (u ++ f2 :: f1 :: v) (S n) = None).
  { unfold n. rewrite at_two, Nat.eqb_refl. destruct (Nat.eqb_spec (S (length u)) (length u)); [lia|exact F1]. }
  assert (Q : forall y f, at_place (u ++ f2 :: f1 :: v) y = Some f -> exists x, x <> n /\ x <> S n /\ y = x).
  { intros y f Y. exists y. repeat split; intros ->; congruence. }
  assert (P3 : forall x, x = n \/ x = S n -> at_place (handing h (u ++ f2 :: f1 :: v)) x = None).
  { intros x D. assert (X : at_place (u ++ f2 :: f1 :: v) x = None) by (destruct D as [-> | ->]; assumption).
    clear - X. destruct h as [g|]; [|exact X]. cbn [handing]. generalize dependent x. generalize (u ++ f2 :: f1 :: v). intros w. induction w as [|e w IH]; intros x X; [exact X|].
    cbn [relabel]. destruct x as [|x].
    - unfold at_place in *. cbn [map nth] in X. rewrite X. cbn [map nth]. exact X.
    - destruct (out e) as [q|]; [destruct (Nat.eqb q (obsolete g))|]; [exact X|apply (IH x X)|apply (IH x X)]. }
  apply (good_ext _ _ _ _ _ _ _ _ _ V); [|reflexivity|reflexivity]. intros x.
  destruct (Nat.eq_dec x n) as [-> | D1]; [rewrite P3, vacated_none by auto; reflexivity|].
  destruct (Nat.eq_dec x (S n)) as [-> | D2]; [rewrite P3, vacated_none by auto; reflexivity|].
  apply (vacated_handing _ (fun x => x)); auto.
Qed.
Lemma max_vacated : forall lower,
  exists L' R', good (at_place (handing h (u ++ v))) L' R' (lefts (handed h lower rs)) (holes (handed h lower rs)) (length rs).
Proof.
  intros lower. destruct (vacated_good lower) as (L' & R' & V).
  set (phi := fun x => if Nat.ltb x n then x else x - 2).
  assert (P0 : forall x, x <> n -> x <> S n -> at_place (u ++ v) (phi x) = at_place l x).
  { intros x D1 D2. unfold l, phi. rewrite at_two. fold n. destruct (Nat.eqb_spec x n); [contradiction|]. destruct (Nat.eqb_spec x (S n)); [contradiction|].
    destruct (Nat.ltb_spec x n) as [W|W]; [apply at_left, W|]. rewrite at_right by (fold n; lia). fold n. f_equal. lia. }
  assert (J : forall x y, x <> n -> x <> S n -> y <> n -> y <> S n -> phi x = phi y -> x = y).
  { intros x y A B C D. unfold phi. destruct (Nat.ltb_spec x n); destruct (Nat.ltb_spec y n); lia. }
  assert (Q : forall y f, at_place (u ++ v) y = Some f -> exists x, x <> n /\ x <> S n /\ y = phi x).
  { intros y f _. exists (if Nat.ltb y n then y else y + 2). unfold phi. destruct (Nat.ltb_spec y n) as [W|W].
    - destruct (Nat.ltb_spec y n); lia.
    - destruct (Nat.ltb_spec (y + 2) n); lia. }
  pose proof (vacated_handing (u ++ v) phi J P0 Q) as VH.
  set (w := handing h (u ++ v)) in *.
  assert (LW : length w = length (u ++ v)) by (unfold w; destruct h; [apply relabel_length|reflexivity]).
  assert (LU : length (firstn n w) = n) by (rewrite firstn_length, LW, app_length; unfold n; lia).
  destruct (ungap vacated (firstn n w) (skipn n w)) with (L := L') (R := R') (F := lefts (handed h lower rs)) (H := holes (handed h lower rs)) (N := length rs)
    as (L2 & R2 & G2).
  - rewrite LU. apply vacated_none. auto.
  - rewrite LU. apply vacated_none. auto.
  - rewrite LU. intros x D1 D2. rewrite <- VH by assumption. rewrite <- (firstn_skipn n w) at 1. unfold phi. destruct (Nat.ltb_spec x n) as [W|W].
    + apply at_left. rewrite LU. exact W.
    + rewrite at_right by (rewrite LU; lia). rewrite LU. f_equal. lia.
  - exact V.
  - rewrite firstn_skipn in G2. exists L2, R2. exact G2.
Qed.
End Vacated.

Lemma skip_split : forall A n (l : list A) x r, skipn n l = x :: r -> l = firstn n l ++ x :: r /\ length (firstn n l) = n.
Proof.
  intros A n l x r E. split; [rewrite <- E; symmetry; apply firstn_skipn|]. rewrite firstn_length.
  assert (Q : length (skipn n l) = S (length r)) by (rewrite E; reflexivity). rewrite skipn_length in Q. lia.
Qed.
Lemma step_tidy : forall j s ev s' rs lower, step j s ev = Done s' -> tidy s rs -> tidy s' (hole_step j s ev lower rs).
Proof.
  intros j s ev s' rs lower E [LN (L & R & G)]. destruct ev as [n k d p b|n p b|n p|n p b]; cbn [step hole_step] in *.
  - destruct (Nat.leb_spec n (length (ael s))) as [A|A]; [|discriminate]. cbn [andb] in E.
    destruct (((d =? 1) || (d =? -1))%Z); [|discriminate]. injection E as <-.
    assert (LU : length (firstn n (ael s)) = n) by (rewrite firstn_length; lia).
    unfold insert_min, created. destruct (set_winding j (firstn n (ael s)) k d) as [c c2].
    set (lb := Edge k d c c2 LeftSide None). set (rb := Edge k (- d)%Z c c2 RightSide None).
    destruct (gap (ael s) (firstn n (ael s)) (skipn n (ael s)) lb rb (eq_sym (firstn_skipn _ _)) eq_refl eq_refl _ _ _ _ _ G) as (L1 & R1 & G1).
    destruct (contributing j lb).
    + destruct (local_min_effect (polys s) lb rb p b eq_refl eq_refl) as (o' & f1 & f2 & -> & Q1 & Q2 & Q3). cbn [polys].
      rewrite (proj2 (Nat.ltb_lt _ _)) by lia. rewrite <- LN in Q2, Q3.
      destruct (open_good (firstn n (ael s)) (skipn n (ael s)) lb rb f1 f2 rs L1 R1 eq_refl eq_refl Q2 Q3 G1) as (L2 & R2 & G2).
      split; [rewrite app_length; cbn; lia|]. exists L2, R2. exact G2.
    + cbn [polys]. rewrite Nat.ltb_irrefl. split; [exact LN|]. exists L1, R1. exact G1.
  - destruct (skipn n (ael s)) as [|e1 [|e2 rest]] eqn:K; try discriminate. destruct (skip_split _ _ _ _ _ K) as [SP LU].
    pose proof (intersect_effect j (polys s) e1 e2 p b) as F. destruct (intersect j (polys s) e1 e2 p b) as [[[o' f1] f2] h].
    injection E as <-. set (u := firstn n (ael s)) in *. rewrite SP in G. unfold created. fold u.
    destruct F as [(F1 & -> & F3 & F4) | [(F1 & -> & F3 & F4 & F5) | [(F1 & -> & F3 & F4 & F5 & F6) | (F1 & F2 & F3 & i & k & F4 & F5 & F6)]]].
    + rewrite F1, Nat.ltb_irrefl. cbn [handed handing]. split; [cbn; lia|]. cbn [ael]. exists L, R. 
      apply (good_ext _ _ _ _ _ _ _ _ _ G); try reflexivity. intros x. unfold at_place. rewrite !map_app. cbn [map]. rewrite F3, F4. reflexivity.
    + rewrite F1, Nat.ltb_irrefl. cbn [handed handing]. split; [cbn; lia|]. cbn [ael].
      destruct (swap u rest e1 e2 f1 f2 F3 F4 F5 _ _ _ _ _ G) as (L2 & R2 & G2). exists L2, R2. exact G2.
    + rewrite F1, (proj2 (Nat.ltb_lt _ _)) by lia. cbn [handed handing ael]. rewrite <- LN in F5, F6.
      destruct (open_good u rest e1 e2 f2 f1 rs L R F3 F4 F6 F5 G) as (L2 & R2 & G2).
      split; [rewrite app_length; cbn; lia|]. exists L2, R2. exact G2.
    + rewrite F1, Nat.ltb_irrefl. split; [rewrite handed_length; cbn; lia|]. cbn [ael]. rewrite handed_length.
      exact (cross_vacated u rest e1 e2 rs L R i k h G F4 F5 F6 f1 f2 lower F2 F3).
  - destruct (skipn n (ael s)) as [|e rest] eqn:K; [discriminate|]. destruct (skip_split _ _ _ _ _ K) as [SP _].
    destruct (drawn e) eqn:D; [|injection E as <-; split; [exact LN|exists L, R; exact G]].
    destruct (add_out_drawn (polys s) e p D) as (o' & Q & Q2). rewrite Q in E. injection E as <-. rewrite <- SP.
    split; [cbn; lia|]. exists L, R. exact G.
  - destruct (skipn n (ael s)) as [|e1 [|e2 rest]] eqn:K; try discriminate. destruct (skip_split _ _ _ _ _ K) as [SP LU].
    destruct (same_kind (poly e1) (poly e2) && (delta e1 + delta e2 =? 0)%Z); [|discriminate].
    set (u := firstn n (ael s)) in *. rewrite SP in G.
    destruct (out e1) as [i|] eqn:E1; destruct (out e2) as [k|] eqn:E2; try discriminate.
    + assert (W : exists o' f1 f2 h, (if b then local_max (polys s) e1 e2 p else local_max (polys s) e2 e1 p) = (o', f1, f2, h) /\
        length o' = length (polys s) /\ hands i k h).
      { destruct b.
        - destruct (local_max_effect (polys s) e1 e2 p i k E1 E2) as (o' & f1 & f2 & h & -> & A & _ & _ & B). do 4 eexists. eauto.
        - destruct (local_max_effect (polys s) e2 e1 p k i E2 E1) as (o' & f1 & f2 & h & -> & A & _ & _ & B). do 4 eexists.
          split; [reflexivity|]. split; [exact A|]. apply hands_sym, B. }
      destruct W as (o' & f1 & f2 & h & W & A & B). rewrite W in *. injection E as <-.
      split; [rewrite handed_length; cbn; lia|]. cbn [ael]. rewrite handed_length.
      exact (max_vacated u rest e1 e2 rs L R i k h G E1 E2 B lower).
    + injection E as <-. split; [exact LN|]. cbn [ael].
      apply (ungap (at_place (u ++ e1 :: e2 :: rest)) u rest) with (L := L) (R := R); [| | |exact G].
      * rewrite at_two, Nat.eqb_refl. exact E1.
      * rewrite at_two, Nat.eqb_refl. destruct (Nat.eqb_spec (S (length u)) (length u)); [lia|exact E2].
      * intros x D1 D2. rewrite at_two. destruct (Nat.eqb_spec x (length u)); [contradiction|]. destruct (Nat.eqb_spec x (S (length u))); [contradiction|reflexivity].
Qed.

Lemma start_tidy : tidy start [].
Proof.
  split; [reflexivity|]. exists (fun _ => 0), (fun _ => 0).
  assert (A : forall x, at_place (ael start) x = None) by (intros [|x]; reflexivity).
  assert (F : forall x, lefts [] x = None) by (intros [|x]; reflexivity).
  constructor; unfold live; intros; rewrite ?A, ?F in *; try discriminate. constructor.
Qed.
Lemma sweep_tidy : forall j evs s rs st rs', tidy s rs -> sweep_holes j s rs evs = Some (st, rs') -> tidy st rs'.
Proof.
  intros j evs. induction evs as [|[ev lower] evs IH]; intros s rs st rs' T E; cbn [sweep_holes] in E.
  - injection E as <- <-. exact T.
  - destruct (step j s ev) as [s1| |] eqn:Q; try discriminate. apply (IH _ _ _ _ (step_tidy j s ev s1 rs lower Q T) E).
Qed.
