(** Lemmas on the tree of outlines. *)

From Coq Require Import List ZArith Bool Arith Lia.
From Verif Require Import Sweep Hole HoleFacts HoleSteps SweepActs SweepRings Tree.
Import ListNotations.
Open Scope nat_scope.

(** ** During the sweep: holes and outlines given up always refer to another outline *)
Definition hung (s : state) (rs : list outrec) : Prop :=
  (forall x, holes rs x = true -> lefts rs x <> None) /\
  (forall x, x < length (polys s) -> nth x (polys s) None = None -> lefts rs x <> None).
Definition loses (o o' : outs) (h : option handover) : Prop :=
  forall x, x < length o' -> nth x o' None = None -> (x < length o /\ nth x o None = None) \/ exists g, h = Some g /\ obsolete g = x.
Lemma loses_refl : forall o, loses o o None.
Proof. intros o x A B. auto. Qed.
Lemma put_loses : forall o i r, loses o (put o i (Some r)) None.
Proof.
  intros o i r x A B. rewrite put_length in A. destruct (Nat.eq_dec x i) as [-> | D]; [rewrite put_same in B by exact A; discriminate|].
  rewrite put_other in B by exact D. auto.
Qed.
Lemma add_out_loses : forall o e p, loses o (fst (add_out o e p)) None.
Proof.
  intros o e p. unfold add_out. destruct (out e) as [i|]; cbn [fst].
  - destruct (nth i o None) as [r|]; cbn [fst]; [|apply loses_refl].
    destruct (hand e); [destruct (pt_eqb p (hd nowhere r))|destruct (pt_eqb p (last r nowhere))]; first [apply loses_refl|apply put_loses].
  - intros x A B. left. rewrite app_length in A. cbn in A. destruct (Nat.lt_ge_cases x (length o)) as [Q|Q].
    + rewrite app_nth1 in B by exact Q. auto.
    + assert (x = length o) as -> by lia. rewrite app_nth2, Nat.sub_diag in B by lia. discriminate.
Qed.
Lemma loses_trans : forall a b c h, loses a b None -> loses b c h -> loses a c h.
Proof.
  intros a b c h A B x X Y. destruct (B x X Y) as [[Q1 Q2] | Q]; [|auto]. destruct (A x Q1 Q2) as [Q|(g & Q & _)]; [auto|discriminate].
Qed.
Lemma append_loses : forall o e1 e2 i k, loses o (fst (append o e1 e2 i k)) (Some (snd (append o e1 e2 i k))).
Proof.
  intros o e1 e2 i k x A B. cbn [append fst snd] in *. rewrite !put_length in A. destruct (Nat.eq_dec x k) as [-> | D].
  - right. eexists. split; reflexivity.
  - rewrite put_other in B by exact D. destruct (put_loses o i (joined (hand e1) (hand e2) (points o i) (points o k)) x) as [Q|(g & Q & _)].
    + rewrite put_length. exact A.
    + exact B.
    + left. exact Q.
    + discriminate.
Qed.
Lemma local_max_loses : forall o e1 e2 p, let '(o', _, _, h) := local_max o e1 e2 p in loses o o' h.
Proof.
  intros o e1 e2 p. unfold local_max. pose proof (add_out_loses o e1 p) as A. destruct (add_out o e1 p) as [o1 f1]. cbn [fst] in A.
  destruct (out f1) as [i|]; [|exact A]. destruct (out e2) as [k|]; [|exact A]. destruct (Nat.eqb i k); [exact A|]. destruct (Nat.ltb i k).
  - pose proof (append_loses o1 f1 e2 i k) as B. destruct (append o1 f1 e2 i k) as [o2 h]. apply (loses_trans _ _ _ _ A B).
  - pose proof (append_loses o1 e2 f1 k i) as B. destruct (append o1 e2 f1 k i) as [o2 h]. apply (loses_trans _ _ _ _ A B).
Qed.
Lemma local_min_loses : forall o e1 e2 p b, let '(o', _, _) := local_min o e1 e2 p b in loses o o' None.
Proof.
  intros o e1 e2 p b. unfold local_min. destruct b.
  - pose proof (add_out_loses o e1 p) as A. destruct (add_out o e1 p) as [o1 f1]. exact A.
  - pose proof (add_out_loses o e2 p) as A. destruct (add_out o e2 p) as [o1 f1]. exact A.
Qed.
Lemma intersect_loses : forall j o e1 e2 p b, let '(o', _, _, h) := intersect j o e1 e2 p b in loses o o' h.
Proof.
  intros j o e1 e2 p b. rewrite intersect_act. destruct (cross_counts j e1 e2) as [g1 g2].
  destruct (decide j (drawn e1) (drawn e2) g1 g2); cbn [perform].
  - apply loses_refl.
  - apply loses_refl.
  - pose proof (local_min_loses o g1 g2 p b) as A. destruct (local_min o g1 g2 p b) as [[o' f1] f2]. exact A.
  - apply local_max_loses.
  - pose proof (add_out_loses o g1 p) as A. destruct (add_out o g1 p) as [o1 f1]. pose proof (add_out_loses o1 g2 p) as B.
    destruct (add_out o1 g2 p) as [o2 f2]. apply (loses_trans _ _ _ _ A B).
  - pose proof (add_out_loses o g1 p) as A. destruct (add_out o g1 p) as [o1 f1]. exact A.
  - pose proof (add_out_loses o g2 p) as A. destruct (add_out o g2 p) as [o1 f1]. exact A.
Qed.

Lemma append_hung : forall rs m o lower, m <> o -> m < length rs -> o < length rs ->
  (forall x, ends_at (lefts rs) (lefts rs x)) -> (forall x y, lefts rs x = Some y -> x < length rs /\ y < length rs) ->
  (forall x, holes rs x = true -> lefts rs x <> None) ->
  (forall x, holes (append_holes rs m o lower) x = true -> lefts (append_holes rs m o lower) x <> None) /\
  lefts (append_holes rs m o lower) o <> None /\ (forall x, x <> m -> x <> o -> lefts (append_holes rs m o lower) x = lefts rs x) /\
  (lefts rs m <> None -> lefts rs o <> None -> lefts (append_holes rs m o lower) m <> None).
Proof.
  intros rs m o lower D M O E B HU.
  assert (V : forall x, rec_at (append_holes rs m o lower) x = if Nat.eqb x o then OutRec (is_hole (rec_at rs o)) (Some m) else
     if Nat.eqb x m then (if takes_second rs m o lower then OutRec (is_hole (rec_at rs o)) (if option_eqb (lefts rs o) m then lefts rs m else lefts rs o) else rec_at rs m)
     else rec_at rs x).
  { intros x. unfold append_holes. rewrite set_rec_at by (rewrite set_rec_length; exact O). rewrite set_rec_at by exact M. reflexivity. }
  assert (T : takes_second rs m o lower = true -> option_eqb (lefts rs o) m = false).
  { intros A. destruct (lefts rs o) as [f|] eqn:F; [|reflexivity]. cbn [option_eqb]. destruct (Nat.eqb_spec f m) as [-> | _]; [|reflexivity]. exfalso.
    assert (R0 : forall a b, right_of (length rs) rs a b = true <-> reach (lefts rs) (lefts rs a) b).
    { intros a b. pose proof (right_iff rs E B 0 a b) as Q. rewrite Nat.add_0_r in Q. exact Q. }
    assert (RO : reach (lefts rs) (lefts rs o) m) by (rewrite F; apply reach_here).
    unfold takes_second in A. destruct (right_of (length rs) rs m o) eqn:Q.
    - apply R0 in Q. apply (acyclic (lefts rs) (Some m)) with (x := m); [constructor; apply E|reflexivity|]. eapply reach_trans; [exact Q|exact RO].
    - rewrite (proj2 (R0 o m) RO) in A. discriminate. }
  split; [|split; [|split]].
  - intros x. unfold holes, lefts. rewrite V. destruct (Nat.eqb x o); [discriminate|]. destruct (Nat.eqb_spec x m) as [-> | _]; [|apply HU].
    destruct (takes_second rs m o lower); [|apply HU]. rewrite (T eq_refl). cbn. apply HU.
  - unfold lefts. rewrite V, Nat.eqb_refl. discriminate.
  - intros x D1 D2. unfold lefts. rewrite V. destruct (Nat.eqb_spec x o); [contradiction|]. destruct (Nat.eqb_spec x m); [contradiction|reflexivity].
  - intros A1 A2. unfold lefts at 1. rewrite V. destruct (Nat.eqb_spec m o); [contradiction|]. rewrite Nat.eqb_refl.
    destruct (takes_second rs m o lower); [|exact A1]. rewrite (T eq_refl). exact A2.
Qed.
Definition keeps_ok (o o' : outs) (h : option handover) : Prop :=
  forall g, h = Some g -> ok g < length o -> ok g <> obsolete g -> nth (ok g) o' None <> None.
Lemma append_ok : forall o e1 e2 i k, keeps_ok o (fst (append o e1 e2 i k)) (Some (snd (append o e1 e2 i k))).
Proof.
  intros o e1 e2 i k g E A D. injection E as <-. cbn [append fst snd ok obsolete] in *. rewrite put_other by exact D. rewrite put_same by exact A. discriminate.
Qed.
Lemma add_out_longer : forall o e p, length o <= length (fst (add_out o e p)).
Proof.
  intros o e p. unfold add_out. destruct (out e) as [i|]; cbn [fst]; [|rewrite app_length; lia]. destruct (nth i o None) as [r|]; cbn [fst]; [|lia].
  destruct (hand e); [destruct (pt_eqb p (hd nowhere r))|destruct (pt_eqb p (last r nowhere))]; rewrite ?put_length; lia.
Qed.
Lemma local_max_ok : forall o e1 e2 p, let '(o', _, _, h) := local_max o e1 e2 p in keeps_ok o o' h.
Proof.
  intros o e1 e2 p. unfold local_max. pose proof (add_out_longer o e1 p) as A. destruct (add_out o e1 p) as [o1 f1]. cbn [fst] in A.
  destruct (out f1) as [i|]; [|intros g; discriminate]. destruct (out e2) as [k|]; [|intros g; discriminate].
  destruct (Nat.eqb i k); [intros g; discriminate|]. destruct (Nat.ltb i k).
  - pose proof (append_ok o1 f1 e2 i k) as B. destruct (append o1 f1 e2 i k) as [o2 h]. intros g E Q. apply (B g E). lia.
  - pose proof (append_ok o1 e2 f1 k i) as B. destruct (append o1 e2 f1 k i) as [o2 h]. intros g E Q. apply (B g E). lia.
Qed.
Lemma intersect_ok : forall j o e1 e2 p b, let '(o', _, _, h) := intersect j o e1 e2 p b in keeps_ok o o' h.
Proof.
  intros j o e1 e2 p b. rewrite intersect_act. destruct (cross_counts j e1 e2) as [g1 g2].
  destruct (decide j (drawn e1) (drawn e2) g1 g2); cbn [perform]; [intros g; discriminate|intros g; discriminate| | | | |].
  - destruct (local_min o g1 g2 p b) as [[o' f1] f2]. intros g; discriminate.
  - apply local_max_ok.
  - destruct (add_out o g1 p) as [o1 f1]. destruct (add_out o1 g2 p) as [o2 f2]. intros g; discriminate.
  - destruct (add_out o g1 p) as [o1 f1]. intros g; discriminate.
  - destruct (add_out o g2 p) as [o1 f1]. intros g; discriminate.
Qed.

Lemma created_hung : forall s n o o0 rs, length rs = length (polys s) -> hung s rs -> loses (polys s) o None ->
  length o = length (polys s) \/ length o = S (length (polys s)) ->
  hung (State o0 o) (created s n o rs) /\ length (created s n o rs) = length o.
Proof.
  intros s n o o0 rs LN [H1 H2] LO LE. unfold created. destruct (Nat.ltb_spec (length (polys s)) (length o)) as [A|A].
  - split; [|rewrite app_length; cbn; lia]. split.
    + intros x. unfold holes, lefts. rewrite rec_snoc. destruct (Nat.eqb x (length rs)); [|apply H1].
      unfold hole_state. destruct (hole_loop _ _); cbn; discriminate.
    + intros x X Y. cbn [polys] in *. destruct (LO x X Y) as [[Q1 Q2] | (g & Q & _)]; [|discriminate].
      unfold lefts. rewrite rec_snoc. destruct (Nat.eqb_spec x (length rs)); [lia|]. apply H2; assumption.
  - split; [|lia]. split; [exact H1|]. intros x X Y. cbn [polys] in *. destruct (LO x X Y) as [[Q1 Q2] | (g & Q & _)]; [|discriminate]. apply H2; assumption.
Qed.
Lemma handed_hung : forall s o o0 rs h i k lower, tidy s rs -> hung s rs -> loses (polys s) o h -> keeps_ok (polys s) o h -> length o = length (polys s) ->
  i < length rs -> k < length rs -> hands i k h -> hung (State o0 o) (handed h lower rs).
Proof.
  intros s o o0 rs h i k lower [LN (L & R & G)] [H1 H2] LO KO LE I K [[-> ->] | (D & g & -> & Ok & Ob)].
  - split; [exact H1|]. intros x X Y. cbn [polys] in *. destruct (LO x X Y) as [[Q1 Q2] | (g & Q & _)]; [|discriminate]. apply H2; assumption.
  - cbn [handed]. assert (DM : ok g <> obsolete g) by lia. assert (M : ok g < length rs) by lia. assert (O : obsolete g < length rs) by lia.
    destruct (append_hung rs (ok g) (obsolete g) lower DM M O (g_ends _ _ _ _ _ _ G) (g_bound _ _ _ _ _ _ G) H1) as (A1 & A2 & A3 & _).
    split; [exact A1|]. cbn [polys]. intros x X Y.
    destruct (Nat.eq_dec x (obsolete g)) as [-> | D1]; [exact A2|]. destruct (Nat.eq_dec x (ok g)) as [-> | D2].
    + exfalso. apply (KO g eq_refl); [lia|exact DM|exact Y].
    + rewrite A3 by assumption. destruct (LO x X Y) as [[Q1 Q2] | (g' & Q & Q')]; [apply H2; assumption|]. injection Q as <-. congruence.
Qed.
Lemma step_hung : forall j s ev s' rs lower, step j s ev = Done s' -> tidy s rs -> hung s rs -> hung s' (hole_step j s ev lower rs).
Proof.
  intros j s ev s' rs lower E T HU. pose proof T as [LN (L & R & G)]. destruct ev as [n k d p b|n p b|n p|n p b]; cbn [step hole_step] in *.
  - destruct (Nat.leb_spec n (length (ael s))) as [A|A]; [|discriminate]. cbn [andb] in E.
    destruct (((d =? 1) || (d =? -1))%Z); [|discriminate]. injection E as <-.
    unfold insert_min. destruct (set_winding j (firstn n (ael s)) k d) as [c c2].
    set (lb := Edge k d c c2 LeftSide None). set (rb := Edge k (- d)%Z c c2 RightSide None).
    destruct (contributing j lb).
    + pose proof (local_min_loses (polys s) lb rb p b) as LO.
      destruct (local_min_effect (polys s) lb rb p b eq_refl eq_refl) as (o' & f1 & f2 & W & Q1 & _). rewrite W in *. cbn [polys].
      apply created_hung; auto.
    + cbn [polys]. apply created_hung; auto. apply loses_refl.
  - destruct (skipn n (ael s)) as [|e1 [|e2 rest]] eqn:K; try discriminate. destruct (skip_split _ _ _ _ _ K) as [SP LU].
    pose proof (intersect_effect j (polys s) e1 e2 p b) as F. pose proof (intersect_loses j (polys s) e1 e2 p b) as LO.
    pose proof (intersect_ok j (polys s) e1 e2 p b) as KO. destruct (intersect j (polys s) e1 e2 p b) as [[[o' f1] f2] h].
    injection E as <-. set (u := firstn n (ael s)) in *.
    destruct F as [(F1 & -> & F3 & F4) | [(F1 & -> & F3 & F4 & F5) | [(F1 & -> & F3 & F4 & F5 & F6) | (F1 & F2 & F3 & i & k & F4 & F5 & F6)]]];
      try (cbn [handed]; apply created_hung; auto).
    unfold created. rewrite F1, Nat.ltb_irrefl. rewrite SP in G.
    apply (handed_hung s o' _ rs h i k lower T HU LO KO F1); [| |exact F6].
    + apply (g_at _ _ _ _ _ _ G (length u) i). rewrite at_two, Nat.eqb_refl. exact F4.
    + apply (g_at _ _ _ _ _ _ G (S (length u)) k). rewrite at_two, Nat.eqb_refl. destruct (Nat.eqb_spec (S (length u)) (length u)); [lia|exact F5].
  - destruct (skipn n (ael s)) as [|e rest] eqn:K; [discriminate|].
    destruct (drawn e) eqn:D; [|injection E as <-; exact HU].
    pose proof (add_out_loses (polys s) e p) as LO. destruct (add_out (polys s) e p) as [o' e']. cbn [fst] in LO. injection E as <-.
    destruct HU as [H1 H2]. split; [exact H1|]. intros x X Y. cbn [polys] in *. destruct (LO x X Y) as [[Q1 Q2] | (g & Q & _)]; [|discriminate]. apply H2; assumption.
  - destruct (skipn n (ael s)) as [|e1 [|e2 rest]] eqn:K; try discriminate. destruct (skip_split _ _ _ _ _ K) as [SP LU].
    destruct (same_kind (poly e1) (poly e2) && (delta e1 + delta e2 =? 0)%Z); [|discriminate].
    set (u := firstn n (ael s)) in *. rewrite SP in G.
    destruct (out e1) as [i|] eqn:E1; destruct (out e2) as [k|] eqn:E2; try discriminate.
    + assert (W : exists o' f1 f2 h, (if b then local_max (polys s) e1 e2 p else local_max (polys s) e2 e1 p) = (o', f1, f2, h) /\
        length o' = length (polys s) /\ hands i k h /\ loses (polys s) o' h /\ keeps_ok (polys s) o' h).
      { destruct b.
        - pose proof (local_max_loses (polys s) e1 e2 p) as LO. pose proof (local_max_ok (polys s) e1 e2 p) as KO.
          destruct (local_max_effect (polys s) e1 e2 p i k E1 E2) as (o' & f1 & f2 & h & W & A & _ & _ & B). rewrite W in *. do 4 eexists. split; [reflexivity|]. auto.
        - pose proof (local_max_loses (polys s) e2 e1 p) as LO. pose proof (local_max_ok (polys s) e2 e1 p) as KO.
          destruct (local_max_effect (polys s) e2 e1 p k i E2 E1) as (o' & f1 & f2 & h & W & A & _ & _ & B). rewrite W in *. do 4 eexists.
          split; [reflexivity|]. split; [exact A|]. split; [apply hands_sym, B|]. auto. }
      destruct W as (o' & f1 & f2 & h & W & A & B & LO & KO). rewrite W in *. injection E as <-.
      apply (handed_hung s o' _ rs h i k lower T HU LO KO A); [| |exact B].
      * apply (g_at _ _ _ _ _ _ G (length u) i). rewrite at_two, Nat.eqb_refl. exact E1.
      * apply (g_at _ _ _ _ _ _ G (S (length u)) k). rewrite at_two, Nat.eqb_refl. destruct (Nat.eqb_spec (S (length u)) (length u)); [lia|exact E2].
    + injection E as <-. exact HU.
Qed.
Lemma sweep_hung : forall j evs s rs st rs', tidy s rs -> hung s rs -> sweep_holes j s rs evs = Some (st, rs') -> tidy st rs' /\ hung st rs'.
Proof.
  intros j evs. induction evs as [|[ev lower] evs IH]; intros s rs st rs' T HU E; cbn [sweep_holes] in E.
  - injection E as <- <-. auto.
  - destruct (step j s ev) as [s1| |] eqn:Q; try discriminate.
    apply (IH _ _ _ _ (step_tidy j s ev s1 rs lower Q T) (step_hung j s ev s1 rs lower Q T HU) E).
Qed.
Lemma start_hung : hung start [].
Proof. split; [intros [|x]; discriminate|intros x A; inversion A]. Qed.

(** ** Pointers that lead along other pointers *)
Section Along.
Variables F0 F : nat -> option nat.
Variable N : nat.
Hypothesis E0 : forall x, ends_at F0 (F0 x).
Hypothesis Al : forall x q, F x = Some q -> reach F0 (F0 x) q.
Hypothesis Bo : forall x q, F x = Some q -> q < N.
Lemma along_reach : forall c q, reach F c q -> reach F0 c q.
Proof.
  intros c q A. induction A as [b|x b A IH]; [apply reach_here|]. apply reach_next. destruct (F x) as [f|] eqn:Q; [|inversion A].
  inversion IH as [z Z|z b' IH' Z]; subst; [apply Al, Q|]. eapply reach_trans; [apply Al, Q|exact IH'].
Qed.
Lemma along_from : forall x q, reach F (F x) q -> reach F0 (F0 x) q.
Proof.
  intros x q A. destruct (F x) as [f|] eqn:Q; [|inversion A]. apply along_reach in A.
  inversion A as [z Z|z b' A' Z]; subst; [apply Al, Q|]. eapply reach_trans; [apply Al, Q|exact A'].
Qed.
Lemma along_acyclic : forall x, ~ reach F (F x) x.
Proof. intros x A. apply along_from in A. revert A. apply (acyclic F0 (Some x)); [constructor; apply E0|reflexivity]. Qed.
Lemma along_ends : forall x, ends_at F (F x).
Proof.
  assert (K : forall c, ends_at F0 c -> forall y, reach F0 c y -> ends_at F (Some y)).
  { intros c A. induction A as [|x A IH]; intros y Y; [inversion Y|]. inversion Y as [z Z|z b' Y' Z]; subst; [|apply IH, Y'].
    constructor. destruct (F y) as [q|] eqn:Q; [|constructor]. apply IH, Al, Q. }
  intros x. destruct (F x) as [q|] eqn:Q; [|constructor]. apply (K (F0 x) (E0 x)), Al, Q.
Qed.
Lemma ends_reach : forall c, ends_at F c -> forall x, c = Some x -> exists t, reach F (Some x) t /\ F t = None.
Proof.
  intros c A. induction A as [|y A IH]; intros x E; [discriminate|]. injection E as <-. destruct (F y) as [q|] eqn:Q.
  - destruct (IH q eq_refl) as (t & T1 & T2). exists t. split; [|exact T2]. apply reach_next. rewrite Q. exact T1.
  - exists y. split; [apply reach_here|exact Q].
Qed.
Lemma too_long : forall x vis, NoDup (x :: vis) -> (forall v, In v (x :: vis) -> v < N) -> N <= length vis -> False.
Proof.
  intros x vis ND LT LN. assert (Q : length (x :: vis) <= length (seq 0 N)).
  { apply NoDup_incl_length; [exact ND|]. intros v Hv. apply in_seq. specialize (LT v Hv). lia. }
  rewrite seq_length in Q. cbn in Q. lia.
Qed.
(** One more pointer followed. *)
Lemma longer : forall x y vis, NoDup (x :: vis) -> (forall v, In v (x :: vis) -> v < N) -> (forall v, In v vis -> reach F (F v) x) -> F x = Some y ->
  NoDup (y :: x :: vis) /\ (forall v, In v (y :: x :: vis) -> v < N) /\ (forall v, In v (x :: vis) -> reach F (F v) y).
Proof.
  intros x y vis ND LT V Q. assert (VC : forall v, In v (x :: vis) -> reach F (F v) y).
  { intros v [<- | Hv]; [rewrite Q; apply reach_here|]. eapply reach_trans; [apply V, Hv|]. rewrite Q. apply reach_here. }
  split; [|split; [|exact VC]].
  - constructor; [|exact ND]. intros K. apply (along_acyclic y), VC, K.
  - intros v [<- | Hv]; [apply (Bo x y Q)|apply LT, Hv].
Qed.
End Along.

Section Linkage.
Variables (rings : list (list pt)) (rs : list outrec).
Notation N := (length rs).
Notation F0 := (lefts rs).
Hypothesis E0 : forall x, ends_at F0 (F0 x).
Hypothesis B0 : forall x y, F0 x = Some y -> x < N /\ y < N.
Hypothesis Size : forall x, ring rings x = [] \/ 3 <= length (ring rings x).
Notation node := (is_node rings).
Notation pts := (has_pts rings).
Lemma node_pts : forall x, node x = pts x.
Proof.
  intros x. unfold is_node, has_pts. destruct (Size x) as [-> | A]; [reflexivity|]. destruct (ring rings x); [cbn in A; lia|].
  apply Nat.leb_le. exact A.
Qed.
Definition linking (t : list outrec) : Prop :=
  length t = N /\ (forall x, holes t x = holes rs x) /\ (forall x q, lefts t x = Some q -> reach F0 (F0 x) q).
Lemma reach_bound : forall c q, reach F0 c q -> (forall x, c = Some x -> x < N) -> q < N.
Proof.
  intros c q A. induction A as [b|x b A IH]; intros B; [apply B; reflexivity|]. apply IH. intros y Y. apply (B0 x y Y).
Qed.
Lemma linking_bound : forall t, linking t -> forall x q, lefts t x = Some q -> q < N.
Proof. intros t (_ & _ & A) x q Q. apply (reach_bound (F0 x) q (A x q Q)). intros y Y. apply (B0 x y Y). Qed.
Definition fit (t : list outrec) (hole : bool) (q : nat) : Prop := holes t q <> hole /\ pts q = true.
Lemma climb_spec : forall t hole, linking t -> forall n c vis,
  (forall x, c = Some x -> NoDup (x :: vis) /\ (forall v, In v (x :: vis) -> v < N) /\ (forall v, In v vis -> reach (lefts t) (lefts t v) x)) ->
  N <= n + length vis ->
  match climb rings n t hole c with
  | Some q => reach (lefts t) c q /\ fit t hole q
  | None => forall q, reach (lefts t) c q -> ~ fit t hole q
  end.
Proof.
  intros t hole LK. pose proof LK as (LT & HT & AL). induction n as [|n IH]; intros c vis V LN.
  - destruct c as [x|]; [|cbn; intros q Q; inversion Q]. destruct (V x eq_refl) as (V1 & V2 & _). exfalso. apply (too_long N x vis V1 V2). cbn in LN. lia.
  - destruct c as [x|]; [|cbn; intros q Q; inversion Q]. destruct (V x eq_refl) as (V1 & V2 & V3). cbn [climb].
    change (is_hole (rec_at t x)) with (holes t x). change (first_left (rec_at t x)) with (lefts t x).
    destruct (eqb (holes t x) hole || negb (pts x)) eqn:Q.
    + assert (NF : ~ fit t hole x).
      { intros [A B]. rewrite B in Q. cbn [negb] in Q. rewrite orb_false_r in Q. apply eqb_prop in Q. contradiction. }
      specialize (IH (lefts t x) (x :: vis)). destruct (climb rings n t hole (lefts t x)) as [q|].
      * destruct IH as [A B].
        -- intros y Y. apply (longer F0 (lefts t) N E0 AL (linking_bound t LK) x y vis V1 V2 V3 Y).
        -- cbn. lia.
        -- split; [apply reach_next, A|exact B].
      * intros q A. inversion A as [z Z|z b' A' Z]; subst; [exact NF|]. apply IH; [|cbn; lia|exact A'].
        intros y Y. apply (longer F0 (lefts t) N E0 AL (linking_bound t LK) x y vis V1 V2 V3 Y).
    + apply orb_false_iff in Q. destruct Q as [Q1 Q2]. split; [apply reach_here|]. split.
      * intros A. rewrite A, eqb_reflx in Q1. discriminate.
      * destruct (pts x); [reflexivity|discriminate].
Qed.
Lemma fix_spec : forall t i, linking t -> i < N ->
  let t' := fix_linkage rings t i in
  linking t' /\ (forall x, x <> i -> lefts t' x = lefts t x) /\
  (forall q, lefts t' i = Some q -> fit t (holes t i) q) /\
  (lefts t' i = None -> forall q, reach (lefts t) (lefts t i) q -> ~ fit t (holes t i) q).
Proof.
  intros t i LK Hi t'. pose proof LK as (LT & HT & AL). unfold t', fix_linkage. change (first_left (rec_at t i)) with (lefts t i).
  destruct (lefts t i) as [f|] eqn:F.
  - change (is_hole (rec_at t i)) with (holes t i). change (is_hole (rec_at t f)) with (holes t f).
    destruct (negb (eqb (holes t i) (holes t f)) && pts f) eqn:Q.
    + split; [exact LK|]. split; [reflexivity|]. split; [|congruence]. rewrite F. intros q E. injection E as <-.
      apply andb_true_iff in Q. destruct Q as [Q1 Q2]. split; [|exact Q2]. intros A. rewrite A, eqb_reflx in Q1. discriminate.
    + rewrite LT. pose proof (climb_spec t (holes t i) LK N (Some f) []) as C.
      assert (C0 : forall x, Some f = Some x -> NoDup [x] /\ (forall v, In v [x] -> v < N) /\ (forall v, In v [] -> reach (lefts t) (lefts t v) x)).
      { intros x E. injection E as <-. split; [repeat constructor; intros []|]. split; [|intros v []]. intros v [<- | []]. apply (linking_bound t LK i f F). }
      specialize (C C0 (Nat.le_add_r _ _)). set (c := climb rings N t (holes t i) (Some f)) in *.
      assert (RA : forall x, rec_at (set_rec t i (OutRec (holes t i) c)) x = if Nat.eqb x i then OutRec (holes t i) c else rec_at t x) by (intros x; apply set_rec_at; lia).
      assert (LI : lefts (set_rec t i (OutRec (holes t i) c)) i = c) by (unfold lefts; rewrite RA, Nat.eqb_refl; reflexivity).
      assert (LO : forall x, x <> i -> lefts (set_rec t i (OutRec (holes t i) c)) x = lefts t x).
      { intros x D. unfold lefts. rewrite RA. destruct (Nat.eqb_spec x i); [contradiction|reflexivity]. }
      split; [|split; [exact LO|split]].
      * split; [rewrite set_rec_length; exact LT|]. split.
        -- intros x. unfold holes at 1. rewrite RA. destruct (Nat.eqb_spec x i) as [-> | _]; [cbn; apply HT|apply HT].
        -- intros x q. destruct (Nat.eq_dec x i) as [-> | D]; [|rewrite LO by exact D; apply AL]. rewrite LI. intros E. rewrite E in C. destruct C as [C _].
           apply (along_from F0 (lefts t) AL). rewrite F. exact C.
      * rewrite LI. intros q E. rewrite E in C. apply C.
      * rewrite LI. intros E. rewrite E in C. exact C.
  - split; [exact LK|]. split; [reflexivity|]. split; [congruence|]. intros _ q A. inversion A.
Qed.
Definition set_right (t : list outrec) (i : nat) : Prop := forall q, lefts t i = Some q -> holes rs q <> holes rs i /\ pts q = true.
Lemma linked_spec : linking (linked rings rs) /\ forall i, i < N -> node i = true -> set_right (linked rings rs) i.
Proof.
  unfold linked.
  assert (K : forall n m t, m + n = N -> linking t -> (forall i, i < m -> node i = true -> set_right t i) ->
     let t' := fold_left (fun rs i => if node i then fix_linkage rings rs i else rs) (seq m n) t in
     linking t' /\ forall i, i < N -> node i = true -> set_right t' i).
  { induction n as [|n IH]; intros m t E LK SR; cbn [seq fold_left].
    - split; [exact LK|]. intros i Hi. apply SR. lia.
    - apply IH; [lia| |].
      + destruct (node m); [|exact LK]. apply (fix_spec t m LK). lia.
      + intros i Hi NI. destruct (node m) eqn:NM.
        * destruct (fix_spec t m LK) as (_ & A & B & _); [lia|]. intros q. destruct (Nat.eq_dec i m) as [-> | D].
          -- intros Q. destruct (B q Q) as [B1 B2]. destruct LK as (_ & HT & _). rewrite !HT in B1. auto.
          -- rewrite A by exact D. apply SR; [lia|exact NI].
        * apply SR; [|exact NI]. assert (i <> m) by (intros ->; congruence). lia. }
  apply (K N 0 rs); [lia| |intros i Hi; lia]. split; [reflexivity|]. split; [reflexivity|]. intros x q Q. rewrite Q. apply reach_here.
Qed.
(** When no outer outline has lost its points, every hole keeps something to refer to. *)
Lemma linked_holes : (forall x, holes rs x = true -> F0 x <> None) ->
  (forall x, x < N -> pts x = false -> F0 x = None -> holes rs x = true) ->
  forall x, holes rs x = true -> lefts (linked rings rs) x <> None.
Proof.
  intros H1 H2. unfold linked.
  assert (K : forall l t, (forall i, In i l -> i < N) -> linking t -> (forall x, holes rs x = true -> lefts t x <> None) ->
     (forall x, x < N -> pts x = false -> lefts t x = None -> holes rs x = true) ->
     forall x, holes rs x = true -> lefts (fold_left (fun rs i => if node i then fix_linkage rings rs i else rs) l t) x <> None).
  { induction l as [|i l IH]; intros t HI LK A B; [exact A|]. cbn [fold_left]. destruct (node i) eqn:NI.
    - destruct (fix_spec t i LK) as (LK' & C1 & _ & C2); [apply HI; left; reflexivity|].
      apply IH; [intros k Hk; apply HI; right; exact Hk|exact LK'| |].
      + intros x X. destruct (Nat.eq_dec x i) as [-> | D]; [|rewrite C1 by exact D; apply A, X]. intros Q. specialize (C2 Q).
        pose proof LK as (_ & HT & AL). pose proof (A i X) as AI. destruct (lefts t i) as [f|] eqn:F; [|contradiction].
        destruct (ends_reach (lefts t) (Some f)) with (x := f) as (e & T1 & T2); [rewrite <- F; apply (along_ends F0 (lefts t) E0 AL)|reflexivity|].
        assert (TN : e < N).
        { apply (reach_bound (F0 i)); [|intros y Y; apply (B0 i y Y)]. apply (along_from F0 (lefts t) AL). rewrite F. exact T1. }
        assert (TH : holes rs e = false) by (destruct (holes rs e) eqn:Z; [contradiction (A e Z T2)|reflexivity]).
        apply (C2 e T1). split; [rewrite !HT, X, TH; discriminate|]. destruct (pts e) eqn:Z; [reflexivity|]. specialize (B e TN Z T2). congruence.
      + intros x X P Q. destruct (Nat.eq_dec x i) as [-> | D]; [rewrite node_pts in NI; congruence|]. rewrite C1 in Q by exact D. apply B; assumption.
    - apply IH; auto. intros k Hk. apply HI. right. exact Hk. }
  apply K; auto.
  - intros i Hi. apply in_seq in Hi. lia.
  - split; [reflexivity|]. split; [reflexivity|]. intros x q Q. rewrite Q. apply reach_here.
Qed.

(** Nothing that fits is passed over. *)
Definition reaches (t : list outrec) : Prop := (forall x, pts x = false -> lefts t x = F0 x) /\
  forall x q, reach F0 (F0 x) q -> fit rs (holes rs x) q -> exists p, lefts t x = Some p /\ reach F0 (Some p) q.
Lemma climb_reaches : forall t hole, linking t -> reaches t -> forall n c vis q,
  (forall x, c = Some x -> NoDup (x :: vis) /\ (forall v, In v (x :: vis) -> v < N) /\ (forall v, In v vis -> reach (lefts t) (lefts t v) x)) ->
  N <= n + length vis -> reach F0 c q -> fit rs hole q -> exists p, climb rings n t hole c = Some p /\ reach F0 (Some p) q.
Proof.
  intros t hole LK [R1 R2]. pose proof LK as (LT & HT & AL). induction n as [|n IH]; intros c vis q V LN RQ FQ; destruct c as [x|]; try (inversion RQ; fail).
  - destruct (V x eq_refl) as (V1 & V2 & _). exfalso. apply (too_long N x vis V1 V2). cbn in LN. lia.
  - destruct (V x eq_refl) as (V1 & V2 & V3). cbn [climb].
    change (is_hole (rec_at t x)) with (holes t x). change (first_left (rec_at t x)) with (lefts t x). rewrite HT.
    destruct (eqb (holes rs x) hole || negb (pts x)) eqn:Q; [|exists x; auto].
    assert (RX : reach F0 (F0 x) q).
    { inversion RQ as [z Z|z b' A' Z]; subst; [|exact A']. destruct FQ as [A B]. rewrite B in Q. cbn [negb] in Q. rewrite orb_false_r in Q. apply eqb_prop in Q. contradiction. }
    assert (RT : exists p, lefts t x = Some p /\ reach F0 (Some p) q).
    { destruct (pts x) eqn:P; cbn [negb] in Q.
      - rewrite orb_false_r in Q. apply eqb_prop in Q. apply R2; [exact RX|]. rewrite Q. exact FQ.
      - rewrite (R1 x P). destruct (F0 x) as [f|]; [|inversion RX]. exists f. auto. }
    destruct RT as (p & P1 & P2). rewrite P1. apply (IH (Some p) (x :: vis)); [|cbn; lia|exact P2|exact FQ].
    intros y Y. injection Y as <-. apply (longer F0 (lefts t) N E0 AL (linking_bound t LK) x p vis V1 V2 V3 P1).
Qed.
Lemma fix_reaches : forall t i, linking t -> reaches t -> i < N -> node i = true -> reaches (fix_linkage rings t i).
Proof.
  intros t i LK RT Hi NI. destruct (fix_spec t i LK Hi) as (LK' & O & _ & _). pose proof LK as (LT & HT & AL). split.
  - intros x X. rewrite O; [apply RT, X|]. intros ->. rewrite node_pts in NI. congruence.
  - intros x q RQ FQ. destruct (Nat.eq_dec x i) as [-> | D]; [|rewrite O by exact D; apply RT; assumption].
    destruct (proj2 RT i q RQ FQ) as (f & F & RF). unfold fix_linkage. change (first_left (rec_at t i)) with (lefts t i). rewrite F.
    change (is_hole (rec_at t i)) with (holes t i). change (is_hole (rec_at t f)) with (holes t f).
    destruct (negb (eqb (holes t i) (holes t f)) && pts f); [exists f; auto|].
    unfold lefts at 1. rewrite set_rec_at by lia. rewrite Nat.eqb_refl. cbn [first_left]. rewrite LT.
    apply (climb_reaches t (holes t i) LK RT N (Some f) []); [|apply Nat.le_add_r|exact RF|rewrite HT; exact FQ].
    intros x E. injection E as <-. split; [repeat constructor; intros []|]. split; [|intros v []]. intros v [<- | []]. apply (linking_bound t LK i f F).
Qed.
Lemma linked_reaches : reaches (linked rings rs).
Proof.
  unfold linked. assert (K : forall l t, (forall i, In i l -> i < N) -> linking t -> reaches t ->
     reaches (fold_left (fun rs i => if node i then fix_linkage rings rs i else rs) l t)).
  { induction l as [|i l IH]; intros t HI LK RT; [exact RT|]. cbn [fold_left]. assert (Hi : i < N) by (apply HI; left; reflexivity).
    destruct (node i) eqn:NI; apply IH; auto; try (intros k Hk; apply HI; right; exact Hk).
    - apply (fix_spec t i LK Hi).
    - apply fix_reaches; assumption. }
  apply K.
  - intros i Hi. apply in_seq in Hi. lia.
  - split; [reflexivity|]. split; [reflexivity|]. intros x q Q. rewrite Q. apply reach_here.
  - split; [reflexivity|]. intros x q RQ _. destruct (F0 x) as [f|]; [|inversion RQ]. exists f. auto.
Qed.

(** ** Parents *)
Notation PP := (parent rings rs).
Lemma parent_linked : forall x q, PP x = Some q -> lefts (linked rings rs) x = Some q /\ node q = true.
Proof.
  intros x q. unfold parent. change (first_left (rec_at (linked rings rs) x)) with (lefts (linked rings rs) x).
  destruct (lefts (linked rings rs) x) as [f|]; [|discriminate]. destruct (node f) eqn:A; [|discriminate]. intros E. injection E as <-. auto.
Qed.
Lemma parent_along : forall x q, PP x = Some q -> reach F0 (F0 x) q.
Proof. intros x q A. apply (proj2 (proj2 (proj1 linked_spec))), parent_linked, A. Qed.
Lemma parent_bound : forall x q, PP x = Some q -> q < N.
Proof. intros x q A. apply (linking_bound _ (proj1 linked_spec) x), parent_linked, A. Qed.
Lemma parent_opposite : forall i q, i < N -> node i = true -> PP i = Some q -> holes rs q <> holes rs i.
Proof. intros i q A B C. apply (proj2 linked_spec i A B), parent_linked, C. Qed.
Lemma parent_none : forall i, i < N -> node i = true -> PP i = None -> lefts (linked rings rs) i = None.
Proof.
  intros i A B. unfold parent. change (first_left (rec_at (linked rings rs) i)) with (lefts (linked rings rs) i).
  destruct (lefts (linked rings rs) i) as [f|] eqn:Q; [|reflexivity].
  destruct (proj2 linked_spec i A B f Q) as [_ C]. rewrite node_pts, C. discriminate.
Qed.
Lemma parent_nearest : forall i q, i < N -> node i = true -> reach F0 (F0 i) q -> holes rs q <> holes rs i -> node q = true ->
  exists p, PP i = Some p /\ reach F0 (Some p) q.
Proof.
  intros i q A B C D E. rewrite node_pts in E. destruct (proj2 linked_reaches i q C (conj D E)) as (p & P1 & P2). exists p. split; [|exact P2].
  destruct (PP i) as [p'|] eqn:Q; [|rewrite (parent_none i A B Q) in P1; discriminate]. apply parent_linked in Q. destruct Q as [Q _]. congruence.
Qed.
Lemma node_hole_mark : (forall i, i < N -> node i = true -> holes rs i = true -> PP i <> None) ->
  forall n i vis b, node i = true -> NoDup (i :: vis) -> (forall v, In v (i :: vis) -> v < N) -> (forall v, In v vis -> reach PP (PP v) i) -> N <= n + length vis ->
  node_hole rings n rs i b = xorb (negb b) (holes rs i).
Proof.
  intros TOP. induction n as [|n IH]; intros i vis b NI ND LT V LN; cbn [node_hole]; destruct (PP i) as [p|] eqn:Q.
  - exfalso. apply (too_long N i vis ND LT). cbn in LN. lia.
  - assert (HI : holes rs i = false) by (destruct (holes rs i) eqn:Z; [contradiction (TOP i (LT i (or_introl eq_refl)) NI Z)|reflexivity]).
    rewrite HI. destruct b; reflexivity.
  - destruct (longer F0 PP N E0 parent_along parent_bound i p vis ND LT V Q) as (A1 & A2 & A3).
    rewrite (IH p (i :: vis)); [|apply (parent_linked i p Q)|exact A1|exact A2|exact A3|cbn; lia].
    pose proof (parent_opposite i p (LT i (or_introl eq_refl)) NI Q) as O. destruct (holes rs p), (holes rs i), b; try reflexivity; contradiction.
  - assert (HI : holes rs i = false) by (destruct (holes rs i) eqn:Z; [contradiction (TOP i (LT i (or_introl eq_refl)) NI Z)|reflexivity]).
    rewrite HI. destruct b; reflexivity.
Qed.

(** ** All nodes, once each *)
Fixpoint anc (k y : nat) : option nat := match k with O => Some y | S k => match anc k y with Some z => PP z | None => None end end.
Lemma anc_add : forall b a y, anc (a + b) y = match anc a y with Some z => anc b z | None => None end.
Proof.
  induction b as [|b IH]; intros a y; [rewrite Nat.add_0_r; cbn; destruct (anc a y); reflexivity|].
  rewrite Nat.add_succ_r. cbn [anc]. rewrite IH. destruct (anc a y); reflexivity.
Qed.
Lemma anc_reach : forall k y z, anc (S k) y = Some z -> reach F0 (F0 y) z.
Proof.
  induction k as [|k IH]; intros y z A; cbn [anc] in *; [apply parent_along, A|]. 
  destruct (match anc k y with Some z0 => PP z0 | None => None end) as [w|] eqn:Q; [|discriminate].
  eapply reach_trans; [apply (IH y w Q)|apply parent_along, A].
Qed.
Lemma anc_cycle : forall k y, anc (S k) y <> Some y.
Proof. intros k y A. apply anc_reach in A. revert A. apply (acyclic F0 (Some y)); [constructor; apply E0|reflexivity]. Qed.
Lemma anc_node : forall k y z, y < N -> node y = true -> anc k y = Some z -> z < N /\ node z = true.
Proof.
  intros [|k] y z A B C; cbn [anc] in C; [injection C as <-; auto|]. destruct (anc k y) as [w|]; [|discriminate].
  split; [apply (parent_bound w z C)|apply (parent_linked w z C)].
Qed.
Lemma in_childs : forall c p, In c (childs rings rs p) <-> c < N /\ node c = true /\ PP c = p.
Proof.
  intros c p. unfold childs. rewrite filter_In, in_seq, andb_true_iff. destruct (PP c) as [a|], p as [b|]; rewrite ?Nat.eqb_eq; split; intros; repeat split; try lia; intuition (try congruence).
Qed.
Lemma in_nodes : forall f x y, x < N -> node x = true -> (In y (nodes rings f rs x) <-> y < N /\ node y = true /\ exists k, k < f /\ anc k y = Some x).
Proof.
  induction f as [|f IH]; intros x y X NX; cbn [nodes]; [split; [intros []|intros (_ & _ & k & A & _); lia]|]. cbn [In]. rewrite in_flat_map. split.
  - intros [<- | (c & C & D)]; [split; [exact X|split; [exact NX|]]; exists 0; split; [lia|reflexivity]|].
    apply in_childs in C. destruct C as (C1 & C2 & C3). apply (IH c y C1 C2) in D. destruct D as (D1 & D2 & k & D3 & D4). split; [exact D1|split; [exact D2|]].
    exists (S k). split; [lia|]. cbn [anc]. rewrite D4. exact C3.
  - intros (Y & NY & k & A & B). destruct k as [|k]; [left; injection B as <-; reflexivity|right]. cbn [anc] in B.
    destruct (anc k y) as [c|] eqn:Q; [|discriminate]. destruct (anc_node k y c Y NY Q) as [C1 C2]. exists c. split; [apply in_childs; auto|].
    apply (IH c y C1 C2). split; [exact Y|split; [exact NY|]]. exists k. split; [lia|exact Q].
Qed.
Lemma flat_map_nodup : forall A B (f : A -> list B) l, NoDup l -> (forall x, In x l -> NoDup (f x)) ->
  (forall x x' y, In x l -> In x' l -> In y (f x) -> In y (f x') -> x = x') -> NoDup (flat_map f l).
Proof.
  intros A B f l ND. induction ND as [|x l NI ND IH]; intros H1 H2; [constructor|]. cbn [flat_map].
  assert (G : forall l1 l2 : list B, NoDup l1 -> NoDup l2 -> (forall y, In y l1 -> ~ In y l2) -> NoDup (l1 ++ l2)).
  { clear. induction l1 as [|a l1 IH]; intros l2 A1 A2 A3; [exact A2|]. inversion A1 as [|a' l' B1 B2]; subst. cbn. constructor.
    - rewrite in_app_iff. intros [C|C]; [contradiction|]. apply (A3 a); [left; reflexivity|exact C].
    - apply IH; auto. intros y Y. apply A3. right. exact Y. }
  apply G.
  - apply H1. left. reflexivity.
  - apply IH; [intros z Z; apply H1; right; exact Z|]. intros z z' y Z Z'. apply H2; right; assumption.
  - intros y Y K. apply in_flat_map in K. destruct K as (z & Z & K). assert (x = z) by (apply (H2 x z y); auto; [left; reflexivity|right; exact Z]). subst. contradiction.
Qed.
(** Two children of the same node, or two nodes of the first level, above the same node. *)
Lemma one_way : forall y c c' a b, anc a y = Some c -> anc b y = Some c' -> PP c = PP c' -> c = c'.
Proof.
  assert (K : forall y c c' a b, a < b -> anc a y = Some c -> anc b y = Some c' -> PP c = PP c' -> False).
  { intros y c c' a b Q A B E. replace b with (S a + (b - S a)) in B by lia. rewrite anc_add in B. cbn [anc] in B. rewrite A in B.
    destruct (PP c) as [x|] eqn:X; [|discriminate]. apply (anc_cycle (b - S a) x). cbn [anc]. rewrite B. symmetry. exact E. }
  intros y c c' a b A B E. destruct (Nat.lt_trichotomy a b) as [Q|[-> | Q]].
  - destruct (K y c c' a b Q A B E).
  - congruence.
  - destruct (K y c' c b a Q B A (eq_sym E)).
Qed.
Lemma childs_nodup : forall p, NoDup (childs rings rs p).
Proof. intros p. apply NoDup_filter, seq_NoDup. Qed.
Lemma below_nodup : forall f p, (forall x, x < N -> node x = true -> NoDup (nodes rings f rs x)) -> NoDup (flat_map (nodes rings f rs) (childs rings rs p)).
Proof.
  intros f p A. apply flat_map_nodup; [apply childs_nodup| |].
  - intros x X. apply in_childs in X. apply A; apply X.
  - intros x x' y X X' Y Y'. apply in_childs in X. apply in_childs in X'. destruct X as (X1 & X2 & X3). destruct X' as (X1' & X2' & X3').
    apply (in_nodes f x y X1 X2) in Y. apply (in_nodes f x' y X1' X2') in Y'. destruct Y as (_ & _ & k & _ & K). destruct Y' as (_ & _ & k' & _ & K').
    apply (one_way y x x' k k' K K'). congruence.
Qed.
Lemma nodes_nodup : forall f x, x < N -> node x = true -> NoDup (nodes rings f rs x).
Proof.
  induction f as [|f IH]; intros x X NX; cbn [nodes]; constructor; [|apply below_nodup, IH].
  intros K. apply in_flat_map in K. destruct K as (c & C & K). apply in_childs in C. destruct C as (C1 & C2 & C3).
  apply (in_nodes f c x C1 C2) in K. destruct K as (_ & _ & k & _ & K). apply (anc_cycle k x). cbn [anc]. rewrite K. exact C3.
Qed.
Lemma anc_top : forall y, y < N -> node y = true -> exists k r, k < N /\ anc k y = Some r /\ PP r = None.
Proof.
  intros y Y NY. assert (E : exists k r, anc k y = Some r /\ PP r = None).
  { pose proof (along_ends F0 PP E0 parent_along y) as E.
    assert (K : forall c, ends_at PP c -> forall z, c = Some z -> exists k r, anc k z = Some r /\ PP r = None).
    { intros c A. induction A as [|x A IH]; intros z Z; [discriminate|]. injection Z as <-. destruct (PP x) as [w|] eqn:W.
      - destruct (IH w eq_refl) as (k & r & B & C). exists (S k), r. split; [|exact C]. change (S k) with (1 + k). rewrite anc_add. cbn [anc]. rewrite W. exact B.
      - exists 0, x. split; [reflexivity|exact W]. }
    apply (K (Some y)); [constructor; exact E|reflexivity]. }
  destruct E as (k & r & A & B). exists k, r. split; [|auto].
  (* the nodes on the way are different *)
  set (f := fun i => match anc i y with Some z => z | None => 0 end).
  assert (DEF : forall i, i <= k -> anc i y = Some (f i) /\ f i < N).
  { intros i Hi. unfold f. destruct (anc i y) as [z|] eqn:Z.
    - split; [reflexivity|]. apply (anc_node i y z Y NY Z).
    - replace k with (i + (k - i)) in A by lia. rewrite anc_add, Z in A. discriminate. }
  assert (INJ : forall a b, a < b -> b <= k -> f a <> f b).
  { intros a b Q1 Q2 Q. destruct (DEF a) as [A1 _]; [lia|]. destruct (DEF b) as [B1 _]; [lia|]. replace b with (a + S (b - S a)) in B1 by lia.
    rewrite anc_add, A1 in B1. replace (a + S (b - S a)) with b in B1 by lia. rewrite <- Q in B1. apply (anc_cycle _ _ B1). }
  assert (ND : NoDup (map f (seq 0 (S k)))).
  { apply NoDup_nth with (d := f 0). intros a b Q1 Q2. rewrite map_length, seq_length in Q1, Q2. rewrite !map_nth, !seq_nth by assumption. cbn [plus].
    intros Q. destruct (Nat.lt_trichotomy a b) as [W|[W|W]]; [|exact W|]; [contradiction (INJ a b W ltac:(lia) Q)|contradiction (INJ b a W ltac:(lia) (eq_sym Q))]. }
  assert (Q : length (map f (seq 0 (S k))) <= length (seq 0 N)).
  { apply NoDup_incl_length; [exact ND|]. intros v V. apply in_map_iff in V. destruct V as (i & <- & V). apply in_seq in V. apply in_seq. destruct (DEF i); lia. }
  rewrite map_length, !seq_length in Q. lia.
Qed.
Lemma all_nodes_spec : NoDup (all_nodes rings rs) /\ forall i, In i (all_nodes rings rs) <-> i < N /\ node i = true.
Proof.
  split; [apply below_nodup; intros x; apply nodes_nodup|]. intros i. unfold all_nodes. rewrite in_flat_map. split.
  - intros (c & C & D). apply in_childs in C. destruct C as (C1 & C2 & C3). apply (in_nodes _ c i C1 C2) in D. tauto.
  - intros (A & B). destruct (anc_top i A B) as (k & r & K & R1 & R2). destruct (anc_node k i r A B R1) as [Q1 Q2]. exists r.
    split; [apply in_childs; auto|]. apply (in_nodes _ r i Q1 Q2). split; [exact A|split; [exact B|]]. exists k. auto.
Qed.
End Linkage.
