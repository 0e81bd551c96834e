(** C88: the sweep line of the boolean operations keeps the true winding numbers, draws the edges
    that border the result and no others, and its polygons are made of the pieces of the border. *)

From Coq Require Import List ZArith Bool Lia.
From Verif Require Import Sweep SpecSweep SweepCounts SweepActs SweepRings SweepSim.
Import ListNotations.
Open Scope Z_scope.

Lemma strand_mk : forall l, map strand_of l = map mk (map (fun e => (e, nowhere)) l).
Proof. intros l. rewrite map_map. reflexivity. Qed.
Lemma fst_nowhere : forall l : list edge, map fst (map (fun e => (e, nowhere)) l) = l.
Proof. intros l. rewrite map_map. cbn. apply map_id. Qed.

Lemma reached_sounds : forall j evs st, sweep j start evs = Done st -> sounds j 0 0 (ael st).
Proof.
  intros j evs st H. destruct (sweep_follows j evs start _ st (start_follows j) H) as (l & _ & _ & HS & _). exact HS.
Qed.
Lemma sound_at : forall j l n e, sounds j 0 0 l -> nth_error l n = Some e ->
  sound j (end_s 0 (firstn n l)) (end_c 0 (firstn n l)) e.
Proof.
  intros j l n e H HN. apply nth_error_split in HN. destruct HN as (a & b & -> & <-).
  rewrite firstn_app, Nat.sub_diag, firstn_all, app_nil_r. apply sounds_app in H. apply H.
Qed.

(** In every state of every sweep, every active edge changes the winding number by one, and the
    counts that it stores are those of its two sides: of its own polygon type the larger in
    magnitude, of the other type the one that both sides share. *)
Theorem C88_counts : forall j evs st n e, sweep j start evs = Done st -> nth_error (ael st) n = Some e ->
  let left := map strand_of (firstn n (ael st)) in
  let w := winding (poly e) left in
  (delta e = 1 \/ delta e = -1) /\
  (own_fill j (poly e) <> EvenOdd -> cnt e = larger w (w + delta e)) /\
  (alt_fill j (poly e) <> EvenOdd -> cnt2 e = winding (other (poly e)) left).
Proof.
  intros j evs st n e H HN left w.
  pose proof (sound_at j _ n e (reached_sounds j evs st H) HN) as [(U & A & B) _].
  assert (EW : w_of (poly e) (end_s 0 (firstn n (ael st))) (end_c 0 (firstn n (ael st))) = w).
  { unfold w, left. rewrite strand_mk. destruct (poly e); cbn [w_of];
      rewrite ?winding_s, ?winding_c, fst_nowhere; reflexivity. }
  assert (EV : v_of (poly e) (end_s 0 (firstn n (ael st))) (end_c 0 (firstn n (ael st))) =
               winding (other (poly e)) left).
  { unfold left. rewrite strand_mk. destruct (poly e); cbn [v_of other];
      rewrite ?winding_s, ?winding_c, fst_nowhere; reflexivity. }
  rewrite EW in A. rewrite EV in B. split; [exact U|]. split.
  - intros N. unfold cnt_ok in A. destruct (own_fill j (poly e)); cbn in A; congruence.
  - intros N. unfold cnt2_ok in B. destruct (alt_fill j (poly e)); cbn in B; congruence.
Qed.
Print Assumptions C88_counts.

(** Right of all active edges both winding numbers are zero. *)
Lemma end_go : forall l s c, end_s s l = s + end_s 0 l /\ end_c c l = c + end_c 0 l.
Proof.
  induction l as [|e l IH]; intros s c; cbn [end_s end_c]; [lia|].
  destruct (IH (go_s e s) (go_c e c)) as [-> ->]. destruct (IH (go_s e 0) (go_c e 0)) as [-> ->].
  unfold go_s, go_c. destruct (poly e); lia.
Qed.
Lemma relabel_end : forall h l s c, end_s s (relabel h l) = end_s s l /\ end_c c (relabel h l) = end_c c l.
Proof.
  intros h l. induction l as [|e l IH]; intros s c; cbn [relabel]; [auto|].
  destruct (out e) as [i|]; [destruct (Nat.eqb i (obsolete h))|]; cbn [end_s end_c]; try apply IH.
  split; reflexivity.
Qed.
Lemma handing_end : forall h l s c, end_s s (handing h l) = end_s s l /\ end_c c (handing h l) = end_c c l.
Proof. intros [h|] l s c; [apply relabel_end|split; reflexivity]. Qed.
Lemma follows_end : forall j st v, follows j st v ->
  winding Subject (strands v) = end_s 0 (ael st) /\ winding Clip (strands v) = end_c 0 (ael st).
Proof. intros j st v (l & <- & <- & _). split; [apply winding_s|apply winding_c]. Qed.
Lemma winding_app : forall k a b, winding k (a ++ b) = winding k a + winding k b.
Proof.
  intros k a b. unfold winding. induction a as [|x a IH]; [reflexivity|]. cbn [app filter].
  destruct (same_kind (of_kind x) k); cbn [map fold_right]; lia.
Qed.
Lemma winding_cons : forall k x b, winding k (x :: b) = (if same_kind (of_kind x) k then turns x else 0) + winding k b.
Proof. intros k x b. unfold winding. cbn [filter]. destruct (same_kind (of_kind x) k); reflexivity. Qed.
Lemma winding_split : forall k n l, winding k l = winding k (firstn n l) + winding k (skipn n l).
Proof. intros k n l. rewrite <- winding_app, firstn_skipn. reflexivity. Qed.

Lemma step_pair : forall j st n p b st', step j st (Maximum n p b) = Done st' ->
  exists e1 e2 rest, skipn n (ael st) = e1 :: e2 :: rest /\ poly e1 = poly e2 /\ delta e1 + delta e2 = 0.
Proof.
  intros j st n p b st' H. cbn [step] in H. destruct (skipn n (ael st)) as [|e1 [|e2 rest]]; try discriminate H.
  destruct (same_kind (poly e1) (poly e2)) eqn:K; [|discriminate H].
  destruct (delta e1 + delta e2 =? 0) eqn:D; [|discriminate H].
  apply same_kind_eq in K. apply Z.eqb_eq in D. eauto 10.
Qed.
Lemma advance_winding : forall j st v ev st', follows j st v -> step j st ev = Done st' ->
  forall k, winding k (strands (advance j v ev)) = winding k (strands v).
Proof.
  intros j st v ev st' (l & HE & HS & _) H k. pose proof H as H0.
  destruct ev as [n t d p b|n p b|n p|n p b]; unfold advance.
  - cbn [strands]. rewrite (winding_split k n (strands v)), winding_app, !winding_cons. cbn [of_kind turns].
    destruct (same_kind t k); lia.
  - destruct (skipn n (strands v)) as [|s1 [|s2 rest]] eqn:E; try reflexivity.
    rewrite (winding_split k n (strands v)), E.
    destruct (corner _ _ _ _); cbn [strands]; rewrite winding_app, !winding_cons; unfold restart; cbn [of_kind turns]; lia.
  - destruct (skipn n (strands v)) as [|s1 rest] eqn:E; try reflexivity.
    destruct (borders j (strands v) n); [|reflexivity].
    rewrite (winding_split k n (strands v)), E. cbn [strands]. rewrite winding_app, !winding_cons. reflexivity.
  - destruct (step_pair _ _ _ _ _ _ H0) as (e1 & e2 & rest & ES & EP & ED).
    rewrite <- HE, skipn_map in ES. rewrite <- HS, (winding_split k n (map mk l)), !skipn_map, !firstn_map.
    destruct (skipn n l) as [|[a qa] [|[b' qb] r]]; try discriminate ES.
    cbn [map fst] in ES. injection ES as E1 E2 _. subst a b'. cbn [map mk fst snd strands].
    rewrite winding_app, !winding_cons. unfold mk. cbn [of_kind turns fst]. rewrite EP.
    destruct (same_kind (poly e2) k); lia.
Qed.
Theorem C88_balance : forall j evs st k, sweep j start evs = Done st ->
  winding k (map strand_of (ael st)) = 0.
Proof.
  intros j evs st k H.
  assert (HG : forall evs s v, follows j s v -> (forall k, winding k (strands v) = 0) ->
             forall st, sweep j s evs = Done st -> winding k (map strand_of (ael st)) = 0).
  { clear. induction evs as [|ev evs IH]; intros s v HF HW st H; cbn [sweep] in H.
    - injection H as <-. rewrite strand_mk. destruct (follows_end j s v HF) as [E1 E2].
      destruct k; rewrite ?winding_s, ?winding_c, fst_nowhere; [rewrite <- E1|rewrite <- E2]; apply HW.
    - destruct (step j s ev) as [s'| |] eqn:E; try discriminate H.
      apply (IH s' (advance j v ev)); [apply (step_follows _ _ _ _ _ HF E)| |exact H].
      intros k'. rewrite (advance_winding j s v ev s' HF E). apply HW. }
  apply (HG evs start (Survey [] []) (start_follows j)); [intros []; reflexivity|exact H].
Qed.
Print Assumptions C88_balance.

(** An active edge draws a polygon when, and only when, the result of the operation lies on just
    one of its sides. *)
Theorem C88_drawn : forall j evs st n e, sweep j start evs = Done st -> nth_error (ael st) n = Some e ->
  (out e <> None <-> borders j (map strand_of (ael st)) n = true).
Proof.
  intros j evs st n e H HN. pose proof (sound_at j _ n e (reached_sounds j evs st H) HN) as [_ HL].
  apply nth_error_split in HN. destruct HN as (a & b & E & <-). rewrite E in *.
  rewrite firstn_app, Nat.sub_diag, firstn_all, app_nil_r in HL.
  rewrite strand_mk, map_app. cbn [map].
  replace (length a) with (length (map (fun e : edge => (e, nowhere)) a)) by apply map_length.
  rewrite borders_light, fst_nowhere. cbn [fst]. rewrite <- HL. unfold drawn.
  destruct (out e); split; congruence.
Qed.
Print Assumptions C88_drawn.

(** The two bounds of a local maximum always agree: the exception of DoMaxima is never thrown. *)
Theorem C88_no_exception : forall j evs, sweep j start evs <> Throws.
Proof. intros j evs. apply sweep_no_throw. exact I. Qed.
Print Assumptions C88_no_exception.

(** At all times, each output polygon is held by no active edge, or by two: one at each end. *)
Definition holding (i : nat) (l : list edge) : list side :=
  flat_map (fun e => match out e with Some k => if Nat.eqb k i then [hand e] else [] | None => [] end) l.
Lemma holding_num : forall i l,
  length (filter (same_side LeftSide) (holding i (map fst l))) = num i LeftSide (pens l) /\
  length (filter (same_side RightSide) (holding i (map fst l))) = num i RightSide (pens l).
Proof.
  intros i l. unfold holding. induction l as [|[e q] l [IH1 IH2]]; [split; reflexivity|]. cbn [map flat_map fst].
  rewrite pens_cons, !num_app, !filter_app, !app_length, IH1, IH2. unfold held. cbn [fst snd].
  destruct (out e) as [k|]; [|split; reflexivity]. unfold num, is_pen. cbn [filter fst snd].
  destruct (Nat.eqb k i); destruct (hand e); split; reflexivity.
Qed.
Theorem C88_ends : forall j evs st i, sweep j start evs = Done st ->
  (holding i (ael st) = [] \/ holding i (ael st) = [LeftSide; RightSide] \/ holding i (ael st) = [RightSide; LeftSide]) /\
  (forall e, In e (ael st) -> out e = Some i -> exists r, nth i (polys st) None = Some r /\ r <> []).
Proof.
  intros j evs st i H.
  destruct (sweep_follows j evs start _ st (start_follows j) H) as (l & HE & _ & _ & HI). split.
  - rewrite <- HE. destruct (holding_num i l) as [N1 N2]. destruct (inv_num _ _ _ HI i) as [E L].
    rewrite <- N1, <- N2 in *. clear N1 N2. destruct (holding i (map fst l)) as [|[] [|[] [|[] r]]]; cbn in *; auto; lia.
  - intros e HIn HO. rewrite <- HE in HIn. apply in_map_iff in HIn. destruct HIn as ([e' q] & <- & HIn).
    destruct (inv_tip _ _ _ HI i (hand e') q) as (r & HR & _).
    { unfold pens. apply in_flat_map. exists (e', q). split; [exact HIn|]. unfold held. cbn [fst snd] in *.
      rewrite HO. left. reflexivity. }
    exists r. split; [exact HR|]. apply (inv_ne _ _ _ HI i r HR).
Qed.
Print Assumptions C88_ends.

(** When no active edge is left, the sides of the polygons are the pieces of the border that were
    found on the way: every segment occurs equally often in both. *)
Lemma total_rings : forall p q o, total (fun i => cell p q 0 (nth i o None)) (length o) =
  length (flat_map (fun r => filter (fun s => (pt_eqb (fst s) p && pt_eqb (snd s) q) || (pt_eqb (fst s) q && pt_eqb (snd s) p))
            match r with Some r => line_sides r ++ [(last r nowhere, hd nowhere r)] | None => [] end) o).
Proof.
  intros p q o. induction o as [|x o IH] using rev_ind; [reflexivity|].
  rewrite app_length. cbn [length]. rewrite Nat.add_1_r. cbn [total].
  rewrite flat_map_app, app_length. f_equal.
  - rewrite <- IH. apply total_ext. intros i Hi. rewrite app_nth1 by exact Hi. reflexivity.
  - rewrite app_nth2 by lia. rewrite Nat.sub_diag. cbn [nth flat_map]. rewrite app_nil_r.
    destruct x as [r|]; [|reflexivity]. cbn [cell]. rewrite <- times_app. reflexivity.
Qed.
Lemma last_any : forall (l : list pt) d d', l <> [] -> last l d = last l d'.
Proof.
  induction l as [|x l IH]; intros d d' H; [contradiction|].
  destruct l as [|y l]; [reflexivity|]. exact (IH d d' ltac:(discriminate)).
Qed.
Theorem C88_border : forall j evs st, sweep j start evs = Done st -> ael st = [] ->
  forall p q, p <> q -> times p q (flat_map sides (rings (polys st))) = times p q (pieces (surveyed j evs)).
Proof.
  intros j evs st H HA p q N.
  destruct (sweep_follows j evs start _ st (start_follows j) H) as (l & HE & _ & _ & HI).
  rewrite HA in HE. apply map_eq_nil in HE. subst l.
  unfold surveyed. rewrite (inv_sum _ _ _ HI p q N). unfold tally. cbn [pens flat_map].
  rewrite (total_ext _ (fun i => cell p q 0 (nth i (polys st) None))) by reflexivity.
  rewrite total_rings. pose proof (inv_ne _ _ _ HI) as NE. clear -NE.
  unfold times, rings. f_equal. induction (polys st) as [|x o IH]; [reflexivity|]. cbn [flat_map].
  rewrite flat_map_app, filter_app.
  rewrite IH; [|intros i r; apply (NE (S i) r)].
  f_equal. destruct x as [r|]; [|reflexivity]. cbn [flat_map]. rewrite app_nil_r.
  specialize (NE 0%nat r eq_refl). destruct r as [|a r]; [contradiction|]. unfold sides. cbn [hd].
  rewrite (last_any (a :: r) a nowhere) by discriminate. reflexivity.
Qed.
Print Assumptions C88_border.

(** ** A case: two overlapping diamonds *)
Definition diamonds : list event :=
  [Minimum 0 Subject 1 (2, 4) true; Minimum 2 Clip 1 (4, 4) false; Crossing 1 (3, 3) true;
   Vertex 0 (0, 2); Vertex 1 (2, 2); Vertex 2 (4, 2); Vertex 3 (6, 2); Crossing 1 (3, 1) false;
   Maximum 0 (2, 0) true; Maximum 0 (4, 0) false].
Definition drawn_by (o : oper) : outcome := sweep (Job o NonZero NonZero) start diamonds.
Example C88_union : drawn_by Union =
  Done (State [] [Some [(3, 1); (2, 0); (0, 2); (2, 4); (3, 3); (4, 4); (6, 2); (4, 0)]; None; None]).
Proof. reflexivity. Qed.
Example C88_intersection : drawn_by Intersection =
  Done (State [] [Some [(4, 2); (3, 3); (2, 2); (3, 1)]]).
Proof. reflexivity. Qed.
Example C88_xor : drawn_by Xor =
  Done (State [] [Some [(2, 0); (0, 2); (2, 4); (3, 3); (2, 2); (3, 1)];
                  Some [(4, 0); (6, 2); (4, 4); (3, 3); (4, 2); (3, 1)]]).
Proof. reflexivity. Qed.
Example C88_half_way : exists st, sweep (Job Union NonZero NonZero) start (firstn 4 diamonds) = Done st /\
  map drawn (ael st) = [true; false; false; true].
Proof. eexists. split; [reflexivity|]. reflexivity. Qed.
