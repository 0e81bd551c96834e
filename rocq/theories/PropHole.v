(** C91: the outlines drawn by the boolean operations are nested properly, and are marked as holes
    exactly when they are. *)

From Coq Require Import List ZArith Bool Arith Lia.
From Verif Require Import Sweep SpecSweep SweepSim PropSweep Hole SpecHole HoleFacts HoleSteps.
Import ListNotations.
Open Scope nat_scope.

Lemma draws_at : forall st n i, draws st n i <-> at_place (ael st) n = Some i.
Proof.
  intros st n i. unfold draws, at_place. split.
  - intros (e & A & B). rewrite (nth_error_nth (map out (ael st)) n None (x := out e)); [exact B|]. apply map_nth_error, A.
  - intros A. destruct (nth_error (ael st) n) as [e|] eqn:E.
    + exists e. split; [reflexivity|]. rewrite <- A. symmetry. apply nth_error_nth, map_nth_error, E.
    + apply nth_error_None in E. rewrite nth_overflow in A by (rewrite map_length; exact E). discriminate.
Qed.
Lemma holes_sweep : forall j evs s rs st rs', sweep_holes j s rs evs = Some (st, rs') -> sweep j s (map fst evs) = Done st.
Proof.
  intros j evs. induction evs as [|[ev lower] evs IH]; intros s rs st rs' E; cbn [sweep_holes] in E; cbn [map fst sweep].
  - injection E as -> _. reflexivity.
  - destruct (step j s ev); [|discriminate|discriminate]. apply (IH _ _ _ _ E).
Qed.
Lemma sweep_has_holes : forall j evs s rs st, sweep j s evs = Done st ->
  exists rs', sweep_holes j s rs (map (fun ev => (ev, false)) evs) = Some (st, rs').
Proof.
  intros j evs. induction evs as [|ev evs IH]; intros s rs st E; cbn [sweep] in E; cbn [map sweep_holes].
  - injection E as <-. eexists. reflexivity.
  - destruct (step j s ev) as [s'| |]; [|discriminate|discriminate]. apply IH, E.
Qed.
Lemma ends_of : forall st L R F H N, good (at_place (ael st)) L R F H N -> forall i x y, draws st x i -> draws st y i -> x < y -> x = L i /\ y = R i.
Proof.
  intros st L R F H N G i x y X Y Q. apply draws_at in X. apply draws_at in Y.
  destruct (g_at _ _ _ _ _ _ G _ _ X) as (_ & _ & _ & A & B). destruct (g_at _ _ _ _ _ _ G _ _ Y) as (_ & _ & _ & _ & C). lia.
Qed.
Lemma both_ends : forall st L R F H N, good (at_place (ael st)) L R F H N -> forall i x, draws st x i ->
  live (at_place (ael st)) L i /\ draws st (L i) i /\ draws st (R i) i /\ L i < R i /\ (x = L i \/ x = R i).
Proof.
  intros st L R F H N G i x X. apply draws_at in X. destruct (g_at _ _ _ _ _ _ G _ _ X) as (_ & A & B & C & D).
  split; [exact A|]. rewrite !draws_at. auto.
Qed.

(** An outline being drawn has two ends, and the ends of different outlines are never interleaved:
    one outline lies beside the other or between its ends. *)
Theorem C91_apart : forall j evs st, sweep j start evs = Done st ->
  (forall i x, draws st x i -> exists y, y <> x /\ draws st y i /\ forall z, draws st z i -> z = x \/ z = y) /\
  (forall i k x y z w, x < y -> y < z -> z < w -> draws st x i -> draws st y k -> draws st z i -> draws st w k -> i = k).
Proof.
  intros j evs st E. destruct (sweep_has_holes j evs start [] st E) as (rs & W).
  destruct (sweep_tidy _ _ _ _ _ _ start_tidy W) as [_ (L & R & G)]. split.
  - intros i x X. destruct (both_ends _ _ _ _ _ _ G i x X) as (_ & A & B & C & D).
    assert (Q : forall z, draws st z i -> z = L i \/ z = R i) by (intros z Z; apply (both_ends _ _ _ _ _ _ G i z Z)).
    destruct D as [-> | ->]; [exists (R i)|exists (L i)]; (split; [lia|]); (split; [assumption|]); intros z Z; apply Q in Z; tauto.
  - intros i k x y z w Q1 Q2 Q3 X Y Z W'. destruct (Nat.eq_dec i k) as [D|D]; [exact D|].
    destruct (ends_of _ _ _ _ _ _ G i x z X Z) as [-> ->]; [lia|]. destruct (ends_of _ _ _ _ _ _ G k y w Y W') as [-> ->]; [lia|].
    assert (LA : L k < R i -> R k < R i) by (apply (g_cross _ _ _ _ _ _ G); [apply (both_ends _ _ _ _ _ _ G i _ X)|apply (both_ends _ _ _ _ _ _ G k _ Y)|exact Q1]). lia.
Qed.
Print Assumptions C91_apart.

Lemma within_nil : forall j, within j [] = false.
Proof. intros [o f1 f2]. destruct o, f1, f2; reflexivity. Qed.
Lemma parity_within : forall j evs st n, sweep j start evs = Done st -> n <= length (ael st) ->
  parity (at_place (ael st)) n = within j (map strand_of (firstn n (ael st))).
Proof.
  intros j evs st n E. induction n as [|n IH]; intros A; [symmetry; apply within_nil|]. cbn [parity]. rewrite IH by lia.
  destruct (nth_error (ael st) n) as [e|] eqn:Q; [|apply nth_error_None in Q; lia].
  pose proof (C88_drawn j evs st n e E Q) as D.
  assert (AT : at_place (ael st) n = out e) by (unfold at_place; apply nth_error_nth, map_nth_error, Q). rewrite AT.
  assert (B : some (out e) = borders j (map strand_of (ael st)) n).
  { destruct (out e) as [i|]; cbn [some]; destruct (borders _ _ _); try reflexivity.
    - symmetry. apply D. discriminate.
    - exfalso. apply D; reflexivity. }
  rewrite B. unfold borders. rewrite !firstn_map. destruct (within j _), (within j _); reflexivity.
Qed.

(** Whatever lies on the left of the leftmost end of an outline tells whether it is a hole: it is
    one exactly when the points there belong to the result of the operation. *)
Theorem C91_hole : forall j evs st rs n i, sweep_holes j start [] evs = Some (st, rs) -> first_end st n i ->
  is_hole (rec_at rs i) = within j (map strand_of (firstn n (ael st))).
Proof.
  intros j evs st rs n i E [D F]. destruct (sweep_tidy _ _ _ _ _ _ start_tidy E) as [_ (L & R & G)].
  destruct (both_ends _ _ _ _ _ _ G i n D) as (Lv & A & B & C & Q).
  assert (n = L i) as -> by (destruct Q as [Q|Q]; [exact Q|]; exfalso; apply (F (L i)); [lia|exact A]).
  rewrite <- (parity_within j (map fst evs) st); [|apply (holes_sweep _ _ _ _ _ _ E)|].
  - apply (g_hole _ _ _ _ _ _ G i Lv).
  - destruct A as (e & A & _). assert (L i < length (ael st)) by (apply nth_error_Some; congruence). lia.
Qed.
Print Assumptions C91_hole.

(** An outline begun in a gap between active edges is a hole exactly when the gap belongs to the
    result; its FirstLeft is the innermost of the outlines with ends on both sides of the gap. *)
Theorem C91_begun : forall j evs st rs n, sweep_holes j start [] evs = Some (st, rs) -> n <= length (ael st) ->
  let r := hole_state rs (firstn n (ael st)) in
  is_hole r = within j (map strand_of (firstn n (ael st))) /\
  match first_left r with
  | None => forall i, ~ straddles st n i
  | Some f => straddles st n f /\ forall i, straddles st n i -> i = f \/ between_ends st i f
  end.
Proof.
  intros j evs st rs n E Hn. destruct (sweep_tidy _ _ _ _ _ _ start_tidy E) as [_ (L & R & G)].
  assert (LU : length (firstn n (ael st)) = n) by (rewrite firstn_length; lia).
  assert (W : hole_loop None (rev (map out (firstn n (ael st)))) = scan (at_place (ael st)) n None).
  { rewrite <- LU at 2. apply loop_scan. intros x Hx. rewrite <- (firstn_skipn n (ael st)) at 1. apply at_left, Hx. }
  rewrite <- (parity_within j (map fst evs) st n (holes_sweep _ _ _ _ _ _ E) Hn).
  cbv zeta. unfold hole_state. rewrite W. pose proof (scan_spec _ _ _ _ _ _ G n) as SP.
  assert (ST : forall i, straddles st n i -> live (at_place (ael st)) L i /\ L i < n /\ n <= R i /\ draws st (L i) i /\ draws st (R i) i).
  { intros i (x & y & A & B & X & Y). destruct (ends_of _ _ _ _ _ _ G i x y X Y) as [-> ->]; [lia|].
    split; [apply (both_ends _ _ _ _ _ _ G i _ X)|]. auto. }
  destruct (scan (at_place (ael st)) n None) as [f|]; cbn [is_hole first_left].
  - destruct SP as (Lf & A & B & C & D). split; [symmetry; exact D|]. apply draws_at in Lf. pose proof (both_ends _ _ _ _ _ _ G f _ Lf) as (_ & _ & RF & WF & _). split.
    + exists (L f), (R f). auto.
    + intros i Si. destruct (ST i Si) as (Li & I1 & I2 & I3 & I4). destruct (C i Li I1 I2) as [Q | [Q1 Q2]]; [auto|right].
      exists (L i), (L f), (R f), (R i). auto 10.
  - destruct SP as [A B]. split; [symmetry; exact B|]. intros i Si. destruct (ST i Si) as (Li & I1 & I2 & _). specialize (A i Li I1). lia.
Qed.
Print Assumptions C91_begun.

(** The chains of FirstLeft end, so that the loop of OutRec1RightOfOutRec2 does: more steps than there
    are outlines change nothing.  From an outline they lead to every outline it lies in and to
    none in it: when nested outlines meet, the outer one's state is kept without any guess. *)
Theorem C91_chains : forall j evs st rs, sweep_holes j start [] evs = Some (st, rs) ->
  (forall a b more, right_of (length rs + more) rs a b = right_of (length rs) rs a b) /\
  (forall i k, between_ends st i k -> forall lower, i < k /\
     right_of (length rs) rs k i = true /\ right_of (length rs) rs i k = false /\
     is_hole (rec_at (append_holes rs i k lower) i) = is_hole (rec_at rs i) /\
     first_left (rec_at (append_holes rs i k lower) i) = first_left (rec_at rs i)).
Proof.
  intros j evs st rs E. destruct (sweep_tidy _ _ _ _ _ _ start_tidy E) as [_ (L & R & G)].
  pose proof (right_iff rs (g_ends _ _ _ _ _ _ G) (g_bound _ _ _ _ _ _ G)) as RI.
  assert (R0 : forall a b, right_of (length rs) rs a b = true <-> reach (lefts rs) (lefts rs a) b).
  { intros a b. pose proof (RI 0 a b) as Q. rewrite Nat.add_0_r in Q. exact Q. }
  split.
  - intros a b more. apply eq_true_iff_eq. rewrite RI, R0. reflexivity.
  - intros i k (x & y & z & w & Q1 & Q2 & Q3 & X & Y & Z & W) lower.
    destruct (ends_of _ _ _ _ _ _ G i x w X W) as [-> ->]; [lia|]. destruct (ends_of _ _ _ _ _ _ G k y z Y Z) as [-> ->]; [lia|].
    assert (Li : live (at_place (ael st)) L i) by apply (both_ends _ _ _ _ _ _ G i _ X).
    assert (Lk : live (at_place (ael st)) L k) by apply (both_ends _ _ _ _ _ _ G k _ Y).
    assert (EN : encl L R i k) by (split; lia).
    pose proof (encloser_reach _ _ _ _ _ _ G i k Li Lk EN) as RK. pose proof (g_order _ _ _ _ _ _ G i k Li Lk EN) as LT.
    assert (T1 : right_of (length rs) rs k i = true) by (apply R0; exact RK).
    assert (T2 : right_of (length rs) rs i k = false).
    { destruct (right_of (length rs) rs i k) eqn:Q; [|reflexivity]. apply R0 in Q. contradiction (no_cycle _ _ _ _ _ _ G i).
      eapply reach_trans; [exact Q|exact RK]. }
    destruct (live_facts _ _ _ _ _ _ G k Lk) as (NK & _).
    repeat split; auto; unfold append_holes, takes_second; rewrite T1, T2;
      (rewrite set_rec_at by (rewrite set_rec_length; exact NK)); destruct (Nat.eqb_spec i k); try lia; rewrite set_rec_at by lia; rewrite Nat.eqb_refl; reflexivity.
Qed.
Print Assumptions C91_chains.

(** A square with two notches cut out of it, which become one. *)
Open Scope Z_scope.
Definition notched : list (event * bool) :=
  [(Minimum 0 Subject 1 (0, 0) true, false); (Minimum 1 Clip 1 (3, 1) true, false);
   (Minimum 3 Clip 1 (7, 1) true, false)].
Example C91_two : exists st, sweep_holes (Job Difference NonZero NonZero) start [] notched =
    Some (st, [OutRec false None; OutRec true (Some 0%nat); OutRec true (Some 0%nat)]) /\
  map out (ael st) = [Some 0; Some 1; Some 1; Some 2; Some 2; Some 0]%nat.
Proof. eexists. split; reflexivity. Qed.
Example C91_joined : exists st, sweep_holes (Job Difference NonZero NonZero) start [] (notched ++ [(Maximum 2 (5, 3) true, true)]) =
    Some (st, [OutRec false None; OutRec true (Some 0%nat); OutRec true (Some 1%nat)]) /\
  map out (ael st) = [Some 0; Some 1; Some 1; Some 0]%nat /\
  first_end st 1 1 /\ between_ends st 0 1 /\ straddles st 2 1.
Proof.
  eexists. split; [reflexivity|]. split; [reflexivity|].
  assert (D : forall n i e, nth_error
     (ael match sweep_holes (Job Difference NonZero NonZero) start [] (notched ++ [(Maximum 2 (5, 3) true, true)]) with Some (st, _) => st | None => start end) n = Some e ->
     out e = Some i -> draws (match sweep_holes (Job Difference NonZero NonZero) start [] (notched ++ [(Maximum 2 (5, 3) true, true)]) with Some (st, _) => st | None => start end) n i).
  { intros n i e A B. exists e. auto. }
  split; [|split].
  - split; [eapply (D 1%nat); reflexivity|]. intros m Hm (e & A & B). assert (m = 0)%nat as -> by lia. injection A as <-. discriminate.
  - exists 0%nat, 1%nat, 2%nat, 3%nat. repeat split; try lia; eapply D; reflexivity.
  - exists 1%nat, 2%nat. repeat split; try lia; eapply D; reflexivity.
Qed.
(** The hole is opened to the outside: hole and outer outline meet. *)
Example C91_opened : exists st, sweep_holes (Job Difference NonZero NonZero) start []
    (notched ++ [(Maximum 2 (5, 3) true, true); (Crossing 2 (10, 6) true, true)]) =
    Some (st, [OutRec false None; OutRec true (Some 0%nat); OutRec true (Some 1%nat)]) /\
  map out (ael st) = [Some 0; Some 0; None; None]%nat.
Proof. eexists. split; reflexivity. Qed.
