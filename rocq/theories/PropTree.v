(** C92: the tree of outlines that a boolean operation hands over holds each of them once, holes
    under outer outlines and outer outlines under holes. *)

From Coq Require Import List ZArith Bool Arith Lia.
From Verif Require Import Sweep Hole HoleFacts HoleSteps Tree TreeFacts SpecTree.
Import ListNotations.
Open Scope nat_scope.

(** The outlines after the clean-up (C90_output): none, or at least three points. *)
Definition cleaned (rings : list (list pt)) : Prop := forall r, In r rings -> r = [] \/ 3 <= length r.
Lemma cleaned_ring : forall rings, cleaned rings -> forall x, ring rings x = [] \/ 3 <= length (ring rings x).
Proof.
  intros rings C x. unfold ring. destruct (Nat.lt_ge_cases x (length rings)) as [A|A]; [apply C, nth_In, A|].
  left. apply nth_overflow, A.
Qed.
Lemma leads_reach : forall rs i q, leads rs i q <-> reach (lefts rs) (lefts rs i) q.
Proof.
  intros rs i q. split.
  - intros A. induction A as [i q A|i f q A B IH]; unfold lefts at 2; rewrite A; [apply reach_here|apply reach_next, IH].
  - intros A. remember (lefts rs i) as c eqn:E. revert i E. induction A as [b|x b A IH]; intros i E.
    + apply leads_once. symmetry. exact E.
    + apply (leads_on rs i x b (eq_sym E)). apply IH. reflexivity.
Qed.
Lemma swept : forall j evs st rs, sweep_holes j start [] evs = Some (st, rs) ->
  length rs = length (polys st) /\ (forall x, ends_at (lefts rs) (lefts rs x)) /\ (forall x y, lefts rs x = Some y -> x < length rs /\ y < length rs) /\ hung st rs.
Proof.
  intros j evs st rs E. destruct (sweep_hung j evs start [] st rs start_tidy start_hung E) as [[LN (L & R & G)] HU].
  split; [exact LN|]. split; [apply (g_ends _ _ _ _ _ _ G)|]. split; [apply (g_bound _ _ _ _ _ _ G)|exact HU].
Qed.

(** The tree holds every outline that has points, once, and nothing else. *)
Theorem C92_once : forall j evs st rs rings, sweep_holes j start [] evs = Some (st, rs) -> cleaned rings -> length rings = length rs ->
  NoDup (all_nodes rings rs) /\ forall i, In i (all_nodes rings rs) <-> nth i rings [] <> [].
Proof.
  intros j evs st rs rings E C LR. destruct (swept j evs st rs E) as (_ & A & B & _).
  destruct (all_nodes_spec rings rs A B) as [S1 S2]. split; [exact S1|]. intros i. rewrite S2.
  rewrite (node_pts rings (cleaned_ring rings C)). unfold has_pts, ring. split.
  - intros [_ P] Q. rewrite Q in P. discriminate.
  - intros P. split; [|destruct (nth i rings []); [contradiction|reflexivity]].
    destruct (Nat.lt_ge_cases i (length rs)) as [Q|Q]; [exact Q|]. rewrite nth_overflow in P by lia. contradiction.
Qed.
Print Assumptions C92_once.

(** The outline above another one in the tree is of the other sort, outer or hole, has points, and
    is the first such outline that FirstLeft leads to; there is none above only if FirstLeft leads
    to none. *)
Theorem C92_above : forall j evs st rs rings i, sweep_holes j start [] evs = Some (st, rs) -> cleaned rings -> length rings = length rs ->
  nth i rings [] <> [] ->
  let fits q := is_hole (rec_at rs q) <> is_hole (rec_at rs i) /\ nth q rings [] <> [] in
  match parent rings rs i with
  | Some p => leads rs i p /\ fits p /\ forall q, leads rs i q -> fits q -> q = p \/ leads rs p q
  | None => forall q, leads rs i q -> ~ fits q
  end.
Proof.
  intros j evs st rs rings i E C LR PI fits. destruct (swept j evs st rs E) as (_ & A & B & _). pose proof (cleaned_ring rings C) as SZ.
  assert (ND : forall x, is_node rings x = true <-> nth x rings [] <> []).
  { intros x. rewrite (node_pts rings SZ). unfold has_pts, ring. destruct (nth x rings []); split; congruence. }
  assert (IN : i < length rs).
  { destruct (Nat.lt_ge_cases i (length rs)) as [Q|Q]; [exact Q|]. rewrite nth_overflow in PI by lia. contradiction. }
  assert (NI : is_node rings i = true) by (apply ND; exact PI).
  pose proof (fun q => parent_nearest rings rs A B SZ i q IN NI) as NEAR.
  destruct (parent rings rs i) as [p|] eqn:Q.
  - split; [apply leads_reach, (parent_along rings rs A B i p Q)|]. split.
    + split; [apply (parent_opposite rings rs A B i p IN NI Q)|]. apply ND, (parent_linked rings rs i p Q).
    + intros q LQ [F1 F2]. destruct (NEAR q) as (p' & E' & R); [apply leads_reach, LQ|exact F1|apply ND, F2|]. injection E' as <-.
      inversion R as [z Z|z b' R' Z]; subst; [left; reflexivity|right; apply leads_reach, R'].
  - intros q LQ [F1 F2]. destruct (NEAR q) as (p' & E' & _); [apply leads_reach, LQ|exact F1|apply ND, F2|]. discriminate.
Qed.
Print Assumptions C92_above.

(** If no outer outline has lost all its points in the clean-up, the depth in the tree tells
    holes from outer outlines as the marks do: the first level has outer outlines only. *)
Theorem C92_levels : forall j evs st rs rings i, sweep_holes j start [] evs = Some (st, rs) -> cleaned rings -> length rings = length rs ->
  (forall x, nth x (polys st) None <> None -> is_hole (rec_at rs x) = false -> nth x rings [] <> []) ->
  nth i rings [] <> [] ->
  (is_hole (rec_at rs i) = true -> parent rings rs i <> None) /\
  node_hole rings (length rs) rs i true = is_hole (rec_at rs i).
Proof.
  intros j evs st rs rings i E C LR KEPT PI. destruct (swept j evs st rs E) as (LN & A & B & H1 & H2). pose proof (cleaned_ring rings C) as SZ.
  assert (ND : forall x, is_node rings x = true <-> nth x rings [] <> []).
  { intros x. rewrite (node_pts rings SZ). unfold has_pts, ring. destruct (nth x rings []); split; congruence. }
  assert (IN : i < length rs).
  { destruct (Nat.lt_ge_cases i (length rs)) as [Q|Q]; [exact Q|]. rewrite nth_overflow in PI by lia. contradiction. }
  assert (TOP : forall k, k < length rs -> is_node rings k = true -> holes rs k = true -> parent rings rs k <> None).
  { intros k K NK HK Q. apply (parent_none rings rs A B SZ k K NK) in Q. revert Q. apply (linked_holes rings rs A B SZ H1); [|exact HK].
    intros x X P F. destruct (holes rs x) eqn:Z; [reflexivity|]. exfalso. assert (Q : nth x rings [] <> []).
    { apply KEPT; [|exact Z]. intros W. apply (H2 x); [lia|exact W|exact F]. }
    apply ND in Q. rewrite (node_pts rings SZ) in Q. congruence. }
  split; [apply TOP; [exact IN|apply ND, PI]|].
  rewrite (node_hole_mark rings rs A B TOP (length rs) i [] true); [cbn; unfold holes; destruct (is_hole (rec_at rs i)); reflexivity|apply ND, PI| | | |cbn; lia].
  - repeat constructor. intros [].
  - intros v [<- | []]. exact IN.
  - intros v [].
Qed.
Print Assumptions C92_levels.

(** A square with a hole in which there is a smaller square, begun in two places. *)
Open Scope Z_scope.
Definition island : list (event * bool) :=
  [(Minimum 0 Subject 1 (0, 0) true, false); (Minimum 1 Clip 1 (1, 1) true, false);
   (Minimum 2 Subject (-1) (3, 2) true, false); (Minimum 4 Subject (-1) (6, 2) true, false);
   (Maximum 3 (5, 3) true, true); (Maximum 2 (5, 6) true, true); (Maximum 1 (5, 7) true, true); (Maximum 0 (5, 8) true, true)].
Definition ring3 : list pt := [(0, 0); (1, 0); (1, 1)].
Example C92_island : exists st, sweep_holes (Job Xor NonZero NonZero) start [] island =
    Some (st, [OutRec false None; OutRec true (Some 0%nat); OutRec false (Some 1%nat); OutRec false (Some 2%nat)]) /\
  map (fun r => match r with Some _ => true | None => false end) (polys st) = [true; true; true; false].
Proof. eexists. split; reflexivity. Qed.
Example C92_tree : let rs := [OutRec false None; OutRec true (Some 0%nat); OutRec false (Some 1%nat); OutRec false (Some 2%nat)] in
  let rings := [ring3; ring3; ring3; []] in
  all_nodes rings rs = [0; 1; 2]%nat /\ parent rings rs 2 = Some 1%nat /\ map (fun i => node_hole rings 4 rs i true) [0; 1; 2]%nat = [false; true; false] /\
  (* the hole has vanished *)
  parent [ring3; []; ring3; []] rs 2 = None /\ all_nodes [ring3; []; ring3; []] rs = [0; 2]%nat.
Proof. repeat split. Qed.
Example C92_conditions : cleaned [ring3; ring3; ring3; []] /\
  forall st, sweep_holes (Job Xor NonZero NonZero) start [] island =
    Some (st, [OutRec false None; OutRec true (Some 0%nat); OutRec false (Some 1%nat); OutRec false (Some 2%nat)]) ->
  forall x, nth x (polys st) None <> None ->
  is_hole (rec_at [OutRec false None; OutRec true (Some 0%nat); OutRec false (Some 1%nat); OutRec false (Some 2%nat)] x) = false ->
  nth x [ring3; ring3; ring3; []] [] <> [].
Proof.
  split.
  - intros r [<- | [<- | [<- | [<- | []]]]]; [right|right|right|left; reflexivity]; cbn; lia.
  - intros st E. vm_compute in E. injection E as <-. intros x A _. cbn [polys] in A.
    destruct x as [|[|[|[|x]]]]; cbn in *; try discriminate; try contradiction. destruct x; contradiction.
Qed.
