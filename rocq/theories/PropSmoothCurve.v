(** C78: what Curve.I needs of the control points: there are as many as sections, and
    they move with the points. *)

From Coq Require Import Reals Lra Lia List ZArith Bool Arith.
From Verif Require Import Plane PlaneProofs Curve SpecCurve PropCurve PropCommands Flex SpecFlex FlexProofs Smooth SpecSmooth PropSmooth PropSmoothDefined Gauss PropSmoothMore.
Import ListNotations.
Open Scope R_scope.

(** ** Number of control points *)

Lemma rotl_len {X} k (l : list X) : length (rotl k l) = length l.
Proof. unfold rotl. rewrite app_length, skipn_length, firstn_length. lia. Qed.
Lemma open_sized solve z angles cs ce ti to ks : hobby_open solve z angles cs ce ti to = Some ks -> length ks = (length z - 1)%nat.
Proof. unfold hobby_open. destruct (solve_from _ _ _ _ _ _ _ _ _); [|discriminate]. intro H. injection H as <-. now rewrite map_length, seq_length. Qed.
Theorem C78_sized : forall solve angles cs ce ti to cycle, sized cycle (fun z => hobby solve z angles cs ce ti to cycle).
Proof.
  intros solve angles cs ce ti to cycle l ks H. unfold hobby in H. destruct (cycle && existsb is_given angles) eqn:G.
  - destruct (hobby_open _ _ _ _ _ _ _) as [k|] eqn:O; [|discriminate]. injection H as <-. apply open_sized in O. rewrite app_length, rotl_len in O. cbn in O.
    unfold rotr. rewrite rotl_len, O. apply andb_prop in G as [-> _]. lia.
  - destruct cycle; [|now apply open_sized in H]. unfold hobby_closed in H. destruct (solve _ _ _); [|discriminate]. injection H as <-. rewrite map_length, seq_length. lia.
Qed.
Print Assumptions C78_sized.

(** ** Translation *)

Lemma shift_sub t p q : psub (padd t q) (padd t p) = psub q p.
Proof. apply pt_eq; unfold psub, padd; cbn [fst snd]; ring. Qed.
Lemma shift_controls t p q d a b th ph to ti :
  controls (padd t p) (padd t q) d a b th ph to ti = (padd t (fst (controls p q d a b th ph to ti)), padd t (snd (controls p q d a b th ph to ti))).
Proof. unfold controls. cbn [fst snd]. f_equal; apply pt_eq; unfold padd, psub, smul; cbn [fst snd]; ring. Qed.

Section Shift.
Variable solve : solver.
Hypothesis LS : looks_inside solve.
Variable t : pt.
Notation F := (map (padd t)).
Notation F2 := (map (fun k : pt * pt => (padd t (fst k), padd t (snd k)))).
Lemma pos_shift z i : (i < length z)%nat -> pos (F z) i = padd t (pos z i).
Proof. intro I. unfold pos. rewrite (nth_indep _ (0, 0) (padd t (0, 0))) by (rewrite map_length; exact I). apply map_nth. Qed.
Lemma segs_shift z : segs (F z) = segs z.
Proof. unfold segs. now rewrite map_length. Qed.

Section Open.
Variables (z : list pt) (angles : list (option R)) (cs ce : R) (ti to : list R).
Lemma v_shift i : (S i < length z)%nat -> v (F z) i = v z i.
Proof. intro I. unfold v. rewrite !pos_shift by lia. apply shift_sub. Qed.
Lemma d_shift i : (S i < length z)%nat -> d (F z) i = d z i.
Proof. intro I. unfold d. now rewrite v_shift. Qed.
Lemma delta_shift i : (S i < length z)%nat -> delta (F z) i = delta z i.
Proof. intro I. unfold delta. now rewrite v_shift. Qed.
Lemma row_shift i j r : (i < j <= segs z)%nat -> (r < 2 * (j - i))%nat -> open_row (F z) angles cs ce ti to i j r = open_row z angles cs ce ti to i j r.
Proof.
  intros B Q. unfold open_row. rewrite segs_shift. unfold segs in B. destruct (Nat.eqb_spec r 0); [reflexivity|]. destruct (Nat.eqb_spec r (2 * (j - i) - 1)); [reflexivity|].
  destruct (Nat.ltb_spec r (j - i)); [reflexivity|]. cbv zeta. rewrite !d_shift by lia. reflexivity.
Qed.
Lemma coef_shift i j r : (i < j <= segs z)%nat -> (r < 2 * (j - i))%nat -> open_coef (F z) angles i j r = open_coef z angles i j r.
Proof.
  intros B Q. unfold open_coef, theta_given, phi_given, psi. unfold segs in B. destruct (Nat.eqb_spec r 0); [rewrite delta_shift by lia; reflexivity|].
  destruct (Nat.eqb_spec r (2 * (j - i) - 1)); [rewrite delta_shift by lia; reflexivity|].
  destruct (Nat.ltb_spec r (j - i)); [|reflexivity]. rewrite !delta_shift by lia. reflexivity.
Qed.
Lemma piece_shift i j : (i < j <= segs z)%nat -> solve_piece solve (F z) angles cs ce ti to i j = solve_piece solve z angles cs ce ti to i j.
Proof.
  intro B. unfold solve_piece, theta_given, phi_given.
  rewrite (LS (2 * (j - i))%nat (fun r => entry (open_row (F z) angles cs ce ti to i j r)) (fun r => entry (open_row z angles cs ce ti to i j r)) (open_coef (F z) angles i j) (open_coef z angles i j)).
  - unfold segs in B. rewrite !delta_shift by lia. reflexivity.
  - intros r c Q _. now rewrite row_shift.
  - intros r Q. now apply coef_shift.
Qed.
Lemma next_shift left : forall j, next_given (F z) angles left j = next_given z angles left j.
Proof. induction left as [|m IH]; intro j; cbn [next_given]; [apply segs_shift|]. destruct (angle angles j); [reflexivity|apply IH]. Qed.
Lemma from_shift fuel : forall i, solve_from solve (F z) angles cs ce ti to fuel i = solve_from solve z angles cs ce ti to fuel i.
Proof.
  induction fuel as [|m IH]; intro i; cbn [solve_from]; [reflexivity|]. unfold piece_end. rewrite segs_shift, next_shift. destruct (Nat.ltb_spec i (segs z)) as [L|L]; [|reflexivity].
  destruct (piece_end_spec z angles i L) as (B & _). unfold piece_end in B. rewrite piece_shift, IH by exact B. reflexivity.
Qed.
Lemma open_shift : hobby_open solve (F z) angles cs ce ti to = option_map F2 (hobby_open solve z angles cs ce ti to).
Proof.
  unfold hobby_open. rewrite from_shift, segs_shift. destruct (solve_from _ _ _ _ _ _ _ _ _) as [s|]; [|reflexivity]. cbn [option_map]. f_equal. rewrite map_map.
  apply map_ext_in. intros k K. apply in_seq in K. unfold segs in K. rewrite !pos_shift, d_shift, shift_controls by lia. unfold w_angle. rewrite segs_shift.
  unfold segs. rewrite !delta_shift by lia. destruct (Nat.ltb_spec (S k) (length z - 1)); [rewrite delta_shift by lia|]; reflexivity.
Qed.
End Open.
Lemma closed_shift z ti to : (1 <= length z)%nat -> hobby_closed solve (F z) ti to = option_map F2 (hobby_closed solve z ti to).
Proof.
  intro LZ. assert (N : forall i, nxt (F z) i = nxt z i) by (intro i; unfold nxt; now rewrite map_length).
  assert (P : forall i, prv (F z) i = prv z i) by (intro i; unfold prv; now rewrite map_length).
  assert (NL : forall i, (nxt z i < length z)%nat) by (intro i; apply Nat.mod_upper_bound; lia).
  assert (PL : forall i, (prv z i < length z)%nat) by (intro i; apply Nat.mod_upper_bound; lia).
  assert (V : forall i, (i < length z)%nat -> cv (F z) i = cv z i) by (intros i I; unfold cv; rewrite N, !pos_shift by auto; apply shift_sub).
  assert (D : forall i, (i < length z)%nat -> cd (F z) i = cd z i) by (intros i I; unfold cd; now rewrite V).
  assert (E : forall i, (i < length z)%nat -> cdelta (F z) i = cdelta z i) by (intros i I; unfold cdelta; now rewrite V).
  unfold hobby_closed. rewrite map_length.
  rewrite (LS (2 * length z)%nat (fun r => entry (closed_row (F z) ti to r)) (fun r => entry (closed_row z ti to r)) (closed_coef (F z)) (closed_coef z)).
  - destruct (solve _ _ _) as [x|]; [|reflexivity]. cbn [option_map]. f_equal. rewrite map_map. apply map_ext_in. intros k K. apply in_seq in K.
    rewrite !N, !pos_shift, D, shift_controls, !E by (auto; lia). reflexivity.
  - intros r c Q _. unfold closed_row. rewrite map_length. destruct (Nat.ltb_spec r (length z)); [now rewrite P|]. cbv zeta. rewrite !N, !D by (auto; lia). reflexivity.
  - intros r Q. unfold closed_coef. rewrite map_length. destruct (Nat.ltb_spec r (length z)); [|reflexivity]. unfold cpsi. rewrite P, !E by auto. reflexivity.
Qed.
Lemma rotl_map {X Y} (g : X -> Y) k l : rotl k (map g l) = map g (rotl k l).
Proof. unfold rotl. rewrite map_app, skipn_map, firstn_map. reflexivity. Qed.
Lemma shifted z angles cs ce ti to cycle : length angles = length z -> (1 <= length z)%nat ->
  hobby solve (F z) angles cs ce ti to cycle = option_map F2 (hobby solve z angles cs ce ti to cycle).
Proof.
  intros LA LZ. unfold hobby. destruct (cycle && existsb is_given angles) eqn:G.
  - apply andb_prop in G as [_ G]. destruct (first_given_spec angles G) as [K _]. set (k := first_given angles) in *.
    replace (rotl k (F z) ++ [nth k (F z) (0, 0)]) with (F (rotl k z ++ [nth k z (0, 0)])).
    + rewrite open_shift. destruct (hobby_open _ _ _ _ _ _ _) as [c|]; [|reflexivity]. cbn [option_map]. f_equal. unfold rotr. rewrite map_length. apply rotl_map.
    + rewrite map_app, rotl_map. cbn [map]. do 2 f_equal. symmetry. apply (pos_shift z k). lia.
  - destruct cycle; [now apply closed_shift|apply open_shift].
Qed.
End Shift.
(** The control points move with the points, also where angles are given. *)
Theorem C78_moves : forall solve angles cs ce ti to cycle, looks_inside solve -> angles <> [] ->
  equivariant (length angles) (fun z => hobby solve z angles cs ce ti to cycle).
Proof.
  intros solve angles cs ce ti to cycle LS NA t l L. apply shifted; [exact LS|now symmetry|]. destruct angles; [congruence|]. cbn in L. lia.
Qed.
Print Assumptions C78_moves.

(** ** Example: a solver that depends on the n x n elements only *)

Definition gauss_inside : solver := fun n m b =>
  gauss n (fun r c => if ((r <? n) && (c <? n))%nat then m r c else 0) (fun r => if (r <? n)%nat then b r else 0).
Lemma gauss_inside_sound : sound gauss_inside.
Proof.
  intros n m b x H. apply gauss_sound in H. intros r L. specialize (H r L). cbv beta in H. rewrite (proj2 (Nat.ltb_lt r n) L) in H. rewrite <- H.
  apply total_ext. intros c C. rewrite (proj2 (Nat.ltb_lt c n) C). reflexivity.
Qed.
Lemma gauss_inside_complete : complete gauss_inside.
Proof.
  intros n m b G. apply gauss_complete. intros x H. apply G. intros r L. specialize (H r L). cbv beta in H. rewrite <- H.
  apply total_ext. intros c C. rewrite (proj2 (Nat.ltb_lt c n) C), (proj2 (Nat.ltb_lt r n) L). reflexivity.
Qed.
Lemma gauss_inside_looks : looks_inside gauss_inside.
Proof.
  intros n m m' b b' M B. unfold gauss_inside. f_equal.
  - apply FunctionalExtensionality.functional_extensionality. intro r. apply FunctionalExtensionality.functional_extensionality. intro c.
    destruct (Nat.ltb_spec r n); [|reflexivity]. destruct (Nat.ltb_spec c n); [|reflexivity]. cbn [andb]. auto.
  - apply FunctionalExtensionality.functional_extensionality. intro r. destruct (Nat.ltb_spec r n); auto.
Qed.
(** Curve.i through two further points, the second with a given angle: the command
    succeeds and moves with the curve. *)
Definition gentle : cmd := DoI (fun z => hobby gauss_inside z [None; None; Some 0] 1 1 [1; 1; 1] [1; 1; 1] false) true false [(1, 0); (1, 1)].
Example C78_curve_case : hob_ok gentle /\ is_relative gentle /\ well_formed (new_curve (0, 0) 1) gentle /\
  (exists fuel c, run fuel (new_curve (0, 0) 1) gentle = Some c) /\
  forall fuel, run fuel (moved_curve (5, 7) (new_curve (0, 0) 1)) gentle = option_map (moved_curve (5, 7)) (run fuel (new_curve (0, 0) 1) gentle).
Proof.
  assert (K : hob_ok gentle).
  { split; [apply C78_sized|]. apply (C78_moves gauss_inside [None; None; Some 0]); [exact gauss_inside_looks|discriminate]. }
  assert (W : well_formed (new_curve (0, 0) 1) gentle).
  { split; [discriminate|]. split; [apply C78_sized|].
    replace (cv_end (new_curve (0, 0) 1) :: _) with corners by (unfold corners; cbn; repeat f_equal; apply pt_eq; cbn; lra).
    apply C78_defined; try reflexivity; [exact gauss_inside_complete|cbn; lia|exact (ones 3)|exact (ones 3)|lra|lra|exact (corners_distinct false)|]. intros _ (L & _). discriminate. }
  split; [exact K|]. split; [reflexivity|]. split; [exact W|]. split; [apply C32_commands_terminate; [cbn; lra|exact W]|].
  intro fuel. apply C33_translate; [exact K|discriminate|reflexivity].
Qed.
