(** C78: smooth curves follow rigid motions; two limits of the code; examples. *)

From Coq Require Import Reals Lra Lia Psatz List ZArith Bool Arith.
From Verif Require Import Plane PlaneProofs Flex SpecFlex FlexProofs SpecRound PropFlexShape PropFlexEnds PropFlexRound Hobby Smooth SpecSmooth PropSmooth PropSmoothAhead PropSmoothDefined Gauss.
Import ListNotations.
Open Scope R_scope.

(** ** The arcs of smooth joints and ends *)

Theorem C78_pair : forall solve p q a b cs ce,
  hobby solve [p; q] [Some a; Some b] cs ce [1; 1] [1; 1] false = Some [hobby2 (p, q) (a, b)] /\
  (p <> q -> hobby_arc p q a b 1 1 (hobby2 (p, q) (a, b))).
Proof.
  intros solve p q a b cs ce.
  assert (E : hobby solve [p; q] [Some a; Some b] cs ce [1; 1] [1; 1] false = Some [controls p q (len (psub q p)) a b (a - along (psub q p)) (along (psub q p) - b) 1 1]).
  { unfold hobby. cbn [andb]. unfold hobby_open. set (t := along (psub q p)). change (solve_from _ _ _ _ _ _ _ _ 0) with (Some [(a - t, t - b)] : option (list (R * R))).
    change (segs [p; q]) with 1%nat. cbn [option_map map seq]. unfold w_angle. change (segs [p; q]) with 1%nat. cbn [Nat.ltb Nat.leb Nat.sub nth fst snd].
    change (delta [p; q] 0) with t. replace (t + (a - t)) with a by ring. replace (t - (t - b)) with b by ring. reflexivity. }
  assert (F : controls p q (len (psub q p)) a b (a - along (psub q p)) (along (psub q p) - b) 1 1 = hobby2 (p, q) (a, b)).
  { unfold controls, hobby2. cbn [fst snd]. replace (along (psub q p) + (a - along (psub q p))) with a by ring. replace (along (psub q p) - (along (psub q p) - b)) with b by ring.
    unfold out_len, in_len, hob_out, hob_in, alpha, hob_alpha, c_, hob_c. rewrite Rmult_1_r. reflexivity. }
  split; [rewrite E, F; reflexivity|]. intro N. rewrite <- F. apply controls_arc; [exact N|lra|lra| |].
  - replace (along (psub q p) + (a - along (psub q p))) with a by ring. apply same_dir_refl.
  - replace (along (psub q p) - (along (psub q p) - b)) with b by ring. apply same_dir_refl.
Qed.
Print Assumptions C78_pair.

(** ** Two limits *)

(** A smooth curve between two points without angles raises an exception, for the
    default curls and tensions. *)
Theorem C78_two_points_refuted : forall solve p q, strict solve -> hobby solve [p; q] [None; None] 1 1 [1; 1] [1; 1] false = None.
Proof.
  intros solve p q ST. unfold hobby. cbn [andb]. unfold hobby_open. change (segs [p; q]) with 1%nat. cbn [solve_from]. change (segs [p; q]) with 1%nat. cbn [Nat.ltb Nat.leb].
  change (piece_end [p; q] [None; None] 0) with 1%nat. unfold solve_piece. change (angle [None; None] 0) with (@None R). cbn [Nat.sub].
  rewrite ST; [reflexivity|]. intro G. assert (K : solves (2 * 1) (fun r => entry (open_row [p; q] [None; None] 1 1 [1; 1] [1; 1] 0 1 r)) (fun _ => 0) (fun _ => 1)).
  { intros r Hr. destruct r as [|[|r]]; [| |lia]; (rewrite total_row; [|nodup|cbn; intuition lia]); unfold rowsum, open_row, Smooth.at_, segs; cbn; ring. }
  pose proof (G _ K 0%nat ltac:(lia)). lra.
Qed.
Print Assumptions C78_two_points_refuted.

Definition on_line : list pt := [(0, 0); (1, 0); (2, 0)].
Lemma line_d k : (k < 2)%nat -> Smooth.d on_line k = 1 /\ delta on_line k = 0.
Proof.
  intro K. assert (V : v on_line k = smul 1 (cos 0, sin 0)).
  { rewrite cos_0, sin_0. destruct k as [|[|k]]; [| |lia]; unfold v, pos, on_line; cbn [nth]; apply pt_eq; unfold psub, smul; cbn [fst snd]; lra. }
  unfold Smooth.d, delta. rewrite V. split; [apply len_polar; lra|]. unfold along, smul. cbn [fst snd]. rewrite cos_0, sin_0, Rmult_0_r, Rmult_1_r.
  unfold atan2. replace (1 ^ 2 + 0 ^ 2) with 1 by ring. rewrite sqrt_1. destruct (Req_EM_T 1 0); [lra|]. destruct (Rle_dec 0 0); [|lra]. replace (1 / 1) with 1 by field. apply acos_1.
Qed.
Lemma line_second solve a c : sound solve -> hobby solve on_line [Some a; None; Some 0] 1 1 [1; 1; 1] [1; 1; 1] false = Some c ->
  fst (nth 1 c ((0, 0), (0, 0))) = padd (1, 0) (smul (hobby_f (- (a / 4)) 0) (cos (a / 4), - sin (a / 4))).
Proof.
  intros SS H. unfold hobby in H. cbn [andb] in H. unfold hobby_open in H. destruct (solve_from _ _ _ _ _ _ _ _ 0) as [s|] eqn:SF; [|discriminate].
  change (segs on_line) with 2%nat in *.
  destruct (solve_from_ok solve on_line [Some a; None; Some 0] 1 1 [1; 1; 1] [1; 1; 1] SS 2 0 s) as [LS PK]; [change (segs on_line) with 2%nat; lia|lia|now left|exact SF|].
  specialize (PK (fun k => fst (nth k s (0, 0))) (fun k => snd (nth k s (0, 0)))). destruct PK as [PO PI_ PT PC _ _]; [intros k _; rewrite Nat.sub_0_r; auto|].
  change (segs on_line) with 2%nat in *.
  pose proof (PO 0%nat a ltac:(lia) eq_refl) as T0. pose proof (PI_ 2%nat 0 ltac:(lia) eq_refl) as P1. pose proof (PT 0%nat ltac:(lia) ltac:(lia) eq_refl) as T1. pose proof (PC 0%nat ltac:(lia) ltac:(lia) eq_refl) as C.
  cbv beta in *. cbn [Nat.sub] in P1. unfold psi in T1. destruct (line_d 0 ltac:(lia)) as [D0 E0]. destruct (line_d 1 ltac:(lia)) as [D1 E1].
  unfold curv in C. unfold Smooth.at_ in C. cbn [nth] in C. rewrite ?D0, ?D1, ?E0, ?E1 in *.
  assert (W : wrap (0 - 0) = 0).
  { unfold wrap. pose proof PI_RGT_0. replace ((0 - 0 + PI) / (2 * PI)) with (/ 2) by (field; lra).
    assert (Z : Int_part (/ 2) = 0%Z). { destruct (base_Int_part (/ 2)) as [A B]. assert (Z1 : IZR (Int_part (/ 2)) < 1) by lra. assert (Z2 : -1 < IZR (Int_part (/ 2))) by lra. apply lt_IZR in Z1. apply lt_IZR in Z2. lia. }
    rewrite Z. ring. }
  rewrite W in T1. set (t0 := fst (nth 0 s (0, 0))) in *. set (p0 := snd (nth 0 s (0, 0))) in *. set (t1 := fst (nth 1 s (0, 0))) in *. set (p1 := snd (nth 1 s (0, 0))) in *.
  assert (X1 : t1 = - (a / 4)) by lra. assert (X2 : p1 = 0) by lra.
  injection H as <-. cbn [seq map nth]. unfold controls. cbn [fst]. unfold w_angle. change (segs on_line) with 2%nat. cbn [Nat.ltb Nat.leb]. fold t1 p1. rewrite X1, X2, E1, D1.
  unfold Smooth.at_. cbn [nth]. rewrite out_f by lra. change (1 <? 2)%nat with true. cbv iota. replace (0 + - (a / 4)) with (- (a / 4)) by ring. rewrite cos_neg, sin_neg. unfold pos, on_line. cbn [nth]. unfold Rdiv. rewrite Rinv_1. f_equal. f_equal. ring.
Qed.
Lemma line_distinct : distinct_points false on_line.
Proof.
  intros k K [E|K2]; [discriminate|]. cbn in K2. rewrite Nat.mod_small by (cbn; lia). destruct k as [|[|k]]; [| |lia]; cbn; intro E; injection E; lra.
Qed.
Lemma ones k x : In x (repeat 1 k) -> 2 / 3 < x.
Proof. intro I. apply repeat_spec in I. lra. Qed.
(** Angles are not reduced: adding a full turn to the direction at the first of three
    points on a line changes the direction at the second by a quarter turn. *)
Theorem C78_turn_refuted : forall solve, sound solve -> complete solve -> exists c c',
  hobby solve on_line [Some 0; None; Some 0] 1 1 [1; 1; 1] [1; 1; 1] false = Some c /\
  hobby solve on_line [Some (2 * PI); None; Some 0] 1 1 [1; 1; 1] [1; 1; 1] false = Some c' /\
  (exists L, 0 < L /\ fst (nth 1 c ((0, 0), (0, 0))) = (1 + L, 0)) /\ (exists L, 0 < L /\ fst (nth 1 c' ((0, 0), (0, 0))) = (1, - L)).
Proof.
  intros solve SS SC.
  assert (D : forall a, hobby solve on_line [Some a; None; Some 0] 1 1 [1; 1; 1] [1; 1; 1] false <> None).
  { intro a. apply C78_defined; try reflexivity; [exact SC|cbn; lia|exact (ones 3)|exact (ones 3)|lra|lra|exact line_distinct|]. intros _ (L & _). discriminate. }
  destruct (hobby solve on_line [Some 0; _; _] _ _ _ _ _) as [c|] eqn:C; [|exfalso; exact (D 0 C)].
  destruct (hobby solve on_line [Some (2 * PI); _; _] _ _ _ _ _) as [c'|] eqn:C'; [|exfalso; exact (D (2 * PI) C')].
  exists c, c'. split; [reflexivity|]. split; [reflexivity|]. apply line_second in C; [|exact SS]. apply line_second in C'; [|exact SS]. split.
  - exists (hobby_f (- (0 / 4)) 0). split; [apply ahead; replace (- (0 / 4)) with 0 by field; rewrite cos_0; lra|]. rewrite C. replace (0 / 4) with 0 by field.
    rewrite cos_0, sin_0. apply pt_eq; unfold padd, smul; cbn [fst snd]; ring.
  - exists (hobby_f (- (2 * PI / 4)) 0). split; [apply ahead; rewrite cos_0; lra|]. rewrite C'. replace (2 * PI / 4) with (PI / 2) by field.
    rewrite cos_PI2, sin_PI2. apply pt_eq; unfold padd, smul; cbn [fst snd]; ring.
Qed.
Print Assumptions C78_turn_refuted.

(** ** Examples *)

(** Three corners of a square; [gauss] solves the equations. *)
Definition corners : list pt := [(0, 0); (1, 0); (1, 1)].
Lemma corners_distinct cycle : distinct_points cycle corners.
Proof.
  intros k K _. cbn in K. destruct k as [|[|[|k]]]; [| | |lia]; cbn; intro E; injection E; lra.
Qed.
Example C78_case : exists c, hobby gauss corners [None; None; None] 1 1 [1; 1; 1] [1; 1; 1] false = Some c /\ length c = 2%nat /\
  exists a th ph, spline 2 (fun k => nth k corners (0, 0)) (fun k => nth k [1; 1; 1] 0) (fun k => nth k [1; 1; 1] 0) (fun k => nth k c ((0, 0), (0, 0))) a th ph /\
    joined (fun k => nth k corners (0, 0)) (fun k => nth k [1; 1; 1] 0) (fun k => nth k [1; 1; 1] 0) th ph 0.
Proof.
  assert (D : hobby gauss corners [None; None; None] 1 1 [1; 1; 1] [1; 1; 1] false <> None).
  { apply C78_defined; try reflexivity; [exact gauss_complete|cbn; lia|exact (ones 3)|exact (ones 3)|lra|lra|exact (corners_distinct false)|]. intros _ (L & _). discriminate. }
  destruct (hobby gauss corners _ _ _ _ _ _) as [c|] eqn:C; [|contradiction]. exists c. split; [reflexivity|].
  destruct (C78_open gauss corners [None; None; None] 1 1 [1; 1; 1] [1; 1; 1] c gauss_sound) as (L & a & th & ph & SP & _ & J & _); try exact C; try reflexivity; try (cbn; lia).
  - intros x I. apply (ones 3) in I. lra.
  - intros x I. apply (ones 3) in I. lra.
  - exact (distinct_open corners (corners_distinct false)).
  - split; [exact L|]. exists a, th, ph. split; [exact SP|]. apply J; [cbn; lia|reflexivity].
Qed.
Example C78_closed_case : exists c, hobby gauss corners [None; Some 0; None] 1 1 [1; 1; 1] [1; 1; 1] true = Some c /\ length c = 3%nat /\
  exists L, 0 < L /\ fst (nth 1 c ((0, 0), (0, 0))) = (1 + L, 0).
Proof.
  assert (D : hobby gauss corners [None; Some 0; None] 1 1 [1; 1; 1] [1; 1; 1] true <> None).
  { apply C78_defined; try reflexivity; [exact gauss_complete|cbn; lia|exact (ones 3)|exact (ones 3)|lra|lra|exact (corners_distinct true)|]. discriminate. }
  destruct (hobby gauss corners _ _ _ _ _ _) as [c|] eqn:C; [|contradiction]. exists c. split; [reflexivity|].
  destruct (C78_closed gauss corners [None; Some 0; None] 1 1 [1; 1; 1] [1; 1; 1] c gauss_sound) as (L & a & th & ph & SP & _ & _ & _ & G & J); try exact C; try reflexivity; try (cbn; lia).
  - intros x I. apply (ones 3) in I. lra.
  - intros x I. apply (ones 3) in I. lra.
  - intros k K. apply (corners_distinct true k K). now left.
  - split; [exact L|]. pose proof (G 1%nat 0 ltac:(cbn; lia) eq_refl) as A.
    destruct (C78_ahead _ _ _ _ _ _ _ _ 1%nat SP) as (M & N & PM & _ & E & _); cbn; try lia; try lra.
    + intro X. injection X. lra.
    + intros [B _]. assert (H : heads (1, 0) (1, 1) (PI / 2)).
      { unfold heads, apart. cbn [fst snd]. replace ((1 - 1) ^ 2 + (1 - 0) ^ 2) with 1 by ring. rewrite sqrt_1, cos_PI2, sin_PI2. apply pt_eq; unfold psub, smul; cbn [fst snd]; ring. }
      destruct (same_dir_trans _ _ _ (same_dir_sym _ _ A) (B _ H)) as [X _]. rewrite cos_0, cos_plus, cos_PI2, cos_PI, sin_PI2, sin_PI in X. lra.
    + exists M. split; [exact PM|]. cbn in E. rewrite E. destruct A as [-> ->]. rewrite cos_0, sin_0. apply pt_eq; unfold padd, smul; cbn [fst snd]; ring.
Qed.
