(** C87: rounding errors in hierarchies. *)

From Coq Require Import Reals Lra Lia List ZArith Bool Psatz Ratan.
From Verif Require Import Graph SpecGraph GraphProofs Plane SpecPlane PlaneProofs Hier SpecHier HierProofs HierQuery PropHier PropQuery
  Cache CacheProofs Copy PropCopy Grid SpecGrid PropGrid Machine SpecMachine.
Import ListNotations.
Open Scope R_scope.

(** ** Norms *)
Lemma norm_nonneg p : 0 <= norm p. Proof. apply sqrt_pos. Qed.
Lemma norm_sq p : norm p * norm p = fst p * fst p + snd p * snd p.
Proof. apply sqrt_sqrt. nra. Qed.
Lemma norm_le p s : 0 <= s -> fst p * fst p + snd p * snd p <= s * s -> norm p <= s.
Proof. intros S H. pose proof (norm_nonneg p). pose proof (norm_sq p). apply Rnot_lt_le; intro L. nra. Qed.
Lemma norm_add p q : norm (padd p q) <= norm p + norm q.
Proof.
  pose proof (norm_nonneg p). pose proof (norm_nonneg q). pose proof (norm_sq p). pose proof (norm_sq q).
  apply norm_le; [lra|]. unfold padd; cbn [fst snd].
  set (a := norm p) in *. set (b := norm q) in *. clearbody a b. destruct p as [x y], q as [z w]; cbn [fst snd] in *.
  assert (x * z + y * w <= a * b); [|nra].
  assert (G : (x * z + y * w) * (x * z + y * w) <= (a * b) * (a * b)).
  { replace ((a * b) * (a * b)) with ((x * x + y * y) * (z * z + w * w)) by (rewrite <- H1, <- H2; ring).
    pose proof (Rle_0_sqr (x * w - y * z)) as Q. unfold Rsqr in Q. lra. }
  assert (0 <= a * b) by nra. apply Rnot_lt_le; intro L. nra.
Qed.
Lemma norm_smul k p : norm (smul k p) = Rabs k * norm p.
Proof.
  unfold norm, smul; cbn [fst snd]. replace (k * fst p * (k * fst p) + k * snd p * (k * snd p)) with (Rsqr k * (fst p * fst p + snd p * snd p)) by (unfold Rsqr; ring).
  rewrite sqrt_mult by (unfold Rsqr; nra). now rewrite sqrt_Rsqr_abs.
Qed.
Lemma norm_fst p : Rabs (fst p) <= norm p.
Proof. pose proof (norm_nonneg p). pose proof (norm_sq p). apply Rabs_le. split; nra. Qed.
Lemma norm_snd p : Rabs (snd p) <= norm p.
Proof. pose proof (norm_nonneg p). pose proof (norm_sq p). apply Rabs_le. split; nra. Qed.
Lemma norm_coords p d : Rabs (fst p) <= d -> Rabs (snd p) <= d -> norm p <= 2 * d.
Proof.
  intros A B. pose proof (Rabs_pos (fst p)). pose proof (Rabs_pos (snd p)). apply norm_le; [lra|].
  assert (fst p * fst p <= d * d) by (pose proof (Rle_abs (fst p)); pose proof (Rle_abs (- fst p)); rewrite Rabs_Ropp in *; nra).
  assert (snd p * snd p <= d * d) by (pose proof (Rle_abs (snd p)); pose proof (Rle_abs (- snd p)); rewrite Rabs_Ropp in *; nra).
  nra.
Qed.
Lemma norm_turn t p : norm (turn t p) = norm p.
Proof.
  unfold norm. f_equal. unfold turn; cbn [fst snd]. pose proof (sin2_cos2 t) as E. unfold Rsqr in E.
  transitivity ((fst p * fst p + snd p * snd p) * (sin t * sin t + cos t * cos t)); [ring|rewrite E; ring].
Qed.
Lemma turn_sub t p q : psub (turn t p) (turn t q) = turn t (psub p q).
Proof. unfold psub, turn; cbn [fst snd]. f_equal; ring. Qed.
Lemma norm_flip b p : norm (flip b p) = norm p.
Proof. unfold flip. destruct b; [|reflexivity]. unfold norm; cbn [fst snd]. f_equal. ring. Qed.
Lemma flip_sub b p q : psub (flip b p) (flip b q) = flip b (psub p q).
Proof. unfold psub, flip. destruct b; cbn [fst snd]; [f_equal; ring|reflexivity]. Qed.

(** ** Sines *)
Lemma sin_small x : Rabs (sin x) <= Rabs x.
Proof.
  destruct (Rtotal_order x 0) as [H|[->|H]].
  - pose proof (sin_lt_x (- x) ltac:(lra)) as A. rewrite sin_neg in A. pose proof (sin_gt_x x H) as B.
    destruct (Rle_dec 0 (sin x)).
    + rewrite Rabs_pos_eq by lra. rewrite Rabs_left by lra. 
      destruct (Rle_dec (- x) 1).
      * assert (sin x < 0); [|lra]. apply sin_lt_0_var; pose proof PI2_1; lra.
      * pose proof (SIN_bound x). lra.
    + rewrite !Rabs_left by lra. lra.
  - rewrite sin_0. lra.
  - pose proof (sin_lt_x x H) as A. rewrite (Rabs_pos_eq x) by lra. destruct (Rle_dec 0 (sin x)).
    + rewrite Rabs_pos_eq by lra. lra.
    + rewrite Rabs_left by lra. destruct (Rle_dec x 1).
      * assert (0 < sin x); [|lra]. apply sin_gt_0; pose proof PI2_1; lra.
      * pose proof (SIN_bound x). lra.
Qed.
Lemma cos_lip x y : Rabs (cos x - cos y) <= Rabs (x - y).
Proof.
  rewrite form2. rewrite !Rabs_mult. pose proof (sin_small ((x - y) / 2)) as A.
  assert (B : Rabs (sin ((x + y) / 2)) <= 1) by (apply Rabs_le; apply SIN_bound).
  replace (Rabs (-2)) with 2 by (rewrite Rabs_left; lra).
  replace (Rabs ((x - y) / 2)) with (Rabs (x - y) / 2) in A by (unfold Rdiv; rewrite Rabs_mult, (Rabs_pos_eq (/ 2)); lra).
  pose proof (Rabs_pos (sin ((x - y) / 2))). pose proof (Rabs_pos (sin ((x + y) / 2))). nra.
Qed.
Lemma sin_lip x y : Rabs (sin x - sin y) <= Rabs (x - y).
Proof.
  rewrite form4. rewrite !Rabs_mult. pose proof (sin_small ((x - y) / 2)) as A.
  assert (B : Rabs (cos ((x + y) / 2)) <= 1) by (apply Rabs_le; apply COS_bound).
  replace (Rabs 2) with 2 by (rewrite Rabs_pos_eq; lra).
  replace (Rabs ((x - y) / 2)) with (Rabs (x - y) / 2) in A by (unfold Rdiv; rewrite Rabs_mult, (Rabs_pos_eq (/ 2)); lra).
  pose proof (Rabs_pos (sin ((x - y) / 2))). pose proof (Rabs_pos (cos ((x + y) / 2))). nra.
Qed.

(** ** Single operations *)
Definition U : R := / 2 ^ 53.
Lemma U_pos : 0 < U. Proof. unfold U. apply Rinv_0_lt_compat. apply pow_lt. lra. Qed.
Lemma U_small : U <= / 1000000.
Proof. unfold U. apply Rinv_le_contravar; [lra|]. simpl. lra. Qed.
Lemma U_52 : / 2 ^ 52 = 2 * U. Proof. unfold U. simpl. field. Qed.
Lemma U_46 : / 2 ^ 46 = 128 * U. Proof. unfold U. simpl. field. Qed.
Lemma U_45 : / 2 ^ 45 = 256 * U. Proof. unfold U. simpl. field. Qed.
Lemma tiny_pos : 0 < tiny. Proof. unfold tiny. apply Rinv_0_lt_compat. apply pow_lt. lra. Qed.
Lemma tiny_one : tiny <= 1.
Proof. unfold tiny. rewrite <- Rinv_1. apply Rinv_le_contravar; [lra|]. apply pow_R1_Rle. lra. Qed.
Lemma rounds_le x y m : rounds x y -> Rabs x <= m -> tiny <= m -> Rabs (y - x) <= U * m.
Proof.
  unfold rounds. fold U. intros H A B. pose proof U_pos. apply (Rle_trans _ _ _ H).
  apply Rmult_le_compat_l; [lra|]. now apply Rmax_lub.
Qed.

(** A rounded step: [q'] is the exact image of the point reached so far, [r] is what is
    computed. *)
Lemma step_error A e d (q q' r : pt) : 0 <= A -> norm (psub q' q) <= e * A ->
  Rabs (fst r - fst q') <= d * ((1 + e) * A) -> Rabs (snd r - snd q') <= d * ((1 + e) * A) ->
  norm (psub r q) <= ((1 + e) * (1 + 2 * d) - 1) * A.
Proof.
  intros HA H1 H2 H3.
  assert (N : norm (psub r q') <= 2 * (d * ((1 + e) * A))) by (apply norm_coords; assumption).
  pose proof (norm_add (psub r q') (psub q' q)) as T.
  replace (padd (psub r q') (psub q' q)) with (psub r q) in T by (unfold padd, psub; cbn [fst snd]; f_equal; ring).
  lra.
Qed.
Lemma near_norm A e q q' : norm q <= A -> norm (psub q' q) <= e * A -> norm q' <= (1 + e) * A.
Proof.
  intros H1 H2. pose proof (norm_add (psub q' q) q) as T.
  replace (padd (psub q' q) q) with q' in T by (destruct q'; unfold padd, psub; cbn [fst snd]; f_equal; ring). lra.
Qed.

Section Errors.
Variable a : arith.
Hypothesis MA : machine a.
Lemma Rmul x y : rounds (x * y) (mul a x y). Proof. apply MA. Qed.
Lemma Radd x y : rounds (x + y) (add a x y). Proof. apply MA. Qed.

Lemma madd_error A e p' p v : norm (padd p v) <= A -> tiny <= A -> 0 <= e ->
  norm (psub p' p) <= e * A -> norm (psub (madd a p' v) (padd p v)) <= ((1 + e) * (1 + 2 * U) - 1) * A.
Proof.
  intros N T E H. pose proof tiny_pos. pose proof U_pos.
  assert (H' : norm (psub (padd p' v) (padd p v)) <= e * A).
  { replace (psub (padd p' v) (padd p v)) with (psub p' p); [exact H|]. unfold padd, psub; cbn [fst snd]; f_equal; ring. }
  pose proof (near_norm _ _ _ _ N H') as B. pose proof (norm_fst (padd p' v)). pose proof (norm_snd (padd p' v)).
  apply (step_error _ _ _ _ (padd p' v)); [lra|exact H'| |]; unfold madd, padd; cbn [fst snd]; (apply rounds_le; [apply Radd| |]);
    unfold padd in *; cbn [fst snd] in *; try lra; nra.
Qed.
Lemma mmul_error A e p' p k : norm (smul k p) <= A -> tiny <= A -> 0 <= e ->
  norm (psub (smul k p') (smul k p)) <= e * A -> norm (psub (mmul a p' (k, k)) (smul k p)) <= ((1 + e) * (1 + 2 * U) - 1) * A.
Proof.
  intros N T E H. pose proof tiny_pos. pose proof U_pos.
  pose proof (near_norm _ _ _ _ N H) as B. pose proof (norm_fst (smul k p')). pose proof (norm_snd (smul k p')).
  apply (step_error _ _ _ _ (smul k p')); [lra|exact H| |]; unfold mmul, smul; cbn [fst snd];
    (rewrite (Rmult_comm k); apply rounds_le; [apply Rmul| |]);
    unfold smul in *; cbn [fst snd] in *; try rewrite (Rmult_comm _ k); try lra; nra.
Qed.
Lemma mrefl_error A e p' p b : norm p <= A -> tiny <= A -> 0 <= e ->
  norm (psub p' p) <= e * A -> norm (psub (m_refl a b p') (flip b p)) <= ((1 + e) * (1 + 2 * U) - 1) * A.
Proof.
  intros N T E H. pose proof tiny_pos. pose proof U_pos. unfold m_refl.
  pose proof (near_norm _ _ _ _ N H) as B. pose proof (norm_fst p'). pose proof (norm_snd p').
  assert (H' : norm (psub (flip b p') (flip b p)) <= e * A) by (rewrite flip_sub, norm_flip; exact H).
  assert (Z : 0 <= U * ((1 + e) * A)) by (apply Rmult_le_pos; [lra|]; apply Rmult_le_pos; lra).
  apply (step_error _ _ _ _ (flip b p')); [lra|exact H'| |]; destruct b; unfold mmul, flip; cbn [fst snd].
  - replace (fst p') with (fst p' * 1) at 2 by ring. apply rounds_le; [apply Rmul| |]; rewrite ?Rmult_1_r; nra.
  - rewrite Rminus_eq_0, Rabs_R0. exact Z.
  - replace (- snd p') with (snd p' * -1) by ring. apply rounds_le; [apply Rmul| |]; [replace (snd p' * -1) with (- snd p') by ring; rewrite Rabs_Ropp|]; nra.
  - rewrite Rminus_eq_0, Rabs_R0. exact Z.
Qed.
(** One coordinate of a rotation. *)
Lemma dot_error x y c s c' s' m : Rabs x <= m -> Rabs y <= m -> tiny <= m -> Rabs c <= 1 -> Rabs s <= 1 -> Rabs (x * c + y * s) <= m ->
  Rabs (c' - c) <= 24 * U -> Rabs (s' - s) <= 27 * U ->
  Rabs (add a (mul a x c') (mul a y s') - (x * c + y * s)) <= 56 * U * m.
Proof.
  intros X Y T C S XY C' S'. pose proof tiny_pos. pose proof U_pos. pose proof U_small.
  assert (L : forall x c c', Rabs x <= m -> Rabs c <= 1 -> Rabs (c' - c) <= 27 * U -> Rabs (mul a x c' - x * c) <= Rabs (c' - c) * m + U * ((1 + 27 * U) * m)).
  { clear - H0 T MA H. intros x c c' X C C'.
    replace (mul a x c' - x * c) with (x * (c' - c) + (mul a x c' - x * c')) by ring.
    apply (Rle_trans _ _ _ (Rabs_triang _ _)). rewrite Rabs_mult. apply Rplus_le_compat.
    - rewrite Rmult_comm. apply Rmult_le_compat_l; [apply Rabs_pos|exact X].
    - apply rounds_le; [apply Rmul| |nra]. rewrite Rabs_mult.
      assert (Rabs c' <= 1 + 27 * U) by (replace c' with (c + (c' - c)) by ring; apply (Rle_trans _ _ _ (Rabs_triang _ _)); lra).
      rewrite (Rmult_comm _ m). apply Rmult_le_compat; auto using Rabs_pos. }
  pose proof (L x c c' X C ltac:(lra)) as L1. pose proof (L y s s' Y S ltac:(lra)) as L2.
  assert (M : 0 <= m) by lra. assert (UM : 0 <= U * m) by (apply Rmult_le_pos; lra).
  assert (UU : U * ((1 + 27 * U) * m) <= 1.01 * U * m) by (assert (U * U * m <= / 1000000 * U * m) by (apply Rmult_le_compat_r; [lra|]; apply Rmult_le_compat_r; lra); lra).
  assert (W : Rabs (mul a x c' + mul a y s' - (x * c + y * s)) <= 53.02 * U * m).
  { replace (mul a x c' + mul a y s' - (x * c + y * s)) with ((mul a x c' - x * c) + (mul a y s' - y * s)) by ring.
    apply (Rle_trans _ _ _ (Rabs_triang _ _)).
    assert (Rabs (c' - c) * m <= 24 * U * m) by (apply Rmult_le_compat_r; lra).
    assert (Rabs (s' - s) * m <= 27 * U * m) by (apply Rmult_le_compat_r; lra). lra. }
  assert (V : Rabs (mul a x c' + mul a y s') <= 1.01 * m).
  { replace (mul a x c' + mul a y s') with ((mul a x c' + mul a y s' - (x * c + y * s)) + (x * c + y * s)) by ring.
    apply (Rle_trans _ _ _ (Rabs_triang _ _)).
    assert (U * m <= / 1000000 * m) by (apply Rmult_le_compat_r; lra). lra. }
  replace (add a (mul a x c') (mul a y s') - (x * c + y * s)) with
    ((add a (mul a x c') (mul a y s') - (mul a x c' + mul a y s')) + (mul a x c' + mul a y s' - (x * c + y * s))) by ring.
  apply (Rle_trans _ _ _ (Rabs_triang _ _)).
  pose proof (rounds_le _ _ (1.01 * m) (Radd (mul a x c') (mul a y s')) V ltac:(lra)). lra.
Qed.
Lemma sign_error s s' k : Rabs s <= 1 -> Rabs (s' - s) <= 24 * U -> k = 1 \/ k = -1 -> Rabs (mul a s' k - s * k) <= 27 * U.
Proof.
  intros S S' K. pose proof U_pos. pose proof U_small. pose proof tiny_one.
  assert (K1 : Rabs k = 1) by (destruct K as [-> | ->]; [apply Rabs_R1|rewrite Rabs_left; lra]).
  assert (B : Rabs (s' * k) <= 2).
  { rewrite Rabs_mult, K1, Rmult_1_r. replace s' with (s + (s' - s)) by ring. apply (Rle_trans _ _ _ (Rabs_triang _ _)). lra. }
  pose proof (rounds_le _ _ 2 (Rmul s' k) B ltac:(lra)) as D.
  replace (mul a s' k - s * k) with ((mul a s' k - s' * k) + (s' - s) * k) by ring.
  apply (Rle_trans _ _ _ (Rabs_triang _ _)). rewrite (Rabs_mult (s' - s)), K1. lra.
Qed.
Lemma mturn_error A e p' p t c' s' : norm p <= A -> tiny <= A -> 0 <= e -> norm (psub p' p) <= e * A ->
  Rabs (c' - cos t) <= 24 * U -> Rabs (s' - sin t) <= 24 * U ->
  norm (psub (mturn a c' s' p') (turn t p)) <= ((1 + e) * (1 + 112 * U) - 1) * A.
Proof.
  intros N T E H C S. pose proof tiny_pos. pose proof U_pos.
  pose proof (near_norm _ _ _ _ N H) as B. pose proof (norm_fst p'). pose proof (norm_snd p').
  assert (H' : norm (psub (turn t p') (turn t p)) <= e * A) by (rewrite turn_sub, norm_turn; exact H).
  assert (B' : norm (turn t p') <= (1 + e) * A) by (rewrite norm_turn; exact B).
  pose proof (norm_fst (turn t p')) as F. pose proof (norm_snd (turn t p')) as G.
  assert (C1 : Rabs (cos t) <= 1) by (apply Rabs_le; apply COS_bound). assert (S1 : Rabs (sin t) <= 1) by (apply Rabs_le; apply SIN_bound).
  assert (TM : tiny <= (1 + e) * A) by nra.
  replace (112 * U) with (2 * (56 * U)) by ring.
  apply (step_error _ _ _ _ (turn t p')); [lra|exact H'| |]; unfold mturn, madd, mmul, turn in *; cbn [fst snd] in *.
  - replace (fst p' * cos t - snd p' * sin t) with (fst p' * cos t + snd p' * (sin t * -1)) in * by ring.
    apply dot_error; try lra; [rewrite Rabs_mult, (Rabs_left (-1)) by lra; lra|]. apply sign_error; auto.
  - replace (fst p' * sin t + snd p' * cos t) with (snd p' * cos t + fst p' * (sin t * 1)) in * by ring.
    apply dot_error; try lra; [rewrite Rmult_1_r; lra|]. apply sign_error; auto.
Qed.
(** The angle. *)
Lemma radians_error d : Rabs d <= 360 -> Rabs (radians a d - d * PI / 180) <= 22 * U.
Proof.
  intros D. destruct MA as (M1 & M2 & M3 & _ & _ & MP). rewrite U_52 in MP. pose proof U_pos. pose proof U_small. pose proof tiny_one.
  pose proof PI_4. pose proof PI_RGT_0.
  assert (P : Rabs (pim a) <= 4 + 2 * U).
  { replace (pim a) with ((pim a - PI) + PI) by ring. apply (Rle_trans _ _ _ (Rabs_triang _ _)). rewrite (Rabs_pos_eq PI); lra. }
  assert (B : Rabs (d * pim a) <= 1441) by (rewrite Rabs_mult; pose proof (Rabs_pos d); pose proof (Rabs_pos (pim a)); nra).
  pose proof (rounds_le _ _ _ (M1 d (pim a)) B ltac:(lra)) as E1. set (m := mul a d (pim a)) in *.
  assert (E2 : Rabs (m - d * PI) <= 2161 * U).
  { replace (m - d * PI) with ((m - d * pim a) + d * (pim a - PI)) by ring. apply (Rle_trans _ _ _ (Rabs_triang _ _)).
    rewrite (Rabs_mult d). pose proof (Rabs_pos d). pose proof (Rabs_pos (pim a - PI)). nra. }
  assert (E3 : Rabs (m / 180 - d * PI / 180) <= 12.1 * U).
  { replace (m / 180 - d * PI / 180) with ((m - d * PI) * / 180) by field. rewrite Rabs_mult, (Rabs_pos_eq (/ 180)) by lra. lra. }
  assert (B3 : Rabs (m / 180) <= 9).
  { unfold Rdiv. rewrite Rabs_mult, (Rabs_pos_eq (/ 180)) by lra.
    assert (Rabs m <= 1442) by (replace m with ((m - d * pim a) + d * pim a) by ring; apply (Rle_trans _ _ _ (Rabs_triang _ _)); lra). lra. }
  pose proof (rounds_le _ _ _ (M3 m 180 ltac:(lra)) B3 ltac:(lra)) as E4. unfold radians. fold m.
  replace (div a m 180 - d * PI / 180) with ((div a m 180 - m / 180) + (m / 180 - d * PI / 180)) by ring.
  apply (Rle_trans _ _ _ (Rabs_triang _ _)). lra.
Qed.
Lemma mrot_error A e p' p pl : norm p <= A -> tiny <= A -> 0 <= e -> norm (psub p' p) <= e * A ->
  match p_rot pl with Some d => Rabs d <= 360 | None => True end ->
  norm (psub (m_rot a (p_rot pl) p') (turn (angle pl) p)) <= ((1 + e) * (1 + 112 * U) - 1) * A.
Proof.
  intros N T E H D. pose proof tiny_pos. pose proof U_pos. unfold m_rot, angle. destruct (p_rot pl) as [d|].
  - destruct MA as (_ & _ & _ & MC & MS & _). pose proof (radians_error d D) as R. apply mturn_error; auto.
    + replace (cosm a (radians a d) - cos (d * PI / 180)) with ((cosm a (radians a d) - cos (radians a d)) + (cos (radians a d) - cos (d * PI / 180))) by ring.
      apply (Rle_trans _ _ _ (Rabs_triang _ _)). pose proof (cos_lip (radians a d) (d * PI / 180)). pose proof (MC (radians a d)) as Q. rewrite U_52 in Q. lra.
    + replace (sinm a (radians a d) - sin (d * PI / 180)) with ((sinm a (radians a d) - sin (radians a d)) + (sin (radians a d) - sin (d * PI / 180))) by ring.
      apply (Rle_trans _ _ _ (Rabs_triang _ _)). pose proof (sin_lip (radians a d) (d * PI / 180)). pose proof (MS (radians a d)) as Q. rewrite U_52 in Q. lra.
  - assert (turn 0 p = p) as ->. { destruct p; unfold turn; cbn [fst snd]. rewrite cos_0, sin_0. f_equal; ring. } 
    apply (Rle_trans _ _ _ H). apply Rmult_le_compat_r; [lra|]. assert (0 <= e * U) by (apply Rmult_le_pos; lra). lra.
Qed.

(** ** One instance *)
Definition m_inst (x : inst) : pt -> pt :=
  match p_arr (fst x) with
  | None => m_ref a (fst x)
  | Some (_, _, sp) => m_arr a (fst x) (mmul a sp (INR (fst (snd x)), INR (snd (snd x))))
  end.
Definition off (A f : R) (p' p : pt) : Prop := 1 <= f /\ norm (psub p' p) <= (f - 1) * A.
Lemma off_more A f g p' p : 0 <= A -> f <= g -> off A f p' p -> off A g p' p.
Proof. intros HA L [F H]. split; [lra|]. apply (Rle_trans _ _ _ H). apply Rmult_le_compat_r; lra. Qed.
Lemma off_step A f k p' p : 1 <= f -> 0 <= k -> norm (psub p' p) <= ((1 + (f - 1)) * (1 + k) - 1) * A -> off A (f * (1 + k)) p' p.
Proof. intros F K H. split; [nra|]. replace (f * (1 + k) - 1) with ((1 + (f - 1)) * (1 + k) - 1) by ring. exact H. Qed.
Lemma off_add A f p' p v : norm (padd p v) <= A -> tiny <= A -> off A f p' p -> off A (f * (1 + 2 * U)) (madd a p' v) (padd p v).
Proof. intros N T [F H]. pose proof U_pos. apply off_step; [lra|lra|]. apply madd_error; auto; lra. Qed.
Lemma off_refl A f p' p b : norm p <= A -> tiny <= A -> off A f p' p -> off A (f * (1 + 2 * U)) (m_refl a b p') (flip b p).
Proof. intros N T [F H]. pose proof U_pos. apply off_step; [lra|lra|]. apply mrefl_error; auto; lra. Qed.
Lemma off_rot A f p' p pl : norm p <= A -> tiny <= A -> match p_rot pl with Some d => Rabs d <= 360 | None => True end ->
  off A f p' p -> off A (f * (1 + 112 * U)) (m_rot a (p_rot pl) p') (turn (angle pl) p).
Proof. intros N T D [F H]. pose proof U_pos. apply off_step; [lra|lra|]. apply mrot_error; auto; lra. Qed.
Lemma off_org A f p' p pl : norm (padd p (origin pl)) <= A -> tiny <= A -> off A f p' p ->
  off A (f * (1 + 2 * U)) (m_org a (p_org pl) p') (padd (origin pl) p).
Proof.
  intros N T [F H]. pose proof U_pos. pose proof tiny_pos. unfold m_org, origin in *. destruct (p_org pl) as [o|].
  - replace (padd o p) with (padd p o) by (unfold padd; f_equal; ring). apply off_add; auto. split; assumption.
  - replace (padd (0, 0) p) with p by (destruct p; unfold padd; cbn [fst snd]; f_equal; ring).
    apply (off_more A f); [lra|nra|split; assumption].
Qed.
Lemma off_mag A s f p' p pl : Rabs (factor pl) * s <= A -> norm p <= s -> tiny <= A -> 0 <= s -> off s f p' p ->
  off A (f * (1 + 2 * U)) (m_mag a (p_mag pl) p') (smul (factor pl) p).
Proof.
  intros N S T S0 [F H]. pose proof U_pos. pose proof tiny_pos. set (k := factor pl) in *. pose proof (Rabs_pos k).
  assert (H' : norm (psub (smul k p') (smul k p)) <= (f - 1) * A).
  { replace (psub (smul k p') (smul k p)) with (smul k (psub p' p)) by (unfold psub, smul; cbn [fst snd]; f_equal; ring).
    rewrite norm_smul. apply (Rle_trans _ (Rabs k * ((f - 1) * s))); [apply Rmult_le_compat_l; lra|].
    replace (Rabs k * ((f - 1) * s)) with ((f - 1) * (Rabs k * s)) by ring. apply Rmult_le_compat_l; lra. }
  assert (N' : norm (smul k p) <= A).
  { rewrite norm_smul. apply (Rle_trans _ (Rabs k * s)); [apply Rmult_le_compat_l; lra|exact N]. }
  unfold m_mag. unfold k, factor in *. destruct (p_mag pl) as [m|].
  - apply off_step; [lra|lra|]. apply mmul_error; auto; lra.
  - replace (smul 1 p') with p' in H' by (destruct p'; unfold smul; cbn [fst snd]; f_equal; ring).
    apply (off_more A f); [lra|nra|split; assumption].
Qed.
Lemma factors f : 1 <= f -> f * (1 + 2 * U) * (1 + 2 * U) * (1 + 2 * U) * (1 + 112 * U) * (1 + 2 * U) * (1 + 2 * U) <= f * (1 + 128 * U).
Proof.
  intro F. pose proof U_pos. pose proof U_small.
  assert (S : forall x, 0 <= x <= 2 -> x * (1 + 2 * U) <= x + 4 * U) by (intros; nra).
  assert (H1 : (1 + 2 * U) * (1 + 2 * U) <= 1 + 4.01 * U) by nra.
  assert (H2 : (1 + 4.01 * U) * (1 + 2 * U) <= 1 + 6.02 * U) by nra.
  assert (H3 : (1 + 6.02 * U) * (1 + 2 * U) <= 1 + 8.03 * U) by nra.
  assert (H4 : (1 + 8.03 * U) * (1 + 2 * U) <= 1 + 10.04 * U) by nra.
  assert (H5 : (1 + 10.04 * U) * (1 + 112 * U) <= 1 + 128 * U) by nra.
  assert (P2 : (1 + 2 * U) ^ 5 <= 1 + 10.04 * U) by (simpl; nra).
  replace (f * (1 + 2 * U) * (1 + 2 * U) * (1 + 2 * U) * (1 + 112 * U) * (1 + 2 * U) * (1 + 2 * U)) with (f * ((1 + 2 * U) ^ 5 * (1 + 112 * U))) by ring.
  apply Rmult_le_compat_l; [lra|]. apply (Rle_trans _ ((1 + 10.04 * U) * (1 + 112 * U))); [|exact H5]. apply Rmult_le_compat_r; lra.
Qed.
Lemma inst_error x s f p' p : one_turn x -> norm p <= s -> tiny <= s -> off s f p' p ->
  norm (inst_map x p) <= grown x s /\ off (grown x s) (f * (1 + 128 * U)) (m_inst x p') (inst_map x p).
Proof.
  intros O N T H. pose proof tiny_pos as TP. pose proof U_pos as UP. destruct x as [pl [i j]]. unfold one_turn in O. unfold grown, shift, m_inst, inst_map. cbn [fst snd] in *.
  destruct (p_arr pl) as [[[n m] sp]|].
  - set (dp := (INR i * fst sp, INR j * snd sp)). set (A := Rmax tiny (Rabs (factor pl) * s + norm dp + norm (origin pl))).
    assert (TA : tiny <= A) by apply Rmax_l. assert (SA : Rabs (factor pl) * s + norm dp + norm (origin pl) <= A) by apply Rmax_r.
    pose proof (norm_nonneg dp) as ND. pose proof (norm_nonneg (origin pl)) as NO.
    assert (E : element pl i j sp p = padd (origin pl) (turn (angle pl) (flip (p_refl pl) (padd (smul (factor pl) p) dp)))).
    { unfold element, similar, dp, padd, turn, smul, flip. destruct (p_refl pl); cbn [fst snd]; f_equal; ring. }
    rewrite E. clear E.
    assert (N1 : norm (smul (factor pl) p) <= Rabs (factor pl) * s) by (rewrite norm_smul; apply Rmult_le_compat_l; [apply Rabs_pos|exact N]).
    assert (N2 : norm (padd (smul (factor pl) p) dp) <= Rabs (factor pl) * s + norm dp) by (pose proof (norm_add (smul (factor pl) p) dp); lra).
    set (q := padd (smul (factor pl) p) dp) in *.
    assert (N3 : norm (turn (angle pl) (flip (p_refl pl) q)) <= Rabs (factor pl) * s + norm dp) by (rewrite norm_turn, norm_flip; exact N2).
    set (r := turn (angle pl) (flip (p_refl pl) q)) in *.
    assert (N4 : norm (padd r (origin pl)) <= A) by (pose proof (norm_add r (origin pl)); lra).
    split; [replace (padd (origin pl) r) with (padd r (origin pl)) by (unfold padd; f_equal; ring); exact N4|].
    unfold m_arr.
    assert (H1 : off A (f * (1 + 2 * U)) (m_mag a (p_mag pl) p') (smul (factor pl) p)) by (apply (off_mag A s); auto; lra).
    set (sc := mmul a sp (INR i, INR j)).
    assert (SC : norm (psub dp sc) <= 2 * (U * A)).
    { assert (Q : forall x y, rounds (x * y) (mul a x y)) by apply Rmul. pose proof (norm_fst dp). pose proof (norm_snd dp).
      pose proof (Rabs_pos (factor pl)). assert (0 <= Rabs (factor pl) * s) by (apply Rmult_le_pos; lra).
      apply norm_coords; unfold psub, dp, sc, mmul in *; cbn [fst snd] in *; rewrite Rabs_minus_sym, (Rmult_comm (INR _));
        (apply rounds_le; [apply Rmul| |exact TA]); rewrite Rmult_comm; lra. }
    assert (H2 : off A (f * (1 + 2 * U) * (1 + 2 * U)) (m_mag a (p_mag pl) p') (psub q sc)).
    { destruct H1 as [F1 H1]. split; [nra|]. set (p1 := m_mag a (p_mag pl) p') in *.
      pose proof (norm_add (psub p1 (smul (factor pl) p)) (smul (-1) (psub dp sc))) as Tr. rewrite norm_smul, (Rabs_left (-1)) in Tr by lra.
      replace (padd (psub p1 (smul (factor pl) p)) (smul (-1) (psub dp sc))) with (psub p1 (psub q sc)) in Tr
        by (unfold q, padd, psub, smul; cbn [fst snd]; f_equal; ring).
      assert (0 <= U * A) by (apply Rmult_le_pos; lra).
      assert (U * A <= f * (1 + 2 * U) * (U * A)) by nra. lra. }
    assert (Q : q = padd (psub q sc) sc) by (unfold padd, psub; destruct q; cbn [fst snd]; f_equal; ring).
    assert (H3 : off A (f * (1 + 2 * U) * (1 + 2 * U) * (1 + 2 * U)) (madd a (m_mag a (p_mag pl) p') sc) q).
    { rewrite Q at 1. apply off_add; [rewrite <- Q; lra|exact TA|exact H2]. }
    assert (NA : norm q <= A) by lra.
    assert (H4 := off_refl A _ _ _ (p_refl pl) NA TA H3).
    assert (N5 : norm (flip (p_refl pl) q) <= A) by (rewrite norm_flip; lra).
    assert (H5 := off_rot A _ _ _ pl N5 TA O H4).
    assert (H6 := off_org A _ _ _ pl N4 TA H5).
    eapply off_more; [lra| |exact H6]. destruct H as [F _].
    pose proof (factors f F). lra.
  - rewrite Rplus_0_r. set (A := Rmax tiny (Rabs (factor pl) * s + norm (origin pl))).
    assert (TA : tiny <= A) by apply Rmax_l. assert (SA : Rabs (factor pl) * s + norm (origin pl) <= A) by apply Rmax_r.
    pose proof (norm_nonneg (origin pl)) as NO. unfold similar, m_ref.
    assert (N0 : norm (flip (p_refl pl) p) <= s) by (rewrite norm_flip; exact N).
    assert (N1 : norm (smul (factor pl) (flip (p_refl pl) p)) <= Rabs (factor pl) * s) by (rewrite norm_smul; apply Rmult_le_compat_l; [apply Rabs_pos|exact N0]).
    set (q := smul (factor pl) (flip (p_refl pl) p)) in *.
    assert (N3 : norm (turn (angle pl) q) <= Rabs (factor pl) * s) by (rewrite norm_turn; exact N1).
    set (r := turn (angle pl) q) in *.
    assert (N4 : norm (padd r (origin pl)) <= A) by (pose proof (norm_add r (origin pl)); lra).
    split; [replace (padd (origin pl) r) with (padd r (origin pl)) by (unfold padd; f_equal; ring); exact N4|].
    assert (H1 := off_refl s _ _ _ (p_refl pl) N T H).
    assert (S1 : Rabs (factor pl) * s <= A) by lra. assert (S2 : 0 <= s) by lra.
    assert (H2 := off_mag A s _ _ _ pl S1 N0 TA S2 H1). fold q in H2. assert (NA : norm q <= A) by lra.
    assert (H5 := off_rot A _ _ _ pl NA TA O H2).
    assert (H6 := off_org A _ _ _ pl N4 TA H5).
    eapply off_more; [lra| |exact H6]. destruct H as [F _].
    pose proof (factors f F) as K.
    assert (0 <= f * (1 + 2 * U) * (1 + 2 * U) * (1 + 112 * U) * (1 + 2 * U)) by (repeat apply Rmult_le_pos; lra).
    set (g := f * (1 + 2 * U) * (1 + 2 * U) * (1 + 112 * U) * (1 + 2 * U)) in *.
    replace (f * (1 + 2 * U) * (1 + 2 * U) * (1 + 2 * U) * (1 + 112 * U) * (1 + 2 * U) * (1 + 2 * U)) with (g * (1 + 2 * U) * (1 + 2 * U)) in K by (unfold g; ring).
    nra.
Qed.
Lemma chain_error ch p : Forall one_turn ch -> norm (chain_map ch p) <= size ch p /\ tiny <= size ch p /\
  off (size ch p) ((1 + 128 * U) ^ length ch) (fold_right m_inst p ch) (chain_map ch p).
Proof.
  unfold chain_map, size. induction ch as [|x ch IH]; intro O; cbn [fold_right length pow].
  - split; [apply Rmax_r|]. split; [apply Rmax_l|]. split; [lra|].
    replace (psub p p) with ((0, 0) : pt) by (unfold psub; f_equal; ring). unfold norm; cbn [fst snd]. rewrite Rmult_0_l, Rplus_0_l, sqrt_0. lra.
  - inversion O as [|? ? O1 O2]; subst. destruct (IH O2) as (N & T & F). destruct (inst_error x _ _ _ _ O1 N T F) as [N' F'].
    split; [exact N'|]. split; [apply Rmax_l|]. rewrite (Rmult_comm (1 + 128 * U)). exact F'.
Qed.
(** (1 + x)^n - 1 for small x n *)
Lemma power_small x n : 0 <= x -> INR n * x <= 1 -> (1 + x) ^ n - 1 <= 2 * (INR n * x).
Proof.
  intros X N. 
  assert (G : forall k, (k <= n)%nat -> (1 + x) ^ k <= 1 + INR k * x + (INR k * x) * (INR k * x)).
  { intros k K. induction k as [|k IH]; [simpl; lra|]. assert (Kx : INR k * x <= 1).
    { apply (Rle_trans _ (INR n * x)); [apply Rmult_le_compat_r; [lra|apply le_INR; lia]|exact N]. }
    pose proof (pos_INR k). specialize (IH ltac:(lia)). rewrite S_INR. cbn [pow]. set (y := INR k) in *.
    assert (0 <= y * x) by (apply Rmult_le_pos; lra).
    apply (Rle_trans _ ((1 + x) * (1 + y * x + y * x * (y * x)))); [apply Rmult_le_compat_l; lra|].
    assert (x * (y * x * (y * x)) <= x * (y * x)) by (apply Rmult_le_compat_l; [lra|nra]). nra. }
  pose proof (G n ltac:(lia)). pose proof (pos_INR n). assert (0 <= INR n * x) by (apply Rmult_le_pos; lra). nra.
Qed.

(** ** Moves *)
Lemma off_sub A f p' p v : norm (psub p v) <= A -> tiny <= A -> off A f p' p -> off A (f * (1 + 2 * U)) (madd a p' (m_neg v)) (psub p v).
Proof.
  intros N T H. replace (psub p v) with (padd p (m_neg v)) in * by (unfold padd, psub, m_neg; cbn [fst snd]; f_equal; ring). now apply off_add.
Qed.
Lemma off_scale A s f p' p x y k : Rabs x <= k -> Rabs y <= k -> k * s <= A -> norm p <= s -> tiny <= A -> 0 <= s -> off s f p' p ->
  off A (f * (1 + 2 * U)) (mmul a p' (x, y)) (x * fst p, y * snd p).
Proof.
  intros X Y N S T S0 [F H]. pose proof U_pos. pose proof tiny_pos.
  assert (K : 0 <= k) by (pose proof (Rabs_pos x); lra).
  assert (G : forall q, norm (x * fst q, y * snd q) <= k * norm q).
  { intro q. pose proof (norm_nonneg q). apply norm_le; [now apply Rmult_le_pos|]. cbn [fst snd].
    replace (k * norm q * (k * norm q)) with (k * k * (norm q * norm q)) by ring. rewrite norm_sq.
    assert (x * x <= k * k) by (pose proof (Rle_abs x); pose proof (Rle_abs (- x)); rewrite Rabs_Ropp in *; nra).
    assert (y * y <= k * k) by (pose proof (Rle_abs y); pose proof (Rle_abs (- y)); rewrite Rabs_Ropp in *; nra).
    pose proof (Rle_0_sqr (fst q)) as Q1. pose proof (Rle_0_sqr (snd q)) as Q2. unfold Rsqr in *.
    assert (x * x * (fst q * fst q) <= k * k * (fst q * fst q)) by (apply Rmult_le_compat_r; lra).
    assert (y * y * (snd q * snd q) <= k * k * (snd q * snd q)) by (apply Rmult_le_compat_r; lra). lra. }
  assert (H' : norm (psub (x * fst p', y * snd p') (x * fst p, y * snd p)) <= (f - 1) * A).
  { replace (psub (x * fst p', y * snd p') (x * fst p, y * snd p)) with ((x * fst (psub p' p), y * snd (psub p' p)) : pt) by (unfold psub; cbn [fst snd]; f_equal; ring).
    apply (Rle_trans _ _ _ (G _)). apply (Rle_trans _ (k * ((f - 1) * s))); [apply Rmult_le_compat_l; lra|].
    replace (k * ((f - 1) * s)) with ((f - 1) * (k * s)) by ring. apply Rmult_le_compat_l; lra. }
  assert (N' : norm (x * fst p, y * snd p) <= A) by (apply (Rle_trans _ _ _ (G p)); apply (Rle_trans _ (k * s)); [apply Rmult_le_compat_l; lra|exact N]).
  apply off_step; [lra|lra|]. pose proof (near_norm _ _ _ _ N' H') as B.
  pose proof (norm_fst (x * fst p', y * snd p')). pose proof (norm_snd (x * fst p', y * snd p')). cbn [fst snd] in *.
  apply (step_error _ _ _ _ (x * fst p', y * snd p')); [lra|exact H'| |]; unfold mmul; cbn [fst snd].
  - rewrite (Rmult_comm x). apply rounds_le; [apply Rmul|rewrite Rmult_comm; lra|nra].
  - rewrite (Rmult_comm y). apply rounds_le; [apply Rmul|rewrite Rmult_comm; lra|nra].
Qed.
Lemma three f : 1 <= f -> f * (1 + 2 * U) * (1 + 112 * U) * (1 + 2 * U) <= f * (1 + 128 * U) /\ f * (1 + 2 * U) * (1 + 2 * U) * (1 + 2 * U) <= f * (1 + 128 * U).
Proof.
  intro F. pose proof (factors f F) as K. pose proof U_pos as UP. set (z := 1 + 2 * U) in *. set (w := 1 + 112 * U) in *. assert (1 <= z) by (unfold z; lra). assert (1 <= w) by (unfold w; lra).
  assert (G : forall x y, 0 <= x -> 1 <= y -> x <= x * y) by (intros; nra).
  assert (P : 0 <= f * z * w * z) by (repeat apply Rmult_le_pos; lra). assert (P' : 0 <= f * z * z * z) by (repeat apply Rmult_le_pos; lra).
  split; (eapply Rle_trans; [|exact K]).
  - replace (f * z * z * z * w * z * z) with (f * z * w * z * (z * z * z)) by ring. apply G; [exact P|nra].
  - replace (f * z * z * z * w * z * z) with (f * z * z * z * (w * z * z)) by ring. apply G; [exact P'|nra].
Qed.
Lemma move_error m s f p' p : norm p <= s -> tiny <= s -> off s f p' p ->
  norm (exact_move m p) <= after_move m s /\ off (after_move m s) (f * (1 + 128 * U)) (machine_move a m p') (exact_move m p).
Proof.
  intros N T H. pose proof tiny_pos as TP. pose proof U_pos as UP. destruct (three f (proj1 H)) as [K1 K2].
  destruct m as [v|sx sy c|t c]; unfold after_move, exact_move, machine_move, m_translate, m_scale, m_rotate.
  - set (A := Rmax tiny (s + norm v)). assert (TA : tiny <= A) by apply Rmax_l. assert (SA : s + norm v <= A) by apply Rmax_r.
    pose proof (norm_nonneg v). assert (NA : norm (padd p v) <= A) by (pose proof (norm_add p v); lra). split; [exact NA|].
    assert (HA : off A f p' p) by (destruct H as [F H]; split; [exact F|]; apply (Rle_trans _ _ _ H); apply Rmult_le_compat_l; lra).
    eapply off_more; [lra| |apply off_add; [exact NA|exact TA|exact HA]]. apply Rmult_le_compat_l; [destruct H; lra|lra].
  - fold (other sx sy). set (k := Rmax 1 (Rmax (Rabs sx) (Rabs (other sx sy)))). set (A := Rmax tiny (k * (s + norm c) + norm c)).
    assert (TA : tiny <= A) by apply Rmax_l. assert (SA : k * (s + norm c) + norm c <= A) by apply Rmax_r. pose proof (norm_nonneg c) as NC.
    assert (K1' : 1 <= k) by apply Rmax_l.
    assert (KX : Rabs sx <= k) by (apply (Rle_trans _ (Rmax (Rabs sx) (Rabs (other sx sy)))); [apply Rmax_l|apply Rmax_r]).
    assert (KY : Rabs (other sx sy) <= k) by (apply (Rle_trans _ (Rmax (Rabs sx) (Rabs (other sx sy)))); [apply Rmax_r|apply Rmax_r]).
    assert (NS : norm (psub p c) <= s + norm c).
    { pose proof (norm_add p (smul (-1) c)) as Q. rewrite norm_smul, (Rabs_left (-1)) in Q by lra.
      replace (padd p (smul (-1) c)) with (psub p c) in Q by (unfold padd, psub, smul; cbn [fst snd]; f_equal; ring). lra. }
    assert (HS : off (s + norm c) f p' p) by (destruct H as [F H]; split; [exact F|]; apply (Rle_trans _ _ _ H); apply Rmult_le_compat_l; lra).
    assert (TS : tiny <= s + norm c) by lra. assert (S0 : 0 <= s + norm c) by lra. assert (KA : k * (s + norm c) <= A) by lra.
    assert (H1 := off_sub _ _ _ _ c NS TS HS).
    assert (H2 := off_scale A _ _ _ _ sx (other sx sy) k KX KY KA NS TA S0 H1). cbn [psub fst snd] in H2.
    set (q := (sx * (fst p - fst c), other sx sy * (snd p - snd c))) in *.
    assert (NQ : norm q <= k * (s + norm c)).
    { assert (Z : forall x y, Rabs x <= k -> Rabs y <= k -> forall r, norm r <= s + norm c -> norm (x * fst r, y * snd r) <= k * (s + norm c)).
      { intros x y X Y r R. pose proof (norm_nonneg r). apply norm_le; [apply Rmult_le_pos; lra|]. cbn [fst snd].
        assert (x * x <= k * k) by (pose proof (Rle_abs x); pose proof (Rle_abs (- x)); rewrite Rabs_Ropp in *; nra).
        assert (y * y <= k * k) by (pose proof (Rle_abs y); pose proof (Rle_abs (- y)); rewrite Rabs_Ropp in *; nra).
        pose proof (Rle_0_sqr (fst r)) as Q1. pose proof (Rle_0_sqr (snd r)) as Q2. unfold Rsqr in *.
        assert (x * x * (fst r * fst r) <= k * k * (fst r * fst r)) by (apply Rmult_le_compat_r; lra).
        assert (y * y * (snd r * snd r) <= k * k * (snd r * snd r)) by (apply Rmult_le_compat_r; lra).
        pose proof (norm_sq r) as Q. assert (norm r * norm r <= (s + norm c) * (s + norm c)) by nra.
        assert (k * k * (norm r * norm r) <= k * k * ((s + norm c) * (s + norm c))) by (apply Rmult_le_compat_l; nra). nra. }
      exact (Z sx (other sx sy) KX KY (psub p c) NS). }
    assert (NA : norm (padd q c) <= A) by (pose proof (norm_add q c); lra).
    replace (padd c q) with (padd q c) by (unfold padd; f_equal; ring). split; [exact NA|].
    eapply off_more; [lra|exact K2|]. apply off_add; assumption.
  - set (A := Rmax tiny (s + norm c + norm c)).
    assert (TA : tiny <= A) by apply Rmax_l. assert (SA : s + norm c + norm c <= A) by apply Rmax_r. pose proof (norm_nonneg c) as NC.
    assert (NS : norm (psub p c) <= s + norm c).
    { pose proof (norm_add p (smul (-1) c)) as Q. rewrite norm_smul, (Rabs_left (-1)) in Q by lra.
      replace (padd p (smul (-1) c)) with (psub p c) in Q by (unfold padd, psub, smul; cbn [fst snd]; f_equal; ring). lra. }
    assert (HS : off A f p' p) by (destruct H as [F H]; split; [exact F|]; apply (Rle_trans _ _ _ H); apply Rmult_le_compat_l; lra).
    assert (NSA : norm (psub p c) <= A) by lra.
    assert (H1 := off_sub _ _ _ _ c NSA TA HS).
    assert (H2 : off A (f * (1 + 2 * U) * (1 + 112 * U)) (mturn a (cosm a t) (sinm a t) (madd a p' (m_neg c))) (turn t (psub p c))).
    { destruct MA as (_ & _ & _ & MC & MS & _). specialize (MC t). specialize (MS t). rewrite U_52 in *. destruct H1 as [F1 H1].
      apply off_step; [exact F1|lra|]. apply mturn_error; auto; lra. }
    set (q := turn t (psub p c)) in *. assert (NQ : norm q <= s + norm c) by (unfold q; rewrite norm_turn; exact NS).
    assert (NA : norm (padd q c) <= A) by (pose proof (norm_add q c); lra).
    replace (padd c q) with (padd q c) by (unfold padd; f_equal; ring). split; [exact NA|].
    eapply off_more; [lra|exact K1|]. apply off_add; assumption.
Qed.
End Errors.

Lemma off_bound A n p' p : 0 <= A -> INR n <= 2 ^ 45 -> off A ((1 + 128 * U) ^ n) p' p -> norm (psub p' p) <= INR n / 2 ^ 45 * A.
Proof.
  intros HA N [_ H]. pose proof U_pos. apply (Rle_trans _ _ _ H). apply Rmult_le_compat_r; [exact HA|].
  unfold Rdiv. rewrite U_45. replace (INR n * (256 * U)) with (2 * (INR n * (128 * U))) by ring. apply power_small; [lra|].
  assert (E : 2 ^ 45 * (256 * U) = 1) by (rewrite <- U_45; field; apply pow_nonzero; lra).
  assert (INR n * (256 * U) <= 2 ^ 45 * (256 * U)) by (apply Rmult_le_compat_r; lra). lra.
Qed.

(** ** C87 *)
Section Theorems.
Context {P : Type} (ops : pathops P).
Notation heap := (heap place (stuff P)).

Lemma m_grid_insts {Y} a (F : pt -> list Y) pl n m sp : p_arr pl = Some (n, m, sp) ->
  flat_map F (m_grid a n m sp) = flat_map (fun x => F (mmul a sp (INR (fst (snd x)), INR (snd (snd x))))) (insts pl).
Proof.
  intro E; unfold m_grid, insts. rewrite E. induction (seq 0 n) as [|i l IH]; [reflexivity|].
  simpl. rewrite !flat_map_app. f_equal; [|exact IH]. clear IH. induction (seq 0 m) as [|j k IH']; [reflexivity|]. simpl. now rewrite IH'.
Qed.
Lemma m_place_insts a pl l : m_place a pl l = flat_map (fun x => map (map (m_inst a x)) l) (insts pl).
Proof.
  unfold m_place. destruct (p_arr pl) as [[[n m] sp]|] eqn:E.
  - rewrite (m_grid_insts a _ pl n m sp E). apply flat_map_ext_in. intros x Hx. pose proof (insts_place pl x Hx) as F.
    unfold m_inst. rewrite F, E. reflexivity.
  - unfold insts. rewrite E. cbn [flat_map]. rewrite app_nil_r. unfold m_inst; cbn [fst]. rewrite E. reflexivity.
Qed.
Definition own_all (h : heap) (c : nat) : list poly := own_polys (stuff_of h c) ++ flat_map (path_flat ops) (s_paths (stuff_of h c)).
Lemma own_contents h c : own_all h c = map snd (contents ops h c).
Proof.
  unfold own_all, contents, own_polys, stuff_of. rewrite map_app, !map_flat_map. f_equal.
  - apply flat_map_ext; intro ps. now rewrite map_map.
  - apply flat_map_ext; intro p. unfold path_flat. rewrite map_flat_map. apply flat_map_ext; intro kv. rewrite map_map. cbn. now rewrite map_id.
Qed.
Lemma expand_same {Y} (h : heap) (f g : option Z * nat -> option (list Y)) pf rs : (forall c, f (None, c) = g (None, c)) ->
  expand h f pf None rs = expand h g pf None rs.
Proof.
  intro E. unfold expand. induction rs as [|r rs IH]; [reflexivity|]. cbn [collect]. rewrite IH. destruct (rtarget h r); [rewrite E|]; reflexivity.
Qed.
Lemma m_polys_gen a h fuel c : m_polys a ops h fuel c = iter_fuel (gen_step h (own_all h) (fun pl l => Some (m_place a pl l))) fuel (None, c).
Proof.
  unfold m_polys. revert c. induction fuel as [|f IH]; intro c; [reflexivity|]. cbn [iter_fuel]. unfold m_step at 1, gen_step at 1. cbn [snd deeper next option_map].
  rewrite (expand_same h _ _ _ _ IH). destruct (expand h _ _ None (crefs h c)); [|reflexivity]. unfold own_all. now rewrite app_assoc.
Qed.
Lemma fold_map {X Y} (f : X -> Y -> Y) ch l : fold_right (fun x => map (f x)) l ch = map (fun y => fold_right f y ch) l.
Proof. induction ch as [|x ch IH]; cbn [fold_right]; [now rewrite map_id|]. now rewrite IH, map_map. Qed.

(** The points of a cell and of all that is in it, with the instances through which they are
    seen. *)
Definition seen (h : heap) (L : list (nat * chain)) : list (list (pt * chain)) :=
  flat_map (fun ec => map (fun sp => map (fun p => (p, snd ec)) (snd sp)) (contents ops h (fst ec))) L.

Lemma m_polys_seen a h c L : defined_at h c -> expansion h c L ->
  m_polys a ops h (S (h_ncell h)) c = Some (map (map (fun pc => fold_right (m_inst a) (fst pc) (snd pc))) (seen h L)).
Proof.
  intros D X. destruct (defined_deps h c D) as [dl E]. rewrite m_polys_gen.
  destruct (gen_total h (own_all h) (fun pl l => Some (m_place a pl l)) _ None c dl ltac:(discriminate) E) as [o O]. rewrite O. f_equal.
  rewrite (gen_expansion h (own_all h) (fun x => map (m_inst a x)) (fun pl l => Some (m_place a pl l))
             ltac:(intros pl l l' Q; injection Q as <-; apply m_place_insts) _ _ _ _ _ O X).
  unfold gather, seen. rewrite map_flat_map. apply flat_map_ext; intros [e ch]. cbn [fst snd].
  unfold gen_sel, level_ok. cbn [within]. rewrite orb_true_r, own_contents, !map_map. apply map_ext; intros sp.
  etransitivity; [exact (fold_map (m_inst a) ch (snd sp))|]. now rewrite map_map.
Qed.
Lemma seen_in h L l pc : In l (seen h L) -> In pc l -> exists e, In (e, snd pc) L.
Proof.
  unfold seen. rewrite in_flat_map. intros ([e ch] & I & M) J. cbn [fst snd] in M. apply in_map_iff in M as (sp & <- & _).
  apply in_map_iff in J as (p & <- & _). exists e. exact I.
Qed.
Lemma Forall2_map_in {X Y} (Q : X -> Y -> Prop) (f : X -> Y) l : (forall x, In x l -> Q x (f x)) -> Forall2 Q l (map f l).
Proof. induction l as [|x l IH]; intro H; constructor; [apply H; now left|]. apply IH. intros; apply H; now right. Qed.

(** get_polygons() finds every vertex where the references put it, up to a relative error of
    2^-45 for every reference on the way. *)
Theorem C87_placed : forall a (h : heap) c L, machine a -> defined_at h c -> expansion h c L ->
  (forall ec, In ec L -> Forall one_turn (snd ec) /\ INR (length (snd ec)) <= 2 ^ 45) ->
  exists l, m_polys a ops h (S (h_ncell h)) c = Some l /\
    Forall2 (Forall2 (fun pc q => let '(p, ch) := pc in
      norm (psub q (chain_map ch p)) <= INR (length ch) / 2 ^ 45 * size ch p)) (seen h L) l.
Proof.
  intros a h c L M D X B. eexists. split; [apply (m_polys_seen a h c L D X)|].
  apply Forall2_map_in. intros l Hl. apply Forall2_map_in. intros [p ch] Hp. destruct (seen_in _ _ _ _ Hl Hp) as [e He]. cbn [fst snd] in *.
  destruct (B _ He) as [O N]. cbn [snd] in *. destruct (chain_error a M ch p O) as (_ & T & F). pose proof tiny_pos. apply off_bound; [lra|exact N|exact F].
Qed.

(** Written to a file, no coordinate is further than 0.51 database units from its exact place,
    if it fits in 32 bits and there are at most 100 references on the way. *)
Theorem C87_written : forall a (h : heap) c L M, machine a -> defined_at h c -> expansion h c L -> 0 <= M ->
  (forall ec, In ec L -> Forall one_turn (snd ec) /\ (length (snd ec) <= 100)%nat) ->
  (forall l pc, In l (seen h L) -> In pc l -> size (snd pc) (fst pc) * M <= 2 ^ 31) ->
  exists l, m_polys a ops h (S (h_ncell h)) c = Some l /\
    Forall2 (Forall2 (fun pc q => let '(p, ch) := pc in let k := put (mul a) M q in
      Rabs (IZR (fst k) - fst (chain_map ch p) * M) <= 51 / 100 /\ Rabs (IZR (snd k) - snd (chain_map ch p) * M) <= 51 / 100)) (seen h L) l.
Proof.
  intros a h c L M MA D X HM B S. eexists. split; [apply (m_polys_seen a h c L D X)|].
  apply Forall2_map_in. intros l Hl. apply Forall2_map_in. intros [p ch] Hp. destruct (seen_in _ _ _ _ Hl Hp) as [e He].
  specialize (S _ _ Hl Hp). destruct (B _ He) as [O N]. cbn [fst snd] in *. set (q := fold_right (m_inst a) p ch). set (x := chain_map ch p).
  destruct (chain_error a MA ch p O) as (NX & T & F). fold q x in F, NX. pose proof tiny_pos. pose proof tiny_one. pose proof U_pos as UP. pose proof U_small as US.
  assert (IN : INR (length ch) <= 100) by (replace 100 with (INR 100) by (simpl; lra); now apply le_INR).
  assert (IN2 : INR (length ch) <= 2 ^ 45) by (assert (100 <= 2 ^ 45) by (simpl; lra); lra). assert (Z0 : 0 <= size ch p) by lra.
  pose proof (off_bound (size ch p) _ _ _ Z0 IN2 F) as G.
  set (z := size ch p) in *. 
  assert (G' : norm (psub q x) * M <= 7 / 1000).
  { apply (Rle_trans _ (INR (length ch) / 2 ^ 45 * z * M)); [apply Rmult_le_compat_r; lra|].
    apply (Rle_trans _ (100 / 2 ^ 45 * 2 ^ 31)); [|simpl; lra].
    rewrite Rmult_assoc. pose proof (pos_INR (length ch)). apply Rmult_le_compat; [apply Rmult_le_pos; [lra|]; apply Rlt_le, Rinv_0_lt_compat, pow_lt; lra|apply Rmult_le_pos; lra| |exact S].
    apply Rmult_le_compat_r; [apply Rlt_le, Rinv_0_lt_compat, pow_lt; lra|exact IN]. }
  assert (K : forall u v, Rabs u <= norm (psub q x) -> Rabs v <= norm x -> Rabs (IZR (rint (mul a (v + u) M)) - v * M) <= 51 / 100).
  { intros u v Hu Hv. destruct (rint_spec (mul a (v + u) M)) as [R _]. rewrite Rabs_minus_sym in R.
    assert (E1 : Rabs (u * M) <= 7 / 1000) by (rewrite Rabs_mult, (Rabs_pos_eq M HM); apply (Rle_trans _ (norm (psub q x) * M)); [apply Rmult_le_compat_r; lra|exact G']).
    assert (E2 : Rabs (v * M) <= 2 ^ 31).
    { rewrite Rabs_mult, (Rabs_pos_eq M HM). apply (Rle_trans _ (z * M)); [apply Rmult_le_compat_r; lra|exact S]. }
    assert (E3 : Rabs ((v + u) * M) <= 2 ^ 31 + 1).
    { replace ((v + u) * M) with (v * M + u * M) by ring. apply (Rle_trans _ _ _ (Rabs_triang _ _)). lra. }
    assert (E4 := rounds_le _ _ _ (Rmul a MA (v + u) M) E3 ltac:(pose proof (pow_R1_Rle 2 31); lra)).
    assert (E5 : U * (2 ^ 31 + 1) <= 1 / 1000) by (unfold U; simpl; lra).
    replace (IZR (rint (mul a (v + u) M)) - v * M) with ((IZR (rint (mul a (v + u) M)) - mul a (v + u) M) + ((mul a (v + u) M - (v + u) * M) + u * M)) by ring.
    apply (Rle_trans _ _ _ (Rabs_triang _ _)). pose proof (Rabs_triang (mul a (v + u) M - (v + u) * M) (u * M)). lra. }
  unfold put; cbn [fst snd]. pose proof (norm_fst (psub q x)) as A1. pose proof (norm_snd (psub q x)) as A2. pose proof (norm_fst x) as B1. pose proof (norm_snd x) as B2.
  unfold psub in A1, A2 at 1; cbn [fst snd] in A1, A2.
  pose proof (K _ _ A1 B1) as K1. pose proof (K _ _ A2 B2) as K2.
  replace (fst x + (fst q - fst x)) with (fst q) in K1 by ring. replace (snd x + (snd q - snd x)) with (snd q) in K2 by ring. auto.
Qed.
End Theorems.

(** Any history of translations, scalings and rotations of a polygon set. *)
Theorem C87_moved : forall a l p, machine a -> INR (length l) <= 2 ^ 45 ->
  norm (psub (machine_moves a l p) (exact_moves l p)) <= INR (length l) / 2 ^ 45 * size_moves l p.
Proof.
  intros a l p M N. pose proof tiny_pos. unfold machine_moves, exact_moves, size_moves.
  assert (G : forall l p' p s f, norm p <= s -> tiny <= s -> off s f p' p ->
    tiny <= fold_left (fun s m => after_move m s) l s /\
    off (fold_left (fun s m => after_move m s) l s) (f * (1 + 128 * U) ^ length l)
      (fold_left (fun p m => machine_move a m p) l p') (fold_left (fun p m => exact_move m p) l p)).
  { clear - M. induction l as [|m l IH]; intros p' p s f NP T F; cbn [fold_left length pow].
    - rewrite Rmult_1_r. auto.
    - destruct (move_error a M m s f p' p NP T F) as [N' F']. destruct (IH _ _ _ _ N' (Rmax_l _ _) F') as [T2 F2]. split; [exact T2|].
      rewrite <- Rmult_assoc. exact F2. }
  destruct (G l p p (Rmax tiny (norm p)) 1) as [T F]; [apply Rmax_r|apply Rmax_l| |].
  - split; [lra|]. replace (psub p p) with ((0, 0) : pt) by (unfold psub; f_equal; ring). unfold norm at 1; cbn [fst snd]. rewrite Rmult_0_l, Rplus_0_l, sqrt_0. lra.
  - rewrite Rmult_1_l in F. apply off_bound; [lra|exact N|exact F].
Qed.

(** ** The arithmetic of doubles is one *)
Lemma two_mono e f : (e <= f)%Z -> powerRZ 2 e <= powerRZ 2 f.
Proof. intro L. rewrite !powerRZ_Rpower by lra. apply Rle_Rpower; [lra|]. now apply IZR_le. Qed.
Lemma two_add e f : powerRZ 2 (e + f) = powerRZ 2 e * powerRZ 2 f.
Proof. apply powerRZ_add. lra. Qed.
Lemma two_neg n p : Pos.to_nat p = n -> powerRZ 2 (Z.neg p) = / 2 ^ n.
Proof. intros <-. reflexivity. Qed.
Lemma two_53 : powerRZ 2 (-53) = / 2 ^ 53. Proof. apply two_neg. reflexivity. Qed.
Lemma two_1022 : powerRZ 2 (-1022) = tiny. Proof. apply two_neg. reflexivity. Qed.
Lemma ln2_pos : 0 < ln 2. Proof. rewrite <- ln_1. apply ln_increasing; lra. Qed.
Lemma expo_low x : x <> 0 -> powerRZ 2 (Int_part (ln (Rabs x) / ln 2)) <= Rabs x.
Proof.
  intro N. pose proof (Rabs_pos_lt x N) as P. pose proof ln2_pos as L. rewrite powerRZ_Rpower by lra. unfold Rpower.
  rewrite <- (exp_ln (Rabs x) P) at 2. destruct (base_Int_part (ln (Rabs x) / ln 2)) as [B _].
  set (z := IZR (Int_part _)) in *. assert (H : z * ln 2 <= ln (Rabs x)).
  { apply (Rmult_le_compat_r (ln 2)) in B; [|lra]. replace (ln (Rabs x) / ln 2 * ln 2) with (ln (Rabs x)) in B by (field; lra). exact B. }
  destruct H as [H|H]; [left; now apply exp_increasing|right; now rewrite H].
Qed.
Lemma double_half x : Rabs (double x - x) <= powerRZ 2 (-1 + expo x).
Proof.
  unfold double. set (p := powerRZ 2 (expo x)). assert (P : 0 < p) by (apply powerRZ_lt; lra).
  destruct (rint_spec (x / p)) as [A _]. set (k := IZR (rint _)) in *. rewrite two_add. fold p. replace (powerRZ 2 (-1)) with (/ 2) by (rewrite (two_neg 1 1 eq_refl), pow_1; reflexivity).
  replace (k * p - x) with ((k - x / p) * p) by (field; lra). rewrite Rabs_mult, (Rabs_pos_eq p) by lra. apply Rmult_le_compat_r; [lra|].
  rewrite Rabs_minus_sym. exact A.
Qed.
Lemma double_rounds x : rounds x (double x).
Proof.
  unfold rounds. destruct (Req_dec x 0) as [->|N].
  - assert (E : double 0 = 0).
    { unfold double. unfold Rdiv. rewrite Rmult_0_l. destruct (C52_rounding 0) as (_ & _ & _ & Z). specialize (Z 0%Z). rewrite Z. ring. }
    rewrite E, Rminus_eq_0, Rabs_R0. apply Rmult_le_pos; [apply Rlt_le, Rinv_0_lt_compat, pow_lt; lra|].
    apply (Rle_trans _ tiny); [pose proof tiny_pos; lra|apply Rmax_r].
  - apply (Rle_trans _ _ _ (double_half x)). rewrite <- two_53. pose proof (expo_low x N) as L. unfold expo.
    set (e := Int_part (ln (Rabs x) / ln 2)) in *.
    apply (Rle_trans _ (powerRZ 2 (-53) * powerRZ 2 (Z.max e (-1022)))).
    + rewrite <- two_add. apply two_mono. lia.
    + apply Rmult_le_compat_l; [apply powerRZ_le; lra|]. destruct (Z.max_spec e (-1022)) as [[_ ->]|[_ ->]].
      * rewrite two_1022. apply Rmax_r.
      * apply (Rle_trans _ _ _ L). apply Rmax_l.
Qed.
Lemma PI_lt : PI < 4.
Proof. destruct (PI_ineq 1) as [_ H]. unfold tg_alt, PI_tg in H. cbn in H. lra. Qed.
Theorem C87_double : (forall x, rounds x (double x)) /\ machine doubles.
Proof.
  split; [exact double_rounds|]. unfold machine, doubles; cbn [mul add div cosm sinm pim]. repeat split; intros; try apply double_rounds.
  - pose proof U_pos. rewrite U_52. pose proof tiny_one. assert (C : Rabs (cos t) <= 1) by (apply Rabs_le; apply COS_bound).
    pose proof (rounds_le _ _ 1 (double_rounds (cos t)) C ltac:(lra)). lra.
  - pose proof U_pos. rewrite U_52. pose proof tiny_one. assert (C : Rabs (sin t) <= 1) by (apply Rabs_le; apply SIN_bound).
    pose proof (rounds_le _ _ 1 (double_rounds (sin t)) C ltac:(lra)). lra.
  - apply (Rle_trans _ _ _ (double_half PI)). rewrite <- (two_neg 52 52 eq_refl). apply two_mono.
    pose proof PI_lt. pose proof PI_RGT_0. pose proof ln2_pos as L.
    assert (B : (Int_part (ln (Rabs PI) / ln 2) < 2)%Z).
    { apply lt_IZR. destruct (base_Int_part (ln (Rabs PI) / ln 2)) as [B _]. apply (Rle_lt_trans _ _ _ B). rewrite Rabs_pos_eq by lra.
      apply (Rmult_lt_reg_r (ln 2)); [exact L|]. replace (ln PI / ln 2 * ln 2) with (ln PI) by (field; lra).
      replace (2 * ln 2) with (ln 4) by (replace 4 with (2 * 2) by ring; rewrite ln_mult by lra; ring). apply ln_increasing; lra. }
    unfold expo. lia.
Qed.

(** ** A case: a triangle, a turned and doubled reference and a turned array of 2 x 3, in a library
    with a thousand database units to the unit. *)
Example C87_case : exists L, defined_at cpy 1 /\ expansion cpy 1 L /\ length L = 8%nat /\ length (seen toy cpy L) = 9%nat /\
  (forall ec, In ec L -> Forall one_turn (snd ec) /\ (length (snd ec) <= 100)%nat) /\
  (forall l pc, In l (seen toy cpy L) -> In pc l -> size (snd pc) (fst pc) * 1000 <= 2 ^ 31).
Proof.
  set (pl0 := Place (Some (10, 0)) (Some 90) (Some 2) false None).
  set (pl1 := Place (Some (0, 0)) (Some 30) None false (Some (2%nat, 3%nat, (100, 50)))).
  assert (X : expansion cpy 1 ((1%nat, []) :: (flat_map (fun i => map (fun ec => (fst ec, i :: snd ec)) [(0%nat, [])]) (insts pl0) ++
    flat_map (fun i => map (fun ec => (fst ec, i :: snd ec)) [(0%nat, [])]) (insts pl1) ++ []))).
  { assert (X0 : expansion cpy 0 [(0%nat, [])]) by (constructor; constructor).
    constructor. change (crefs cpy 1) with [0%nat; 1%nat].
    change pl0 with (r_data (h_ref cpy 0)). change pl1 with (r_data (h_ref cpy 1)).
    eapply exp_ref; [reflexivity|exact X0|]. eapply exp_ref; [reflexivity|exact X0|]. constructor. }
  eexists. split; [apply C38_demo|]. split; [exact X|]. split; [reflexivity|]. split; [reflexivity|].
  assert (I : forall ec, In ec ((1%nat, []) :: (flat_map (fun i => map (fun ec => (fst ec, i :: snd ec)) [(0%nat, [])]) (insts pl0) ++
    flat_map (fun i => map (fun ec => (fst ec, i :: snd ec)) [(0%nat, [])]) (insts pl1) ++ [])) ->
    snd ec = [] \/ snd ec = [(pl0, (0%nat, 0%nat))] \/ exists i j, snd ec = [(pl1, (i, j))] /\ INR i <= 2 /\ INR j <= 2).
  { intros ec [<-|H]; [now left|]. cbn in H. right.
    repeat (destruct H as [<-|H]; [first [now left|right; cbn [snd]; do 2 eexists; split; [reflexivity|cbn; lra]]|]). destruct H. }
  split.
  - intros [e ch] H. specialize (I (e, ch) H). cbn [snd] in *. destruct I as [E|[E|(i & j & E & _)]]; subst ch; (split; [|cbn; lia]); repeat constructor; unfold one_turn; cbn; rewrite Rabs_pos_eq; lra.
  - pose proof tiny_one as T. pose proof tiny_pos as TP. intros l pc Hl Hp. destruct (seen_in _ _ _ _ _ Hl Hp) as [e He]. specialize (I _ He). cbn [snd] in I. destruct pc as [p0 ch]. cbn [fst snd] in *.
    assert (NP : norm p0 <= 8).
    { unfold seen in Hl. apply in_flat_map in Hl as (ec & Hec & Hl).
      assert (Q : forall q : poly, In q (map snd (contents toy cpy (fst ec))) -> q = tri).
      { destruct Hec as [<-|Hec]; [intros q; vm_compute; intuition|].
        assert (fst ec = 0%nat) as -> by (cbn in Hec; repeat (destruct Hec as [<-|Hec]; [reflexivity|]); destruct Hec).
        intros q; vm_compute; intuition. }
      apply in_map_iff in Hl as (sp & <- & Hsp). apply in_map_iff in Hp as (p & Ep & Hpp). injection Ep as <- _.
      rewrite (Q (snd sp) ltac:(now apply in_map)) in Hpp.
      assert (NC : forall x y, Rabs x <= 4 -> Rabs y <= 4 -> norm (x, y) <= 8) by (intros x y A B; replace 8 with (2 * 4) by ring; apply norm_coords; assumption).
      destruct Hpp as [<-|[<-|[<-|[]]]]; apply NC; rewrite Rabs_pos_eq; lra. }
    assert (N8 : Rmax tiny (norm p0) <= 8) by (apply Rmax_lub; lra).
    assert (B : size ch p0 <= 1000); [|simpl; lra].
    assert (N0 : 0 <= Rmax tiny (norm p0)) by (apply (Rle_trans _ tiny); [lra|apply Rmax_l]).
    destruct I as [E|[E|(i & j & E & Hi & Hj)]]; subst ch; unfold size, grown, shift, factor, origin; cbn [fold_right fst snd pl0 pl1 p_arr p_mag p_org].
    + lra.
    + apply Rmax_lub; [lra|]. rewrite (Rabs_pos_eq 2) by lra.
      assert (norm (10, 0) <= 2 * 10) by (apply norm_coords; cbn [fst snd]; rewrite Rabs_pos_eq; lra). lra.
    + apply Rmax_lub; [lra|]. rewrite (Rabs_pos_eq 1) by lra. pose proof (pos_INR i). pose proof (pos_INR j).
      assert (norm (0, 0) <= 2 * 0) by (apply norm_coords; cbn [fst snd]; rewrite Rabs_R0; lra).
      assert (norm (INR i * 100, INR j * 50) <= 2 * 200) by (apply norm_coords; cbn [fst snd]; rewrite Rabs_pos_eq; lra). lra.
Qed.
Example C87_moves_case : INR (length [Translate (3, 4); Rotate 1 (5, 0); Scale 2 (Some (-3)) (1, 1)]) <= 2 ^ 45.
Proof. simpl. lra. Qed.

Print Assumptions C87_placed.
Print Assumptions C87_written.
Print Assumptions C87_moved.
Print Assumptions C87_double.
