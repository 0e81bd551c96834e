(** C61: circular and elliptical arcs of curves. *)

From Coq Require Import Reals Lra Lia List ZArith Bool Psatz.
From Verif Require Import Plane SpecPlane Curve SpecCurve CurveProofs PropCurve.
Import ListNotations.
Open Scope R_scope.

(** [p] is on the ellipse of centre [o], semi-axes [rx] and [ry], turned by [rot]. *)
Definition ellipse (o : pt) (rx ry rot : R) (p : pt) : Prop :=
  let d := psub p o in
  ((fst d * cos rot + snd d * sin rot) / rx) ^ 2 + ((snd d * cos rot - fst d * sin rot) / ry) ^ 2 = 1.
(** [p] is within [d] of a side of the polygonal line. *)
Definition near (l : list pt) (d : R) (p : pt) : Prop :=
  exists i k, (S i < length l)%nat /\ 0 <= k <= 1 /\
    dist2 p (padd (smul (1 - k) (nth i l (0, 0))) (smul k (nth (S i) l (0, 0)))) <= d ^ 2.

(** Where the arc starts on an ellipse centred at the origin. *)
Lemma on_ellipse_turn rx ry rot a :
  on_ellipse rx ry rot a = (rx * cos a * cos rot - ry * sin a * sin rot, rx * cos a * sin rot + ry * sin a * cos rot).
Proof.
  unfold on_ellipse. destruct (Req_EM_T rot 0) as [->|_]; cbn [fst snd]; [|reflexivity].
  rewrite cos_0, sin_0. f_equal; ring.
Qed.
Lemma arc_points_ge tol rx ry a0 a1 : (3 <= arc_points tol rx ry a0 a1)%nat.
Proof. unfold arc_points. lia. Qed.
Lemma nth_map_seq {X} (g : nat -> X) d : forall n s i, (i < n)%nat -> nth i (map g (seq s n)) d = g (s + i)%nat.
Proof.
  induction n as [|n IH]; intros s i H; [lia|]. cbn [seq map]. destruct i as [|i]; cbn [nth]; [f_equal; lia|]. rewrite IH by lia. f_equal. lia.
Qed.
Lemma map_seq_S {X} (g : nat -> X) n s : map g (seq (S s) n) = map (fun i => g (S i)) (seq s n).
Proof. revert s; induction n as [|n IH]; intro s; [reflexivity|]. cbn [seq map]. now rewrite IH. Qed.
(** The points of the arc: as many as the rule says, at equal steps of the parameter. *)
Lemma arc_shape c rx ry a0 a1 rot :
  let n := (arc_points (cv_tol c) rx ry a0 a1 - 1)%nat in
  let E a := on_ellipse rx ry rot (a - rot) in
  curve_arc c rx ry a0 a1 rot =
  Curve (cv_pts c ++ map (fun i => padd (psub (E (a0 + INR (S i) * ((a1 - a0) / INR n))) (E a0)) (cv_end c)) (seq 0 n)) (cv_tol c) None None.
Proof.
  cbv zeta. unfold curve_arc. pose proof (arc_points_ge (cv_tol c) rx ry a0 a1) as G.
  unfold linspace. set (N := arc_points _ _ _ _ _) in *. destruct N as [|n]; [lia|]. replace (S n - 1)%nat with n by lia.
  cbn [seq map]. rewrite map_seq_S, !map_map. f_equal. f_equal. apply map_ext. intro i.
  assert (D : (a1 - rot - (a0 - rot)) / INR n = (a1 - a0) / INR n) by (unfold Rdiv; ring). rewrite D.
  do 2 f_equal.
  - f_equal. ring.
  - f_equal. cbn [INR]. ring.
Qed.
Lemma dist_dot p q : dist2 p q = (fst p - fst q) ^ 2 + (snd p - snd q) ^ 2.
Proof. unfold dist2, dot, psub; cbn [fst snd]. ring. Qed.

Theorem C61_ellipse : forall c rx ry a0 a1 rot, rx <> 0 -> ry <> 0 ->
  exists new, cv_pts (curve_arc c rx ry a0 a1 rot) = cv_pts c ++ new /\ (2 <= length new)%nat /\
    exists o, ellipse o rx ry rot (cv_end c) /\ Forall (ellipse o rx ry rot) new /\
      cv_end (curve_arc c rx ry a0 a1 rot) = padd o (on_ellipse rx ry rot (a1 - rot)) /\ cv_end c = padd o (on_ellipse rx ry rot (a0 - rot)).
Proof.
  intros c rx ry a0 a1 rot Hx Hy. rewrite arc_shape. cbn [cv_pts]. eexists. split; [reflexivity|].
  pose proof (arc_points_ge (cv_tol c) rx ry a0 a1) as G. set (n := (arc_points _ _ _ _ _ - 1)%nat) in *.
  assert (G2 : (2 <= n)%nat) by (unfold n; lia). clearbody n.
  split; [rewrite map_length, seq_length; lia|].
  exists (psub (cv_end c) (on_ellipse rx ry rot (a0 - rot))).
  assert (On : forall a, ellipse (0, 0) rx ry rot (on_ellipse rx ry rot a)).
  { intro a. unfold ellipse. rewrite on_ellipse_turn. unfold psub; cbn [fst snd]. rewrite !Rminus_0_r.
    pose proof (sin2_cos2 rot) as S1. pose proof (sin2_cos2 a) as S2. unfold Rsqr in *.
    replace ((rx * cos a * cos rot - ry * sin a * sin rot) * cos rot + (rx * cos a * sin rot + ry * sin a * cos rot) * sin rot)
      with (rx * cos a) by (transitivity (rx * cos a * (sin rot * sin rot + cos rot * cos rot)); [rewrite S1|]; ring).
    replace ((rx * cos a * sin rot + ry * sin a * cos rot) * cos rot - (rx * cos a * cos rot - ry * sin a * sin rot) * sin rot)
      with (ry * sin a) by (transitivity (ry * sin a * (sin rot * sin rot + cos rot * cos rot)); [rewrite S1|]; ring).
    replace (rx * cos a / rx) with (cos a) by (field; auto). replace (ry * sin a / ry) with (sin a) by (field; auto). lra. }
  assert (Mv : forall o p, ellipse (0, 0) rx ry rot p -> ellipse o rx ry rot (padd p o)).
  { intros o p. unfold ellipse, psub, padd; cbn [fst snd]. rewrite !Rminus_0_r.
    replace (fst p + fst o - fst o) with (fst p) by ring. replace (snd p + snd o - snd o) with (snd p) by ring. auto. }
  assert (Eo : forall e p q : pt, padd (psub p q) e = padd p (psub e q)) by (intros [] [] []; unfold padd, psub; cbn; f_equal; ring).
  split; [|split; [|split]].
  - replace (cv_end c) with (padd (on_ellipse rx ry rot (a0 - rot)) (psub (cv_end c) (on_ellipse rx ry rot (a0 - rot)))) at 2; [apply Mv, On|].
    destruct (cv_end c), (on_ellipse rx ry rot (a0 - rot)). unfold padd, psub; cbn. f_equal; ring.
  - apply Forall_forall. intros p H. apply in_map_iff in H as (i & <- & _). rewrite Eo. apply Mv, On.
  - unfold cv_end at 1. cbn [cv_pts]. destruct n as [|m]; [lia|]. rewrite seq_S, map_app. cbn [map]. rewrite app_assoc, last_last.
    rewrite Eo. cbn [Nat.add]. replace (a0 + INR (S m) * ((a1 - a0) / INR (S m))) with a1; [|field; apply not_0_INR; lia].
    unfold padd. cbn. f_equal; ring.
  - destruct (cv_end c), (on_ellipse rx ry rot (a0 - rot)). unfold padd, psub; cbn. f_equal; ring.
Qed.

(** *** How far the polygonal line may be from a circular arc *)
Lemma between n x : (1 <= n)%nat -> 0 <= x <= INR n -> exists i, (i < n)%nat /\ INR i <= x <= INR i + 1.
Proof.
  intro H. induction n as [|n IH]; [lia|]. intros [A B]. rewrite S_INR in B. destruct (Nat.eq_dec n 0) as [->|Nz].
  - exists 0%nat. cbn in *. split; [lia|lra].
  - destruct (Rle_dec x (INR n)) as [L|L]; [destruct IH as (i & I1 & I2); [lia|lra|]; exists i; split; [lia|auto]|].
    exists n. split; [lia|lra].
Qed.
(** sin (k y) <= k sin y for 1 <= k, k y <= pi. *)
Lemma sin_scale k y : 1 <= k -> 0 <= y -> k * y <= PI -> sin (k * y) <= k * sin y.
Proof.
  intros K Y B. destruct (Req_dec y 0) as [->|Ny]; [rewrite Rmult_0_r, sin_0; lra|].
  set (g := fun t => k * sin t - sin (k * t)). set (g' := fun t => k * cos t - k * cos (k * t)).
  destruct (MVT_cor2 g g' 0 y) as (t & E & T).
  - lra.
  - intros t _. unfold g, g'. apply derivable_pt_lim_minus.
    + apply (derivable_pt_lim_scal sin). apply derivable_pt_lim_sin.
    + replace (k * cos (k * t)) with (cos (k * t) * k) by ring. apply (derivable_pt_lim_comp (fun x => k * x) sin).
      * pose proof (derivable_pt_lim_scal id k t 1 (derivable_pt_lim_id t)) as D. rewrite Rmult_1_r in D. exact D.
      * apply derivable_pt_lim_sin.
  - unfold g, g' in E. rewrite Rmult_0_r, sin_0 in E.
    assert (C1 : cos (k * t) <= cos t).
    { assert (t <= k * t) by nra. assert (k * t <= k * y) by nra. apply cos_decr_1; lra. }
    assert (0 <= (k * cos t - k * cos (k * t)) * (y - 0)); [|lra].
    apply Rmult_le_pos; [|lra]. nra.
Qed.
Lemma Rabs_le_inv a b : Rabs a <= b -> - b <= a <= b.
Proof. unfold Rabs. destruct (Rcase_abs a); lra. Qed.
Lemma Rabs_eq_0 a : Rabs a = 0 -> a = 0.
Proof. unfold Rabs. destruct (Rcase_abs a); lra. Qed.
Lemma one_minus_cos x : 1 - cos x = 2 * (sin (x / 2)) ^ 2.
Proof. replace x with (2 * (x / 2)) at 1 by field. rewrite cos_2a_sin. ring. Qed.
(** 1 - cos (k a) <= k^2 (1 - cos a) *)
Lemma cos_scale k a : 1 <= k -> 0 <= a -> k * a <= 2 * PI -> 1 - cos (k * a) <= k ^ 2 * (1 - cos a).
Proof.
  intros K A B. rewrite !one_minus_cos. replace (k * a / 2) with (k * (a / 2)) by field.
  pose proof (sin_scale k (a / 2) K ltac:(lra) ltac:(lra)) as S.
  assert (0 <= sin (k * (a / 2))) by (apply sin_ge_0; [nra|lra]).
  assert (sin (k * (a / 2)) ^ 2 <= (k * sin (a / 2)) ^ 2) by (apply pow_incr; lra). nra.
Qed.
(** The rule for the number of sides leaves at most 5/4 of the angle that would
    give exactly the tolerance. *)
Lemma arc_half tol r a0 a1 (n := (arc_points tol r r a0 a1 - 1)%nat) (alpha := acos (1 - sqrt tol / Rmax r r)) :
  0 < alpha -> (2 <= n)%nat /\ Rabs (a1 - a0) / INR n / 2 <= 5 / 4 * alpha.
Proof.
  intro A. unfold n, arc_points. fold alpha. set (x := / 2 * Rabs (a1 - a0) / alpha). set (z := Int_part (x + / 2)).
  assert (X : 0 <= x).
  { unfold x. apply Rmult_le_pos; [|left; now apply Rinv_0_lt_compat]. pose proof (Rabs_pos (a1 - a0)). lra. }
  split; [lia|]. set (m := (Nat.max 3 (1 + Z.to_nat z) - 1)%nat).
  assert (M2 : 2 <= INR m) by (replace 2 with (INR 2) by (cbn; ring); apply le_INR; unfold m; lia).
  assert (M1 : x - / 2 <= INR m).
  { destruct (base_Int_part (x + / 2)) as [B1 B2]. fold z in B1, B2. 
    assert (IZR z <= INR m); [|lra]. rewrite INR_IZR_INZ. apply IZR_le. unfold m. lia. }
  replace (Rabs (a1 - a0)) with (2 * x * alpha) by (unfold x; field; lra).
  assert (K : x / INR m <= 5 / 4).
  { apply (Rmult_le_reg_r (INR m)); [lra|]. unfold Rdiv at 1. rewrite Rmult_assoc, Rinv_l by lra. lra. }
  replace (2 * x * alpha / INR m / 2) with (x / INR m * alpha) by (field; lra). nra.
Qed.
Lemma sqrt_sq t : 0 <= t -> sqrt (t ^ 2) = t.
Proof. intro H. replace (t ^ 2) with (t * t) by ring. now apply sqrt_square. Qed.
(** alpha, for a tolerance t on a circle of radius r *)
Lemma alpha_ok t r : 0 < t -> t <= r / 2 -> let alpha := acos (1 - sqrt (t ^ 2) / Rmax r r) in
  0 < alpha <= PI / 3 /\ r * (1 - cos alpha) = t.
Proof.
  intros T B alpha. unfold alpha. rewrite sqrt_sq by lra. rewrite Rmax_left by lra.
  set (q := t / r). assert (Q : 0 < q <= / 2).
  { unfold q. split; [apply Rdiv_lt_0_compat; lra|]. apply (Rmult_le_reg_r r); [lra|]. unfold Rdiv. rewrite Rmult_assoc, Rinv_l by lra. lra. }
  assert (C : cos (acos (1 - q)) = 1 - q) by (apply cos_acos; lra).
  destruct (acos_bound (1 - q)) as [A0 A1]. split.
  - split.
    + destruct A0 as [A0|A0]; [auto|]. rewrite <- A0, cos_0 in C. lra.
    + apply Rnot_lt_le. intro L. assert (PP := PI_RGT_0).
      assert (cos (acos (1 - q)) < cos (PI / 3)) by (apply cos_decreasing_1; lra). rewrite cos_PI3 in *. lra.
  - rewrite C. unfold q. field. lra.
Qed.
Lemma circle_turn r rot a : on_ellipse r r rot (a - rot) = (r * cos a, r * sin a).
Proof.
  rewrite on_ellipse_turn. replace a with ((a - rot) + rot) at 5 6 by ring. rewrite cos_plus, sin_plus. f_equal; ring.
Qed.
(** A chord and a point of its arc. *)
Lemma chord_dist r m h f k : sin f = (2 * k - 1) * sin h ->
  dist2 (r * cos (m + f), r * sin (m + f))
        (padd (smul (1 - k) (r * cos (m - h), r * sin (m - h))) (smul k (r * cos (m + h), r * sin (m + h)))) = (r * (cos f - cos h)) ^ 2.
Proof.
  intro S. rewrite dist_dot. unfold padd, smul; cbn [fst snd]. rewrite !cos_plus, !sin_plus, cos_minus, sin_minus. rewrite S.
  pose proof (sin2_cos2 m) as P. unfold Rsqr in P.
  transitivity ((sin m * sin m + cos m * cos m) * (r * (cos f - cos h)) ^ 2); [ring|rewrite P; ring].
Qed.
Lemma chord_near r m h f : 0 <= r -> Rabs f <= Rabs h -> Rabs h <= PI / 2 ->
  exists k, 0 <= k <= 1 /\ dist2 (r * cos (m + f), r * sin (m + f))
     (padd (smul (1 - k) (r * cos (m - h), r * sin (m - h))) (smul k (r * cos (m + h), r * sin (m + h)))) <= (r * (1 - cos h)) ^ 2.
Proof.
  intros R0 F H. pose proof PI_RGT_0 as PP.
  assert (D : forall k, 0 <= k <= 1 -> sin f = (2 * k - 1) * sin h -> dist2 (r * cos (m + f), r * sin (m + f))
     (padd (smul (1 - k) (r * cos (m - h), r * sin (m - h))) (smul k (r * cos (m + h), r * sin (m + h)))) <= (r * (1 - cos h)) ^ 2).
  { intros k K S. rewrite chord_dist by auto. 
    assert (C : cos h <= cos f).
    { assert (Ea : forall z, cos (Rabs z) = cos z) by (intro z; unfold Rabs; destruct (Rcase_abs z); [apply cos_neg|reflexivity]).
      rewrite <- (Ea h), <- (Ea f). pose proof (Rabs_pos f). apply cos_decr_1; lra. }
    pose proof (COS_bound f) as [_ Cf]. apply pow_incr. split; [apply Rmult_le_pos; lra|apply Rmult_le_compat_l; lra]. }
  assert (Hh : - (PI / 2) <= h <= PI / 2) by (apply Rabs_le_inv; auto).
  destruct (Req_dec h 0) as [Z|Z].
  - subst h. rewrite Rabs_R0 in F. assert (f = 0) by (apply Rabs_eq_0; pose proof (Rabs_pos f); lra). subst f.
    exists 0. split; [lra|]. apply D; [lra|]. rewrite sin_0. ring.
  - assert (Sn : sin h <> 0).
    { intro E. destruct (Rlt_dec 0 h) as [P|P]; [pose proof (sin_gt_0 h); lra|]. pose proof (sin_gt_0 (- h)) as Q. rewrite sin_neg in Q. lra. }
    assert (B : Rabs (sin f) <= Rabs (sin h)).
    { assert (As : forall z, Rabs z <= PI / 2 -> Rabs (sin z) = sin (Rabs z)).
      { intros z Bz. apply Rabs_le_inv in Bz. destruct (Rle_dec 0 z) as [P|P].
        - rewrite (Rabs_pos_eq z) by auto. apply Rabs_pos_eq. apply sin_ge_0; lra.
        - rewrite (Rabs_left z) by lra. rewrite sin_neg. rewrite <- Rabs_Ropp. rewrite <- sin_neg. apply Rabs_pos_eq. apply sin_ge_0; lra. }
      rewrite !As by lra. pose proof (Rabs_pos f). pose proof (Rabs_pos h). apply sin_incr_1; lra. }
    set (q := sin f / sin h). assert (Q : Rabs q <= 1).
    { unfold q, Rdiv. rewrite Rabs_mult, Rabs_inv. apply (Rmult_le_reg_r (Rabs (sin h))); [now apply Rabs_pos_lt|].
      rewrite Rmult_assoc, Rinv_l by (now apply Rabs_no_R0). lra. }
    apply Rabs_le_inv in Q. exists ((1 + q) / 2). split; [lra|]. apply D; [lra|]. unfold q. field. auto.
Qed.

(** For a circular arc and a tolerance of at most half the radius, every point of
    the arc is within 25/16 of the tolerance of the points added. *)
Theorem C61_circle : forall c r a0 a1 rot t, cv_tol c = t ^ 2 -> 0 < t -> t <= r / 2 ->
  exists new, cv_pts (curve_arc c r r a0 a1 rot) = cv_pts c ++ new /\
    forall x, 0 <= x <= 1 -> let a := a0 + x * (a1 - a0) in
      near (cv_end c :: new) (25 / 16 * t) (padd (cv_end c) (r * cos a - r * cos a0, r * sin a - r * sin a0)).
Proof.
  intros c r a0 a1 rot t Tc T B. pose proof PI_RGT_0 as PP. rewrite arc_shape. cbn [cv_pts]. eexists. split; [reflexivity|].
  intros x X. set (a := a0 + x * (a1 - a0)). destruct (alpha_ok t r T B) as [[Al Au] At].
  destruct (arc_half (cv_tol c) r a0 a1) as [N2 Hf]; [rewrite Tc; lra|]. rewrite Tc in Hf.
  set (alpha := acos _) in *. set (n := (arc_points (cv_tol c) r r a0 a1 - 1)%nat) in *. rewrite <- Tc in Hf. fold n in Hf.
  assert (Np : 0 < INR n) by (apply lt_0_INR; lia).
  set (s := (a1 - a0) / INR n). set (P := fun i : nat => padd (cv_end c) (r * cos (a0 + INR i * s) - r * cos a0, r * sin (a0 + INR i * s) - r * sin a0)).
  assert (Ln : forall i, (i <= n)%nat -> nth i (cv_end c :: map (fun i => padd (psub (on_ellipse r r rot (a0 + INR (S i) * s - rot)) (on_ellipse r r rot (a0 - rot))) (cv_end c)) (seq 0 n)) (0, 0) = P i).
  { intros [|i] Hi; cbn [nth].
    - unfold P. cbn [INR]. rewrite Rmult_0_l, Rplus_0_r. destruct (cv_end c). unfold padd; cbn. f_equal; ring.
    - rewrite nth_map_seq by lia. rewrite !circle_turn. unfold P, padd, psub; cbn [fst snd Nat.add]. f_equal; ring. }
  destruct (between n (x * INR n)) as (i & Hi & I1 & I2); [lia|split; [apply Rmult_le_pos; lra|nra]|].
  set (m := a0 + (INR i + / 2) * s). set (h := s / 2). set (f := (x * INR n - INR i - / 2) * s).
  assert (Am : a = m + f) by (unfold a, m, f, s; field; lra).
  assert (Ah : Rabs h <= 5 / 4 * alpha).
  { unfold h, s. unfold Rdiv. rewrite !Rabs_mult, (Rabs_pos_eq (/ 2)) by lra. rewrite (Rabs_pos_eq (/ INR n)) by (left; now apply Rinv_0_lt_compat). exact Hf. }
  assert (Af : Rabs f <= Rabs h).
  { unfold f, h. unfold Rdiv. rewrite Rmult_comm, !Rabs_mult. apply Rmult_le_compat_l; [apply Rabs_pos|]. rewrite (Rabs_pos_eq (/ 2)) by lra. apply Rabs_le. lra. }
  destruct (chord_near r m h f) as (k & K & D); [lra|auto|lra|].
  exists i, k. cbn [length]. rewrite map_length, seq_length. split; [lia|]. split; [auto|]. rewrite !Ln by lia.
  apply Rle_trans with ((r * (1 - cos h)) ^ 2).
  - rewrite Am. eapply Rle_trans; [|exact D]. right. unfold P. rewrite S_INR.
    replace (m - h) with (a0 + INR i * s) by (unfold m, h; field). replace (m + h) with (a0 + (INR i + 1) * s) by (unfold m, h; field).
    rewrite !dist_dot. unfold padd, smul; cbn [fst snd]. ring.
  - apply pow_incr. split; [apply Rmult_le_pos; [lra|pose proof (COS_bound h); lra]|].
    assert (Ch : 1 - cos h <= 1 - cos (5 / 4 * alpha)).
    { assert (Ea : cos (Rabs h) = cos h) by (unfold Rabs; destruct (Rcase_abs h); [apply cos_neg|reflexivity]). rewrite <- Ea.
      assert (cos (5 / 4 * alpha) <= cos (Rabs h)) by (pose proof (Rabs_pos h); apply cos_decr_1; lra). lra. }
    assert (Cs := cos_scale (5 / 4) alpha ltac:(lra) ltac:(lra) ltac:(lra)).
    apply Rle_trans with (r * ((5 / 4) ^ 2 * (1 - cos alpha))); [apply Rmult_le_compat_l; lra|].
    replace (r * ((5 / 4) ^ 2 * (1 - cos alpha))) with ((5 / 4) ^ 2 * (r * (1 - cos alpha))) by ring. rewrite At. lra.
Qed.

(** The tolerance itself is not respected: for every circle and tolerance there is an
    arc with a point further than the tolerance from each of the points' segments. *)
Lemma arc_count_two t r a0 : 0 < t -> t <= r / 2 -> let alpha := acos (1 - sqrt (t ^ 2) / Rmax r r) in
  arc_points (t ^ 2) r r a0 (a0 + 24 / 5 * alpha) = 3%nat.
Proof.
  intros T B alpha. destruct (alpha_ok t r T B) as [[Al _] _]. fold alpha in Al. unfold arc_points. fold alpha.
  replace (a0 + 24 / 5 * alpha - a0) with (24 / 5 * alpha) by ring. rewrite Rabs_pos_eq by lra.
  replace (/ 2 * (24 / 5 * alpha) / alpha + / 2) with (29 / 10) by (field; lra).
  replace (Int_part (29 / 10)) with 2%Z; [reflexivity|].
  symmetry. unfold Int_part. rewrite <- (tech_up (29 / 10) 3); [reflexivity| |]; lra.
Qed.
Theorem C61_tolerance_refuted : forall c r t, cv_tol c = t ^ 2 -> 0 < t -> t <= r / 2 -> cv_pts c <> [] ->
  exists a1 x new, 0 <= x <= 1 /\ cv_pts (curve_arc c r r 0 a1 0) = cv_pts c ++ new /\
    ~ near (cv_end c :: new) t (padd (cv_end c) (r * cos (x * a1) - r * cos 0, r * sin (x * a1) - r * sin 0)).
Proof.
  intros c r t Tc T B _. pose proof PI_RGT_0 as PP. destruct (alpha_ok t r T B) as [[Al Au] At]. pose proof (arc_count_two t r 0 T B) as Ct. cbv zeta in Ct.
  set (alpha := acos _) in *. rewrite Rplus_0_l in Ct. exists (24 / 5 * alpha), (/ 4). eexists. split; [lra|].
  rewrite arc_shape. cbn [cv_pts]. split; [reflexivity|]. rewrite Tc, Ct. cbn [seq map Nat.sub INR].
  rewrite !circle_turn. replace (24 / 5 * alpha - 0) with (24 / 5 * alpha) by ring.
  replace (0 + 1 * (24 / 5 * alpha / (1 + 1))) with (12 / 5 * alpha) by field.
  replace (0 + (1 + 1) * (24 / 5 * alpha / (1 + 1))) with (24 / 5 * alpha) by field.
  replace (/ 4 * (24 / 5 * alpha)) with (6 / 5 * alpha) by field. rewrite cos_0, sin_0.
  set (b := 6 / 5 * alpha). replace (12 / 5 * alpha) with (2 * b) by (unfold b; field). replace (24 / 5 * alpha) with (4 * b) by (unfold b; field).
  assert (Bb : alpha < b /\ b <= 2 * PI / 5) by (unfold b; lra).
  assert (Cb : cos b < cos alpha) by (apply cos_decreasing_1; lra).
  assert (C0 : 0 <= cos b) by (apply cos_ge_0; lra).
  (* in the direction of b, both chords stay below r cos b *)
  intros (i & k & Hi & K & D). cbn [length] in Hi.
  set (q := padd (smul _ _) _) in D.
  assert (L : (fst q - fst (cv_end c) + r) * cos b + (snd q - snd (cv_end c)) * sin b <= r * cos b).
  { assert (V : forall z, cos z * cos b + sin z * sin b = cos (z - b)) by (intro z; now rewrite cos_minus).
    assert (E0 : forall z p, p = padd (psub (r * cos z, r * sin z) (r * 1, r * 0)) (cv_end c) ->
       (fst p - fst (cv_end c) + r) * cos b + (snd p - snd (cv_end c)) * sin b = r * cos (z - b)).
    { intros z p ->. rewrite <- V. unfold padd, psub; cbn [fst snd]. ring. }
    assert (W0 : forall p, p = cv_end c -> (fst p - fst (cv_end c) + r) * cos b + (snd p - snd (cv_end c)) * sin b = r * cos b) by (intros p ->; ring).
    pose proof (E0 (2 * b) _ eq_refl) as W1. pose proof (E0 (4 * b) _ eq_refl) as W2.
    replace (2 * b - b) with b in W1 by ring. replace (4 * b - b) with (3 * b) in W2 by ring.
    assert (C3 : cos (3 * b) <= cos b).
    { assert (3 * b <= 6 * PI / 5) by lra. destruct (Rle_dec (3 * b) PI) as [P|P]; [apply cos_decr_1; lra|].
      apply Rle_trans with 0; [|auto]. apply cos_le_0; lra. }
    assert (lin : forall p1 p2 : pt, (fst (padd (smul (1 - k) p1) (smul k p2)) - fst (cv_end c) + r) * cos b + (snd (padd (smul (1 - k) p1) (smul k p2)) - snd (cv_end c)) * sin b
      = (1 - k) * ((fst p1 - fst (cv_end c) + r) * cos b + (snd p1 - snd (cv_end c)) * sin b) + k * ((fst p2 - fst (cv_end c) + r) * cos b + (snd p2 - snd (cv_end c)) * sin b)).
    { intros p1 p2. unfold padd, smul; cbn [fst snd]. ring. }
    unfold q. rewrite lin. destruct i as [|[|i]]; [| |lia]; cbn [nth].
    - rewrite (W0 _ eq_refl), W1. right; ring.
    - rewrite W1, W2. assert (r * cos (3 * b) <= r * cos b) by (apply Rmult_le_compat_l; lra). nra. }
  (* while the point of the arc is at r *)
  rewrite dist_dot in D. set (p := padd (cv_end c) _) in D.
  assert (Lp : (fst p - fst (cv_end c) + r) * cos b + (snd p - snd (cv_end c)) * sin b = r).
  { unfold p, padd; cbn [fst snd]. pose proof (sin2_cos2 b) as S. unfold Rsqr in S.
    transitivity (r * (sin b * sin b + cos b * cos b)); [ring|rewrite S; ring]. }
  set (dx := fst p - fst q) in *. set (dy := snd p - snd q) in *.
  assert (G : r - r * cos b <= dx * cos b + dy * sin b).
  { unfold dx, dy. lra. }
  assert (Gt : t < r - r * cos b) by (rewrite <- At; nra).
  pose proof (sin2_cos2 b) as S. unfold Rsqr in S.
  assert (CS : (dx * cos b + dy * sin b) ^ 2 <= dx ^ 2 + dy ^ 2).
  { replace (dx ^ 2 + dy ^ 2) with ((dx ^ 2 + dy ^ 2) * (sin b * sin b + cos b * cos b)) by (rewrite S; ring).
    pose proof (pow2_ge_0 (dx * sin b - dy * cos b)). nra. }
  assert (t ^ 2 < (dx * cos b + dy * sin b) ^ 2); [|lra].
  apply Rlt_le_trans with ((r - r * cos b) ^ 2); [nra|]. apply pow_incr. lra.
Qed.

(** ** Non-vacuity: the unit circle, tolerance 1/10, from the origin *)
Example C61_demo : exists new, cv_pts (curve_arc (new_curve (0, 0) (/ 10)) 1 1 0 PI 0) = [(0, 0)] ++ new /\
  near ((0, 0) :: new) (25 / 16 * / 10) (padd (0, 0) (1 * cos (0 + / 2 * (PI - 0)) - 1 * cos 0, 1 * sin (0 + / 2 * (PI - 0)) - 1 * sin 0)).
Proof.
  destruct (C61_circle (new_curve (0, 0) (/ 10)) 1 0 PI 0 (/ 10)) as (new & E & H); [reflexivity|lra|lra|].
  exists new. split; [exact E|]. apply (H (/ 2)). lra.
Qed.

Print Assumptions C61_ellipse.
Print Assumptions C61_circle.
Print Assumptions C61_tolerance_refuted.
