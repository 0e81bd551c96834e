(** C78: control points lie ahead of and behind the points. *)

From Coq Require Import Reals Lra Lia Psatz List ZArith Bool Arith.
From Verif Require Import Plane PlaneProofs Flex SpecFlex FlexProofs SpecRound PropFlexShape PropFlexEnds PropFlexRound Smooth SpecSmooth PropSmooth.
Import ListNotations.
Open Scope R_scope.

Lemma alpha_small th ph : -2 < sqrt 2 * (sin th - sin ph / 16) * (sin ph - sin th / 16) * (cos th - cos ph) < 2.
Proof.
  set (A := (th + ph) / 2). set (B := (th - ph) / 2). replace th with (A + B) by (unfold A, B; lra). replace ph with (A - B) by (unfold A, B; lra).
  rewrite sin_plus, sin_minus, cos_plus, cos_minus. pose proof (sin2_cos2 A) as EA. pose proof (sin2_cos2 B) as EB. unfold Rsqr in *.
  set (sa := sin A) in *. set (ca := cos A) in *. set (sb := sin B) in *. set (cb := cos B) in *. clearbody sa ca sb cb. clear A B.
  set (x := sa ^ 2). set (y := sb ^ 2). assert (X : 0 <= x <= 1) by (unfold x; nra). assert (Y : 0 <= y <= 1) by (unfold y; nra).
  set (P := (sa * cb + ca * sb - (sa * cb - ca * sb) / 16) * (sa * cb - ca * sb - (sa * cb + ca * sb) / 16)).
  assert (EP : P = 257 / 256 * (x - y) - (x + y - 2 * x * y) / 8).
  { unfold P, x, y. assert (C1 : ca ^ 2 = 1 - sa ^ 2) by nra. assert (C2 : cb ^ 2 = 1 - sb ^ 2) by nra.
    replace ((sa * cb + ca * sb - (sa * cb - ca * sb) / 16) * (sa * cb - ca * sb - (sa * cb + ca * sb) / 16))
      with (257 / 256 * (sa ^ 2 * cb ^ 2 - ca ^ 2 * sb ^ 2) - (sa ^ 2 * cb ^ 2 + ca ^ 2 * sb ^ 2) / 8) by field. rewrite C1, C2. field. }
  set (u := x * y). assert (U : 0 <= u <= 1) by (unfold u; nra).
  assert (PB : P ^ 2 <= (289 / 256) ^ 2 * (1 - u) ^ 2).
  { assert (P1 : - (289 / 256 * (1 - u)) <= P <= 289 / 256 * (1 - u)).
    { rewrite EP. unfold u. assert (x - y <= 1 - x * y) by nra. assert (y - x <= 1 - x * y) by nra. assert (0 <= x + y - 2 * x * y) by nra. assert (x + y - 2 * x * y <= 1 - x * y) by nra. lra. }
    rewrite <- Rpow_mult_distr. nra. }
  assert (Q : (sqrt 2 * P * (ca * cb - sa * sb - (ca * cb + sa * sb))) ^ 2 < 4).
  { replace ((sqrt 2 * P * (ca * cb - sa * sb - (ca * cb + sa * sb))) ^ 2) with ((sqrt 2 * sqrt 2) * P ^ 2 * 4 * u) by (unfold u, x, y; ring).
    rewrite sqrt_sqrt by lra. assert (u * P ^ 2 <= u * ((289 / 256) ^ 2 * (1 - u) ^ 2)) by (apply Rmult_le_compat_l; lra).
    assert (u * (1 - u) <= 1 / 4) by (pose proof (pow2_ge_0 (u - 1 / 2)) as Z; replace ((u - 1 / 2) ^ 2) with (u * u - u + 1 / 4) in Z by field; lra). assert (u * (1 - u) ^ 2 <= 1 / 4) by (replace (u * (1 - u) ^ 2) with (u * (1 - u) * (1 - u)) by ring; assert (0 <= u * (1 - u)) by nra; nra). lra. }
  rewrite Rmult_assoc with (r1 := sqrt 2). fold P. set (w := sqrt 2 * P * (ca * cb - sa * sb - (ca * cb + sa * sb))) in *. clearbody w. nra.
Qed.
Lemma ahead th ph : ~ (cos th = -1 /\ cos ph = -1) -> 0 < hobby_f th ph.
Proof.
  intro N. unfold hobby_f. pose proof (alpha_small th ph) as A. apply Rdiv_lt_0_compat; [lra|].
  assert (S5 : 2 < sqrt 5 < 3) by (split; [rewrite <- (sqrt_square 2) by lra|rewrite <- (sqrt_square 3) by lra]; apply sqrt_lt_1; lra).
  pose proof (COS_bound th) as [T1 T2]. pose proof (COS_bound ph) as [P1 P2]. destruct (Req_dec (cos th) (-1)) as [E|E].
  - assert (cos ph <> -1) by (intro; apply N; auto). rewrite E. nra.
  - nra.
Qed.
(** The control points of an arc lie ahead of its first point, in the direction there,
    and behind its last point, unless the arc should leave and arrive in the direction
    opposite to its chord. *)
Theorem C78_ahead : forall n p to ti ctrl a th ph k, spline n p to ti ctrl a th ph -> (k < n)%nat -> p k <> p (S k) -> 0 < to k -> 0 < ti (S k) ->
  ~ (turned (p k) (p (S k)) (a k) PI /\ turned (p k) (p (S k)) (a (S k)) PI) ->
  exists L M, 0 < L /\ 0 < M /\
    fst (ctrl k) = padd (p k) (smul L (cos (a k), sin (a k))) /\ snd (ctrl k) = psub (p (S k)) (smul M (cos (a (S k)), sin (a (S k)))).
Proof.
  intros n p to ti ctrl a th ph k SP K N TO TI B. pose proof (heads_along _ _ N) as H. set (t := along (psub (p (S k)) (p k))) in *.
  destruct (sp_arc _ _ _ _ _ _ _ _ SP k K t H) as [H1 H2]. pose proof (apart_pos _ _ N) as P.
  assert (Q : forall x, cos x = -1 -> same_dir x PI).
  { intros x C. split; [rewrite C, cos_PI; reflexivity|]. rewrite sin_PI. pose proof (sin2_cos2 x) as E. unfold Rsqr in E. rewrite C in E. nra. }
  assert (NB : ~ (cos (a k - t) = -1 /\ cos (t - a (S k)) = -1)).
  { intros [C1 C2]. apply B. assert (C3 : cos (a (S k) - t) = -1) by (rewrite <- cos_neg; replace (- (a (S k) - t)) with (t - a (S k)) by ring; exact C2).
    split; apply turned_along; try exact N; fold t;
      [apply Q in C1; apply (same_dir_add _ _ t) in C1; replace (a k - t + t) with (a k) in C1 by ring; rewrite Rplus_comm; exact C1|
       apply Q in C3; apply (same_dir_add _ _ t) in C3; replace (a (S k) - t + t) with (a (S k)) in C3 by ring; rewrite Rplus_comm; exact C3]. }
  exists (apart (p k) (p (S k)) * hobby_f (a k - t) (t - a (S k)) / to k), (apart (p k) (p (S k)) * hobby_f (t - a (S k)) (a k - t) / ti (S k)).
  split; [apply Rdiv_lt_0_compat; [apply Rmult_lt_0_compat; [exact P|apply ahead; exact NB]|exact TO]|].
  split; [apply Rdiv_lt_0_compat; [apply Rmult_lt_0_compat; [exact P|apply ahead; tauto]|exact TI]|]. auto.
Qed.
Print Assumptions C78_ahead.
