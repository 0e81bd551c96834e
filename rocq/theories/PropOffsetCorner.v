(** C84: the corners of an offset outline, the number of vertices of its arcs, and the polygon
    set [offset] returns. *)

From Coq Require Import Reals Lra Lia List ZArith Bool Permutation.
From Verif Require Import Plane Engine Flex LinkHoles SpecEngine SpecLink SpecOffset Offset PropEngine PropCut PropLink Winding OffsetFacts OffsetLoop OffsetTidy PropOffset PropFlexEnds PropFlexRound.
Import ListNotations.
Open Scope R_scope.

(** ** Corners *)
Lemma side_normal a b p : a <> b -> rside (real a, real b) p = - (long (a, b) * dot (normal a b) (fst p - fst (real b), snd p - snd (real b))).
Proof.
  intro N. destruct (normal_parts a b N) as [E L]. rewrite E. set (L0 := long (a, b)) in *. clearbody L0. unfold rside, dot. cbn [fst snd]. field. lra.
Qed.
Lemma side_normal' a b p : a <> b -> rside (real a, real b) p = - (long (a, b) * dot (normal a b) (fst p - fst (real a), snd p - snd (real a))).
Proof.
  intro N. destruct (normal_parts a b N) as [E L]. rewrite E. set (L0 := long (a, b)) in *. clearbody L0. unfold rside, dot. cbn [fst snd]. field. lra.
Qed.
Lemma normal_unit a b : a <> b -> dot (normal a b) (normal a b) = 1.
Proof. intro N. now apply normal_spec. Qed.
(** [p] is on the line of the edge moved by [d], to the right if [d] is positive. *)
Definition on_moved (d : R) (e : zpt * zpt) (p : pt) : Prop := rside (real (fst e), real (snd e)) p = - (d * long e).
Lemma on_moved_end d a b p : a <> b -> (on_moved d (a, b) p <-> dot (normal a b) (fst p - fst (real b), snd p - snd (real b)) = d).
Proof.
  intro N. unfold on_moved. cbn [fst snd]. rewrite side_normal by exact N. destruct (normal_spec a b N) as [L _]. split; intro H; [|rewrite H; ring].
  apply Rmult_eq_reg_l with (long (a, b)); [|lra]. lra.
Qed.
Lemma on_moved_start d a b p : a <> b -> (on_moved d (a, b) p <-> dot (normal a b) (fst p - fst (real a), snd p - snd (real a)) = d).
Proof.
  intro N. unfold on_moved. cbn [fst snd]. rewrite side_normal' by exact N. destruct (normal_spec a b N) as [L _]. split; intro H; [|rewrite H; ring].
  apply Rmult_eq_reg_l with (long (a, b)); [|lra]. lra.
Qed.
(** The corner [a], [b], [c] is one that opens: on the outside if [d] is positive. *)
Definition opens (d : R) (a b c : zpt) : Prop := 0 <= d * cross3 (real a) (real b) (real c).
(** The edges go in almost the same direction. *)
Definition straight (d : R) (a b c : zpt) : Prop :=
  let ux := fst (real b) - fst (real a) in let uy := snd (real b) - snd (real a) in
  let wx := fst (real c) - fst (real b) in let wy := snd (real c) - snd (real b) in
  0 < ux * wx + uy * wy /\ Rabs (d * (ux * wy - uy * wx)) < long (a, b) * long (b, c).
Lemma corner_parts a b c : a <> b -> b <> c -> let m := normal a b in let n := normal b c in
  let LL := long (a, b) * long (b, c) in 1 <= LL /\
  crs m n * LL = cross3 (real a) (real b) (real c) /\
  dot m n * LL = (fst (real b) - fst (real a)) * (fst (real c) - fst (real b)) + (snd (real b) - snd (real a)) * (snd (real c) - snd (real b)).
Proof.
  intros N1 N2 m n LL. destruct (normal_parts a b N1) as [E1 L1]. destruct (normal_parts b c N2) as [E2 L2]. unfold m, n, LL. rewrite E1, E2.
  set (l1 := long (a, b)) in *. set (l2 := long (b, c)) in *. clearbody l1 l2. split; [nra|]. unfold crs, dot, cross3. cbn [fst snd]. split; field; lra.
Qed.
Lemma opens_crs d a b c : a <> b -> b <> c -> (opens d a b c <-> 0 <= crs (normal a b) (normal b c) * d).
Proof.
  intros N1 N2. destruct (corner_parts a b c N1 N2) as (L & E & _). unfold opens. rewrite <- E. set (s := crs _ _) in *. set (LL := long (a, b) * long (b, c)) in *. clearbody s LL.
  split; intro H; [|nra]. apply Rmult_le_reg_r with LL; [lra|]. lra.
Qed.
Lemma straight_crs d a b c : a <> b -> b <> c -> (straight d a b c <-> 0 < dot (normal a b) (normal b c) /\ Rabs (crs (normal a b) (normal b c) * d) < 1).
Proof.
  intros N1 N2. destruct (corner_parts a b c N1 N2) as (L & E & F). unfold straight. cbv zeta. rewrite <- F.
  replace ((fst (real b) - fst (real a)) * (snd (real c) - snd (real b)) - (snd (real b) - snd (real a)) * (fst (real c) - fst (real b))) with (cross3 (real a) (real b) (real c)) by (unfold cross3; ring).
  rewrite <- E. set (s := crs _ _) in *. set (k := dot _ _) in *. set (LL := long (a, b) * long (b, c)) in *. clearbody s k LL.
  replace (d * (s * LL)) with (s * d * LL) by ring. rewrite Rabs_mult, (Rabs_right LL) by lra.
  split; intros [A B]; split.
  - apply Rmult_lt_reg_r with LL; lra.
  - apply Rmult_lt_reg_r with LL; lra.
  - nra.
  - nra.
Qed.
Lemma point_open jt delta lim steps a b c : a <> b -> b <> c -> opens delta a b c -> ~ straight delta a b c -> let m := normal a b in let n := normal b c in
  offset_point jt delta lim steps b m n = (match jt with
    | Miter => if Rle_dec lim (1 + dot m n) then do_miter delta b m n (1 + dot m n) else do_square delta b m n (crs m n)
    | Bevel => do_square delta b m n (crs m n) | RoundJoin => do_round delta steps b m n (crs m n) end, true).
Proof.
  intros N1 N2 O S m n. apply (opens_crs delta a b c N1 N2) in O. assert (S' : ~ (0 < dot m n /\ Rabs (crs m n * delta) < 1)) by (intro K; now apply S, straight_crs).
  fold m n in O. clear S. unfold offset_point. fold (crs m n). replace (fst m * fst n + snd n * snd m) with (dot m n) by (unfold dot; ring).
  replace (1 + (fst n * fst m + snd n * snd m)) with (1 + dot m n) by (unfold dot; ring).
  pose proof (unit_cs m n (normal_unit a b N1) (normal_unit b c N2)) as U. assert (SB : -1 <= crs m n <= 1) by nra.
  destruct (Rlt_dec (Rabs (crs m n * delta)) 1) as [Sm|Sm]; destruct (Rlt_dec 0 (dot m n)) as [Dt|Dt]; cbn [andb]; [now destruct S'| | |].
  all: try (destruct (Rlt_dec 1 (crs m n)); [lra|]; destruct (Rlt_dec (crs m n) (-1)); [lra|]).
  all: destruct (Rlt_dec (crs m n * delta) 0); [lra|reflexivity].
Qed.


(** A miter: the new vertex is where the two moved edges meet, if that is not too far away. *)
Lemma two_lines m n x d : dot m m = 1 -> dot n n = 1 -> dot m x = d -> dot n x = d -> d <> 0 -> ~ (0 < dot m n /\ Rabs (crs m n * d) < 1) ->
  0 < 1 + dot m n /\ x = ((fst m + fst n) * (d / (1 + dot m n)), (snd m + snd n) * (d / (1 + dot m n))) /\ dot x x * (1 + dot m n) = 2 * (d * d).
Proof.
  intros Um Un M N Z S. pose proof (unit_cs m n Um Un) as U.
  pose proof (in_terms m x Um) as X. pose proof (in_terms m n Um) as En. rewrite M in X. set (y := crs m x) in *. set (c := dot m n) in *. set (s := crs m n) in *.
  assert (Nx : d * c + y * s = d).
  { rewrite <- N at 2. rewrite X, En. unfold comb, rot, dot. cbn [fst snd]. unfold dot in Um.
    replace ((fst m * c + - snd m * s) * (fst m * d + - snd m * y) + (snd m * c + fst m * s) * (snd m * d + fst m * y)) with ((fst m * fst m + snd m * snd m) * (d * c + y * s)) by ring. rewrite Um. ring. }
  assert (Xx : dot x x = d * d + y * y).
  { rewrite X. unfold comb, rot, dot. cbn [fst snd]. unfold dot in Um. replace ((fst m * d + - snd m * y) * (fst m * d + - snd m * y) + (snd m * d + fst m * y) * (snd m * d + fst m * y)) with ((fst m * fst m + snd m * snd m) * (d * d + y * y)) by ring. rewrite Um. ring. }
  clearbody y c s.
  assert (Cp : 0 < 1 + c).
  { destruct (Rlt_dec 0 (1 + c)) as [H|H]; [exact H|]. exfalso. assert (c = -1) by nra. assert (s = 0) by nra. subst c s. apply Z. lra. }
  assert (Y : y * (1 + c) = d * s).
  { destruct (Req_dec s 0) as [E|E].
    - exfalso. apply S. subst s. assert (c = 1) by nra. subst c. rewrite Rmult_0_l, Rabs_R0. lra.
    - apply Rmult_eq_reg_r with s; [|exact E]. replace (y * (1 + c) * s) with (y * s * (1 + c)) by ring. replace (y * s) with (d * (1 - c)) by lra.
      replace (d * s * s) with (d * (s * s)) by ring. replace (s * s) with (1 - c * c) by lra. ring. }
  split; [exact Cp|]. split.
  - assert (Y' : y = d * s / (1 + c)) by (rewrite <- Y; field; lra). rewrite X. unfold comb, rot. rewrite En. unfold comb, rot. cbn [fst snd]. rewrite Y'. f_equal; field; lra.
  - rewrite Xx. apply Rmult_eq_reg_r with (1 + c); [|lra]. replace ((d * d + y * y) * (1 + c) * (1 + c)) with (d * d * ((1 + c) * (1 + c)) + (y * (1 + c)) * (y * (1 + c))) by ring. rewrite Y.
    replace (d * s * (d * s)) with (d * d * (s * s)) by ring. replace (s * s) with (1 - c * c) by lra. ring.
Qed.
Theorem C84_miter : forall delta limit steps a b c p, delta <> 0 -> a <> b -> b <> c -> opens delta a b c -> ~ straight delta a b c ->
  on_moved delta (a, b) p -> on_moved delta (b, c) p -> dist2 p (real b) <= (reach Miter limit * delta) * (reach Miter limit * delta) ->
  offset_point Miter delta (miter_lim limit) steps b (normal a b) (normal b c) = ([p], true).
Proof.
  intros delta limit steps a b c p Z N1 N2 O Sn M1 M2 D. rewrite (point_open Miter delta _ steps a b c N1 N2 O Sn). f_equal.
  apply (on_moved_end delta a b p N1) in M1. apply (on_moved_start delta b c p N2) in M2.
  assert (S' : ~ (0 < dot (normal a b) (normal b c) /\ Rabs (crs (normal a b) (normal b c) * delta) < 1)) by (intro K; now apply Sn, straight_crs).
  set (x := (fst p - fst (real b), snd p - snd (real b))) in *.
  destruct (two_lines _ _ x delta (normal_unit a b N1) (normal_unit b c N2) M1 M2 Z S') as (Cp & X & Dx).
  change (dist2 p (real b)) with (dot x x) in D. rewrite <- reach_spec in D. pose proof (lim_bound limit) as LB. set (lim := miter_lim limit) in *. cbn [reach2] in D.
  assert (DD : dot x x <= 2 / lim * (delta * delta)).
  { replace (2 / lim * (delta * delta)) with (sqrt (2 / lim) * delta * (sqrt (2 / lim) * delta)); [exact D|].
    replace (sqrt (2 / lim) * delta * (sqrt (2 / lim) * delta)) with (sqrt (2 / lim) * sqrt (2 / lim) * (delta * delta)) by ring. rewrite sqrt_sqrt; [ring|]. left. apply Rdiv_lt_0_compat; lra. }
  set (k := dot (normal a b) (normal b c)) in *. clearbody k lim.
  assert (L : lim <= 1 + k).
  { assert (d2 : 0 < delta * delta) by nra. assert (Q : dot x x * lim <= 2 * (delta * delta)).
    { replace (2 * (delta * delta)) with (2 / lim * (delta * delta) * lim) by (field; lra). apply Rmult_le_compat_r; lra. }
    assert (X0 : 0 < dot x x) by (assert (0 < dot x x * (1 + k)) by lra; destruct (Rlt_dec 0 (dot x x)); [assumption|nra]).
    rewrite <- Dx in Q. apply Rmult_le_reg_l with (dot x x); [exact X0|exact Q]. }
  destruct (Rle_dec lim (1 + k)) as [_|N]; [|contradiction]. unfold do_miter, at_vertex. cbn [fst snd]. f_equal.
  unfold x in X. injection X as X1 X2. rewrite <- X1, <- X2. unfold real. cbn [fst snd]. destruct p. cbn [fst snd]. f_equal; ring.
Qed.
(** When it is too far, or for a bevel: two new vertices, one on each moved edge, the one beyond the
    end of its edge, the other before its start, both as far from the corner; the line between
    them is as far from the corner as the moved edges are. *)
Lemma quarter_half a : - PI <= a <= PI -> let t := tan (a / 4) in
  1 - t * t = (1 + t * t) * cos (a / 2) /\ 2 * t = (1 + t * t) * sin (a / 2) /\ (1 + t * t) * (1 + cos (a / 2)) = 2.
Proof.
  intros B t. pose proof PI_RGT_0 as PP.
  assert (C : 0 < cos (a / 4)) by (apply cos_gt_0; lra).
  assert (T : t * cos (a / 4) = sin (a / 4)) by (unfold t, tan; field; lra).
  assert (D : cos (a / 2) = cos (a / 4) * cos (a / 4) - sin (a / 4) * sin (a / 4)) by (replace (a / 2) with (2 * (a / 4)) by field; now rewrite cos_2a).
  assert (E : sin (a / 2) = 2 * sin (a / 4) * cos (a / 4)) by (replace (a / 2) with (2 * (a / 4)) by field; now rewrite sin_2a).
  pose proof (sin2_cos2 (a / 4)) as U. unfold Rsqr in U. rewrite D, E. rewrite <- T in *. clearbody t. set (k := cos (a / 4)) in *. clearbody k.
  assert (Q : (1 + t * t) * (k * k) = 1) by lra. split; [|split].
  - replace ((1 + t * t) * (k * k - t * k * (t * k))) with ((1 + t * t) * (k * k) * (1 - t * t)) by ring. rewrite Q. ring.
  - replace ((1 + t * t) * (2 * (t * k) * k)) with ((1 + t * t) * (k * k) * (2 * t)) by ring. rewrite Q. ring.
  - replace ((1 + t * t) * (1 + (k * k - t * k * (t * k)))) with ((1 + t * t) + (1 + t * t) * (k * k) * (1 - t * t)) by ring. rewrite Q. ring.
Qed.
Definition square_corner (delta : R) (a b c : zpt) (p q : pt) : Prop :=
  on_moved delta (a, b) p /\ on_moved delta (b, c) q /\
  dist2 p (real b) = dist2 q (real b) /\ dist2 p (real b) <= 2 * (delta * delta) /\
  0 <= (fst p - fst (real b)) * (fst (real b) - fst (real a)) + (snd p - snd (real b)) * (snd (real b) - snd (real a)) /\
  (fst q - fst (real b)) * (fst (real c) - fst (real b)) + (snd q - snd (real b)) * (snd (real c) - snd (real b)) <= 0 /\
  cross3 (real b) p q * cross3 (real b) p q = delta * delta * dist2 p q.
Lemma square_corner_spec delta a b c : a <> b -> b <> c -> 0 <= crs (normal a b) (normal b c) * delta -> (delta < 0 -> crs (normal a b) (normal b c) <> 0) ->
  exists p q, do_square delta b (normal a b) (normal b c) (crs (normal a b) (normal b c)) = [p; q] /\ square_corner delta a b c p q.
Proof.
  intros N1 N2 O Nz. pose proof (normal_unit a b N1) as U1. pose proof (normal_unit b c N2) as U2. destruct (normal_parts a b N1) as [E1 L1]. destruct (normal_parts b c N2) as [E2 L2].
  unfold do_square. set (m := normal a b) in *. set (n := normal b c) in *. fold (dot m n).
  pose proof (unit_cs m n U1 U2) as U. destruct (unit_angle m n U1 U2) as [Ca Sa]. destruct (angle_sign (crs m n) (dot m n) U) as [Ap An].
  pose proof (atan2_bound (crs m n) (dot m n)) as AB. set (t0 := atan2 (crs m n) (dot m n)) in *.
  destruct (quarter_tan t0 ltac:(lra)) as (T1 & T2 & T3 & T4). destruct (quarter_half t0 ltac:(lra)) as (H1 & H2 & H3).
  assert (Ch : cos (t0 / 2) = dot m n * cos (t0 / 2) + crs m n * sin (t0 / 2)).
  { rewrite <- Ca, <- Sa. rewrite <- cos_minus. f_equal. field. }
  set (t := tan (t0 / 4)) in *.
  assert (Sgn : 0 <= delta * t).
  { destruct (Rlt_dec delta 0) as [G|G].
    - specialize (Nz G). assert (crs m n < 0) by nra. specialize (An H). assert (t <= 0) by (apply T3; lra). nra.
    - destruct (Req_dec delta 0) as [->|G']; [lra|]. assert (0 <= crs m n) by nra. assert (0 <= t) by (apply T2; apply Ap; assumption). nra. }
  eexists. eexists. split; [reflexivity|].
  pose proof (sin2_cos2 (t0 / 2)) as UU. unfold Rsqr in UU. rewrite Ca, Sa in T4. clearbody t.
  set (C2 := cos (t0 / 2)) in *. set (S2 := sin (t0 / 2)) in *. clearbody C2 S2. clear T2 T3 Ap An AB Ca Sa t0.
  set (p := at_vertex b (delta * (fst m - snd m * t), delta * (snd m + fst m * t))).
  set (q := at_vertex b (delta * (fst n + snd n * t), delta * (snd n - fst n * t))).
  assert (Px : fst p - fst (real b) = delta * (fst m - snd m * t) /\ snd p - snd (real b) = delta * (snd m + fst m * t)) by (unfold p, at_vertex, real; cbn [fst snd]; split; ring).
  assert (Qx : fst q - fst (real b) = delta * (fst n + snd n * t) /\ snd q - snd (real b) = delta * (snd n - fst n * t)) by (unfold q, at_vertex, real; cbn [fst snd]; split; ring).
  destruct Px as [P1 P2]. destruct Qx as [Q1 Q2]. clearbody p q.
  assert (Dp : dist2 p (real b) = delta * delta * (1 + t * t)).
  { unfold dist2. rewrite P1, P2. unfold dot in U1. replace (delta * (fst m - snd m * t) * (delta * (fst m - snd m * t)) + delta * (snd m + fst m * t) * (delta * (snd m + fst m * t))) with ((fst m * fst m + snd m * snd m) * (delta * delta * (1 + t * t))) by ring. rewrite U1. ring. }
  assert (Dq : dist2 q (real b) = delta * delta * (1 + t * t)).
  { unfold dist2. rewrite Q1, Q2. unfold dot in U2. replace (delta * (fst n + snd n * t) * (delta * (fst n + snd n * t)) + delta * (snd n - fst n * t) * (delta * (snd n - fst n * t))) with ((fst n * fst n + snd n * snd n) * (delta * delta * (1 + t * t))) by ring. rewrite U2. ring. }
  split; [|split; [|split; [|split; [|split; [|split]]]]].
  - apply on_moved_end; [exact N1|]. fold m. unfold dot. cbn [fst snd]. rewrite P1, P2. unfold dot in U1. replace (fst m * (delta * (fst m - snd m * t)) + snd m * (delta * (snd m + fst m * t))) with (delta * (fst m * fst m + snd m * snd m)) by ring. rewrite U1. ring.
  - apply on_moved_start; [exact N2|]. fold n. unfold dot. cbn [fst snd]. rewrite Q1, Q2. unfold dot in U2. replace (fst n * (delta * (fst n + snd n * t)) + snd n * (delta * (snd n - fst n * t))) with (delta * (fst n * fst n + snd n * snd n)) by ring. rewrite U2. ring.
  - now rewrite Dp, Dq.
  - rewrite Dp. assert (0 <= delta * delta) by nra. replace (2 * (delta * delta)) with (delta * delta * 2) by ring. apply Rmult_le_compat_l; lra.
  - rewrite P1, P2. clearbody m n. subst m. cbn [fst snd] in *. unfold dot in U1. cbn [fst snd] in U1. set (l := long (a, b)) in *. set (dx := fst (real b) - fst (real a)) in *. set (dy := snd (real b) - snd (real a)) in *. clearbody l dx dy.
    replace (delta * (dy / l - - (dx / l) * t) * dx + delta * (- (dx / l) + dy / l * t) * dy) with (delta * t * (l * (dy / l * (dy / l) + - (dx / l) * - (dx / l)))) by (field; lra). rewrite U1. nra.
  - rewrite Q1, Q2. clearbody m n. subst n. cbn [fst snd] in *. unfold dot in U2. cbn [fst snd] in U2. set (l := long (b, c)) in *. set (dx := fst (real c) - fst (real b)) in *. set (dy := snd (real c) - snd (real b)) in *. clearbody l dx dy.
    replace (delta * (dy / l + - (dx / l) * t) * dx + delta * (- (dx / l) - dy / l * t) * dy) with (- (delta * t * (l * (dy / l * (dy / l) + - (dx / l) * - (dx / l))))) by (field; lra). rewrite U2. nra.
  - assert (Cx : cross3 (real b) p q = delta * delta * ((1 + t * t) * S2)).
    { unfold cross3. rewrite P1, P2, Q1, Q2. rewrite <- T4. unfold crs, dot. ring. }
    assert (Dd : dist2 p q = delta * delta * (2 * ((1 + t * t) * (1 - C2)))).
    { replace (dist2 p q) with (dist2 p (real b) + dist2 q (real b) - 2 * ((fst p - fst (real b)) * (fst q - fst (real b)) + (snd p - snd (real b)) * (snd q - snd (real b)))) by (unfold dist2; ring).
      rewrite Dp, Dq, P1, P2, Q1, Q2.
      replace (delta * (fst m - snd m * t) * (delta * (fst n + snd n * t)) + delta * (snd m + fst m * t) * (delta * (snd n - fst n * t))) with (delta * delta * (dot m n * (1 - t * t) + crs m n * (2 * t))) by (unfold dot, crs; ring).
      rewrite H1, H2. replace (dot m n * ((1 + t * t) * C2) + crs m n * ((1 + t * t) * S2)) with ((1 + t * t) * (dot m n * C2 + crs m n * S2)) by ring. rewrite <- Ch. ring. }
    rewrite Cx, Dd.
    replace (delta * delta * ((1 + t * t) * S2) * (delta * delta * ((1 + t * t) * S2))) with (delta * delta * (delta * delta) * ((1 + t * t) * ((1 + t * t) * (S2 * S2)))) by ring.
    replace (S2 * S2) with ((1 + C2) * (1 - C2)) by lra.
    replace ((1 + t * t) * ((1 + t * t) * ((1 + C2) * (1 - C2)))) with ((1 + t * t) * (1 + C2) * ((1 + t * t) * (1 - C2))) by ring. rewrite H3. ring.
Qed.
Theorem C84_bevel : forall delta lim steps a b c, a <> b -> b <> c -> opens delta a b c -> ~ straight delta a b c -> (delta < 0 -> ~ opens (- delta) a b c) ->
  exists p q, offset_point Bevel delta lim steps b (normal a b) (normal b c) = ([p; q], true) /\ square_corner delta a b c p q.
Proof.
  intros delta lim steps a b c N1 N2 O Sn Nz. rewrite (point_open Bevel delta _ steps a b c N1 N2 O Sn).
  assert (Nz' : delta < 0 -> crs (normal a b) (normal b c) <> 0) by (intros G E; apply (Nz G), opens_crs; [exact N1|exact N2|rewrite E; lra]).
  apply (opens_crs delta a b c N1 N2) in O. destruct (square_corner_spec delta a b c N1 N2 O Nz') as (p & q & E & Q). exists p, q. rewrite E. now split.
Qed.
Theorem C84_miter_far : forall delta limit steps a b c, delta <> 0 -> a <> b -> b <> c -> opens delta a b c -> ~ straight delta a b c -> (delta < 0 -> ~ opens (- delta) a b c) ->
  (forall p, on_moved delta (a, b) p -> on_moved delta (b, c) p -> (reach Miter limit * delta) * (reach Miter limit * delta) < dist2 p (real b)) ->
  exists p q, offset_point Miter delta (miter_lim limit) steps b (normal a b) (normal b c) = ([p; q], true) /\ square_corner delta a b c p q.
Proof.
  intros delta limit steps a b c Z N1 N2 O Sn Nz F. rewrite (point_open Miter delta _ steps a b c N1 N2 O Sn).
  assert (Nz' : delta < 0 -> crs (normal a b) (normal b c) <> 0) by (intros G E; apply (Nz G), opens_crs; [exact N1|exact N2|rewrite E; lra]).
  apply (opens_crs delta a b c N1 N2) in O. destruct (square_corner_spec delta a b c N1 N2 O Nz') as (p & q & E & Q).
  destruct (Rle_dec _ _) as [L|L]; [|exists p, q; rewrite E; now split]. exfalso.
  pose proof (lim_bound limit) as LB. pose proof (normal_unit a b N1) as U1. pose proof (normal_unit b c N2) as U2. set (m := normal a b) in *. set (n := normal b c) in *.
  set (k := delta / (1 + dot m n)). set (x := ((fst m + fst n) * k, (snd m + snd n) * k)).
  assert (Kc : k * (1 + dot m n) = delta) by (unfold k; field; lra).
  assert (Mx : dot m x = delta). { rewrite <- Kc. unfold x, dot at 1. cbn [fst snd]. unfold dot in U1. replace (fst m * ((fst m + fst n) * k) + snd m * ((snd m + snd n) * k)) with (k * ((fst m * fst m + snd m * snd m) + dot m n)) by (unfold dot; ring). rewrite U1. reflexivity. }
  assert (Nx : dot n x = delta). { rewrite <- Kc. unfold x, dot at 1. cbn [fst snd]. unfold dot in U2. replace (fst n * ((fst m + fst n) * k) + snd n * ((snd m + snd n) * k)) with (k * ((fst n * fst n + snd n * snd n) + dot m n)) by (unfold dot; ring). rewrite U2. reflexivity. }
  set (p0 := at_vertex b x). assert (Px : (fst p0 - fst (real b), snd p0 - snd (real b)) = x) by (unfold p0, at_vertex, real, x; cbn [fst snd]; f_equal; ring).
  specialize (F p0). assert (F' : reach Miter limit * delta * (reach Miter limit * delta) < dist2 p0 (real b)).
  { apply F; [apply on_moved_end|apply on_moved_start]; try assumption; rewrite Px; assumption. }
  assert (Dx : dist2 p0 (real b) = dot x x) by (rewrite <- Px; reflexivity).
  assert (Dd : dot x x * (1 + dot m n) = 2 * (delta * delta)).
  { assert (dot x x = k * (dot m x + dot n x)) by (unfold x, dot; cbn [fst snd]; ring). rewrite H, Mx, Nx. replace (k * (delta + delta) * (1 + dot m n)) with (k * (1 + dot m n) * (2 * delta)) by ring. rewrite Kc. ring. }
  rewrite Dx in F'. rewrite <- reach_spec in F'. set (lim := miter_lim limit) in *. cbn [reach2] in F'.
  replace (sqrt (2 / lim) * delta * (sqrt (2 / lim) * delta)) with (sqrt (2 / lim) * sqrt (2 / lim) * (delta * delta)) in F' by ring. rewrite sqrt_sqrt in F' by (left; apply Rdiv_lt_0_compat; lra).
  assert (0 < delta * delta) by nra. assert (B1 : 2 / lim * (delta * delta) * lim < dot x x * lim) by (apply Rmult_lt_compat_r; lra).
  replace (2 / lim * (delta * delta) * lim) with (2 * (delta * delta)) in B1 by (field; lra).
  assert (0 <= dot x x) by (unfold dot; nra). assert (dot x x * lim <= dot x x * (1 + dot m n)) by (apply Rmult_le_compat_l; lra). lra.
Qed.
(** Round corners: the vertices are on a circle around the corner; the first is the end of the
    moved edge before it, the last the start of the moved edge after it, and two consecutive vertices
    are at most one and a half of the steps of a circle of [steps] vertices apart. *)
Definition shifted (d : R) (n : pt) (v : zpt) : pt := (fst (real v) + d * fst n, snd (real v) + d * snd n).
Lemma chord x : 2 * (1 - cos x) <= x * x.
Proof.
  replace x with (2 * (x / 2)) at 1 by field. rewrite cos_2a_sin.
  assert (G : forall y, 0 <= y -> sin y * sin y <= y * y).
  { intros y Y. destruct (Req_dec y 0) as [->|N]; [rewrite sin_0; lra|]. pose proof (sin_lt_x y ltac:(lra)).
    destruct (Rle_dec y 1) as [L|L].
    - assert (0 <= sin y) by (apply sin_ge_0; pose proof PI2_3_2; lra). nra.
    - pose proof (SIN_bound y). nra. }
  assert (H : sin (x / 2) * sin (x / 2) <= x / 2 * (x / 2)).
  { destruct (Rle_dec 0 (x / 2)) as [L|L]; [now apply G|]. specialize (G (- (x / 2)) ltac:(lra)). rewrite sin_neg in G. lra. }
  lra.
Qed.
Lemma circle_gap v d x a b : dot x x = 1 -> dist2 (at_vertex v (times (turned_by a x) d)) (at_vertex v (times (turned_by b x) d)) <= ((a - b) * d) * ((a - b) * d).
Proof.
  intro U. assert (E : dist2 (at_vertex v (times (turned_by a x) d)) (at_vertex v (times (turned_by b x) d)) = d * d * (2 * (1 - cos (a - b)))).
  { assert (F : dot (turned_by a x) (turned_by b x) = cos (a - b)) by (unfold dot, turned_by; cbn [fst snd]; rewrite cos_minus; unfold dot in U; replace ((fst x * cos a - snd x * sin a) * (fst x * cos b - snd x * sin b) + (fst x * sin a + snd x * cos a) * (fst x * sin b + snd x * cos b)) with ((fst x * fst x + snd x * snd x) * (cos a * cos b + sin a * sin b)) by ring; rewrite U; ring).
    pose proof (turned_dot a x) as A. pose proof (turned_dot b x) as B. rewrite U in A, B. set (ta := turned_by a x) in *. set (tb := turned_by b x) in *. clearbody ta tb.
    unfold dist2, at_vertex, times. cbn [fst snd]. replace (2 * (1 - cos (a - b))) with (dot ta ta + dot tb tb - 2 * dot ta tb) by (rewrite A, B, F; ring). unfold dot. ring. }
  rewrite E. pose proof (chord (a - b)). replace ((a - b) * d * ((a - b) * d)) with (d * d * ((a - b) * (a - b))) by ring. apply Rmult_le_compat_l; [nra|assumption].
Qed.
Theorem C84_round : forall delta lim steps a b c, delta <> 0 -> 2 <= steps -> a <> b -> b <> c -> opens delta a b c -> ~ straight delta a b c ->
  exists l, offset_point RoundJoin delta lim steps b (normal a b) (normal b c) = (l, true) /\ l <> [] /\
  hd (0, 0) l = shifted delta (normal a b) b /\ last l (0, 0) = shifted delta (normal b c) b /\
  (forall p, In p l -> dist2 p (real b) = delta * delta) /\
  (forall i, (S i < length l)%nat -> let step := 2 * PI / steps * delta in dist2 (nth i l (0, 0)) (nth (S i) l (0, 0)) <= (3 / 2 * step) * (3 / 2 * step)).
Proof.
  intros delta lim steps a b c Z St N1 N2 O Sn. rewrite (point_open RoundJoin delta _ steps a b c N1 N2 O Sn). apply (opens_crs delta a b c N1 N2) in O.
  pose proof (normal_unit a b N1) as U1. pose proof (normal_unit b c N2) as U2. set (m := normal a b) in *. set (n := normal b c) in *.
  eexists. split; [reflexivity|]. unfold do_round. fold (dot m n). pose proof (unit_cs m n U1 U2) as U. destruct (angle_sign (crs m n) (dot m n) U) as [Ap An].
  pose proof (turned_to m n U1 U2) as TT. destruct (unit_angle m n U1 U2) as [Ca Sa]. set (w := atan2 (crs m n) (dot m n)) in *.
  assert (TA : n = turned_by (sg delta * Rabs w) m).
  { assert (Q : sg delta * Rabs w = w \/ sg delta * Rabs w = - w /\ crs m n = 0).
    { unfold sg. destruct (Rlt_dec delta 0) as [H|H].
      - destruct (Rle_dec w 0) as [L|L]; [left; rewrite Rabs_left1 by exact L; ring|]. right. rewrite Rabs_right by lra. split; [ring|]. destruct (Rlt_dec (crs m n) 0) as [C|C]; [specialize (An C); lra|]. nra.
      - left. assert (0 <= crs m n) by nra. specialize (Ap H0). rewrite Rabs_right by lra. ring. }
    destruct Q as [->|[-> Q]]; [exact TT|]. rewrite TT. unfold turned_by. rewrite cos_neg, sin_neg. rewrite Sa, Q. f_equal; ring. }
  clear Ap An TT Ca Sa U.
  destruct (round_steps_spec steps St w) as (K1 & K2 & K3). set (N := round_steps steps w) in *. rewrite (spin_map delta steps N m).
  set (th := 2 * PI / steps) in *. rewrite map_map.
  set (g := fun k : nat => at_vertex b (times (turned_by (INR k * (sg delta * th)) m) delta)).
  change (map (fun x : nat => at_vertex b (times (turned_by (INR x * (sg delta * th)) m) delta)) (seq 0 N)) with (map g (seq 0 N)).
  assert (D : forall x, dot x x = 1 -> dist2 (at_vertex b (times x delta)) (real b) = delta * delta).
  { intros x Hx. rewrite plain_ahead, ahead_dist by exact Hx. ring. }
  assert (Th : 0 < th) by (unfold th; pose proof PI_RGT_0; apply Rdiv_lt_0_compat; lra).
  split; [destruct (map g (seq 0 N)); discriminate|]. split; [|split; [|split]].
  - destruct N as [|N']; [lia|]. cbn [seq map app hd]. unfold g, shifted, at_vertex, times, turned_by, real. cbn [INR fst snd]. rewrite Rmult_0_l, cos_0, sin_0. f_equal; ring.
  - rewrite last_last. unfold shifted, at_vertex, times, real. cbn [fst snd]. f_equal; ring.
  - intros p I. apply in_app_iff in I. destruct I as [I|[<-|[]]].
    + apply in_map_iff in I. destruct I as (k & <- & _). unfold g. apply D. rewrite turned_dot. exact U1.
    + apply D. exact U2.
  - intros i L. rewrite app_length, map_length, seq_length in L. cbn [length] in L. cbv zeta.
    assert (Gi : nth i (map g (seq 0 N) ++ [at_vertex b (times n delta)]) (0, 0) = g i).
    { rewrite app_nth1 by (rewrite map_length, seq_length; lia). rewrite (nth_indep _ (0, 0) (g 0%nat)) by (rewrite map_length, seq_length; lia). rewrite map_nth, seq_nth by lia. reflexivity. }
    rewrite Gi. assert (Sq : forall u, u * u <= (3 / 2 * th) * (3 / 2 * th) -> (u * delta) * (u * delta) <= 3 / 2 * (th * delta) * (3 / 2 * (th * delta))).
    { intros u Hu. replace (u * delta * (u * delta)) with (delta * delta * (u * u)) by ring. replace (3 / 2 * (th * delta) * (3 / 2 * (th * delta))) with (delta * delta * (3 / 2 * th * (3 / 2 * th))) by ring. apply Rmult_le_compat_l; [nra|exact Hu]. }
    destruct (Nat.eq_dec (S i) N) as [E|E].
    + rewrite app_nth2 by (rewrite map_length, seq_length; lia). rewrite map_length, seq_length, E, Nat.sub_diag. cbn [nth]. rewrite TA. unfold g.
      eapply Rle_trans; [apply circle_gap; exact U1|]. apply Sq. replace (N - 1)%nat with i in * by lia.
      replace ((INR i * (sg delta * th) - sg delta * Rabs w) * (INR i * (sg delta * th) - sg delta * Rabs w)) with (sg delta * sg delta * ((Rabs w - INR i * th) * (Rabs w - INR i * th))) by ring.
      rewrite sg_sq. set (z := Rabs w - INR i * th) in *. assert (0 <= z) by (unfold z; lra). clearbody z. nra.
    + assert (Gs : nth (S i) (map g (seq 0 N) ++ [at_vertex b (times n delta)]) (0, 0) = g (S i)).
      { rewrite app_nth1 by (rewrite map_length, seq_length; lia). rewrite (nth_indep _ (0, 0) (g 0%nat)) by (rewrite map_length, seq_length; lia). rewrite map_nth, seq_nth by lia. reflexivity. }
      rewrite Gs. unfold g. eapply Rle_trans; [apply circle_gap; exact U1|]. apply Sq. rewrite S_INR.
      replace ((INR i * (sg delta * th) - (INR i + 1) * (sg delta * th)) * (INR i * (sg delta * th) - (INR i + 1) * (sg delta * th))) with (sg delta * sg delta * (th * th)) by ring. rewrite sg_sq. nra.
Qed.
(** A corner that closes: both moved edges, joined through the corner itself.  The union
    with positive (negative) winding numbers discards the rest.  Edges that go on almost
    straight have one new vertex, the end of the moved edge. *)
Theorem C84_inner : forall jt delta lim steps a b c, a <> b -> b <> c -> ~ opens delta a b c -> ~ straight delta a b c ->
  offset_point jt delta lim steps b (normal a b) (normal b c) = ([shifted delta (normal a b) b; real b; shifted delta (normal b c) b], true).
Proof.
  intros jt delta lim steps a b c N1 N2 O Sn.
  assert (O' : crs (normal a b) (normal b c) * delta < 0) by (apply Rnot_le_lt; intro K; now apply O, opens_crs).
  assert (S' : ~ (0 < dot (normal a b) (normal b c) /\ Rabs (crs (normal a b) (normal b c) * delta) < 1)) by (intro K; now apply Sn, straight_crs).
  pose proof (unit_cs _ _ (normal_unit a b N1) (normal_unit b c N2)) as U. set (m := normal a b) in *. set (n := normal b c) in *.
  assert (SB : -1 <= crs m n <= 1) by nra.
  unfold offset_point. fold (crs m n). replace (fst m * fst n + snd n * snd m) with (dot m n) by (unfold dot; ring).
  assert (E : [at_vertex b (times m delta); at_vertex b (0, 0); at_vertex b (times n delta)] = [shifted delta m b; real b; shifted delta n b]).
  { unfold at_vertex, times, shifted, real. cbn [fst snd]. repeat (f_equal; try ring). }
  rewrite E. destruct (Rlt_dec (Rabs (crs m n * delta)) 1) as [Sm|Sm]; destruct (Rlt_dec 0 (dot m n)) as [Dt|Dt]; cbn [andb]; [now destruct S'| | |].
  all: try (destruct (Rlt_dec 1 (crs m n)); [lra|]; destruct (Rlt_dec (crs m n) (-1)); [lra|]).
  all: destruct (Rlt_dec (crs m n * delta) 0); [reflexivity|lra].
Qed.
Theorem C84_straight : forall jt delta lim steps a b c, a <> b -> b <> c -> straight delta a b c ->
  offset_point jt delta lim steps b (normal a b) (normal b c) = ([shifted delta (normal a b) b], false).
Proof.
  intros jt delta lim steps a b c N1 N2 Sn. apply (straight_crs delta a b c N1 N2) in Sn. destruct Sn as [D Sm]. set (m := normal a b) in *. set (n := normal b c) in *.
  unfold offset_point. fold (crs m n). replace (fst m * fst n + snd n * snd m) with (dot m n) by (unfold dot; ring).
  destruct (Rlt_dec (Rabs (crs m n * delta)) 1); [|contradiction]. destruct (Rlt_dec 0 (dot m n)); [|contradiction]. cbn [andb].
  unfold at_vertex, times, shifted, real. cbn [fst snd]. repeat (f_equal; try ring).
Qed.

(** ** Arcs *)
(** Growing with round corners, [tolerance] vertices to a circle: as many as that, but no
    more than one for each two grid units of it. *)
Lemma pi_4 : PI <= 52 / 15.
Proof.
  destruct (PI_ineq 1) as [_ U]. cbn [Nat.mul Nat.add sum_f_R0] in U. unfold tg_alt, PI_tg in U. cbn in U. lra.
Qed.
Theorem C84_arc : forall distance scaling tolerance, let delta := distance * scaling in 0 < delta -> 5 <= tolerance ->
  arc_steps (offset_arc RoundJoin distance scaling tolerance) delta = Some (Rmin (delta * PI) tolerance).
Proof.
  intros distance scaling tolerance delta D T. unfold offset_arc. fold delta. pose proof PI_RGT_0 as PP. pose proof pi_4 as P4.
  assert (A : 0 < PI / tolerance <= 52 / 75).
  { split; [apply Rdiv_lt_0_compat; lra|]. apply Rmult_le_reg_r with tolerance; [lra|]. unfold Rdiv at 1. rewrite Rmult_assoc, Rinv_l by lra. lra. }
  set (w := PI / tolerance) in *. assert (W : PI / w = tolerance) by (unfold w; field; lra). clearbody w. pose proof (chord w) as C.
  assert (C0 : 3 / 4 <= cos w) by nra.
  assert (C1 : cos w < 1).
  { rewrite <- cos_0. pose proof PI2_3_2; apply cos_decreasing_1; lra. }
  unfold arc_steps, arc_y. rewrite (Rabs_right delta) by lra.
  destruct (Rle_dec (delta * (1 - cos w)) 0); [nra|]. destruct (Rlt_dec (delta * / 4) (delta * (1 - cos w))); [nra|].
  replace (1 - delta * (1 - cos w) / delta) with (cos w) by (field; lra). destruct (Rlt_dec (cos w) (-1)); [lra|]. pose proof PI2_3_2. rewrite acos_cos by lra. rewrite W. f_equal.
  unfold Rmin. destruct (Rlt_dec (delta * PI) tolerance), (Rle_dec (delta * PI) tolerance); lra.
Qed.
(** Shrinking, the tolerance has no effect: a negative arc tolerance is taken for a missing
    one, and a quarter of a grid unit is used instead.  What the documentation says holds only for
    [distance > 0]. *)
Theorem C84_arc_refuted : ~ (forall distance scaling tolerance, let delta := distance * scaling in delta < 0 -> 5 <= tolerance ->
  arc_steps (offset_arc RoundJoin distance scaling tolerance) delta = Some (Rmin (Rabs delta * PI) tolerance)).
Proof.
  intro H. assert (Q : forall distance scaling tolerance, distance * scaling < 0 -> arc_steps (offset_arc RoundJoin distance scaling tolerance) (distance * scaling) = arc_steps 0 (distance * scaling)).
  { intros distance scaling tolerance D. unfold arc_steps, arc_y, offset_arc. pose proof (COS_bound (PI / tolerance)). destruct (Rle_dec (distance * scaling * (1 - cos (PI / tolerance))) 0); [|nra]. destruct (Rle_dec 0 0); [reflexivity|lra]. }
  pose proof PI2_3_2. assert (D : -10 * 1 < 0) by lra.
  pose proof (H (-10) 1 5 D ltac:(lra)) as A. pose proof (H (-10) 1 6 D ltac:(lra)) as B. cbv zeta in A, B. rewrite Q in A, B by exact D. rewrite A in B. injection B as B.
  rewrite Rabs_left in B by lra. unfold Rmin in B. destruct (Rle_dec _ 5); destruct (Rle_dec _ 6); lra.
Qed.
Theorem C84_arc_shrink : forall distance scaling tolerance tolerance', distance * scaling < 0 ->
  arc_steps (offset_arc RoundJoin distance scaling tolerance) (distance * scaling) = arc_steps (offset_arc RoundJoin distance scaling tolerance') (distance * scaling).
Proof.
  intros distance scaling tolerance tolerance' D. unfold arc_steps, arc_y, offset_arc. pose proof (COS_bound (PI / tolerance)). pose proof (COS_bound (PI / tolerance')).
  destruct (Rle_dec (distance * scaling * (1 - cos (PI / tolerance))) 0); [|nra]. destruct (Rle_dec (distance * scaling * (1 - cos (PI / tolerance'))) 0); [reflexivity|nra].
Qed.

(** ** The polygon set *)
(** What [gdspy.offset] returns: nothing if the result of the engine is empty, otherwise its
    polygons in user units, with the given layer and data type, those with too many vertices
    fractured.  [eng], [eng_paths], [bounds], [psort] and [chop_eng] are arbitrary. *)
Lemma fractured_layers eng fuel precision m layer dt l ps ls ds :
  fracture eng fuel precision m l (repeat layer (length l)) (repeat dt (length l)) = Some (ps, ls, ds) -> ls = repeat layer (length ps) /\ ds = repeat dt (length ps).
Proof.
  intro H. unfold fracture in H. destruct (4 <? m)%nat; [|injection H as -> -> ->; now split].
  assert (G : forall fuel ii l a b, Forall (eq layer) a -> Forall (eq dt) b -> length a = length l -> length b = length l ->
     fracture_loop eng fuel (1 / precision) m ii l a b = Some (ps, ls, ds) -> Forall (eq layer) ls /\ Forall (eq dt) ds /\ length ls = length ps /\ length ds = length ps).
  { clear. induction fuel as [|fuel IH]; intros ii l a b A B La Lb H; [discriminate|]. cbn [fracture_loop] in H.
    destruct (nth_error l ii) as [p|] eqn:P; [|injection H as -> -> ->; auto].
    destruct (m <? length p)%nat; [|exact (IH _ _ _ _ A B La Lb H)].
    destruct (fracture_one _ _ _ _) as [new|]; [|discriminate].
    destruct (nth_error a ii) as [x|] eqn:X; [|discriminate]. destruct (nth_error b ii) as [y|] eqn:Y; [|discriminate].
    assert (Hp : (ii < length l)%nat) by (apply nth_error_Some; now rewrite P).
    assert (Po : forall (T : Type) (k : list T) (w : T), Forall (eq w) k -> Forall (eq w) (pop ii k)).
    { intros T k w F. unfold pop. rewrite Forall_forall in *. intros z I. apply in_app_iff in I. apply F.
      destruct I as [I|I]; [rewrite <- (firstn_skipn ii k)|rewrite <- (firstn_skipn (S ii) k)]; apply in_app_iff; tauto. }
    assert (Pl : forall (T : Type) (k : list T), (ii < length k)%nat -> length (pop ii k) = (length k - 1)%nat).
    { intros T k L. unfold pop. rewrite app_length, firstn_length, skipn_length. lia. }
    assert (Rp : forall (w z : Z) n, w = z -> Forall (eq w) (repeat z n)) by (intros w z n ->; apply Forall_forall; intros u I; now apply repeat_spec in I).
    apply (IH _ _ _ _ (proj2 (Forall_app _ _ _) (conj (Po _ _ _ A) (Rp layer x (length new) (proj1 (Forall_forall _ _) A x (nth_error_In _ _ X)))))
                (proj2 (Forall_app _ _ _) (conj (Po _ _ _ B) (Rp dt y (length new) (proj1 (Forall_forall _ _) B y (nth_error_In _ _ Y)))))) in H; [exact H| |];
      rewrite !app_length, repeat_length, !Pl by lia; lia. }
  assert (Rs : forall (w : Z) n, Forall (eq w) (repeat w n)) by (intros w n; apply Forall_forall; intros u I; now apply repeat_spec in I).
  destruct (G _ _ _ _ _ (Rs layer (length l)) (Rs dt (length l)) (repeat_length _ _) (repeat_length _ _) H) as (A & B & C & D).
  assert (E : forall (w : Z) k, Forall (eq w) k -> k = repeat w (length k)).
  { clear. intros w k F. induction F as [|x k E F IH]; [reflexivity|]. cbn [length repeat]. now rewrite <- E, <- IH. }
  rewrite <- C at 1. rewrite <- D. split; now apply E.
Qed.
Theorem C84_python : forall eng eng_paths bounds psort chop_eng fuel o distance jt tolerance precision join_first m layer dt r,
  supported o ->
  py_offset eng eng_paths bounds psort chop_eng fuel o distance jt tolerance precision join_first m layer dt = Some r ->
  exists out, clipper_offset eng eng_paths bounds psort (polys_of o) distance jt tolerance (1 / precision) join_first = Some out /\
  (r = None <-> out = []) /\
  forall ps ls ds, r = Some (ps, ls, ds) ->
    ls = repeat layer (length ps) /\ ds = repeat dt (length ps) /\
    ((m <= 4)%nat -> ps = map (map (unsnap (1 / precision))) out) /\
    ((4 < m)%nat -> Forall (fun p : poly => (length p <= m)%nat) ps) /\
    (forall q cov, coverage q cov -> correct_at cov chop_eng -> 0 < precision -> (covered precision cov ps <-> Exists cov out)).
Proof.
  intros eng eng_paths bounds psort chop_eng fuel o distance jt tolerance precision join_first m layer dt r So H. unfold py_offset in H. rewrite (gather_spec o So) in H.
  destruct (clipper_offset _ _ _ _ _ _ _ _ _ _) as [out|] eqn:E; [|discriminate]. exists out. split; [reflexivity|].
  destruct out as [|z out']; [injection H as <-; split; [tauto|discriminate]|]. set (out := z :: out') in *. set (l := map (map (unsnap (1 / precision))) out) in *.
  destruct (fracture _ _ _ _ _ _ _) as [t|] eqn:F; [|discriminate]. cbn [option_map] in H. injection H as <-. split; [split; discriminate|].
  intros ps ls ds Ht. injection Ht as ->. destruct (fractured_layers _ _ _ _ _ _ _ _ _ _ F) as [L1 L2]. split; [exact L1|]. split; [exact L2|]. split; [|split].
  - intro M. rewrite C28_few in F by exact M. now injection F as <- _ _.
  - intro M. now apply (C28_fracture _ _ _ _ _ _ _ _ _ _ M (repeat_length _ _) (repeat_length _ _)) in F.
  - intros q cov Cv Co P. rewrite (C28_region q cov Cv chop_eng Co precision P _ _ _ _ _ _ _ _ F). now apply (covered_unsnap q cov Cv precision P).
Qed.

(** ** Cases *)
Lemma cround_int k : cround (IZR k) = k.
Proof.
  apply (nearest_unique (IZR k)); [apply cround_nearest|]. unfold nearest. replace (IZR k - IZR k) with 0 by lra. rewrite Rabs_R0. split; lra.
Qed.
Lemma rounded_real z : Offset.rounded (real z) = z.
Proof. destruct z. unfold Offset.rounded, real. cbn [fst snd]. now rewrite !cround_int. Qed.
Definition square_100 : zpath := [(0, 0); (100, 0); (100, 100); (0, 100)]%Z.
Definition square_120 : zpath := [(-10, -10); (110, -10); (110, 110); (-10, 110)]%Z.
Lemma long_100 a b : ((fst b - fst a) * (fst b - fst a) + (snd b - snd a) * (snd b - snd a) = 10000)%Z -> long (a, b) = 100.
Proof.
  intro H. unfold long, dist2, real. cbn [fst snd]. rewrite <- !minus_IZR, <- !mult_IZR, <- plus_IZR, H. replace 10000 with (100 * 100) by lra. apply sqrt_square. lra.
Qed.
(** Four corners, by [C84_miter]. *)
Lemma miter_case a b c p steps : a <> b -> b <> c ->
  ((fst b - fst a) * (fst b - fst a) + (snd b - snd a) * (snd b - snd a) = 10000)%Z -> ((fst c - fst b) * (fst c - fst b) + (snd c - snd b) * (snd c - snd b) = 10000)%Z ->
  ((fst b - fst a) * (snd c - snd b) - (snd b - snd a) * (fst c - fst b) = 10000)%Z ->
  ((fst b - fst a) * (snd p - snd a) - (snd b - snd a) * (fst p - fst a) = -1000)%Z -> ((fst c - fst b) * (snd p - snd b) - (snd c - snd b) * (fst p - fst b) = -1000)%Z ->
  ((fst p - fst b) * (fst p - fst b) + (snd p - snd b) * (snd p - snd b) = 200)%Z ->
  offset_point Miter 10 (miter_lim 2) steps b (normal a b) (normal b c) = ([real p], true).
Proof.
  intros N1 N2 L1 L2 T M1 M2 D.
  assert (X : cross3 (real a) (real b) (real c) = 10000).
  { unfold cross3, real. cbn [fst snd]. rewrite <- T. repeat rewrite ?minus_IZR, ?mult_IZR. ring. }
  apply C84_miter; try assumption; try lra.
  - unfold opens. rewrite X. lra.
  - unfold straight. cbv zeta. intros [_ K]. rewrite !long_100 in K by assumption.
    replace ((fst (real b) - fst (real a)) * (snd (real c) - snd (real b)) - (snd (real b) - snd (real a)) * (fst (real c) - fst (real b))) with (cross3 (real a) (real b) (real c)) in K by (unfold cross3; ring).
    rewrite X, Rabs_right in K; lra.
  - unfold on_moved. cbn [fst snd]. rewrite long_100 by assumption. unfold rside, real. cbn [fst snd]. rewrite <- !minus_IZR, <- !mult_IZR, <- minus_IZR, M1. cbn; lra.
  - unfold on_moved. cbn [fst snd]. rewrite long_100 by assumption. unfold rside, real. cbn [fst snd]. rewrite <- !minus_IZR, <- !mult_IZR, <- minus_IZR, M2. cbn; lra.
  - unfold dist2, real. cbn [fst snd]. rewrite <- !minus_IZR, <- !mult_IZR, <- plus_IZR, D. unfold reach. rewrite Rmax_left by lra. cbn; lra.
Qed.
Example C84_outline_case : do_offset Miter 2 (/ 4) 10 [square_100] = Some [square_120] /\ Forall proper [square_100] /\ reach Miter 2 + 1 <= Rabs 10.
Proof.
  split; [|split].
  - unfold do_offset. assert (NZ : near_zero 10 = false).
    { unfold near_zero. assert (/ 10 ^ 20 <= 1) by (rewrite <- Rinv_1; apply Rinv_le_contravar; [lra|apply pow_R1_Rle; lra]). destruct (Rlt_dec _ 10); [|reflexivity]. destruct (Rlt_dec 10 _); [lra|reflexivity]. }
    rewrite NZ. destruct (arc_steps (/ 4) 10) as [steps|] eqn:A.
    + cbn [option_map map]. unfold outline. change (seq 0 (length square_100)) with [0; 1; 2; 3]%nat. change (length square_100 - 1)%nat with 3%nat.
      unfold normals. change (length square_100 - 1)%nat with 3%nat. cbn [seq map app nth square_100 offset_loop].
      rewrite (miter_case (0, 100)%Z (0, 0)%Z (100, 0)%Z (-10, -10)%Z) by (try discriminate; reflexivity).
      rewrite (miter_case (0, 0)%Z (100, 0)%Z (100, 100)%Z (110, -10)%Z) by (try discriminate; reflexivity).
      rewrite (miter_case (100, 0)%Z (100, 100)%Z (0, 100)%Z (110, 110)%Z) by (try discriminate; reflexivity).
      rewrite (miter_case (100, 100)%Z (0, 100)%Z (0, 0)%Z (-10, 110)%Z) by (try discriminate; reflexivity).
      cbn [app map]. rewrite !rounded_real. reflexivity.
    + unfold arc_steps in A. destruct (Rlt_dec _ (-1)) as [N|N]; [|discriminate]. exfalso. revert N. unfold arc_y. rewrite Rabs_right by lra. destruct (Rle_dec _ 0); [lra|]. destruct (Rlt_dec _ _); lra.
  - constructor; [|constructor]. split; [cbn; lia|]. intros e I. cbn in I. repeat (destruct I as [<-|I]; [cbn; congruence|]). destruct I.
  - unfold reach. rewrite Rmax_left by lra. rewrite Rabs_right; lra.
Qed.
(** Through [gdspy.offset]'s engine: a point in the rectangle next to the right side of the
    square is inside the result. *)
Definition one_outline (_ : bool) (l : list zpath) : list ptree := map (fun c => Node c []) l.
Definition any_box (_ : list zpath) : Z * Z * Z * Z := (0, 0, 0, 0)%Z.
Definition none_paths (_ : bool) (_ : list zpath) : list zpath := [].
Lemma winding_box x0 y0 x1 y1 x y : (x0 < x1)%Z -> (y0 < y1)%Z -> x <> IZR x0 -> x <> IZR x1 -> winding (x, y) [(x0, y0); (x1, y0); (x1, y1); (x0, y1)]%Z =
  if Rle_dec (IZR y0) y then if Rlt_dec y (IZR y1) then if Rlt_dec (IZR x0) x then if Rlt_dec x (IZR x1) then 1%Z else 0%Z else 0%Z else 0%Z else 0%Z.
Proof.
  intros X Y Nx Nx'. apply IZR_lt in X, Y. unfold winding. cbn [edges combine app sum_over fold_right]. unfold passes, side. cbn [fst snd].
  repeat match goal with |- context [Rle_dec ?a ?b] => destruct (Rle_dec a b) | |- context [Rlt_dec ?a ?b] => destruct (Rlt_dec a b) end; try lra; try reflexivity; exfalso; nra.
Qed.
Example C84_result_case : let polys := [map real square_100] in let q := (105, 50) in
  clipper_offset one_outline none_paths any_box by_x polys 10 Miter 2 (1 / 1) false = Some [square_120] /\
  sorts by_x /\ map (parse_polygon (1 / 1) true) polys = [square_100] /\
  sweeps one_outline any_box 10 [square_120] q /\ clear_of [square_120] (execute one_outline any_box [square_120] 10) q /\
  next_to (reach Miter 2 + 1) 10 q ((100, 0), (100, 100))%Z /\ total q [square_100] = 0%Z /\ total q [square_120] = 1%Z.
Proof.
  cbv zeta. assert (P : map (parse_polygon (1 / 1) true) [map real square_100] = [square_100]).
  { unfold parse_polygon, real. cbn [map square_100 fst snd]. rewrite !snap_int. reflexivity. }
  assert (W1 : winding (105, 50) square_100 = 0%Z).
  { unfold square_100. rewrite winding_box by (try lia; lra). destruct (Rle_dec _ _); [|lra]. destruct (Rlt_dec _ _); [|lra]. destruct (Rlt_dec _ _); [|lra]. destruct (Rlt_dec _ _); [lra|reflexivity]. }
  assert (W2 : winding (105, 50) square_120 = 1%Z).
  { unfold square_120. rewrite winding_box by (try lia; lra). destruct (Rle_dec _ _); [|lra]. destruct (Rlt_dec _ _); [|lra]. destruct (Rlt_dec _ _); [|lra]. destruct (Rlt_dec _ _); [reflexivity|lra]. }
  assert (X : execute one_outline any_box [square_120] 10 = [Node square_120 []]) by (unfold execute; destruct (Rlt_dec 0 10); [reflexivity|lra]).
  split; [|split; [|split; [|split; [|split; [|split; [|split]]]]]].
  - unfold clipper_offset. rewrite P. change (fix_orientations (add_paths [square_100])) with [square_100]. replace (10 * (1 / 1)) with 10 by lra.
    rewrite (proj1 C84_outline_case). rewrite X. reflexivity.
  - exact by_x_sorts.
  - exact P.
  - unfold sweeps. destruct (Rlt_dec 0 10); [|lra]. unfold fills_positive. cbn [one_outline map flat_map all_contours app]. unfold total. cbn [sum_over fold_right]. rewrite W2. reflexivity.
  - rewrite X. split; [|split].
    + constructor; [|constructor]. intros e t I T. cbn in I. unfold dist2, mid.
      assert (Sq : forall u v : R, 1 <= u * u \/ 1 <= v * v -> / 2 < u * u + v * v) by (intros u v H; pose proof (Rle_0_sqr u); pose proof (Rle_0_sqr v); unfold Rsqr in *; lra).
      destruct I as [<-|[<-|[<-|[<-|[]]]]]; cbn [fst snd real]; apply Sq; [right|left|right|left].
      all: match goal with |- 1 <= ?x * ?x => assert (1 <= x \/ x <= -1) by lra; nra end.
    + repeat constructor; discriminate.
    + intros f l e I. cbn in I. destruct I as [<-|[]]. cbn [snd length Z.of_nat]. intros _ _ (t & _ & _ & K). apply Rlt_not_le in K. apply K. apply Rabs_pos.
  - exists 50, 5. unfold reach. rewrite Rmax_left by lra. rewrite long_100 by reflexivity. rewrite Rabs_right by lra. split; [lra|]. split; [lra|]. cbv zeta. destruct (Rlt_dec 10 0); [lra|].
    unfold real. cbn [fst snd]. f_equal; lra.
  - unfold total. cbn [sum_over fold_right]. now rewrite W1.
  - unfold total. cbn [sum_over fold_right]. now rewrite W2.
Qed.
Definition in_frame (b : bool) (l : list zpath) : list ptree :=
  if b then map (fun c => Node c []) l else [Node (last l []) (map (fun c => Node c []) (removelast l))].
Definition in_frame_paths (_ : bool) (l : list zpath) : list zpath := last l [] :: removelast l.
Definition box_100 (_ : list zpath) : Z * Z * Z * Z := (0, 0, 100, 100)%Z.
Lemma wind_in x0 y0 x1 y1 x y : (IZR x0 < x < IZR x1) -> (IZR y0 < y < IZR y1) -> winding (x, y) [(x0, y0); (x1, y0); (x1, y1); (x0, y1)]%Z = 1%Z.
Proof.
  intros X Y. rewrite winding_box; [|apply lt_IZR; lra|apply lt_IZR; lra|lra|lra]. destruct (Rle_dec _ _); [|lra]. destruct (Rlt_dec _ _); [|lra]. destruct (Rlt_dec _ _); [|lra]. destruct (Rlt_dec _ _); [reflexivity|lra].
Qed.
Lemma frame_case : winding (50, 50) (frame box_100 [square_100]) = (-1)%Z.
Proof.
  unfold frame, box_100. cbn [Z.sub Z.add Z.opp Z.pos_sub Pos.add Pos.succ Pos.add_carry]. unfold winding. cbn [edges combine app sum_over fold_right]. unfold passes, side. cbn [fst snd].
  repeat match goal with |- context [Rle_dec ?a ?b] => destruct (Rle_dec a b) | |- context [Rlt_dec ?a ?b] => destruct (Rlt_dec a b) end; try lra; reflexivity.
Qed.
Lemma sweep_case : fills_negative in_frame [square_100] (frame box_100 [square_100]) (50, 50) /\ boxed box_100 [square_100] (50, 50) /\
  fills_negative_paths in_frame_paths [square_100] (frame box_100 [square_100]) (50, 50).
Proof.
  pose proof frame_case as F. assert (W : winding (50, 50) square_100 = 1%Z) by (apply wind_in; lra).
  set (fr := frame box_100 [square_100]) in *. clearbody fr.
  split; [|split].
  - exists fr, [Node square_100 []]. split; [reflexivity|]. split; [reflexivity|]. unfold total. cbn [in_frame app last removelast map flat_map all_contours sum_over fold_right]. rewrite F, W. reflexivity.
  - unfold boxed, box_100. split; [lia|]. split; [lia|]. intros _. cbn [fst snd]. lra.
  - exists fr, [square_100]. split; [reflexivity|]. split; [reflexivity|]. unfold total. cbn [app sum_over fold_right]. rewrite F, W. reflexivity.
Qed.
Lemma no_bridge q o : forall f l e, In f (flat_map families [Node o []]) -> In l (fst f :: snd f) -> In e (edges l) -> ~ near (Z.of_nat (length (snd f))) q e.
Proof. intros f l e I. cbn in I. destruct I as [<-|[]]. cbn [snd length Z.of_nat]. intros _ _ (t & _ & _ & K). apply Rlt_not_le in K. apply K. apply Rabs_pos. Qed.
Example C84_zero_case : let polys := [map real square_100] in let q := (50, 50) in
  clipper_offset in_frame in_frame_paths box_100 by_x polys 0 Miter 2 (1 / 1) false = Some [square_100] /\ fix_orientations (add_paths (map (parse_polygon (1 / 1) true) polys)) = [square_100] /\
  sweeps in_frame box_100 0 [square_100] q /\ clear_of [] (execute in_frame box_100 [square_100] 0) q /\ total q [square_100] = 1%Z.
Proof.
  cbv zeta. assert (P : map (parse_polygon (1 / 1) true) [map real square_100] = [square_100]).
  { unfold parse_polygon, real. cbn [map square_100 fst snd]. rewrite !snap_int. reflexivity. }
  rewrite P. assert (X : execute in_frame box_100 [square_100] 0 = [Node square_100 []]) by (unfold execute; destruct (Rlt_dec 0 0); [lra|reflexivity]).
  assert (NZ : near_zero 0 = true). { unfold near_zero. assert (0 < / 10 ^ 20) by (apply Rinv_0_lt_compat, pow_lt; lra). destruct (Rlt_dec _ 0); [|lra]. destruct (Rlt_dec 0 _); [reflexivity|lra]. }
  split; [|split; [reflexivity|split; [|split]]].
  - unfold clipper_offset. rewrite P. change (fix_orientations (add_paths [square_100])) with [square_100]. rewrite Rmult_0_l. unfold do_offset. rewrite NZ, X. reflexivity.
  - unfold sweeps. destruct (Rlt_dec 0 0); [lra|]. destruct sweep_case as (A & B & _). now split.
  - rewrite X. split; [constructor|]. split; [repeat constructor; discriminate|apply no_bridge].
  - unfold total, square_100. cbn [sum_over fold_right]. rewrite wind_in by lra. reflexivity.
Qed.
Example C84_join_case : let polys := [map real square_100] in let q := (50, 50) in
  clipper_offset in_frame in_frame_paths box_100 by_x polys 10 Miter 2 (1 / 1) true = Some [square_120] /\
  execute_paths in_frame_paths box_100 [square_100] 0 = [square_100] /\ Forall proper [square_100] /\ outer_on_top [square_100] /\
  sweeps in_frame box_100 10 [square_120] q /\ clear_of [square_120] (execute in_frame box_100 [square_120] 10) q /\
  fills_negative_paths in_frame_paths [square_100] (frame box_100 [square_100]) q /\ boxed box_100 [square_100] q.
Proof.
  cbv zeta. assert (P : map (parse_polygon (1 / 1) true) [map real square_100] = [square_100]).
  { unfold parse_polygon, real. cbn [map square_100 fst snd]. rewrite !snap_int. reflexivity. }
  assert (X : execute in_frame box_100 [square_120] 10 = [Node square_120 []]) by (unfold execute; destruct (Rlt_dec 0 10); [reflexivity|lra]).
  assert (Y : execute_paths in_frame_paths box_100 [square_100] 0 = [square_100]) by (unfold execute_paths; destruct (Rlt_dec 0 0); [lra|reflexivity]).
  assert (NZ : near_zero 0 = true). { unfold near_zero. assert (0 < / 10 ^ 20) by (apply Rinv_0_lt_compat, pow_lt; lra). destruct (Rlt_dec _ 0); [|lra]. destruct (Rlt_dec 0 _); [reflexivity|lra]. }
  split; [|split; [exact Y|split; [exact (proj1 (proj2 C84_outline_case))|split; [|split; [|split; [|split; apply sweep_case]]]]]].
  - unfold clipper_offset. rewrite P. change (fix_orientations (add_paths [square_100])) with [square_100]. replace (10 * (1 / 1)) with 10 by lra. unfold do_offset at 1. rewrite NZ. cbn [option_map]. rewrite Y.
    change (fix_orientations (add_paths [square_100])) with [square_100]. rewrite (proj1 C84_outline_case), X. reflexivity.
  - unfold outer_on_top. intros c p I J H. destruct I as [<-|[]]. cbn. lia.
  - unfold sweeps. destruct (Rlt_dec 0 10); [|lra]. unfold fills_positive, total. cbn [in_frame map flat_map all_contours app sum_over fold_right]. unfold square_120. rewrite wind_in by lra. reflexivity.
  - rewrite X. split; [|split; [repeat constructor; discriminate|apply no_bridge]].
    constructor; [|constructor]. intros e t I T. cbn in I. unfold dist2, mid.
      assert (Sq : forall u v : R, 1 <= u * u \/ 1 <= v * v -> / 2 < u * u + v * v) by (intros u v H; pose proof (Rle_0_sqr u); pose proof (Rle_0_sqr v); unfold Rsqr in *; lra).
      destruct I as [<-|[<-|[<-|[<-|[]]]]]; cbn [fst snd real]; apply Sq; [right|left|right|left].
      all: match goal with |- 1 <= ?x * ?x => assert (1 <= x \/ x <= -1) by lra; nra end.
Qed.
(** A right angle opens when growing, closes when shrinking; neither is almost straight. *)
Example C84_corner_case : let a := (0, 100)%Z in let b := (0, 0)%Z in let c := (100, 0)%Z in
  opens 10 a b c /\ ~ straight 10 a b c /\ ~ opens (- 10) a b c /\ ~ straight (- 10) a b c /\ straight 10 b c (201, 2)%Z.
Proof.
  cbv zeta. split; [unfold opens, cross3, real; cbn [fst snd]; lra|]. split; [intros [K _]; revert K; unfold real; cbn [fst snd]; lra|].
  split; [unfold opens, cross3, real; cbn [fst snd]; lra|]. split; [intros [K _]; revert K; unfold real; cbn [fst snd]; lra|].
  unfold straight. cbv zeta. unfold real. cbn [fst snd]. split; [lra|]. rewrite Rabs_right by lra. rewrite long_100 by reflexivity.
  assert (101 <= long ((100, 0), (201, 2))%Z); [|lra]. unfold long, dist2, real. cbn [fst snd]. rewrite <- (sqrt_square 101) at 1 by lra. apply sqrt_le_1; lra.
Qed.

Print Assumptions C84_outline.
Print Assumptions C84_result.
Print Assumptions C84_zero.
Print Assumptions C84_join_first.
Print Assumptions C84_miter.
Print Assumptions C84_miter_far.
Print Assumptions C84_bevel.
Print Assumptions C84_round.
Print Assumptions C84_inner.
Print Assumptions C84_straight.
Print Assumptions C84_arc.
Print Assumptions C84_arc_shrink.
Print Assumptions C84_arc_refuted.
Print Assumptions C84_python.
