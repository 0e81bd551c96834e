(** Lemmas on the corners and edges of offset outlines. *)

From Coq Require Import Reals Lra Lia List ZArith Bool Permutation.
From Verif Require Import Plane Engine Flex LinkHoles SpecEngine SpecLink SpecOffset Offset PropEngine PropLink Winding PropFlexEnds PropFlexRound.
Import ListNotations.
Open Scope R_scope.

Definition dot (a b : pt) : R := fst a * fst b + snd a * snd b.
Definition crs (a b : pt) : R := fst a * snd b - fst b * snd a.
Definition rot (a : pt) : pt := (- snd a, fst a).
Definition comb (a : pt) (x : R) (b : pt) (y : R) : pt := (fst a * x + fst b * y, snd a * x + snd b * y).
Definition sg (d : R) : R := if Rlt_dec d 0 then -1 else 1.
Definition reach2 (jt : join) (lim : R) : R := match jt with Miter => 2 / lim | Bevel => 2 | RoundJoin => 1 end.

Lemma unit_cs a b : dot a a = 1 -> dot b b = 1 -> dot a b * dot a b + crs a b * crs a b = 1.
Proof. unfold dot, crs. intros A B. replace 1 with ((fst a * fst a + snd a * snd a) * (fst b * fst b + snd b * snd b)) by (rewrite A, B; ring). ring. Qed.
Lemma in_terms a b : dot a a = 1 -> b = comb a (dot a b) (rot a) (crs a b).
Proof.
  intro A. destruct a as [ax ay], b as [bx by_]. unfold comb, rot, dot, crs in *. cbn [fst snd] in *. f_equal.
  - replace bx with (bx * (ax * ax + ay * ay)) at 1 by (rewrite A; ring). ring.
  - replace by_ with (by_ * (ax * ax + ay * ay)) at 1 by (rewrite A; ring). ring.
Qed.
Lemma unit_angle a b : dot a a = 1 -> dot b b = 1 -> let t := atan2 (crs a b) (dot a b) in cos t = dot a b /\ sin t = crs a b.
Proof.
  intros A B t. pose proof (unit_cs a b A B) as U.
  destruct (cos_atan2 (crs a b) (dot a b)) as [C S].
  { intro E. injection E as E1 E2. rewrite E1, E2 in U. lra. }
  replace (dot a b ^ 2 + crs a b ^ 2) with 1 in C, S by (rewrite <- U; ring). rewrite sqrt_1 in C, S. unfold Rdiv in C, S. rewrite Rinv_1, Rmult_1_r in C, S. now split.
Qed.
Lemma angle_sign y x : x * x + y * y = 1 -> (0 <= y -> 0 <= atan2 y x <= PI) /\ (y < 0 -> - PI <= atan2 y x <= 0).
Proof.
  intro U. unfold atan2. replace (x ^ 2 + y ^ 2) with 1 by (rewrite <- U; ring). rewrite sqrt_1. unfold Rdiv. rewrite Rinv_1, Rmult_1_r.
  destruct (Req_EM_T 1 0) as [E|_]; [lra|]. pose proof (acos_bound x). destruct (Rle_dec 0 y); split; intro; lra.
Qed.

(** The corner points of a bevel: the tangent of a quarter of the angle. *)
Lemma quarter_tan a : - PI <= a <= PI -> let t := tan (a / 4) in
  t * t <= 1 /\ (0 <= a -> 0 <= t) /\ (a <= 0 -> t <= 0) /\ sin a * (1 - t * t) - 2 * t * cos a = (1 + t * t) * sin (a / 2).
Proof.
  intros B t. pose proof PI_RGT_0 as PP.
  assert (C : 0 < cos (a / 4)) by (apply cos_gt_0; lra).
  assert (T : t * cos (a / 4) = sin (a / 4)) by (unfold t, tan; field; lra).
  assert (D : cos (a / 2) = cos (a / 4) * cos (a / 4) - sin (a / 4) * sin (a / 4)) by (replace (a / 2) with (2 * (a / 4)) by field; now rewrite cos_2a).
  assert (S : sin (a / 2) = 2 * sin (a / 4) * cos (a / 4)) by (replace (a / 2) with (2 * (a / 4)) by field; now rewrite sin_2a).
  assert (DD : 0 <= cos (a / 2)) by (apply cos_ge_0; lra).
  pose proof (sin2_cos2 (a / 4)) as U. unfold Rsqr in U.
  assert (Q : (1 + t * t) * (cos (a / 4) * cos (a / 4)) = 1) by (rewrite <- T in U; lra).
  assert (K1 : 1 - t * t = (1 + t * t) * cos (a / 2)). { rewrite D, <- T. replace ((1 + t * t) * (cos (a / 4) * cos (a / 4) - t * cos (a / 4) * (t * cos (a / 4)))) with ((1 + t * t) * (cos (a / 4) * cos (a / 4)) * (1 - t * t)) by ring. rewrite Q. ring. }
  assert (K2 : 2 * t = (1 + t * t) * sin (a / 2)). { rewrite S, <- T. replace ((1 + t * t) * (2 * (t * cos (a / 4)) * cos (a / 4))) with ((1 + t * t) * (cos (a / 4) * cos (a / 4)) * (2 * t)) by ring. rewrite Q. ring. }
  assert (P1 : 0 < 1 + t * t) by nra.
  split; [nra|]. split; [|split].
  - intro H. assert (0 <= sin (a / 4)) by (apply sin_ge_0; lra). nra.
  - intro H. assert (0 <= sin (- (a / 4))) by (apply sin_ge_0; lra). rewrite sin_neg in H0. nra.
  - rewrite K1, K2. replace (sin (a / 2)) with (sin (a - a / 2)) at 2 by (f_equal; field). rewrite sin_minus. ring.
Qed.

(** Rotations *)
Definition turned_by (a : R) (x : pt) : pt := (fst x * cos a - snd x * sin a, fst x * sin a + snd x * cos a).
Lemma turned_dot a x : dot (turned_by a x) (turned_by a x) = dot x x.
Proof. unfold dot, turned_by. cbn [fst snd]. pose proof (sin2_cos2 a) as U. unfold Rsqr in U. replace (fst x * fst x + snd x * snd x) with ((fst x * fst x + snd x * snd x) * (sin a * sin a + cos a * cos a)) by (rewrite U; ring). ring. Qed.
Lemma turned_crs a b x : crs (turned_by a x) (turned_by b x) = dot x x * sin (b - a).
Proof. unfold crs, dot, turned_by. cbn [fst snd]. rewrite sin_minus. ring. Qed.
Lemma turned_turned a b x : turned_by a (turned_by b x) = turned_by (a + b) x.
Proof. unfold turned_by. cbn [fst snd]. rewrite cos_plus, sin_plus. f_equal; ring. Qed.
Lemma turned_to a b : dot a a = 1 -> dot b b = 1 -> b = turned_by (atan2 (crs a b) (dot a b)) a.
Proof.
  intros A B. destruct (unit_angle a b A B) as [C S]. unfold turned_by. rewrite C, S.
  transitivity (comb a (dot a b) (rot a) (crs a b)); [now apply in_terms|]. unfold comb, rot. cbn [fst snd]. f_equal; ring.
Qed.

Section Corner.
Variable jt : join.
Variables (delta lim steps : R).
Let th := 2 * PI / steps.
Hypothesis Hd : delta <> 0.
Hypothesis Hs : 2 <= steps.
Hypothesis Hl : 0 < lim <= / 2.

Lemma step_bound : 0 < th <= PI.
Proof.
  pose proof PI_RGT_0. unfold th. split; [apply Rdiv_lt_0_compat; lra|]. apply Rmult_le_reg_r with steps; [lra|].
  unfold Rdiv. rewrite Rmult_assoc, Rinv_l by lra. nra.
Qed.
Lemma sg_sq : sg delta * sg delta = 1. Proof. unfold sg. destruct (Rlt_dec _ _); ring. Qed.
Lemma sg_abs : sg delta * delta = Rabs delta.
Proof. unfold sg. destruct (Rlt_dec delta 0); [rewrite Rabs_left by lra; ring|rewrite Rabs_right by lra; ring]. Qed.
Lemma m_turn : forall x, (fst x * m_cos steps - m_sin delta steps * snd x, fst x * m_sin delta steps + snd x * m_cos steps) = turned_by (sg delta * th) x.
Proof.
  intro x. unfold m_sin, m_cos, turned_by, sg. fold th. destruct (Rlt_dec delta 0).
  - replace (-1 * th) with (- th) by ring. rewrite cos_neg, sin_neg. f_equal; ring.
  - rewrite Rmult_1_l. f_equal; ring.
Qed.
Lemma spin_turned : forall n i x, spin delta steps n (turned_by (INR i * (sg delta * th)) x) = map (fun k => turned_by (INR k * (sg delta * th)) x) (seq i n).
Proof.
  induction n as [|n IH]; intros i x; [reflexivity|]. cbn [spin seq map]. f_equal. rewrite m_turn, turned_turned.
  replace (sg delta * th + INR i * (sg delta * th)) with (INR (S i) * (sg delta * th)) by (rewrite S_INR; ring). apply IH.
Qed.
Lemma spin_map : forall n x, spin delta steps n x = map (fun k => turned_by (INR k * (sg delta * th)) x) (seq 0 n).
Proof.
  intros n x. rewrite <- spin_turned. cbn [INR]. f_equal. unfold turned_by. rewrite Rmult_0_l, cos_0, sin_0. destruct x. cbn [fst snd]. f_equal; ring.
Qed.
(** The last but one point is not beyond the last, and at most one and a half steps before. *)
Lemma round_steps_spec a : let n := round_steps steps a in
  (1 <= n)%nat /\ INR (n - 1) * th <= Rabs a /\ Rabs a - INR (n - 1) * th <= 3 / 2 * th.
Proof.
  intro n. pose proof step_bound as TB.
  assert (X : per_rad steps * Rabs a * th = Rabs a). { unfold per_rad, th. pose proof PI_RGT_0. field. split; lra. }
  assert (X0 : 0 <= per_rad steps * Rabs a). { unfold per_rad. pose proof PI_RGT_0. pose proof (Rabs_pos a). apply Rmult_le_pos; [|lra]. left. apply Rdiv_lt_0_compat; lra. }
  set (x := per_rad steps * Rabs a) in *.
  assert (N : nearest x (cround x)) by apply cround_nearest. destruct N as [N _].
  assert (N' : - / 2 <= x - IZR (cround x) <= / 2). { revert N. unfold Rabs. destruct (Rcase_abs _); lra. }
  assert (E : (1 <= n)%nat) by (unfold n, round_steps; fold x; lia).
  split; [exact E|].
  assert (I : INR (n - 1) = IZR (Z.max (cround x) 1 - 1)).
  { rewrite INR_IZR_INZ. f_equal. unfold n, round_steps. fold x. lia. }
  rewrite I. clear I E n.
  destruct (Z.max_spec (cround x) 1) as [[M ->]|[M ->]].
  - replace (IZR (1 - 1)) with 0 by (f_equal; lia). split; [rewrite Rmult_0_l; apply Rabs_pos|].
    assert (IZR (cround x) <= 0) by (apply IZR_le; lia). nra.
  - rewrite minus_IZR. split; nra.
Qed.

(** What [offset_point] gives. *)
Definition ahead (v : zpt) (n : pt) (x : R) : pt := at_vertex v (comb n delta (rot n) x).
Definition corner_ok (v : zpt) (nk nj : pt) (r : list pt * bool) : Prop :=
  fst r <> [] /\
  (exists x, 0 <= x /\ hd (0, 0) (fst r) = ahead v nk x) /\
  (if snd r then exists x, x <= 0 /\ last (fst r) (0, 0) = ahead v nj x
   else last (fst r) (0, 0) = ahead v nk 0 /\ hd (0, 0) (fst r) = ahead v nk 0 /\ Rabs (crs nk nj * delta) < 1 /\ 0 < dot nk nj) /\
  (forall p, In p (fst r) -> dist2 p (real v) <= reach2 jt lim * (delta * delta)) /\
  (forall t, In t (fan (real v) (fst r)) -> exists a b, t = [real v; a; b] /\ In a (fst r) /\ In b (fst r) /\ 0 <= sg delta * cross3 (real v) a b).
Lemma ahead_dist v n x : dot n n = 1 -> dist2 (ahead v n x) (real v) = delta * delta + x * x.
Proof.
  intro N. unfold ahead, at_vertex, dist2, real, comb, rot. cbn [fst snd]. unfold dot in N.
  replace (delta * delta + x * x) with ((delta * delta + x * x) * (fst n * fst n + snd n * snd n)) by (rewrite N; ring). ring.
Qed.
Lemma plain_ahead v n : at_vertex v (times n delta) = ahead v n 0.
Proof. unfold ahead, at_vertex, times, comb, rot. cbn [fst snd]. f_equal; ring. Qed.
Lemma cross3_at v a b : cross3 (real v) (at_vertex v a) (at_vertex v b) = crs a b.
Proof. unfold cross3, real, at_vertex, crs. cbn [fst snd]. ring. Qed.
Lemma reach2_2 : jt <> RoundJoin -> 2 <= reach2 jt lim.
Proof.
  intro N. unfold reach2. destruct jt; [lra| |congruence]. apply Rmult_le_reg_r with lim; [lra|]. unfold Rdiv. rewrite Rmult_assoc, Rinv_l; lra.
Qed.
Lemma reach2_1 : 1 <= reach2 jt lim.
Proof. destruct jt eqn:J; [|rewrite <- J; assert (2 <= reach2 jt lim) by (apply reach2_2; congruence); lra|]; cbn; lra. Qed.

Lemma two_fan v a b : fan v [a; b] = [[v; a; b]]. Proof. reflexivity. Qed.

Lemma square_ok v nk nj : dot nk nk = 1 -> dot nj nj = 1 -> jt <> RoundJoin -> 0 <= crs nk nj * delta -> (delta < 0 -> crs nk nj <> 0 \/ 0 < dot nk nj) ->
  corner_ok v nk nj (do_square delta v nk nj (crs nk nj), true).
Proof.
  intros K J NR Sn Spike. unfold do_square. fold (dot nk nj).
  pose proof (unit_cs nk nj K J) as U. destruct (unit_angle nk nj K J) as [Ca Sa]. destruct (angle_sign (crs nk nj) (dot nk nj) U) as [Ap An].
  set (a := atan2 (crs nk nj) (dot nk nj)) in *.
  assert (AB : - PI <= a <= PI) by apply atan2_bound.
  destruct (quarter_tan a AB) as (T1 & T2 & T3 & T4). set (t := tan (a / 4)) in *.
  assert (AS : (0 < delta -> 0 <= a) /\ (delta < 0 -> a <= 0)).
  { split; intro H.
    - apply Ap. nra.
    - destruct (Req_dec (crs nk nj) 0) as [E|E]; [|apply An; nra]. destruct (Spike H) as [F|F]; [congruence|].
      assert (dot nk nj = 1) by (rewrite E in U; nra). assert (a = 0); [|lra].
      unfold a. rewrite E, H0. unfold atan2. replace (1 ^ 2 + 0 ^ 2) with 1 by ring. rewrite sqrt_1. destruct (Req_EM_T 1 0); [lra|]. destruct (Rle_dec 0 0); [|lra].
      replace (1 / 1) with 1 by field. apply acos_1. }
  assert (X0 : 0 <= delta * t). { destruct (Rdichotomy _ _ Hd) as [H|H]; [assert (t <= 0) by (apply T3, AS, H); nra|assert (0 <= t) by (apply T2, AS; lra); nra]. }
  assert (P1 : at_vertex v (delta * (fst nk - snd nk * t), delta * (snd nk + fst nk * t)) = ahead v nk (delta * t)).
  { unfold ahead, at_vertex, comb, rot. cbn [fst snd]. f_equal; ring. }
  assert (P2 : at_vertex v (delta * (fst nj + snd nj * t), delta * (snd nj - fst nj * t)) = ahead v nj (- (delta * t))).
  { unfold ahead, at_vertex, comb, rot. cbn [fst snd]. f_equal; ring. }
  rewrite P1, P2. clear P1 P2.
  assert (B : delta * delta + delta * t * (delta * t) <= reach2 jt lim * (delta * delta)). { pose proof (reach2_2 NR). assert (0 <= delta * delta) by nra. nra. }
  unfold corner_ok. cbn [fst snd]. split; [discriminate|]. split; [exists (delta * t); split; [exact X0|reflexivity]|].
  split; [exists (- (delta * t)); split; [lra|reflexivity]|]. split.
  - intros p [<-|[<-|[]]]; rewrite ahead_dist by assumption; [exact B|]. replace (- (delta * t) * - (delta * t)) with (delta * t * (delta * t)) by ring. exact B.
  - rewrite two_fan. intros x [<-|[]]. eexists. eexists. split; [reflexivity|]. split; [now left|]. split; [right; now left|].
    unfold ahead at 1 2. rewrite cross3_at.
    assert (E : crs (comb nk delta (rot nk) (delta * t)) (comb nj delta (rot nj) (- (delta * t))) = delta * delta * ((1 + t * t) * sin (a / 2))).
    { rewrite <- T4, Ca, Sa. unfold crs, comb, rot, dot. cbn [fst snd]. ring. }
    rewrite E. assert (S2 : 0 <= sg delta * sin (a / 2)).
    { unfold sg. destruct (Rlt_dec delta 0) as [H|H].
      - assert (a <= 0) by now apply AS. assert (0 <= sin (- (a / 2))) by (apply sin_ge_0; lra). rewrite sin_neg in H1. lra.
      - assert (0 <= a) by (apply AS; lra). assert (0 <= sin (a / 2)) by (apply sin_ge_0; lra). lra. }
    assert (0 <= delta * delta * (1 + t * t)) by nra.
    replace (sg delta * (delta * delta * ((1 + t * t) * sin (a / 2)))) with (delta * delta * (1 + t * t) * (sg delta * sin (a / 2))) by ring. now apply Rmult_le_pos.
Qed.
Lemma miter_ok v nk nj : dot nk nk = 1 -> dot nj nj = 1 -> jt = Miter -> 0 <= crs nk nj * delta -> lim <= 1 + dot nk nj ->
  corner_ok v nk nj (do_miter delta v nk nj (1 + dot nk nj), true).
Proof.
  intros K J JM Sn L. unfold do_miter. pose proof (unit_cs nk nj K J) as U. set (r := 1 + dot nk nj) in *.
  assert (R0 : 0 < r) by lra.
  set (x := crs nk nj * delta / r). assert (X0 : 0 <= x) by (unfold x; apply Rmult_le_pos; [exact Sn|left; now apply Rinv_0_lt_compat]).
  assert (P1 : at_vertex v ((fst nk + fst nj) * (delta / r), (snd nk + snd nj) * (delta / r)) = ahead v nk x).
  { rewrite (in_terms nk nj K) at 1 2. unfold ahead, at_vertex, x, comb, rot. cbn [fst snd]. unfold r in *. f_equal; field; lra. }
  assert (P2 : ahead v nk x = ahead v nj (- x)).
  { rewrite <- P1. rewrite (in_terms nj nk J) at 1 2. unfold ahead, at_vertex, x, comb, rot. cbn [fst snd].
    replace (crs nj nk) with (- crs nk nj) by (unfold crs; ring). replace (dot nj nk) with (dot nk nj) by (unfold dot; ring). unfold r in *. f_equal; field; lra. }
  rewrite P1. unfold corner_ok. cbn [fst snd hd last]. split; [discriminate|]. split; [exists x; split; [exact X0|reflexivity]|].
  split; [exists (- x); split; [lra|exact P2]|]. split.
  - intros p [<-|[]]. rewrite ahead_dist by exact K. unfold reach2. rewrite JM.
    assert (E : delta * delta + x * x = 2 / r * (delta * delta)).
    { unfold x. apply Rmult_eq_reg_r with (r * r); [|nra]. field_simplify_eq; [|lra]. 
      assert (crs nk nj ^ 2 = 1 - dot nk nj ^ 2) by lra. assert (dot nk nj = r - 1) by (unfold r; ring). rewrite H, H0. ring. }
    rewrite E. apply Rmult_le_compat_r; [nra|]. unfold Rdiv. apply Rmult_le_compat_l; [lra|]. apply Rinv_le_contravar; lra.
  - intros t [].
Qed.
Lemma fan_in : forall v (l : list pt) t, In t (fan v l) -> exists i, (S i < length l)%nat /\ t = [v; nth i l (0, 0); nth (S i) l (0, 0)].
Proof.
  intros v l. induction l as [|a l IH]; intros t I; [destruct I|]. destruct l as [|b l]; [destruct I|].
  change (fan v (a :: b :: l)) with ([v; a; b] :: fan v (b :: l)) in I. destruct I as [<-|I].
  - exists O. split; [cbn; lia|reflexivity].
  - destruct (IH t I) as (i & L & ->). exists (S i). split; [cbn [length] in *; lia|reflexivity].
Qed.
Lemma round_ok v nk nj : dot nk nk = 1 -> dot nj nj = 1 -> jt = RoundJoin -> 0 <= crs nk nj * delta ->
  corner_ok v nk nj (do_round delta steps v nk nj (crs nk nj), true).
Proof.
  intros K J JR Sn. unfold do_round. fold (dot nk nj). pose proof (unit_cs nk nj K J) as U.
  destruct (angle_sign (crs nk nj) (dot nk nj) U) as [Ap An]. pose proof (turned_to nk nj K J) as TT. destruct (unit_angle nk nj K J) as [Ca Sa].
  set (a := atan2 (crs nk nj) (dot nk nj)) in *.
  destruct (round_steps_spec a) as (N1 & N2 & N3). set (n := round_steps steps a) in *. rewrite spin_map.
  set (f := fun k : nat => turned_by (INR k * (sg delta * th)) nk).
  rewrite map_map. set (g := fun x : nat => at_vertex v (times (f x) delta)).
  change (map (fun x : nat => at_vertex v (times (turned_by (INR x * (sg delta * th)) nk) delta)) (seq 0 n)) with (map g (seq 0 n)).
  assert (D : forall x, dot x x = 1 -> dist2 (at_vertex v (times x delta)) (real v) = delta * delta).
  { intros x Hx. rewrite plain_ahead, ahead_dist by exact Hx. ring. }
  assert (Df : forall k, dot (f k) (f k) = 1) by (intro k; unfold f; rewrite turned_dot; exact K).
  unfold corner_ok. cbn [fst snd]. split; [destruct (map g (seq 0 n)); discriminate|]. split; [|split; [|split]].
  - exists 0. split; [lra|]. destruct n as [|m]; [lia|]. cbn [seq map app hd]. unfold g, f. rewrite plain_ahead. f_equal. cbn [INR]. unfold turned_by. rewrite Rmult_0_l, cos_0, sin_0. destruct nk; cbn [fst snd]. f_equal; ring.
  - exists 0. split; [lra|]. rewrite last_last. apply plain_ahead.
  - intros p I. apply in_app_iff in I. pose proof reach2_1. destruct I as [I|[<-|[]]].
    + apply in_map_iff in I. destruct I as (k & <- & _). unfold g. rewrite D by apply Df. assert (0 <= delta * delta) by nra. nra.
    + rewrite D by exact J. assert (0 <= delta * delta) by nra. nra.
  - intros t I. apply fan_in in I. destruct I as (i & L & ->). rewrite app_length, map_length, seq_length in L. cbn [length] in L.
    assert (Gi : nth i (map g (seq 0 n) ++ [at_vertex v (times nj delta)]) (0, 0) = g i).
    { rewrite app_nth1 by (rewrite map_length, seq_length; lia). rewrite (nth_indep _ (0, 0) (g 0%nat)) by (rewrite map_length, seq_length; lia). rewrite map_nth, seq_nth by lia. reflexivity. }
    rewrite Gi. eexists. eexists. split; [reflexivity|]. rewrite <- Gi. split; [apply nth_In; rewrite app_length, map_length, seq_length; cbn [length]; lia|].
    split; [apply nth_In; rewrite app_length, map_length, seq_length; cbn [length]; lia|]. rewrite Gi.
    pose proof step_bound as TB.
    destruct (Nat.eq_dec (S i) n) as [E|E].
    + rewrite app_nth2 by (rewrite map_length, seq_length; lia). rewrite map_length, seq_length, E, Nat.sub_diag. cbn [nth].
      unfold g. rewrite cross3_at. assert (Cr : crs (times (f i) delta) (times nj delta) = delta * delta * crs (f i) nj) by (unfold crs, times; cbn [fst snd]; ring). rewrite Cr.
      assert (Q : 0 <= sg delta * crs (f i) nj).
      { rewrite TT. unfold f. rewrite turned_crs, K, Rmult_1_l. replace (n - 1)%nat with i in * by lia.
        pose proof (atan2_bound (crs nk nj) (dot nk nj)) as AB. fold a in AB.
        unfold sg. destruct (Rlt_dec delta 0) as [H|H].
        - destruct (Rle_dec a 0) as [Ha|Ha].
          + rewrite Rabs_left1 in N2 by exact Ha. assert (0 <= sin (- (a - INR i * (-1 * th)))); [|rewrite sin_neg in *; lra].
            pose proof (pos_INR i). apply sin_ge_0; nra.
          + (* straight back *)
            assert (Ec : crs nk nj = 0). { destruct (Rlt_dec (crs nk nj) 0) as [H1|H1]; [specialize (An H1); lra|]. nra. }
            assert (dot nk nj = -1). { rewrite Ec in U. destruct (Rlt_dec (dot nk nj) 0); [nra|]. exfalso. assert (dot nk nj = 1) by nra. rewrite <- Sa in Ec. rewrite <- Ca in H0.
              assert (a = PI). { destruct (Rlt_dec a PI) as [L1|L1]; [|lra]. assert (0 < sin a) by (apply sin_gt_0; lra). lra. } rewrite H1, cos_PI in H0. lra. }
            assert (a = PI). { destruct (Rlt_dec a PI) as [L1|L1]; [|lra]. assert (0 < sin a) by (apply sin_gt_0; lra). lra. }
            rewrite H1 in *. rewrite Rabs_right in N2 by lra. replace (PI - INR i * (-1 * th)) with (INR i * th + PI) by ring. rewrite neg_sin.
            pose proof (pos_INR i). assert (0 <= sin (INR i * th)) by (apply sin_ge_0; nra). lra.
        - assert (0 <= a). { apply Ap. assert (0 < delta) by lra. nra. } rewrite Rabs_right in N2 by lra. pose proof (pos_INR i). assert (0 <= sin (a - INR i * (1 * th))) by (apply sin_ge_0; nra). lra. }
      replace (sg delta * (delta * delta * crs (f i) nj)) with (delta * delta * (sg delta * crs (f i) nj)) by ring. apply Rmult_le_pos; [nra|exact Q].
    + assert (Gs : nth (S i) (map g (seq 0 n) ++ [at_vertex v (times nj delta)]) (0, 0) = g (S i)).
      { rewrite app_nth1 by (rewrite map_length, seq_length; lia). rewrite (nth_indep _ (0, 0) (g 0%nat)) by (rewrite map_length, seq_length; lia). rewrite map_nth, seq_nth by lia. reflexivity. }
      rewrite Gs. unfold g. rewrite cross3_at. assert (Cr : crs (times (f i) delta) (times (f (S i)) delta) = delta * delta * crs (f i) (f (S i))) by (unfold crs, times; cbn [fst snd]; ring). rewrite Cr.
      unfold f. rewrite turned_crs, K. replace (INR (S i) * (sg delta * th) - INR i * (sg delta * th)) with (sg delta * th) by (rewrite S_INR; ring).
      assert (Q : 0 <= sg delta * sin (sg delta * th)).
      { assert (0 <= sin th) by (apply sin_ge_0; lra). unfold sg. destruct (Rlt_dec delta 0); [replace (-1 * th) with (- th) by ring; rewrite sin_neg; lra|rewrite !Rmult_1_l; lra]. }
      replace (sg delta * (delta * delta * (1 * sin (sg delta * th)))) with (delta * delta * (sg delta * sin (sg delta * th))) by ring. apply Rmult_le_pos; [nra|exact Q].
Qed.
Lemma point_ok v nk nj : dot nk nk = 1 -> dot nj nj = 1 -> (jt <> RoundJoin -> delta < 0 -> crs nk nj <> 0 \/ 0 < dot nk nj) ->
  corner_ok v nk nj (offset_point jt delta lim steps v nk nj).
Proof.
  intros K J Spike. unfold offset_point. fold (crs nk nj).
  replace (fst nk * fst nj + snd nj * snd nk) with (dot nk nj) by (unfold dot; ring).
  replace (1 + (fst nj * fst nk + snd nj * snd nk)) with (1 + dot nk nj) by (unfold dot; ring).
  pose proof (unit_cs nk nj K J) as U.
  assert (SB : -1 <= crs nk nj <= 1) by nra.
  assert (SM : forall b : bool, (if b then crs nk nj else if Rlt_dec 1 (crs nk nj) then 1 else if Rlt_dec (crs nk nj) (-1) then -1 else crs nk nj) = crs nk nj).
  { intros [|]; [reflexivity|]. destruct (Rlt_dec 1 _); [lra|]. destruct (Rlt_dec _ (-1)); [lra|reflexivity]. }
  rewrite !SM.
  destruct (Rlt_dec (Rabs (crs nk nj * delta)) 1) as [Sm|Sm]; destruct (Rlt_dec 0 (dot nk nj)) as [Dt|Dt]; cbn [andb].
  1:{ unfold corner_ok. cbn [fst snd hd last]. rewrite plain_ahead. split; [discriminate|]. split; [exists 0; split; [lra|reflexivity]|].
      split; [repeat split; try reflexivity; assumption|]. split.
      - intros p [<-|[]]. rewrite ahead_dist by exact K. pose proof reach2_1. assert (0 <= delta * delta) by nra. nra.
      - intros t []. }
  all: destruct (Rlt_dec (crs nk nj * delta) 0) as [Neg|Pos].
  1,3,5:  unfold corner_ok; cbn [fst snd hd last]; rewrite !plain_ahead; split; [discriminate|];
      split; [exists 0; split; [lra|reflexivity]|]; split; [exists 0; split; [lra|reflexivity]|]; split;
      [ pose proof reach2_1; assert (0 <= delta * delta) by nra;
        intros p [<-|[<-|[<-|[]]]]; [rewrite ahead_dist by exact K; nra| |rewrite ahead_dist by exact J; nra];
        unfold dist2, at_vertex, real; cbn [fst snd]; nra
      | assert (Ev : at_vertex v (0, 0) = real v) by (unfold at_vertex, real; cbn [fst snd]; f_equal; ring);
        intros t [<-|[<-|[]]]; eexists; eexists; (split; [reflexivity|]); (split; [cbn; tauto|]); (split; [cbn; tauto|]);
        rewrite Ev; unfold cross3; nra ].
  all: apply Rnot_lt_le in Pos; destruct jt eqn:JT;
       [apply square_ok; try assumption; [congruence|intro; apply Spike; [congruence|assumption]]
       |destruct (Rle_dec lim (1 + dot nk nj)); [now apply miter_ok|apply square_ok; try assumption; [congruence|intro; apply Spike; [congruence|assumption]]]
       |now apply round_ok].
Qed.
End Corner.

(** ** Edges *)
Lemma sg_cases d : sg d = 1 /\ 0 <= d \/ sg d = -1 /\ d < 0.
Proof. unfold sg. destruct (Rlt_dec d 0); [right|left]; split; try reflexivity; lra. Qed.
Definition sgz (d : R) : Z := if Rlt_dec d 0 then (-1)%Z else 1%Z.
Lemma sgz_cases d : sg d = 1 /\ sgz d = 1%Z \/ sg d = -1 /\ sgz d = (-1)%Z.
Proof. unfold sg, sgz. destruct (Rlt_dec d 0); [right|left]; split; reflexivity. Qed.

Lemma tri_sign d q a b c : 0 <= sg d * cross3 a b c -> (0 <= sgz d * around q [a; b; c])%Z.
Proof.
  intro H. destruct (sgz_cases d) as [[E ->]|[E ->]]; rewrite E in H.
  - pose proof (triangle_count q a b c ltac:(lra)). lia.
  - pose proof (triangle_count q a c b) as T. rewrite around3_rev in T. assert (cross3 a c b = - cross3 a b c) by (unfold cross3; ring). specialize (T ltac:(lra)). lia.
Qed.
Lemma tri_in d q a b c : 0 <= sg d * cross3 a b c -> around q [a; b; c] <> 0%Z -> in_triangle a b c q.
Proof.
  intros H N. destruct (sgz_cases d) as [[E _]|[E _]]; rewrite E in H.
  - apply triangle_in; [lra|exact N].
  - destruct (triangle_in q a c b) as (x & y & z & Hx & Hy & Hz & Es & E1 & E2).
    + assert (cross3 a c b = - cross3 a b c) by (unfold cross3; ring). lra.
    + rewrite around3_rev. lia.
    + exists x, z, y. repeat split; lra.
Qed.
Lemma quad_sign d q a b c e : 0 < sg d * rside (a, b) q -> 0 < sg d * rside (b, c) q -> 0 < sg d * rside (c, e) q -> 0 < sg d * rside (e, a) q ->
  (1 <= sgz d * around q [a; b; c; e])%Z.
Proof.
  intros A B C D. destruct (sgz_cases d) as [[E ->]|[E ->]]; rewrite E in *.
  - pose proof (quad_in q a b c e ltac:(lra) ltac:(lra) ltac:(lra) ltac:(lra)). lia.
  - pose proof (quad_in q a e c b) as Q. rewrite (rside_rev e a), (rside_rev c e), (rside_rev b c), (rside_rev a b) in Q.
    specialize (Q ltac:(lra) ltac:(lra) ltac:(lra) ltac:(lra)). rewrite around4 in *. rewrite (passes_rev q e a), (passes_rev q c e), (passes_rev q b c), (passes_rev q a b) in Q. lia.
Qed.

Section Strip.
Variables (delta f L : R) (v w : zpt) (u n : pt).
Let D := Rabs delta.
Hypothesis Hf : 1 <= f.
Hypothesis HD : f + 1 <= D.
Hypothesis HL : 1 <= L.
Hypothesis Hn : dot n n = 1.
Hypothesis Hu : dot u u = 1.
Hypothesis Hw : real w = (fst (real v) + L * fst (rot n), snd (real v) + L * snd (rot n)).
Let s := crs u n.
Let c := dot u n.
Let D_sg : sg delta * delta = D.
Proof. unfold D, sg. destruct (Rlt_dec delta 0); [rewrite Rabs_left by lra; ring|rewrite Rabs_right by lra; ring]. Qed.

Notation strip X Y := [real v; X; Y; real w].
Definition strip_ok (X Y : pt) : Prop :=
  0 <= sg delta * cross3 (real v) X (real w) /\ 0 <= sg delta * cross3 X Y (real w) /\
  forall q x z, f + 1 < x < L - (f + 1) -> 0 < sg delta * z < D - (f + 1) ->
    q = (fst (real v) + x * fst (rot n) + z * fst n, snd (real v) + x * snd (rot n) + z * snd n) ->
    0 < sg delta * rside (real v, X) q /\ 0 < sg delta * rside (X, Y) q /\ 0 < sg delta * rside (Y, real w) q /\ 0 < sg delta * rside (real w, real v) q.

Lemma n_parts : fst n * fst n + snd n * snd n = 1. Proof. exact Hn. Qed.

Lemma strip_A x y : x <= 0 -> 0 <= y -> strip_ok (ahead delta v n x) (ahead delta w n y).
Proof.
  intros Hx Hy. pose proof n_parts as N. unfold strip_ok, ahead, at_vertex, comb.
  change (IZR (fst v)) with (fst (real v)). change (IZR (snd v)) with (snd (real v)). change (IZR (fst w)) with (fst (real w)). change (IZR (snd w)) with (snd (real w)).
  rewrite Hw. unfold rot, cross3, rside. cbn [fst snd]. set (a := fst (real v)). set (b := snd (real v)). set (p := fst n) in *. set (r := snd n) in *.
  clearbody a b p r. split; [|split].
  - match goal with |- 0 <= sg delta * ?t => replace t with (L * delta * (p * p + r * r)) by ring end. rewrite N. replace (sg delta * (L * delta * 1)) with (L * D) by (rewrite <- D_sg; ring). nra.
  - match goal with |- 0 <= sg delta * ?t => replace t with ((y + L - x) * delta * (p * p + r * r)) by ring end. rewrite N.
    replace (sg delta * ((y + L - x) * delta * 1)) with ((y + L - x) * D) by (rewrite <- D_sg; ring). nra.
  - intros q x0 z X Z ->. cbn [fst snd].
    split; [|split; [|split]].
    + match goal with |- 0 < sg delta * ?t => replace t with ((delta * x0 - x * z) * (p * p + r * r)) by ring end. rewrite N.
      replace (sg delta * ((delta * x0 - x * z) * 1)) with (D * x0 - x * (sg delta * z)) by (rewrite <- D_sg; ring). nra.
    + match goal with |- 0 < sg delta * ?t => replace t with ((L + y - x) * (delta - z) * (p * p + r * r)) by ring end. rewrite N.
      replace (sg delta * ((L + y - x) * (delta - z) * 1)) with ((L + y - x) * (D - sg delta * z)) by (rewrite <- D_sg; ring). apply Rmult_lt_0_compat; lra.
    + match goal with |- 0 < sg delta * ?t => replace t with ((delta * (L - x0) + y * z) * (p * p + r * r)) by ring end. rewrite N.
      replace (sg delta * ((delta * (L - x0) + y * z) * 1)) with (D * (L - x0) + y * (sg delta * z)) by (rewrite <- D_sg; ring). nra.
    + match goal with |- 0 < sg delta * ?t => replace t with (L * z * (p * p + r * r)) by ring end. rewrite N.
      replace (sg delta * (L * z * 1)) with (L * (sg delta * z)) by ring. nra.
Qed.

(** The normal [u] of an earlier edge instead. *)
Hypothesis Hs : Rabs (s * delta) < 1.
Hypothesis Hc : 0 < c.
Lemma lag_s : Rabs s * D < 1. Proof. unfold D. rewrite <- Rabs_mult. exact Hs. Qed.
Lemma lag_c : D - / D <= D * c /\ 3 / 4 <= c <= 1.
Proof.
  pose proof lag_s as S. pose proof (unit_cs u n Hu Hn) as U. fold c s in U. pose proof (Rabs_pos s) as P.
  assert (E : s * s = Rabs s * Rabs s). { rewrite <- Rabs_mult. symmetry. apply Rabs_right. apply Rle_ge, Rle_0_sqr. }
  assert (I : / D * D = 1) by (apply Rinv_l; lra). assert (Rabs s < / D). { apply Rmult_lt_reg_r with D; [lra|]. lra. }
  assert (0 < / D) by (apply Rinv_0_lt_compat; lra). assert (/ D <= / 2) by (apply Rinv_le_contravar; lra).
  assert (C1 : c <= 1) by nra. assert (C2 : 1 - s * s <= c) by nra.
  assert (s * s <= / D * / D) by (rewrite E; apply Rmult_le_compat; lra).
  split; [|split; [|exact C1]].
  - assert (D * (/ D * / D) = / D) by (field; lra). nra.
  - assert (/ D * / D <= / 2 * / 2) by (apply Rmult_le_compat; lra). lra.
Qed.
Lemma u_terms : fst n = fst u * c - snd u * s /\ snd n = snd u * c + fst u * s.
Proof. pose proof (in_terms u n Hu) as E. fold c s in E. rewrite E. unfold comb, rot. cbn [fst snd]. split; ring. Qed.
Lemma sz (z M : R) : 0 <= M -> 0 < sg delta * z < M -> - (M * Rabs s) <= z * s <= M * Rabs s.
Proof.
  intros P H. assert (A : Rabs z <= M). { destruct (sg_cases delta) as [[E _]|[E _]]; rewrite E in H; [rewrite Rabs_right|rewrite Rabs_left]; lra. }
  assert (Rabs (z * s) <= M * Rabs s). { rewrite Rabs_mult. apply Rmult_le_compat_r; [apply Rabs_pos|exact A]. }
  revert H0. unfold Rabs at 1. destruct (Rcase_abs _); lra.
Qed.
Lemma s_abs : - Rabs s <= s <= Rabs s. Proof. unfold Rabs. destruct (Rcase_abs s); lra. Qed.
Lemma sgs : - Rabs s <= sg delta * s <= Rabs s.
Proof. pose proof s_abs. destruct (sg_cases delta) as [[E _]|[E _]]; rewrite E; lra. Qed.

Ltac params :=
  unfold strip_ok, ahead, at_vertex, comb;
  change (IZR (fst v)) with (fst (real v)); change (IZR (snd v)) with (snd (real v)); change (IZR (fst w)) with (fst (real w)); change (IZR (snd w)) with (snd (real w));
  rewrite Hw; unfold rot, cross3, rside; cbn [fst snd].

Lemma strip_B y : 0 <= y -> y <= f * D -> strip_ok (ahead delta v u 0) (ahead delta w u y).
Proof.
  intros Hy Hy'. pose proof lag_s as S. pose proof lag_c as (C & Cl & Cu). destruct u_terms as [T1 T2]. pose proof Hu as N. unfold dot in N.
  pose proof (unit_cs u n Hu Hn) as U. fold c s in U. pose proof sgs as Sg. pose proof (Rabs_pos s) as P.
  assert (ID : 0 < / D <= / 2) by (split; [apply Rinv_0_lt_compat; lra|apply Rinv_le_contravar; lra]).
  pose proof sz as SZ.
  params. rewrite T1, T2. set (a := fst (real v)). set (b := snd (real v)). set (p := fst u) in *. set (r := snd u) in *.
  assert (YS : y * Rabs s <= f). { apply Rle_trans with (f * (D * Rabs s)); [nra|]. nra. }
  clearbody a b p r c s. split; [|split].
  - match goal with |- 0 <= sg delta * ?t => replace t with (L * delta * c * (p * p + r * r)) by ring end. rewrite N.
    replace (sg delta * (L * delta * c * 1)) with (L * c * D) by (rewrite <- D_sg; ring). apply Rmult_le_pos; [|lra]. nra.
  - match goal with |- 0 <= sg delta * ?t => replace t with ((L * delta * c + L * y * s + delta * y) * (p * p + r * r)) by ring end. rewrite N.
    replace (sg delta * ((L * delta * c + L * y * s + delta * y) * 1)) with (L * (D * c + y * (sg delta * s)) + D * y) by (rewrite <- D_sg; ring).
    assert (0 <= D * c + y * (sg delta * s)) by nra. nra.
  - intros q x z X Z ->. cbn [fst snd].
    assert (Zs : - ((D - (f + 1)) * Rabs s) <= z * s <= (D - (f + 1)) * Rabs s) by (apply SZ; lra).
    split; [|split; [|split]].
    + match goal with |- 0 < sg delta * ?t => replace t with (delta * (x * c + z * s) * (p * p + r * r)) by ring end. rewrite N.
      replace (sg delta * (delta * (x * c + z * s) * 1)) with (D * (x * c + z * s)) by (rewrite <- D_sg; ring). apply Rmult_lt_0_compat; [lra|]. nra.
    + match goal with |- 0 < sg delta * ?t => replace t with ((L * (delta * c - z * (c * c + s * s)) + y * (delta - z * c + x * s)) * (p * p + r * r)) by ring end. rewrite N, U.
      replace (sg delta * ((L * (delta * c - z * 1) + y * (delta - z * c + x * s)) * 1)) with (L * (D * c - sg delta * z) + y * (D - sg delta * z * c) + x * (y * (sg delta * s))) by (rewrite <- D_sg; ring).
      set (z' := sg delta * z) in *. set (g := sg delta * s) in *. clearbody z' g.
      assert (0 <= y * (D - z' * c)) by (apply Rmult_le_pos; nra).
      assert (- f <= y * g) by nra. assert (L * (f + 1 - / D) < L * (D * c - z')) by (apply Rmult_lt_compat_l; lra). 
      assert (- (x * f) <= x * (y * g)) by nra.
      assert (x * f <= L * f) by (apply Rmult_le_compat_r; lra). assert (0 < L * (1 - / D)) by (apply Rmult_lt_0_compat; lra).
      assert (L * (f + 1 - / D) = L * f + L * (1 - / D)) by ring. lra.
    + match goal with |- 0 < sg delta * ?t => replace t with ((delta * (L - x) * c - delta * (z * s) + y * (L - x) * s + y * z * c) * (p * p + r * r)) by ring end. rewrite N.
      replace (sg delta * ((delta * (L - x) * c - delta * (z * s) + y * (L - x) * s + y * z * c) * 1)) with ((L - x) * (D * c + y * (sg delta * s)) + (y * c * (sg delta * z) - D * (z * s))) by (rewrite <- D_sg; ring).
      assert (Zs' : - (sg delta * z * Rabs s) <= z * s <= sg delta * z * Rabs s).
      { clear - Z. assert (Rabs (z * s) <= sg delta * z * Rabs s). { rewrite Rabs_mult. apply Rmult_le_compat_r; [apply Rabs_pos|]. destruct (sg_cases delta) as [[E _]|[E _]]; rewrite E in *; [rewrite Rabs_right|rewrite Rabs_left]; lra. }
        revert H. unfold Rabs at 1. destruct (Rcase_abs _); lra. }
      set (z' := sg delta * z) in *. set (g := sg delta * s) in *. clearbody z' g. set (as_ := Rabs s) in *. clearbody as_.
      destruct (Rle_dec (D * as_) (y * c)) as [K|K].
      * assert (0 <= y * c * z' - D * (z * s)). { assert (z' * (D * as_) <= z' * (y * c)) by (apply Rmult_le_compat_l; lra). nra. }
        assert (0 < D * c + y * g) by nra. assert (0 < (L - x) * (D * c + y * g)) by (apply Rmult_lt_0_compat; lra). lra.
      * assert (y <= 4 / 3) by (clear - K S Cl Hy P; nra). assert (as_ <= / 2) by (assert (2 <= D) by lra; clear - H0 S P; nra). assert (- (2 / 3) <= y * g) by (clear - H H0 Hy Sg P; nra).
        assert (0 <= y * c * z') by (apply Rmult_le_pos; [apply Rmult_le_pos; lra|lra]). assert (D * (z * s) <= z'). { assert (z' * (as_ * D) <= z' * 1) by (apply Rmult_le_compat_l; lra). assert (D * (z * s) <= D * (z' * as_)) by (apply Rmult_le_compat_l; lra). clear - H3 H4. nra. }
        assert (2 * (D * c + y * g) <= (L - x) * (D * c + y * g)) by (apply Rmult_le_compat_r; lra). lra.
    + match goal with |- 0 < sg delta * ?t => replace t with (L * z * (c * c + s * s) * (p * p + r * r)) by ring end. rewrite N, U.
      replace (sg delta * (L * z * 1 * 1)) with (L * (sg delta * z)) by ring. apply Rmult_lt_0_compat; lra.
Qed.
Lemma strip_C y : 0 <= y -> strip_ok (ahead delta v u 0) (ahead delta w n y).
Proof.
  intros Hy. pose proof lag_s as S. pose proof lag_c as (C & Cl & Cu). destruct u_terms as [T1 T2]. pose proof Hu as N. unfold dot in N.
  pose proof (unit_cs u n Hu Hn) as U. fold c s in U. pose proof sgs as Sg. pose proof (Rabs_pos s) as P.
  assert (ID : 0 < / D <= / 2) by (split; [apply Rinv_0_lt_compat; lra|apply Rinv_le_contravar; lra]).
  pose proof sz as SZ.
  params. rewrite T1, T2. set (a := fst (real v)). set (b := snd (real v)). set (p := fst u) in *. set (r := snd u) in *.
  assert (DS : - 1 <= delta * s <= 1). { pose proof Hs as H. revert H. replace (delta * s) with (s * delta) by ring. unfold Rabs. destruct (Rcase_abs _); lra. }
  clearbody a b p r c s. split; [|split].
  - match goal with |- 0 <= sg delta * ?t => replace t with (L * delta * c * (p * p + r * r)) by ring end. rewrite N.
    replace (sg delta * (L * delta * c * 1)) with (L * c * D) by (rewrite <- D_sg; ring). apply Rmult_le_pos; [|lra]. nra.
  - match goal with |- 0 <= sg delta * ?t => replace t with (delta * (L * (c * c + s * s) + delta * s + y * c) * (p * p + r * r)) by ring end. rewrite N, U.
    replace (sg delta * (delta * (L * 1 + delta * s + y * c) * 1)) with (D * (L + delta * s + y * c)) by (rewrite <- D_sg; ring). nra.
  - intros q x z X Z ->. cbn [fst snd].
    assert (Zs : - ((D - (f + 1)) * Rabs s) <= z * s <= (D - (f + 1)) * Rabs s) by (apply SZ; lra).
    split; [|split; [|split]].
    + match goal with |- 0 < sg delta * ?t => replace t with (delta * (x * c + z * s) * (p * p + r * r)) by ring end. rewrite N.
      replace (sg delta * (delta * (x * c + z * s) * 1)) with (D * (x * c + z * s)) by (rewrite <- D_sg; ring). apply Rmult_lt_0_compat; [lra|]. nra.
    + match goal with |- 0 < sg delta * ?t => replace t with (((L + y) * (delta * c - z * (c * c + s * s)) + delta * (x * ((c * c + s * s) - c) + s * (delta - z))) * (p * p + r * r)) by ring end. rewrite N, U.
      replace (sg delta * (((L + y) * (delta * c - z * 1) + delta * (x * (1 - c) + s * (delta - z))) * 1)) with ((L + y) * (D * c - sg delta * z) + D * (x * (1 - c)) + delta * s * (D - sg delta * z)) by (rewrite <- D_sg; ring).
      set (z' := sg delta * z) in *. clearbody z'. set (ds := delta * s) in *. clearbody ds.
      assert (0 <= D * (x * (1 - c))) by (apply Rmult_le_pos; [lra|apply Rmult_le_pos; lra]).
      assert (4 * (D * c - z') <= (L + y) * (D * c - z')) by (apply Rmult_le_compat_r; lra).
      assert (- (D - z') <= ds * (D - z')) by (assert (0 <= D - z') by lra; clear - H1 DS; nra). lra.
    + match goal with |- 0 < sg delta * ?t => replace t with ((delta * (L - x) + y * z) * (c * c + s * s) * (p * p + r * r)) by ring end. rewrite N, U.
      replace (sg delta * ((delta * (L - x) + y * z) * 1 * 1)) with (D * (L - x) + y * (sg delta * z)) by (rewrite <- D_sg; ring). nra.
    + match goal with |- 0 < sg delta * ?t => replace t with (L * z * (c * c + s * s) * (p * p + r * r)) by ring end. rewrite N, U.
      replace (sg delta * (L * z * 1 * 1)) with (L * (sg delta * z)) by ring. apply Rmult_lt_0_compat; lra.
Qed.
End Strip.
