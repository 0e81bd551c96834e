(** Outlines of FlexPaths under similarities. *)

From Coq Require Import Reals Lra Lia List ZArith Bool.
From Verif Require Import Plane Curve Engine Flex.
Import ListNotations.
Open Scope R_scope.

Lemma pt_eq (p q : pt) : fst p = fst q -> snd p = snd q -> p = q.
Proof. destruct p, q; cbn; congruence. Qed.
Lemma len2_zero v : len2 v = 0 -> v = (0, 0).
Proof.
  unfold len2. intro E. pose proof (pow2_ge_0 (fst v)). pose proof (pow2_ge_0 (snd v)).
  apply pt_eq; cbn [fst snd]; apply Rsqr_0_uniq; unfold Rsqr; lra.
Qed.
Lemma len2_nonneg v : 0 <= len2 v.
Proof. unfold len2. pose proof (pow2_ge_0 (fst v)). pose proof (pow2_ge_0 (snd v)). lra. Qed.
Lemma len_zero v : len v = 0 -> v = (0, 0).
Proof. intro E. apply len2_zero. apply sqrt_eq_0; [apply len2_nonneg|exact E]. Qed.

Section Similarity.
(** x' = a x - s b y + tx, y' = b x + s a y + ty, with s = 1 or s = -1 *)
Variables (a b s k : R) (t : pt).
Hypothesis Hs : s * s = 1.
Hypothesis Hk : 0 < k.
Hypothesis Hab : a ^ 2 + b ^ 2 = k ^ 2.

Definition lin (v : pt) : pt := (a * fst v - s * b * snd v, b * fst v + s * a * snd v).
Definition sim (p : pt) : pt := padd (lin p) t.
Definition sim2 (st : pt * pt) : pt * pt := (sim (fst st), sim (snd st)).

Lemma sim_sub p q : psub (sim p) (sim q) = lin (psub p q).
Proof. apply pt_eq; unfold sim, lin, padd, psub; cbn [fst snd]; ring. Qed.
Lemma lin_smul c v : lin (smul c v) = smul c (lin v).
Proof. apply pt_eq; unfold lin, smul; cbn [fst snd]; ring. Qed.
Lemma lin_add u v : lin (padd u v) = padd (lin u) (lin v).
Proof. apply pt_eq; unfold lin, padd; cbn [fst snd]; ring. Qed.
Lemma sim_add p v : sim (padd p v) = padd (sim p) (lin v).
Proof. apply pt_eq; unfold sim, lin, padd; cbn [fst snd]; ring. Qed.
Lemma sim_subv p v : sim (psub p v) = psub (sim p) (lin v).
Proof. apply pt_eq; unfold sim, lin, padd, psub; cbn [fst snd]; ring. Qed.
Lemma sim_mid p q : mid (sim p) (sim q) = sim (mid p q).
Proof. apply pt_eq; unfold sim, lin, mid, smul, padd; cbn [fst snd]; field. Qed.
Lemma lin0 : lin (0, 0) = (0, 0).
Proof. apply pt_eq; unfold lin; cbn [fst snd]; ring. Qed.
Lemma len2_lin v : len2 (lin v) = k ^ 2 * len2 v.
Proof.
  rewrite <- Hab. unfold len2, lin; cbn [fst snd].
  replace ((a * fst v - s * b * snd v) ^ 2 + (b * fst v + s * a * snd v) ^ 2)
    with (a ^ 2 * (fst v ^ 2 + s * s * snd v ^ 2) + b ^ 2 * (fst v ^ 2 + s * s * snd v ^ 2)) by ring.
  rewrite Hs. ring.
Qed.
Lemma len_lin v : len (lin v) = k * len v.
Proof. unfold len. rewrite len2_lin, sqrt_mult, sqrt_pow2; [reflexivity|lra|apply pow2_ge_0|apply len2_nonneg]. Qed.
Definition wedge (u v : pt) : R := fst u * snd v - snd u * fst v.
Lemma wedge_lin u v : wedge (lin u) (lin v) = s * k ^ 2 * wedge u v.
Proof.
  rewrite <- Hab. unfold wedge, lin; cbn [fst snd].
  replace ((a * fst u - s * b * snd u) * (b * fst v + s * a * snd v) - (b * fst u + s * a * snd u) * (a * fst v - s * b * snd v))
    with (s * (a ^ 2 + b ^ 2) * (fst u * snd v - snd u * fst v)) by ring. reflexivity.
Qed.
Lemma s_ne : s <> 0.
Proof. intro E. rewrite E in Hs. lra. Qed.
Lemma normal_sim p q : normal (sim p) (sim q) = smul (s / k) (lin (normal p q)).
Proof.
  unfold normal. rewrite sim_sub. set (v := psub q p). rewrite len_lin. destruct (Req_dec (len v) 0) as [E|E].
  - apply len_zero in E. rewrite E, lin0. apply pt_eq; unfold lin, smul; cbn [fst snd]; unfold Rdiv; ring.
  - apply pt_eq; unfold lin, smul; cbn [fst snd].
    + replace (s / k * (a * (- snd v / len v) - s * b * (fst v / len v)))
        with (/ (k * len v) * (- (s * a * snd v) - s * s * b * fst v)) by (field; split; lra). rewrite Hs. field. split; lra.
    + replace (s / k * (b * (- snd v / len v) + s * a * (fst v / len v)))
        with (/ (k * len v) * (s * s * a * fst v - s * b * snd v)) by (field; split; lra). rewrite Hs. field. split; lra.
Qed.
Lemma shift_sim p q r h : padd (sim r) (smul (k * h) (normal (sim p) (sim q))) = sim (padd r (smul (s * h) (normal p q))).
Proof.
  rewrite normal_sim, sim_add, lin_smul. f_equal. apply pt_eq; unfold smul; cbn [fst snd]; field; lra.
Qed.
Lemma shifted_sim pts : forall hs, shifted (map sim pts) (map (Rmult k) hs) = map sim2 (shifted pts (map (Rmult s) hs)).
Proof.
  induction pts as [|p pts IH]; intro hs; [destruct hs; reflexivity|].
  destruct pts as [|q pts]; [destruct hs as [|x [|y hs]]; reflexivity|].
  destruct hs as [|x hs]; [reflexivity|]. destruct hs as [|y hs]; [reflexivity|].
  specialize (IH (y :: hs)). cbn [map] in IH |- *.
  assert (U : forall p q l a b m, shifted (p :: q :: l) (a :: b :: m) =
    (padd p (smul a (normal p q)), padd q (smul b (normal p q))) :: shifted (q :: l) (b :: m)) by reflexivity.
  rewrite !U, IH. cbn [map]. f_equal. unfold sim2; cbn [fst snd]. f_equal; apply shift_sim.
Qed.

(** The ratio of two wedges is invariant. *)
Lemma ratio_inv x y : y <> 0 -> s * k ^ 2 * x / (s * k ^ 2 * y) = x / y.
Proof. intro N. field. split; [exact N|]. split; [lra|apply s_ne]. Qed.
Lemma k2_pos : 0 < k ^ 2. Proof. apply pow_lt, Hk. Qed.
Lemma sk4 x : (s * k ^ 2 * x) ^ 2 = k ^ 4 * x ^ 2.
Proof. replace ((s * k ^ 2 * x) ^ 2) with (s * s * (k ^ 4 * x ^ 2)) by ring. rewrite Hs. ring. Qed.
Lemma lt_scale c x y : 0 < c -> (c * x < c * y <-> x < y).
Proof. intro C. split; [apply Rmult_lt_reg_l, C|apply Rmult_lt_compat_l, C]. Qed.
Lemma k4_pos : 0 < k ^ 4. Proof. apply pow_lt, Hk. Qed.

Lemma meet_wedge (st tu : pt * pt) : meet st tu =
  let v := psub (snd st) (fst st) in let v' := psub (snd tu) (fst tu) in
  if Rlt_dec (wedge v' v ^ 2) (tiny * len2 v' * len2 v) then mid (fst tu) (snd st)
  else padd (snd st) (smul (- (wedge v' (psub (snd st) (fst tu))) / wedge v' v) v).
Proof.
  unfold meet. cbv zeta. set (v := psub (snd st) (fst st)). set (v' := psub (snd tu) (fst tu)). set (ds := psub (snd st) (fst tu)).
  change (fst v' * snd v - snd v' * fst v) with (wedge v' v).
  replace (snd v' * fst ds - fst v' * snd ds) with (- wedge v' ds) by (unfold wedge; ring). reflexivity.
Qed.
Lemma thresholds v v' : (wedge (lin v') (lin v) ^ 2 < tiny * len2 (lin v') * len2 (lin v)) <-> (wedge v' v ^ 2 < tiny * len2 v' * len2 v).
Proof.
  rewrite wedge_lin, sk4, !len2_lin. replace (tiny * (k ^ 2 * len2 v') * (k ^ 2 * len2 v)) with (k ^ 4 * (tiny * len2 v' * len2 v)) by ring.
  apply lt_scale, k4_pos.
Qed.
Lemma tiny_pos : 0 < tiny.
Proof. unfold tiny. apply Rinv_0_lt_compat, pow_lt. lra. Qed.
Lemma degenerate v v' : ~ wedge v' v ^ 2 < tiny * len2 v' * len2 v -> wedge v' v = 0 -> v = (0, 0) \/ v' = (0, 0).
Proof.
  intros N Z. rewrite Z in N. pose proof tiny_pos. pose proof (len2_nonneg v). pose proof (len2_nonneg v').
  destruct (Req_dec (len2 v) 0) as [E|E]; [left; now apply len2_zero|].
  destruct (Req_dec (len2 v') 0) as [E'|E']; [right; now apply len2_zero|].
  exfalso. apply N. replace (0 ^ 2) with 0 by ring. repeat apply Rmult_lt_0_compat; lra.
Qed.
Lemma meet_sim st tu : meet (sim2 st) (sim2 tu) = sim (meet st tu).
Proof.
  rewrite !meet_wedge. cbv zeta. unfold sim2; cbn [fst snd]. rewrite !sim_sub.
  set (v := psub (snd st) (fst st)). set (v' := psub (snd tu) (fst tu)). set (ds := psub (snd st) (fst tu)).
  destruct (Rlt_dec (wedge (lin v') (lin v) ^ 2) _) as [L|L], (Rlt_dec (wedge v' v ^ 2) _) as [L'|L'].
  - apply sim_mid.
  - exfalso. apply L', thresholds, L.
  - exfalso. apply L, thresholds, L'.
  - rewrite sim_add. f_equal. destruct (Req_dec (wedge v' v) 0) as [Z|Z].
    + destruct (degenerate _ _ L' Z) as [E|E]; rewrite E.
      * rewrite lin0. apply pt_eq; unfold lin, smul; cbn [fst snd]; ring.
      * rewrite lin0. unfold wedge. cbn [fst snd]. apply pt_eq; unfold lin, smul; cbn [fst snd]; unfold Rdiv; ring.
    + rewrite lin_smul, !wedge_lin. f_equal. replace (- (s * k ^ 2 * wedge v' ds)) with (s * k ^ 2 * - wedge v' ds) by ring.
      now apply ratio_inv.
Qed.
Lemma pairwise_map {X Y} (f g : X -> X -> Y) (h : X -> X) (i : Y -> Y) l : (forall x y, f (h x) (h y) = i (g x y)) ->
  pairwise f (map h l) = map i (pairwise g l).
Proof.
  intro H. induction l as [|x l IH]; [reflexivity|]. destruct l as [|y l]; [reflexivity|]. cbn [map pairwise] in *.
  rewrite H. f_equal. exact IH.
Qed.
Lemma last_map_eq {X Y} (g : X -> Y) l d : last (map g l) (g d) = g (last l d).
Proof. induction l as [|x l IH]; [reflexivity|]. destruct l; [reflexivity|]. exact IH. Qed.
Lemma all_zero_scale c os : c <> 0 -> all_zero (map (Rmult c) os) = all_zero os.
Proof.
  intro C. unfold all_zero. induction os as [|x os IH]; [reflexivity|]. cbn [map forallb]. rewrite IH. f_equal.
  destruct (Req_EM_T (c * x) 0) as [E|E], (Req_EM_T x 0) as [E'|E']; try reflexivity.
  - apply Rmult_integral in E as [E|E]; contradiction.
  - subst x. exfalso. apply E. ring.
Qed.
Lemma centre_sim pts os : centre (map sim pts) (map (Rmult k) os) = map sim (centre pts (map (Rmult s) os)).
Proof.
  unfold centre. rewrite (all_zero_scale k), (all_zero_scale s) by (apply s_ne || lra).
  destruct (all_zero os); [reflexivity|]. rewrite shifted_sim.
  destruct (shifted pts (map (Rmult s) os)) as [|x ss]; [reflexivity|]. rewrite map_cons.
  change (sim2 x :: map sim2 ss) with (map sim2 (x :: ss)).
  rewrite last_map_eq, (pairwise_map meet meet sim2 sim) by apply meet_sim.
  rewrite map_cons, map_app. reflexivity.
Qed.

(** ** Corners *)

Definition straight_corner (c : corner) : Prop := c = Natural \/ c = Miter \/ (c = Bevel /\ s = 1).
Lemma unit_lin h v : smul (k * h / len (lin v)) (lin v) = lin (smul (h / len v) v).
Proof.
  rewrite len_lin, lin_smul. destruct (Req_dec (len v) 0) as [E|E].
  - apply len_zero in E. rewrite E, lin0. apply pt_eq; unfold smul; cbn [fst snd]; ring.
  - f_equal. field. split; lra.
Qed.
Lemma wedge_swap u v : wedge u v = - wedge v u. Proof. unfold wedge. ring. Qed.
Lemma join_natural hob fuel bend tol st tu ctr w : join fuel hob Natural bend tol st tu ctr w =
  let p0 := snd st in let v0 := smul (/ 2 * w / len (psub (snd st) (fst st))) (psub (snd st) (fst st)) in
  let p1 := fst tu in let v1 := smul (/ 2 * w / len (psub (snd tu) (fst tu))) (psub (snd tu) (fst tu)) in
  let d := psub p1 p0 in
  let t := if Rlt_dec (wedge v0 v1 ^ 2) (tiny * (/ 2 * w) ^ 4) then (0, 0, mid p0 p1)
           else (wedge d v1 / wedge v0 v1, wedge d v0 / wedge v0 v1,
                 smul (/ 2) (padd (padd p0 (smul (wedge d v1 / wedge v0 v1) v0)) (padd p1 (smul (wedge d v0 / wedge v0 v1) v1)))) in
  let u0 := fst (fst t) in let u1 := snd (fst t) in
  let q0 := padd p0 (smul (Rmin 1 u0) v0) in
  let q1 := padd p1 (smul (Rmax (-1) u1) v1) in
  Some (if Rlt_dec u0 0 then
          if Rlt_dec 0 u1 then [snd t] else if Rle_dec (-1) u1 then [mid q0 q1] else [q0; q1]
        else if Rle_dec u0 1 then if Rle_dec (-1) u1 then [mid q0 q1] else [q0; q1]
        else [q0; q1]).
Proof.
  unfold join. cbv zeta. set (v0 := smul _ (psub (snd st) (fst st))). set (v1 := smul _ (psub (snd tu) (fst tu))).
  set (d := psub (fst tu) (snd st)).
  replace (snd v1 * fst v0 - fst v1 * snd v0) with (wedge v0 v1) by (unfold wedge; ring).
  replace (snd v1 * fst d - fst v1 * snd d) with (wedge d v1) by (unfold wedge; ring).
  replace (snd v0 * fst d - fst v0 * snd d) with (wedge d v0) by (unfold wedge; ring).
  destruct (Rlt_dec (wedge v0 v1 ^ 2) _); reflexivity.
Qed.
(** The corner of the sides through p0 along v0 and p1 along v1. *)
Definition crossing (p0 v0 p1 v1 : pt) : R * R * pt :=
  let d := psub p1 p0 in
  (wedge d v1 / wedge v0 v1, wedge d v0 / wedge v0 v1,
   smul (/ 2) (padd (padd p0 (smul (wedge d v1 / wedge v0 v1) v0)) (padd p1 (smul (wedge d v0 / wedge v0 v1) v1)))).
Lemma crossing_sim p0 v0 p1 v1 : wedge v0 v1 <> 0 \/ (v0 = (0, 0) /\ v1 = (0, 0)) ->
  crossing (sim p0) (lin v0) (sim p1) (lin v1) =
  (fst (fst (crossing p0 v0 p1 v1)), snd (fst (crossing p0 v0 p1 v1)), sim (snd (crossing p0 v0 p1 v1))).
Proof.
  intro H. unfold crossing. cbv zeta. cbn [fst snd]. rewrite sim_sub, !wedge_lin.
  assert (E : forall x, (x = wedge (psub p1 p0) v1 \/ x = wedge (psub p1 p0) v0) -> s * k ^ 2 * x / (s * k ^ 2 * wedge v0 v1) = x / wedge v0 v1).
  { intros x Hx. destruct H as [H|[-> ->]]; [now apply ratio_inv|].
    assert (x = 0) as -> by (destruct Hx as [-> | ->]; unfold wedge; cbn; ring). unfold Rdiv. ring. }
  rewrite !E by tauto. f_equal. set (x := _ / _). set (y := _ / _). clearbody x y.
  apply pt_eq; unfold sim, lin, smul, padd; cbn [fst snd]; field.
Qed.
Lemma join_natural_sim fuel hob bend tol st tu ctr w :
  join fuel hob Natural bend tol (sim2 st) (sim2 tu) (sim ctr) (k * w) = option_map (map sim) (join fuel hob Natural bend tol st tu ctr w).
Proof.
  rewrite !join_natural. cbv zeta. unfold sim2; cbn [fst snd]. rewrite !sim_sub.
  replace (/ 2 * (k * w)) with (k * (/ 2 * w)) by ring. rewrite !unit_lin.
  set (h := / 2 * w). set (v0 := smul _ (psub (snd st) (fst st))). set (v1 := smul _ (psub (snd tu) (fst tu))).
  set (p0 := snd st). set (p1 := fst tu).
  assert (Z : ~ wedge v0 v1 ^ 2 < tiny * h ^ 4 -> wedge v0 v1 <> 0 \/ (v0 = (0, 0) /\ v1 = (0, 0))).
  { intro N. destruct (Req_dec (wedge v0 v1) 0) as [E|E]; [|now left]. right.
    assert (h = 0). { destruct (Req_dec h 0) as [|D]; [assumption|]. exfalso. apply N. rewrite E. replace (0 ^ 2) with 0 by ring.
      apply Rmult_lt_0_compat; [apply tiny_pos|]. replace (h ^ 4) with (Rsqr (h * h)) by (unfold Rsqr; ring).
      apply Rlt_0_sqr. intro F. apply Rmult_integral in F. tauto. }
    split; unfold v0, v1; rewrite H; unfold Rdiv; rewrite Rmult_0_l; apply pt_eq; unfold smul; cbn [fst snd]; ring. }
  set (X := if Rlt_dec (wedge (lin v0) (lin v1) ^ 2) (tiny * (k * h) ^ 4) then _ else _).
  set (Y := if Rlt_dec (wedge v0 v1 ^ 2) (tiny * h ^ 4) then _ else _).
  assert (E : X = (fst (fst Y), snd (fst Y), sim (snd Y))).
  { unfold X, Y. assert (T : (wedge (lin v0) (lin v1) ^ 2 < tiny * (k * h) ^ 4) <-> (wedge v0 v1 ^ 2 < tiny * h ^ 4)).
    { rewrite wedge_lin, sk4. replace (tiny * (k * h) ^ 4) with (k ^ 4 * (tiny * h ^ 4)) by ring. apply lt_scale, k4_pos. }
    destruct (Rlt_dec (wedge (lin v0) (lin v1) ^ 2) _) as [L|L], (Rlt_dec (wedge v0 v1 ^ 2) _) as [L'|L'].
    - cbn [fst snd]. now rewrite sim_mid.
    - exfalso. apply L', T, L.
    - exfalso. apply L, T, L'.
    - pose proof (crossing_sim p0 v0 p1 v1 (Z L')) as C. unfold crossing in C. cbv zeta in C. rewrite sim_sub in *. exact C. }
  rewrite E. clearbody Y. clear X E. cbn [fst snd]. destruct Y as [[u0 u1] p]. cbn [fst snd option_map].
  assert (Q0 : forall c, padd (sim p0) (smul c (lin v0)) = sim (padd p0 (smul c v0))) by (intro; now rewrite sim_add, lin_smul).
  assert (Q1 : forall c, padd (sim p1) (smul c (lin v1)) = sim (padd p1 (smul c v1))) by (intro; now rewrite sim_add, lin_smul).
  rewrite !Q0, !Q1. f_equal.
  repeat match goal with |- context [Rlt_dec ?x ?y] => destruct (Rlt_dec x y) | |- context [Rle_dec ?x ?y] => destruct (Rle_dec x y) end;
    cbn [map]; rewrite ?sim_mid; reflexivity.
Qed.

Lemma crossing_point p0 v0 p1 v1 : wedge v0 v1 <> 0 \/ v0 = (0, 0) \/ v1 = (0, 0) ->
  snd (crossing (sim p0) (lin v0) (sim p1) (lin v1)) = sim (snd (crossing p0 v0 p1 v1)).
Proof.
  intros [H|H]; [rewrite crossing_sim by tauto; reflexivity|]. unfold crossing. cbv zeta. cbn [fst snd].
  assert (M : forall p0 v0 p1 v1, v0 = (0, 0) \/ v1 = (0, 0) ->
    smul (/ 2) (padd (padd p0 (smul (wedge (psub p1 p0) v1 / wedge v0 v1) v0)) (padd p1 (smul (wedge (psub p1 p0) v0 / wedge v0 v1) v1))) = mid p0 p1).
  { clear. intros p0 v0 p1 v1 [-> | ->]; unfold mid; f_equal; f_equal; apply pt_eq; unfold padd, smul, wedge; cbn [fst snd]; unfold Rdiv; ring. }
  rewrite (M p0 v0 p1 v1 H), (M (sim p0) (lin v0) (sim p1) (lin v1)); [apply sim_mid|].
  destruct H as [-> | ->]; [left|right]; apply lin0.
Qed.
Lemma crossing_sign p0 v0 p1 v1 : s = 1 ->
  let x := crossing (sim p0) (lin v0) (sim p1) (lin v1) in let y := crossing p0 v0 p1 v1 in
  (fst (fst x) <= 0 <-> fst (fst y) <= 0) /\ (0 <= snd (fst x) <-> 0 <= snd (fst y)).
Proof.
  intro S. cbv zeta. unfold crossing. cbv zeta. cbn [fst snd]. rewrite sim_sub, !wedge_lin, S.
  destruct (Req_dec (wedge v0 v1) 0) as [E|E].
  - rewrite E, Rmult_0_r. unfold Rdiv. pose proof k2_pos.
    rewrite !Rmult_assoc, !Rmult_1_l. split; split; intro L.
    + apply (Rmult_le_reg_l (k ^ 2)); lra.
    + apply (Rmult_le_compat_l (k ^ 2)) in L; lra.
    + apply (Rmult_le_reg_l (k ^ 2)); lra.
    + apply (Rmult_le_compat_l (k ^ 2)) in L; lra.
  - rewrite <- S at 1 2 3 4. rewrite !ratio_inv by exact E. tauto.
Qed.
Lemma join_other fuel hob c bend tol st tu ctr w : c = Miter \/ c = Bevel -> join fuel hob c bend tol st tu ctr w =
  let p0 := snd st in let v0 := psub (snd st) (fst st) in
  let p1 := fst tu in let v1 := psub (snd tu) (fst tu) in
  let t := if Rlt_dec (wedge v0 v1 ^ 2) (tiny * len2 v0 * len2 v1) then (0, 0, mid p0 p1) else crossing p0 v0 p1 v1 in
  match c with
  | Miter => Some [snd t]
  | _ => if (if Rle_dec (fst (fst t)) 0 then if Rle_dec 0 (snd (fst t)) then true else false else false) then Some [snd t] else Some [p0; p1]
  end.
Proof.
  intro H. unfold join. cbv zeta. set (v0 := psub (snd st) (fst st)). set (v1 := psub (snd tu) (fst tu)).
  set (d := psub (fst tu) (snd st)). unfold crossing. cbv zeta. fold d.
  replace (snd v1 * fst v0 - fst v1 * snd v0) with (wedge v0 v1) by (unfold wedge; ring).
  replace (snd v1 * fst d - fst v1 * snd d) with (wedge d v1) by (unfold wedge; ring).
  replace (snd v0 * fst d - fst v0 * snd d) with (wedge d v0) by (unfold wedge; ring).
  destruct H as [-> | ->]; destruct (Rlt_dec (wedge v0 v1 ^ 2) _); reflexivity.
Qed.
Lemma join_sim fuel hob c bend tol st tu ctr w : straight_corner c ->
  join fuel hob c bend tol (sim2 st) (sim2 tu) (sim ctr) (k * w) = option_map (map sim) (join fuel hob c bend tol st tu ctr w).
Proof.
  intros [-> |H]; [apply join_natural_sim|]. rewrite !join_other by (destruct H as [->|[-> _]]; tauto). cbv zeta.
  unfold sim2; cbn [fst snd]. rewrite !sim_sub.
  set (v0 := psub (snd st) (fst st)). set (v1 := psub (snd tu) (fst tu)). set (p0 := snd st). set (p1 := fst tu).
  assert (T : (wedge (lin v0) (lin v1) ^ 2 < tiny * len2 (lin v0) * len2 (lin v1)) <-> (wedge v0 v1 ^ 2 < tiny * len2 v0 * len2 v1)) by apply thresholds.
  destruct (Rlt_dec (wedge (lin v0) (lin v1) ^ 2) _) as [L|L], (Rlt_dec (wedge v0 v1 ^ 2) _) as [L'|L'].
  - cbn [fst snd]. destruct H as [-> |[-> _]]; destruct (Rle_dec 0 0); try lra; cbn [option_map map]; rewrite sim_mid; reflexivity.
  - exfalso. apply L', T, L.
  - exfalso. apply L, T, L'.
  - assert (D : wedge v0 v1 <> 0 \/ v0 = (0, 0) \/ v1 = (0, 0)).
    { destruct (Req_dec (wedge v0 v1) 0) as [E|E]; [right|now left]. destruct (degenerate v1 v0 L' E); tauto. }
    destruct H as [-> |[-> S]].
    + cbn [option_map map]. now rewrite crossing_point.
    + destruct (crossing_sign p0 v0 p1 v1 S) as [S0 S1]. rewrite (crossing_point p0 v0 p1 v1 D).
      destruct (Rle_dec (fst (fst (crossing (sim p0) (lin v0) (sim p1) (lin v1)))) 0), (Rle_dec (fst (fst (crossing p0 v0 p1 v1))) 0); try tauto; try reflexivity.
      destruct (Rle_dec 0 (snd (fst (crossing (sim p0) (lin v0) (sim p1) (lin v1))))), (Rle_dec 0 (snd (fst (crossing p0 v0 p1 v1)))); try tauto; reflexivity.
Qed.
Lemma arm_sim fuel hob c bend tol : straight_corner c -> forall ss cs ws,
  arm fuel hob c bend tol (map sim2 ss) (map sim cs) (map (Rmult k) ws) = option_map (map sim) (arm fuel hob c bend tol ss cs ws).
Proof.
  intro H. induction ss as [|x ss IH]; intros cs ws; [reflexivity|].
  destruct ss as [|y ss]; [reflexivity|]. destruct cs as [|p cs]; [reflexivity|]. destruct ws as [|w ws]; [reflexivity|].
  specialize (IH cs ws). cbn [map] in IH |- *.
  assert (U : forall x y ss p cs w ws, arm fuel hob c bend tol (x :: y :: ss) (p :: cs) (w :: ws) =
    match join fuel hob c bend tol x y p w, arm fuel hob c bend tol (y :: ss) cs ws with Some l, Some m => Some (l ++ m) | _, _ => None end) by reflexivity.
  rewrite !U, IH, join_sim by exact H. clear IH. destruct (join fuel hob c bend tol x y p w); [|reflexivity].
  destruct (arm fuel hob c bend tol (y :: ss) cs ws); [|reflexivity]. cbn [option_map]. now rewrite map_app.
Qed.

(** ** Ends *)

(** Ends of which only extended lengths scale with the path. *)
Definition straight_end (e : cap) : Prop := match e with Flush | Extended | Lengths _ _ => True | _ => False end.
(** [sd l]: unchanged, or turned round for a reflection *)
Definition sd {X} (l : list X) : list X := if Req_EM_T s 1 then l else rev l.
Lemma s_cases : s = 1 \/ s = -1.
Proof. assert ((s - 1) * (s + 1) = 0) by lra. apply Rmult_integral in H as [H|H]; [left|right]; lra. Qed.
Definition lohi (x y : pt) : pt := if Req_EM_T s 1 then x else y.
Lemma unit_dir v : smul (/ len (lin v)) (lin v) = smul (/ k) (lin (smul (/ len v) v)).
Proof.
  rewrite len_lin, lin_smul. destruct (Req_dec (len v) 0) as [E|E].
  - apply len_zero in E. rewrite E, lin0. apply pt_eq; unfold smul; cbn [fst snd]; ring.
  - apply pt_eq; unfold smul; cbn [fst snd]; field; split; lra.
Qed.
Lemma turned v : (snd (lin v), - fst (lin v)) = smul s (lin (snd v, - fst v)).
Proof.
  apply pt_eq; unfold lin, smul; cbn [fst snd].
  - replace (s * (a * snd v - s * b * - fst v)) with (s * a * snd v + s * s * (b * fst v)) by ring. rewrite Hs. ring.
  - replace (s * (b * snd v + s * a * - fst v)) with (s * b * snd v - s * s * (a * fst v)) by ring. rewrite Hs. ring.
Qed.
Lemma cap_sim fuel hob en tol front e v w lo hi blo bhi blo' bhi' : straight_end en ->
  cap_points fuel hob (scale_cap k en) tol front (sim e) (lin v) (k * w) (sim (lohi lo hi)) (sim (lohi hi lo)) blo' bhi' =
  option_map (fun l => map sim (sd l)) (cap_points fuel hob en tol front e v w lo hi blo bhi).
Proof.
  intro H.
  assert (X : forall d : R, let sg := if front then 1 else -1 in
    let v' := smul (/ len (lin v)) (lin v) in let n' := smul sg (snd v', - fst v') in let r' := / 2 * (k * w) in
    let u := smul (/ len v) v in let n := smul sg (snd u, - fst u) in let r := / 2 * w in
    [padd (sim e) (smul r' n'); padd (padd (sim e) (smul r' n')) (smul (k * d) v');
     padd (psub (sim e) (smul r' n')) (smul (k * d) v'); psub (sim e) (smul r' n')] =
    map sim (sd [padd e (smul r n); padd (padd e (smul r n)) (smul d u); padd (psub e (smul r n)) (smul d u); psub e (smul r n)])).
  { intro d. cbv zeta. rewrite unit_dir. set (u := smul (/ len v) v). set (sg := if front then 1 else -1).
    set (n := smul sg (snd u, - fst u)).
    assert (N : smul (/ 2 * (k * w)) (smul sg (snd (smul (/ k) (lin u)), - fst (smul (/ k) (lin u)))) = smul s (lin (smul (/ 2 * w) n))).
    { transitivity (smul (/ 2 * w * sg) (snd (lin u), - fst (lin u))).
      - apply pt_eq; unfold smul; cbn [fst snd]; field; lra.
      - rewrite turned. unfold n. apply pt_eq; unfold smul, lin; cbn [fst snd]; ring. }
    assert (D : smul (k * d) (smul (/ k) (lin u)) = lin (smul d u)).
    { rewrite lin_smul. apply pt_eq; unfold smul; cbn [fst snd]; field; lra. }
    rewrite N, D. set (m := smul (/ 2 * w) n). set (x := smul d u). clearbody m x. clear N D.
    unfold sd. destruct (Req_EM_T s 1) as [S1|S1].
    - rewrite S1. replace (smul 1 (lin m)) with (lin m) by (apply pt_eq; unfold smul; cbn [fst snd]; ring).
      cbn [map]. rewrite !sim_add, !sim_subv. reflexivity.
    - assert (S2 : s = -1) by (destruct s_cases; tauto).
      replace (padd (sim e) (smul s (lin m))) with (psub (sim e) (lin m)) by (rewrite S2; apply pt_eq; unfold smul, padd, psub; cbn [fst snd]; ring).
      replace (psub (sim e) (smul s (lin m))) with (padd (sim e) (lin m)) by (rewrite S2; apply pt_eq; unfold smul, padd, psub; cbn [fst snd]; ring).
      cbn [rev app map]. rewrite !sim_add, !sim_subv. reflexivity. }
  destruct en; try contradiction; cbn [scale_cap].
  - unfold cap_points, lohi, sd. cbn [option_map]. destruct (Req_EM_T s 1); reflexivity.
  - unfold cap_points. cbn [option_map]. f_equal. rewrite <- (X (/ 2 * w)). cbv zeta. replace (k * (/ 2 * w)) with (/ 2 * (k * w)) by ring. reflexivity.
  - unfold cap_points. cbn [option_map]. f_equal. destruct front; [rewrite <- (X b0)|rewrite <- (X a0)]; cbv zeta;
      [replace (b0 * k) with (k * b0) by ring|replace (a0 * k) with (k * a0) by ring]; reflexivity.
Qed.

(** ** Outlines *)

Lemma side_sim ctr ws sg : shifted (map sim ctr) (map (fun w => sg * / 2 * w) (map (Rmult k) ws)) =
  map sim2 (shifted ctr (map (fun w => s * sg * / 2 * w) ws)).
Proof.
  replace (map (fun w => sg * / 2 * w) (map (Rmult k) ws)) with (map (Rmult k) (map (fun w => sg * / 2 * w) ws))
    by (rewrite !map_map; apply map_ext; intro; ring).
  rewrite shifted_sim, map_map. do 2 f_equal. apply map_ext. intro. ring.
Qed.
Lemma hd_map {X Y} (g : X -> Y) l d : hd (g d) (map g l) = g (hd d l). Proof. destruct l; reflexivity. Qed.
Lemma tl_map {X Y} (g : X -> Y) l : tl (map g l) = map g (tl l). Proof. destruct l; reflexivity. Qed.
Lemma hd_sim2 (l : list (pt * pt)) : l <> [] -> fst (hd ((0, 0), (0, 0)) (map sim2 l)) = sim (fst (hd ((0, 0), (0, 0)) l)).
Proof. destruct l; [congruence|reflexivity]. Qed.
Lemma last_sim2 (l : list (pt * pt)) : l <> [] -> snd (last (map sim2 l) ((0, 0), (0, 0))) = sim (snd (last l ((0, 0), (0, 0)))).
Proof.
  intro H. destruct l as [|x l]; [congruence|]. clear H. revert x. induction l as [|y l IH]; intro x; [reflexivity|]. apply (IH y).
Qed.
Lemma last_sim (l : list pt) : l <> [] -> last (map sim l) (0, 0) = sim (last l (0, 0)).
Proof.
  intro H. destruct l as [|x l]; [congruence|]. clear H. revert x. induction l as [|y l IH]; intro x; [reflexivity|]. apply (IH y).
Qed.
Lemma last_scale (l : list R) : last (map (Rmult k) l) 0 = k * last l 0.
Proof. rewrite <- (last_map_eq (Rmult k)). f_equal. ring. Qed.
Lemma hd_scale (l : list R) : hd 0 (map (Rmult k) l) = k * hd 0 l.
Proof. destruct l; cbn; ring. Qed.
Lemma shifted_some p q l x y m : shifted (p :: q :: l) (x :: y :: m) <> []. Proof. discriminate. Qed.

Lemma beforelast_sim p q l : beforelast (map sim (p :: q :: l)) = sim (beforelast (p :: q :: l)).
Proof.
  unfold beforelast. rewrite removelast_firstn_len, firstn_map, map_length, <- removelast_firstn_len.
  apply last_sim. discriminate.
Qed.
(** A closed outline started elsewhere and run through backwards. *)
Definition backwards {X} (p q : list X) : Prop := exists x y, p = x ++ y /\ q = rev (y ++ x).
Definition same_path {X} (p q : list X) : Prop := if Req_EM_T s 1 then q = p else backwards p q.
Lemma outline_sim fuel hob c en bend tol pts ws os : straight_corner c -> straight_end en -> (2 <= length ws)%nat ->
  match outline fuel hob c en bend tol pts ws (map (Rmult s) os) with
  | None => outline fuel hob c (scale_cap k en) bend tol (map sim pts) (map (Rmult k) ws) (map (Rmult k) os) = None
  | Some p => exists q, same_path p q /\
      outline fuel hob c (scale_cap k en) bend tol (map sim pts) (map (Rmult k) ws) (map (Rmult k) os) = Some (map sim q)
  end.
Proof.
  intros HC HE HW. unfold outline. rewrite centre_sim. destruct (centre pts (map (Rmult s) os)) as [|p0 [|p1 l]]; try reflexivity.
  destruct ws as [|w0 [|w1 ws]]; try (cbn in HW; lia). set (ws' := w0 :: w1 :: ws). set (ctr := p0 :: p1 :: l).
  cbv zeta. change (map sim (p0 :: p1 :: l)) with (map sim ctr).
  change (map sim ctr) with (sim p0 :: sim p1 :: map sim l). cbn iota.
  change (sim p0 :: sim p1 :: map sim l) with (map sim ctr).
  rewrite !side_sim.
  assert (LO : shifted ctr (map (fun w => s * -1 * / 2 * w) ws') =
    if Req_EM_T s 1 then shifted ctr (map (fun w => -1 * / 2 * w) ws') else shifted ctr (map (fun w => 1 * / 2 * w) ws')).
  { destruct (Req_EM_T s 1) as [S1|S1]; [|assert (s = -1) as S2 by (destruct s_cases; tauto)]; f_equal; apply map_ext; intro; [rewrite S1|rewrite S2]; ring. }
  assert (HI : shifted ctr (map (fun w => s * 1 * / 2 * w) ws') =
    if Req_EM_T s 1 then shifted ctr (map (fun w => 1 * / 2 * w) ws') else shifted ctr (map (fun w => -1 * / 2 * w) ws')).
  { destruct (Req_EM_T s 1) as [S1|S1]; [|assert (s = -1) as S2 by (destruct s_cases; tauto)]; f_equal; apply map_ext; intro; [rewrite S1|rewrite S2]; ring. }
  rewrite LO, HI. set (lo := shifted ctr (map (fun w => -1 * / 2 * w) ws')). set (hi := shifted ctr (map (fun w => 1 * / 2 * w) ws')).
  assert (Nl : lo <> []) by discriminate. assert (Nh : hi <> []) by discriminate. clear LO HI. clearbody lo hi.
  rewrite !tl_map, !arm_sim by exact HC. rewrite hd_scale, last_scale, last_sim by discriminate.
  assert (BL : beforelast (map sim ctr) = sim (beforelast ctr)) by apply beforelast_sim. rewrite BL, !sim_sub. clear BL.
  pose proof (cap_sim fuel hob en tol) as CS. unfold lohi, sd in CS. unfold same_path.
  destruct (Req_EM_T s 1) as [S1|S1]; rewrite !hd_sim2, !last_sim2 by assumption.
  - destruct (arm fuel hob c bend tol lo (tl ctr) (tl ws')) as [a0|]; [|reflexivity].
    destruct (arm fuel hob c bend tol hi (tl ctr) (tl ws')) as [a1|]; [|reflexivity]. cbn [option_map].
    rewrite (CS false p0 (psub p0 p1) (hd 0 ws') (fst (hd (0, 0, (0, 0)) lo)) (fst (hd (0, 0, (0, 0)) hi)) (hd_error a0) (hd_error a1)) by exact HE.
    destruct (cap_points fuel hob en tol false _ _ _ _ _ _ _) as [c0|]; [|reflexivity]. cbn [option_map].
    rewrite (CS true (last ctr (0, 0)) (psub (last ctr (0, 0)) (beforelast ctr)) (last ws' 0) (snd (last lo (0, 0, (0, 0)))) (snd (last hi (0, 0, (0, 0)))) (hd_error (rev a0)) (hd_error (rev a1))) by exact HE.
    destruct (cap_points fuel hob en tol true _ _ _ _ _ _ _) as [c1|]; [|reflexivity]. cbn [option_map].
    eexists. split; [reflexivity|]. rewrite <- !map_rev, <- !map_app. reflexivity.
  - destruct (arm fuel hob c bend tol lo (tl ctr) (tl ws')) as [a0|];
      [|cbn [option_map]; destruct (arm fuel hob c bend tol hi (tl ctr) (tl ws')); reflexivity].
    destruct (arm fuel hob c bend tol hi (tl ctr) (tl ws')) as [a1|]; [|reflexivity]. cbn [option_map].
    rewrite (CS false p0 (psub p0 p1) (hd 0 ws') (fst (hd (0, 0, (0, 0)) lo)) (fst (hd (0, 0, (0, 0)) hi)) (hd_error a0) (hd_error a1)) by exact HE.
    destruct (cap_points fuel hob en tol false _ _ _ _ _ _ _) as [c0|]; [|reflexivity]. cbn [option_map].
    rewrite (CS true (last ctr (0, 0)) (psub (last ctr (0, 0)) (beforelast ctr)) (last ws' 0) (snd (last lo (0, 0, (0, 0)))) (snd (last hi (0, 0, (0, 0)))) (hd_error (rev a0)) (hd_error (rev a1))) by exact HE.
    destruct (cap_points fuel hob en tol true _ _ _ _ _ _ _) as [c1|]; [|reflexivity]. cbn [option_map].
    eexists. split; [exists (rev c0), (a0 ++ c1 ++ rev a1); split; reflexivity|].
    rewrite !rev_app_distr, !rev_involutive, <- !app_assoc, !map_app, !map_rev, !rev_involutive. reflexivity.
Qed.

(** Two points *)
Lemma normal_lin p q : normal (sim p) (sim q) = smul (s / k) (lin (normal p q)).
Proof. apply normal_sim. Qed.
Lemma outline2_sim fuel hob en tol p q w0 w1 o0 o1 : straight_end en ->
  match outline2 fuel hob en tol p q w0 w1 (s * o0) (s * o1) with
  | None => outline2 fuel hob (scale_cap k en) tol (sim p) (sim q) (k * w0) (k * w1) (k * o0) (k * o1) = None
  | Some l => exists m, same_path l m /\
      outline2 fuel hob (scale_cap k en) tol (sim p) (sim q) (k * w0) (k * w1) (k * o0) (k * o1) = Some (map sim m)
  end.
Proof.
  intro HE. unfold outline2. cbv zeta. rewrite !shift_sim.
  set (A := padd p (smul (s * o0) (normal p q))). set (B := padd q (smul (s * o1) (normal p q))).
  rewrite normal_sim, sim_sub, unit_dir. set (n := normal A B). set (u := smul (/ len (psub B A)) (psub B A)).
  assert (V : forall w, smul (/ 2 * (k * w)) (smul (s / k) (lin n)) = smul s (lin (smul (/ 2 * w) n))).
  { intro w. rewrite lin_smul. apply pt_eq; unfold smul; cbn [fst snd]; field; lra. }
  rewrite !V. set (v0 := smul (/ 2 * w0) n). set (v1 := smul (/ 2 * w1) n).
  assert (D : forall d, smul (k * d) (smul (/ k) (lin u)) = lin (smul d u)).
  { intro d. rewrite lin_smul. apply pt_eq; unfold smul; cbn [fst snd]; field; lra. }
  clearbody A B v0 v1 u. clear V. unfold same_path.
  assert (W : (k * w0 = k * w1) <-> (w0 = w1)). { split; [intro E; apply (Rmult_eq_reg_l k); lra|now intros ->]. }
  assert (P : forall x y, (if Req_EM_T s 1 then padd (sim x) (smul s (lin y)) = sim (padd x y) /\ psub (sim x) (smul s (lin y)) = sim (psub x y)
    else padd (sim x) (smul s (lin y)) = sim (psub x y) /\ psub (sim x) (smul s (lin y)) = sim (padd x y))).
  { intros x y. destruct (Req_EM_T s 1) as [S1|S1]; [|assert (s = -1) as S2 by (destruct s_cases; tauto)];
      rewrite sim_add, sim_subv; split; (rewrite S1 || rewrite S2); apply pt_eq; unfold smul, padd, psub; cbn [fst snd]; ring. }
  pose proof (P A v0) as PA. pose proof (P B v1) as PB. clear P.
  assert (EXT : forall l0 l1,
    match (if Req_EM_T w0 w1 then Some [psub (psub A v0) (smul l0 u); psub (padd A v0) (smul l0 u); padd (padd B v1) (smul l1 u); padd (psub B v1) (smul l1 u)]
           else Some [psub A v0; psub (psub A v0) (smul l0 u); psub (padd A v0) (smul l0 u); padd A v0; padd B v1;
                      padd (padd B v1) (smul l1 u); padd (psub B v1) (smul l1 u); psub B v1]) with
    | None => True
    | Some l => exists m, (if Req_EM_T s 1 then m = l else backwards l m) /\
      (if Req_EM_T (k * w0) (k * w1) then
        Some [psub (psub (sim A) (smul s (lin v0))) (smul (k * l0) (smul (/ k) (lin u))); psub (padd (sim A) (smul s (lin v0))) (smul (k * l0) (smul (/ k) (lin u)));
              padd (padd (sim B) (smul s (lin v1))) (smul (k * l1) (smul (/ k) (lin u))); padd (psub (sim B) (smul s (lin v1))) (smul (k * l1) (smul (/ k) (lin u)))]
       else Some [psub (sim A) (smul s (lin v0)); psub (psub (sim A) (smul s (lin v0))) (smul (k * l0) (smul (/ k) (lin u)));
                  psub (padd (sim A) (smul s (lin v0))) (smul (k * l0) (smul (/ k) (lin u))); padd (sim A) (smul s (lin v0)); padd (sim B) (smul s (lin v1));
                  padd (padd (sim B) (smul s (lin v1))) (smul (k * l1) (smul (/ k) (lin u))); padd (psub (sim B) (smul s (lin v1))) (smul (k * l1) (smul (/ k) (lin u)));
                  psub (sim B) (smul s (lin v1))]) = Some (map sim m) end).
  { intros l0 l1. rewrite !D.
    destruct (Req_EM_T s 1) as [S1|S1]; destruct PA as [-> ->], PB as [-> ->];
      destruct (Req_EM_T w0 w1) as [E|E], (Req_EM_T (k * w0) (k * w1)) as [E'|E']; try tauto;
      rewrite <- ?sim_add, <- ?sim_subv.
    - eexists. split; reflexivity.
    - eexists. split; reflexivity.
    - exists [psub (padd A v0) (smul l0 u); psub (psub A v0) (smul l0 u); padd (psub B v1) (smul l1 u); padd (padd B v1) (smul l1 u)].
      split; [|reflexivity]. exists [psub (psub A v0) (smul l0 u); psub (padd A v0) (smul l0 u)], [padd (padd B v1) (smul l1 u); padd (psub B v1) (smul l1 u)].
      split; reflexivity.
    - eexists. split; [|match goal with |- Some [?x1; ?x2; ?x3; ?x4; ?x5; ?x6; ?x7; ?x8] = _ => idtac end].
      + exists [psub A v0; psub (psub A v0) (smul l0 u); psub (padd A v0) (smul l0 u); padd A v0],
          [padd B v1; padd (padd B v1) (smul l1 u); padd (psub B v1) (smul l1 u); psub B v1]. split; reflexivity.
      + reflexivity. }
  destruct en; try contradiction; cbn [scale_cap].
  - destruct (Req_EM_T s 1) as [S1|S1]; destruct PA as [-> ->], PB as [-> ->].
    + eexists. split; reflexivity.
    + eexists. split; [exists [psub A v0; padd A v0], [padd B v1; psub B v1]; split; reflexivity|reflexivity].
  - specialize (EXT (/ 2 * w0) (/ 2 * w1)). replace (k * (/ 2 * w0)) with (/ 2 * (k * w0)) in EXT by ring.
    replace (k * (/ 2 * w1)) with (/ 2 * (k * w1)) in EXT by ring. destruct (Req_EM_T w0 w1); exact EXT.
  - specialize (EXT a0 b0). replace (k * a0) with (a0 * k) in EXT by ring.
    replace (k * b0) with (b0 * k) in EXT by ring. destruct (Req_EM_T w0 w1); exact EXT.
Qed.
End Similarity.
