(** C71: the search for the crossing point of two consecutive sections. *)

From Coq Require Import Reals Lra Lia List ZArith Bool.
From Verif Require Import Plane PlaneProofs Curve Flex FlexProofs Robust SpecRobust PropRobust RobustMove RobustExample.
Import ListNotations.
Open Scope R_scope.

(** The points of the two sides that the search arrives at are not further apart than
    those it starts from. *)
Theorem C71_search : forall n tol s t arm step u0 u1 w0 w1,
  search n tol s t arm step u0 u1 (psub (s_at s u0 arm) (s_at t u1 arm)) = (w0, w1) ->
  len2 (psub (s_at s w0 arm) (s_at t w1 arm)) <= len2 (psub (s_at s u0 arm) (s_at t u1 arm)) /\
  (0 <= u0 <= 1 -> 0 <= u1 <= 1 -> 0 <= w0 <= 1 /\ 0 <= w1 <= 1).
Proof.
  induction n as [|n IH]; intros tol s t arm step u0 u1 w0 w1 H; cbn [search] in H.
  - destruct (Rlt_dec _ _); injection H as <- <-; split; [lra|auto|lra|auto].
  - destruct (Rlt_dec _ _); [|injection H as <- <-; split; [lra|auto]].
    destruct (Rle_dec _ _).
    + exact (IH _ _ _ _ _ _ _ _ _ H).
    + destruct (IH _ _ _ _ _ _ _ _ _ H) as [A B]. split; [lra|]. intros _ _. apply B; unfold clamp, Rmin, Rmax; destruct (Rle_dec 0 _), (Rle_dec 1 _); lra.
Qed.
Print Assumptions C71_search.

Lemma grad_straight s arm p v u : 0 < s_h s -> (forall u, 0 <= u <= 1 -> s_at s u arm = padd p (smul u v)) -> 0 <= u <= 1 -> s_grad s u arm = v.
Proof.
  intros H S U. unfold s_grad, slope. rewrite !S by (unfold Rmin, Rmax; destruct (Rle_dec _ _); lra).
  assert (D : Rmin 1 (u + s_h s) - Rmax 0 (u - s_h s) <> 0) by (unfold Rmin, Rmax; destruct (Rle_dec _ _), (Rle_dec _ _); lra).
  set (a := Rmin _ _) in *. set (b := Rmax _ _) in *. clearbody a b. apply pt_eq; unfold smul, psub, padd; cbn [fst snd]; field; exact D.
Qed.
(** On straight sides it comes closer, unless it starts at the closest points, if its
    steps are short enough not to overshoot and do not leave the sections. *)
Theorem C71_search_closer : forall n tol s t arm step u0 u1 w0 w1 p v q w,
  0 < s_h s -> 0 < s_h t -> (forall u, 0 <= u <= 1 -> s_at s u arm = padd p (smul u v)) -> (forall u, 0 <= u <= 1 -> s_at t u arm = padd q (smul u w)) ->
  0 <= u0 <= 1 -> 0 <= u1 <= 1 -> (0 < n)%nat ->
  let d := psub (s_at s u0 arm) (s_at t u1 arm) in
  tol < len2 d -> dot d v <> 0 \/ dot d w <> 0 -> 0 < step -> step * (len2 v + len2 w) < 2 ->
  0 <= u0 - step * dot d v <= 1 -> 0 <= u1 + step * dot d w <= 1 ->
  search n tol s t arm step u0 u1 d = (w0, w1) ->
  len2 (psub (s_at s w0 arm) (s_at t w1 arm)) < len2 d.
Proof.
  intros n tol s t arm step u0 u1 w0 w1 p v q w HS HT S T U0 U1 N d TD NZ SP SB V0 V1 H. destruct n as [|n]; [lia|]. cbn [search] in H.
  destruct (Rlt_dec _ _); [|lra]. rewrite (grad_straight s arm p v u0 HS S U0), (grad_straight t arm q w u1 HT T U1) in H.
  assert (C : forall x, 0 <= x <= 1 -> clamp x = x) by (intros x X; unfold clamp, Rmin, Rmax; destruct (Rle_dec 0 _), (Rle_dec 1 _); lra).
  rewrite !C in H by assumption. set (x0 := u0 - step * dot d v) in *. set (x1 := u1 + step * dot d w) in *.
  assert (L : len2 (psub (s_at s x0 arm) (s_at t x1 arm)) < len2 d).
  { set (a := dot d v) in *. set (b := dot d w) in *.
    assert (E : psub (s_at s x0 arm) (s_at t x1 arm) = psub d (smul step (padd (smul a v) (smul b w)))).
    { unfold d at 1. rewrite !S, !T by (assumption || lra). unfold x0, x1. clearbody a b. apply pt_eq; unfold psub, padd, smul; cbn [fst snd]; ring. }
    rewrite E.
    assert (Q : len2 (psub d (smul step (padd (smul a v) (smul b w)))) = len2 d - 2 * step * (a ^ 2 + b ^ 2) + step ^ 2 * len2 (padd (smul a v) (smul b w))).
    { unfold a, b, len2, dot, psub, padd, smul; cbn [fst snd]; ring. }
    rewrite Q. assert (CS : len2 (padd (smul a v) (smul b w)) <= (a ^ 2 + b ^ 2) * (len2 v + len2 w)).
    { unfold len2, padd, smul. cbn [fst snd]. generalize (fst v) (snd v) (fst w) (snd w). intros v1 v2 z1 z2.
      assert (0 <= (b * v1 - a * z1) ^ 2 + (b * v2 - a * z2) ^ 2) by (apply Rplus_le_le_0_compat; apply pow2_ge_0). nra. }
    assert (AB : 0 < a ^ 2 + b ^ 2).
    { pose proof (pow2_ge_0 a). pose proof (pow2_ge_0 b). destruct NZ as [Z|Z]; assert (0 < Rsqr a \/ 0 < Rsqr b) by (left; now apply Rsqr_pos_lt) || (right; now apply Rsqr_pos_lt); unfold Rsqr in *; nra. }
    assert (ST : step ^ 2 * len2 (padd (smul a v) (smul b w)) <= step * ((a ^ 2 + b ^ 2) * (step * (len2 v + len2 w)))).
    { replace (step * ((a ^ 2 + b ^ 2) * (step * (len2 v + len2 w)))) with (step ^ 2 * ((a ^ 2 + b ^ 2) * (len2 v + len2 w))) by ring.
      apply Rmult_le_compat_l; [apply pow2_ge_0|exact CS]. }
    assert (SS : (a ^ 2 + b ^ 2) * (step * (len2 v + len2 w)) < (a ^ 2 + b ^ 2) * 2) by (apply Rmult_lt_compat_l; assumption).
    assert (step * ((a ^ 2 + b ^ 2) * (step * (len2 v + len2 w))) < step * ((a ^ 2 + b ^ 2) * 2)) by (apply Rmult_lt_compat_l; assumption). lra. }
  destruct (Rle_dec _ _) as [Z|Z]; [lra|]. apply C71_search in H as [H _]. lra.
Qed.
Print Assumptions C71_search_closer.
(** Two copies of a straight section, the second one 1 above the first, from the
    points (0, 0) and (1, 1). *)
Example C71_search_case : let s := rod_sub 0 0 in let t := rod_sub (-1) 0 in
  (forall u, 0 <= u <= 1 -> s_at s u 0 = padd (0, 0) (smul u (2, 0))) /\ (forall u, 0 <= u <= 1 -> s_at t u 0 = padd (0, 1) (smul u (2, 0))) /\
  (let d := psub (s_at s 0 0) (s_at t (/ 2) 0) in dot d (2, 0) <> 0 /\ / 5 * (len2 (2, 0) + len2 (2, 0)) < 2 /\
   0 <= 0 - / 5 * dot d (2, 0) <= 1 /\ 0 <= / 2 + / 5 * dot d (2, 0) <= 1).
Proof.
  cbv zeta. rewrite !rod_at by (try lra; tauto). split; [|split].
  - intros u U. rewrite rod_at by (try lra; tauto). apply pt_eq; unfold padd, smul; cbn [fst snd]; field.
  - intros u U. rewrite rod_at by (try lra; tauto). apply pt_eq; unfold padd, smul; cbn [fst snd]; field.
  - unfold dot, len2, psub. cbn [fst snd]. repeat split; lra.
Qed.
