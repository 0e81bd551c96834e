(** How the outline of a RobustPath follows a motion: for C37. *)

From Coq Require Import Reals Lra Lia List ZArith Bool.
From Verif Require Import Plane PlaneProofs Curve CurveProofs Hier Engine Flex SpecFlex PropFlexEnds FlexProofs FlexMove Hobby Robust SpecRobust PropRobust PropRobustJoin.
Import ListNotations.
Open Scope R_scope.

Lemma last_map_r {X Y} (g : X -> Y) l d : last (map g l) (g d) = g (last l d).
Proof. induction l as [|x [|y l] IH]; try reflexivity. exact IH. Qed.
Lemma Rlt_dec_iff {X} a b c d (x y : X) : (a < b <-> c < d) -> (if Rlt_dec a b then x else y) = (if Rlt_dec c d then x else y).
Proof. intros H. destruct (Rlt_dec a b), (Rlt_dec c d); tauto. Qed.

Section Map.
Variables (b : bool) (k t : R) (d : pt).
Hypothesis K : 0 < k.
Notation F := (rigid b k t d).
Notation L := (lin b k t).
Variable hob : pt * pt -> R * R -> pt * pt.
Hypothesis H0 : smooth_follows hob.

Lemma F_sub p q : psub (F p) (F q) = L (psub p q). Proof. apply rigid_sub. Qed.
Lemma F_add p v : F (padd p v) = padd (F p) (L v). Proof. apply rigid_add. Qed.
Lemma F_subv p v : F (psub p v) = psub (F p) (L v).
Proof. apply pt_eq; unfold lin, rigid, psub; cbn; destruct b; ring. Qed.
Lemma L_smul a v : L (smul a v) = smul a (L v). Proof. apply lin_smul. Qed.
Lemma L_len2 v : len2 (L v) = k ^ 2 * len2 v. Proof. apply lin_len2. Qed.
Lemma L_dot v w : dot (L v) (L w) = k ^ 2 * dot v w.
Proof.
  unfold dot, lin, rigid; cbn [fst snd]. transitivity (k ^ 2 * (cos t ^ 2 + sin t ^ 2) * (fst v * fst w + snd v * snd w)); [destruct b; ring|].
  rewrite cs2. ring.
Qed.
Lemma L_cross v w : cross (L v) (L w) = sg b * k ^ 2 * cross v w.
Proof.
  unfold cross, lin, rigid; cbn [fst snd]. transitivity (sg b * k ^ 2 * (cos t ^ 2 + sin t ^ 2) * (fst v * snd w - fst w * snd v)); [destruct b; cbn [sg]; ring|].
  rewrite cs2. ring.
Qed.
Lemma F_mid p q : mid (F p) (F q) = F (mid p q).
Proof. apply pt_eq; unfold mid, rigid, smul, padd; cbn; destruct b; field. Qed.
Lemma at_F s s' : moved_by F s s' -> forall u arm, s_at s' u arm = F (s_at s u arm). Proof. apply moved_at. Qed.
Lemma grad_F s s' : moved_by F s s' -> forall u arm, s_grad s' u arm = L (s_grad s u arm).
Proof. intros D u arm. unfold s_grad, slope. now rewrite (moved_h _ _ _ D), !(at_F _ _ D), F_sub, L_smul. Qed.
Lemma width_F s s' : moved_by F s s' -> forall u, s_width s' u = k * s_width s u.
Proof. intros D u. unfold s_width. rewrite !(at_F _ _ D), F_sub. now rewrite lin_len, Rabs_pos_eq by lra. Qed.
Lemma err_F s s' : moved_by F s s' -> s_err s' = s_err s. Proof. intros [-> _]. reflexivity. Qed.
Lemma evals_F s s' : moved_by F s s' -> s_evals s' = s_evals s. Proof. intros [-> _]. reflexivity. Qed.

(** ** Sampling *)

Definition UF (x : R * pt) : R * pt := (fst x, F (snd x)).
Lemma first_bad_F tol c prev next fs : k = 1 ->
  first_bad (fun u => F (c u)) tol (UF prev) (UF next) fs = option_map UF (first_bad c tol prev next fs).
Proof.
  intros K1. induction fs as [|x fs IH]; [reflexivity|]. cbn [first_bad UF fst snd].
  match goal with |- (if Rlt_dec tol (fst ?e ^ 2 + snd ?e ^ 2) then _ else _) = option_map UF (if Rlt_dec tol (fst ?e' ^ 2 + snd ?e' ^ 2) then _ else _) =>
    assert (E : e = L e') by (apply pt_eq; unfold lin, rigid, padd, psub, smul; cbn [fst snd]; destruct b; ring);
    assert (E2 : fst e ^ 2 + snd e ^ 2 = fst e' ^ 2 + snd e' ^ 2) by (rewrite E; change (len2 (L e') = len2 e'); rewrite L_len2, K1; ring)
  end.
  rewrite E2. destruct (Rlt_dec _ _); [reflexivity|exact IH].
Qed.
Lemma refine_F n : forall c tol prev rest, k = 1 ->
  refine_to n (fun u => F (c u)) tol (UF prev) (map UF rest) = map UF (refine_to n c tol prev rest).
Proof.
  induction n as [|n IH]; intros c tol prev rest K1; [reflexivity|]. cbn [refine_to].
  revert prev. induction rest as [|next more IHr]; intro prev; [reflexivity|]. cbn [map].
  rewrite (first_bad_F tol c prev next thirds K1). destruct (first_bad c tol prev next thirds) as [bad|]; cbn [option_map].
  - apply (IH c tol prev (bad :: next :: more) K1).
  - cbn [map]. f_equal. apply IHr.
Qed.
(** A straight side needs no points in between. *)
Lemma straight_points s arm : straight_side s arm -> forall u0 u1, 0 <= u0 <= 1 -> 0 <= u1 <= 1 -> s_points s u0 u1 arm = [s_at s u0 arm; s_at s u1 arm].
Proof.
  intros (_ & E & p & v & _ & S) u0 u1 U0 U1. unfold s_points. f_equal.
  assert (B : first_bad (fun u => s_at s u arm) (s_err s) (u0, s_at s u0 arm) (u1, s_at s u1 arm) thirds = None).
  { assert (G : forall fs, Forall (fun x => 0 <= x <= 1) fs -> first_bad (fun u => s_at s u arm) (s_err s) (u0, s_at s u0 arm) (u1, s_at s u1 arm) fs = None).
    { induction fs as [|x fs IH]; intro A; [reflexivity|]. inversion A; subst. cbn [first_bad fst snd].
      assert (M : 0 <= u0 * (1 - x) + u1 * x <= 1) by nra.
      match goal with |- (if Rlt_dec _ (fst ?e ^ 2 + snd ?e ^ 2) then _ else _) = _ => assert (Z : e = (0, 0)) end.
      { rewrite !S by lra. apply pt_eq; unfold padd, psub, smul; cbn [fst snd]; ring. }
      rewrite Z. cbn [fst snd]. destruct (Rlt_dec _ _); [exfalso; lra|now apply IH]. }
    apply G. repeat constructor; lra. }
  destruct (s_evals s - 2)%nat as [|n]; cbn [refine_to]; [reflexivity|]. now rewrite B.
Qed.
(** The sampled points follow if nothing is scaled or the side is straight. *)
Lemma points_F s s' arm u0 u1 : moved_by F s s' -> (k = 1 \/ straight_side s arm /\ 0 <= u0 <= 1 /\ 0 <= u1 <= 1) ->
  s_points s' u0 u1 arm = map F (s_points s u0 u1 arm).
Proof.
  intros D [K1|(S & R1 & R2)].
  - unfold s_points. cbn [map]. rewrite (at_F _ _ D). f_equal. rewrite (err_F _ _ D), (evals_F _ _ D).
    assert (X : forall n c c' tol prev rest, (forall u, c u = c' u) -> refine_to n c tol prev rest = refine_to n c' tol prev rest).
    { clear. intros n c c' tol prev rest E. revert prev rest. induction n as [|n IH]; intros prev rest; [reflexivity|]. cbn [refine_to].
      revert prev. induction rest as [|next more IHr]; intro prev; [reflexivity|].
      assert (B : forall fs, first_bad c tol prev next fs = first_bad c' tol prev next fs).
      { induction fs as [|x fs IHf]; [reflexivity|]. cbn [first_bad]. rewrite !E. destruct (Rlt_dec _ _); [reflexivity|exact IHf]. }
      rewrite B. destruct (first_bad c' tol prev next thirds); [apply IH|]. f_equal. apply IHr. }
    rewrite (X _ _ (fun u => F (s_at s u arm))) by (intro; apply (at_F _ _ D)).
    change (u0, F (s_at s u0 arm)) with (UF (u0, s_at s u0 arm)). rewrite (at_F _ _ D). change [(u1, F (s_at s u1 arm))] with (map UF [(u1, s_at s u1 arm)]).
    rewrite refine_F by exact K1. rewrite !map_map. apply map_ext. reflexivity.
  - rewrite (straight_points s arm S) by assumption. rewrite (straight_points s' arm); try assumption.
    + cbn [map]. now rewrite !(at_F _ _ D).
    + destruct S as (H & E & p & v & N & S). rewrite <- (moved_h _ _ _ D), <- (err_F _ _ D) in *. split; [exact H|]. split; [exact E|].
      exists (F p), (L v). split; [now apply lin_zero|]. intros u U. rewrite (at_F _ _ D), S, F_add, L_smul by assumption. reflexivity.
Qed.

(** ** Joints *)

Lemma search_F tol s s' e e' arm : k = 1 -> moved_by F s s' -> moved_by F e e' -> forall n step u0 u1 delta,
  search n tol s' e' arm step u0 u1 (L delta) = search n tol s e arm step u0 u1 delta.
Proof.
  intros K1 D E. assert (Q : forall v, len2 (L v) = len2 v) by (intro; rewrite L_len2, K1; ring).
  assert (P : forall v w, dot (L v) (L w) = dot v w) by (intros; rewrite L_dot, K1; ring).
  induction n as [|n IH]; intros step u0 u1 delta; cbn [search]; rewrite Q; [reflexivity|].
  destruct (Rlt_dec tol (len2 delta)); [|reflexivity]. rewrite (grad_F _ _ D), (grad_F _ _ E), !P.
  rewrite (at_F _ _ D), (at_F _ _ E), F_sub, Q. destruct (Rle_dec _ _); apply IH.
Qed.
Definition F3 (x : R * R * pt) : R * R * pt := (fst x, F (snd x)).
(** The first guess *)
Definition guess (tol : R) (s e : sub) (arm : Z) : R * R * pt :=
  let p0 := s_at s 1 arm in let v0 := s_grad s 1 arm in
  let p1 := s_at e 0 arm in let v1 := s_grad e 0 arm in
  let den := snd v1 * fst v0 - fst v1 * snd v0 in
  let d := psub p1 p0 in
  if (if Rlt_dec (den ^ 2) (tiny * len2 v0 * len2 v1) then true else if Rle_dec (len2 d) tol then true else false)
  then (0, 0, mid p0 p1)
  else
    let u0 := (snd v1 * fst d - fst v1 * snd d) / den in
    let u1 := (snd v0 * fst d - fst v0 * snd d) / den in
    (u0, u1, smul (/ 2) (padd (padd p0 (smul u0 v0)) (padd p1 (smul u1 v1)))).
Lemma sg2 (x : bool) : sg x ^ 2 = 1. Proof. destruct x; cbn [sg]; ring. Qed.
Lemma sg0 (x : bool) : sg x <> 0. Proof. destruct x; cbn [sg]; lra. Qed.
Lemma ratio_F x y : sg b * k ^ 2 * x / (sg b * k ^ 2 * y) = x / y \/ y = 0.
Proof.
  destruct (Req_dec y 0) as [Z|N]; [now right|left]. field. repeat split; try assumption; try apply sg0; lra.
Qed.
Lemma guess_F tol s s' e e' arm : moved_by F s s' -> moved_by F e e' ->
  (k = 1 /\ (b = false \/ s_grad s 1 arm <> (0, 0) /\ s_grad e 0 arm <> (0, 0)) \/
   s_at s 1 arm = s_at e 0 arm /\ 0 <= tol \/ cross (s_grad s 1 arm) (s_grad e 0 arm) ^ 2 < tiny * len2 (s_grad s 1 arm) * len2 (s_grad e 0 arm) \/
   cross (s_grad s 1 arm) (s_grad e 0 arm) <> 0 /\ tol < len2 (psub (s_at e 0 arm) (s_at s 1 arm)) /\ tol < k ^ 2 * len2 (psub (s_at e 0 arm) (s_at s 1 arm))) ->
  guess tol s' e' arm = F3 (guess tol s e arm).
Proof.
  intros D E C. unfold guess. cbv zeta. rewrite (at_F _ _ D), (at_F _ _ E), (grad_F _ _ D), (grad_F _ _ E), F_sub, !L_len2.
  set (p0 := s_at s 1 arm) in *. set (p1 := s_at e 0 arm) in *. set (v0 := s_grad s 1 arm) in *. set (v1 := s_grad e 0 arm) in *.
  assert (X : forall a c, snd c * fst a - fst c * snd a = cross a c) by (intros; unfold cross; ring).
  rewrite !X. rewrite !L_cross. clearbody p0 p1 v0 v1. set (dd := psub p1 p0) in *.
  assert (KK : 0 < k ^ 2) by (apply pow_lt; lra). assert (KK2 : 0 < (k ^ 2) ^ 2) by (apply pow_lt; lra).
  assert (P : (sg b * k ^ 2 * cross v0 v1) ^ 2 = (k ^ 2) ^ 2 * cross v0 v1 ^ 2).
  { replace ((sg b * k ^ 2 * cross v0 v1) ^ 2) with (sg b ^ 2 * ((k ^ 2) ^ 2 * cross v0 v1 ^ 2)) by ring. rewrite sg2. ring. }
  rewrite P. replace (tiny * (k ^ 2 * len2 v0) * (k ^ 2 * len2 v1)) with ((k ^ 2) ^ 2 * (tiny * len2 v0 * len2 v1)) by ring.
  destruct (Rlt_dec (cross v0 v1 ^ 2) (tiny * len2 v0 * len2 v1)) as [PAR|NP].
  { destruct (Rlt_dec ((k ^ 2) ^ 2 * cross v0 v1 ^ 2) _) as [_|N]; [|exfalso; apply N; now apply Rmult_lt_compat_l]. unfold F3. cbn [fst snd]. now rewrite F_mid. }
  destruct (Rlt_dec ((k ^ 2) ^ 2 * cross v0 v1 ^ 2) _) as [Y|_]; [exfalso; apply Rmult_lt_reg_l in Y; tauto|].
  destruct (Rle_dec (len2 dd) tol) as [CL|FAR].
  { destruct (Rle_dec (k ^ 2 * len2 dd) tol) as [_|N]; [unfold F3; cbn [fst snd]; now rewrite F_mid|exfalso; apply N].
    destruct C as [[-> _]|[[Q T]|[C|(_ & C & _)]]]; [lra| |tauto|lra].
    unfold dd. rewrite Q. replace (len2 (psub p1 p1)) with 0 by (unfold len2, psub; cbn; ring). lra. }
  destruct (Rle_dec (k ^ 2 * len2 dd) tol) as [Y|_].
  { exfalso. destruct C as [[-> _]|[[Q T]|[C|(_ & _ & C)]]]; [lra| |tauto|lra].
    apply FAR. unfold dd. rewrite Q. replace (len2 (psub p1 p1)) with 0 by (unfold len2, psub; cbn; ring). lra. }
  unfold F3. cbn [fst snd].
  assert (A : sg b * k ^ 2 * cross dd v1 / (sg b * k ^ 2 * cross v0 v1) = cross dd v1 / cross v0 v1 /\
              sg b * k ^ 2 * cross dd v0 / (sg b * k ^ 2 * cross v0 v1) = cross dd v0 / cross v0 v1).
  { destruct (Req_dec (cross v0 v1) 0) as [Z|N].
    - destruct C as [[-> C]|[[Q T]|[C|(C & _)]]]; [|exfalso; apply FAR; unfold dd; rewrite Q; replace (len2 (psub p1 p1)) with 0 by (unfold len2, psub; cbn; ring); lra|tauto|tauto].
      destruct C as [BF|[N0 N1]]; [rewrite BF; cbn [sg]; replace (1 * 1 ^ 2) with 1 by ring; rewrite !Rmult_1_l; split; reflexivity|].
      exfalso. apply NP. rewrite Z. assert (0 < tiny) by (unfold tiny; apply Rinv_0_lt_compat, pow_lt; lra). rewrite pow_i by lia.
      apply Rmult_lt_0_compat; [apply Rmult_lt_0_compat; [assumption|now apply len2_pos]|now apply len2_pos].
    - split; field; repeat split; auto using sg0; lra. }
  destruct A as [-> ->]. f_equal.
  rewrite <- !L_smul, <- !F_add. exact (F_mid _ _).
Qed.

Lemma straight_grad s arm u : straight_side s arm -> u = 0 \/ u = 1 ->
  s_grad s u arm = psub (s_at s 1 arm) (s_at s 0 arm) /\ s_grad s u arm <> (0, 0) /\
  forall x, 0 <= x <= 1 -> s_at s x arm = padd (s_at s 0 arm) (smul x (s_grad s u arm)) /\ s_at s x arm = padd (s_at s 1 arm) (smul (x - 1) (s_grad s u arm)).
Proof.
  intros (H & _ & p & v & N & S) U.
  assert (G : s_grad s u arm = v).
  { unfold s_grad, slope. cbv zeta beta.
    assert (A : 0 <= Rmax 0 (u - s_h s) <= 1) by (split; [apply Rmax_l|apply Rmax_lub; destruct U; lra]).
    assert (B : 0 <= Rmin 1 (u + s_h s) <= 1) by (split; [apply Rmin_glb; destruct U; lra|apply Rmin_l]).
    assert (C : Rmax 0 (u - s_h s) < Rmin 1 (u + s_h s)).
    { apply Rmin_glb_lt; apply Rmax_lub_lt; destruct U; lra. }
    rewrite !S by assumption. apply pt_eq; unfold smul, psub, padd; cbn [fst snd]; field; lra. }
  rewrite G. rewrite !(S 1), !(S 0) by lra. split; [apply pt_eq; unfold smul, psub, padd; cbn [fst snd]; ring|]. split; [exact N|].
  intros x X. rewrite S by exact X. split; apply pt_eq; unfold smul, padd; cbn [fst snd]; ring.
Qed.
Lemma crossing_guess tol ev s e arm : crossing tol ev s e arm =
  let '(u0, u1, px) := guess tol s e arm in
  if (if Rlt_dec (1 + u0) 1 then if Rlt_dec 0 u1 then true else false else false) then
    let '(w0, w1) := search ev tol s e arm (/ 2) (1 + u0) u1 (psub (s_at s (1 + u0) arm) (s_at e u1 arm)) in
    (w0, w1, mid (s_at s w0 arm) (s_at e w1 arm))
  else (1 + u0, u1, px).
Proof. reflexivity. Qed.
(** What a guess is on straight sides *)
Lemma guess_straight tau s e arm : straight_side s arm -> straight_side e arm -> fair_joint k tau arm s e ->
  exists u0 u1 px, guess (tau ^ 2) s e arm = (u0, u1, px) /\ -1 <= u0 /\ u1 <= 1 /\
    (u0 = 0 /\ u1 = 0 \/ padd (s_at s 1 arm) (smul u0 (s_grad s 1 arm)) = padd (s_at e 0 arm) (smul u1 (s_grad e 0 arm))).
Proof.
  intros S E J. destruct (straight_grad s arm 1 S (or_intror eq_refl)) as (G0 & N0 & _). destruct (straight_grad e arm 0 E (or_introl eq_refl)) as (G1 & N1 & _).
  unfold fair_joint in J. cbv zeta in J. rewrite <- G0, <- G1 in J. unfold guess. cbv zeta.
  set (p0 := s_at s 1 arm) in *. set (p1 := s_at e 0 arm) in *. set (v0 := s_grad s 1 arm) in *. set (v1 := s_grad e 0 arm) in *. clearbody p0 p1 v0 v1. clear G0 G1.
  assert (X : snd v1 * fst v0 - fst v1 * snd v0 = cross v0 v1) by (unfold cross; ring). rewrite X.
  destruct (Rlt_dec (cross v0 v1 ^ 2) (tiny * len2 v0 * len2 v1)) as [PAR|NP]; [exists 0, 0, (mid p0 p1); repeat split; try lra; now left|].
  destruct (Rle_dec (len2 (psub p1 p0)) (tau ^ 2)) as [CL|FAR]; [exists 0, 0, (mid p0 p1); repeat split; try lra; now left|].
  destruct J as [J|[J|(_ & _ & J)]]; [|tauto|].
  { exfalso. apply FAR. rewrite J. replace (len2 (psub p1 p1)) with 0 by (unfold len2, psub; cbn; ring). apply pow2_ge_0. }
  assert (C0 : cross v0 v1 <> 0).
  { intro Z. apply NP. rewrite Z. assert (0 < tiny) by (unfold tiny; apply Rinv_0_lt_compat, pow_lt; lra). rewrite pow_i by lia.
    apply Rmult_lt_0_compat; [apply Rmult_lt_0_compat; [assumption|now apply len2_pos]|now apply len2_pos]. }
  assert (M : padd p0 (smul ((snd v1 * fst (psub p1 p0) - fst v1 * snd (psub p1 p0)) / cross v0 v1) v0) =
              padd p1 (smul ((snd v0 * fst (psub p1 p0) - fst v0 * snd (psub p1 p0)) / cross v0 v1) v1)).
  { apply pt_eq; unfold padd, smul, psub; cbn [fst snd]; unfold cross in *; field; exact C0. }
  destruct (J _ _ M) as [J0 J1]. do 3 eexists. split; [reflexivity|]. split; [exact J0|]. split; [exact J1|]. now right.
Qed.
Lemma crossing_F tau ev s s' e e' arm : moved_by F s s' -> moved_by F e e' ->
  (k = 1 /\ (b = false \/ s_grad s 1 arm <> (0, 0) /\ s_grad e 0 arm <> (0, 0)) \/
   straight_side s arm /\ straight_side e arm /\ fair_joint k tau arm s e) ->
  crossing (tau ^ 2) ev s' e' arm = F3 (crossing (tau ^ 2) ev s e arm).
Proof.
  intros D E C. rewrite !crossing_guess.
  assert (G : guess (tau ^ 2) s' e' arm = F3 (guess (tau ^ 2) s e arm)).
  { apply guess_F; auto. destruct C as [C|(S & T & J)]; [now left|right].
    destruct (straight_grad s arm 1 S (or_intror eq_refl)) as (G0 & N0 & _). destruct (straight_grad e arm 0 T (or_introl eq_refl)) as (G1 & N1 & _).
    unfold fair_joint in J. cbv zeta in J. rewrite <- G0, <- G1 in J. destruct J as [J|[J|(J1 & J2 & _)]].
    - left. split; [exact J|apply pow2_ge_0].
    - right. now left.
    - right. destruct (Req_dec (cross (s_grad s 1 arm) (s_grad e 0 arm)) 0) as [Z|NZ]; [left|right; auto].
      rewrite Z. assert (0 < tiny) by (unfold tiny; apply Rinv_0_lt_compat, pow_lt; lra). rewrite pow_i by lia.
      apply Rmult_lt_0_compat; [apply Rmult_lt_0_compat; [assumption|now apply len2_pos]|now apply len2_pos]. }
  rewrite G. destruct C as [[K1 _]|(S & T & J)].
  - destruct (guess (tau ^ 2) s e arm) as [[u0 u1] px]. cbn [F3 fst snd].
    destruct (if Rlt_dec (1 + u0) 1 then _ else _); [|reflexivity].
    rewrite (at_F _ _ D (1 + u0)), (at_F _ _ E u1), F_sub. rewrite (search_F _ s s' e e' arm K1 D E).
    destruct (search _ _ _ _ _ _ _ _ _) as [w0 w1]. unfold F3. cbn [fst snd]. now rewrite (at_F _ _ D), (at_F _ _ E), F_mid.
  - destruct (guess_straight tau s e arm S T J) as (u0 & u1 & px & GE & L0 & L1 & M). rewrite GE. unfold F3 at 1. cbn [fst snd].
    destruct (Rlt_dec (1 + u0) 1) as [A|A]; [|reflexivity]. destruct (Rlt_dec 0 u1) as [B|B]; [|reflexivity].
    destruct M as [[M0 _]|M]; [lra|].
    destruct (straight_grad s arm 1 S (or_intror eq_refl)) as (_ & _ & SA). destruct (straight_grad e arm 0 T (or_introl eq_refl)) as (_ & _ & TA).
    assert (Z : s_at s (1 + u0) arm = s_at e u1 arm).
    { rewrite (proj2 (SA (1 + u0) ltac:(lra))), (proj1 (TA u1 ltac:(lra))). replace (1 + u0 - 1) with u0 by ring. exact M. }
    assert (ZZ : forall n x x' p, search n (tau ^ 2) x x' arm (/ 2) (1 + u0) u1 (psub p p) = (1 + u0, u1)).
    { intros n x x' p. assert (Q : len2 (psub p p) = 0) by (unfold len2, psub; cbn; ring). pose proof (pow2_ge_0 tau).
      destruct n; cbn [search]; rewrite Q; (destruct (Rlt_dec (tau ^ 2) 0); [lra|reflexivity]). }
    rewrite (at_F _ _ D (1 + u0)), (at_F _ _ E u1), Z, !ZZ. unfold F3. cbn [fst snd]. now rewrite (at_F _ _ D), (at_F _ _ E), F_mid.
Qed.
Lemma crossing_range tau ev s e arm : straight_side s arm -> straight_side e arm -> fair_joint k tau arm s e ->
  0 <= fst (fst (crossing (tau ^ 2) ev s e arm)) /\ snd (fst (crossing (tau ^ 2) ev s e arm)) <= 1.
Proof.
  intros S T J. rewrite crossing_guess. destruct (guess_straight tau s e arm S T J) as (u0 & u1 & px & GE & L0 & L1 & M). rewrite GE.
  destruct (Rlt_dec (1 + u0) 1) as [A|A]; [|cbn; lra]. destruct (Rlt_dec 0 u1) as [B|B]; [|cbn; lra].
  destruct M as [[M0 _]|M]; [lra|].
  destruct (straight_grad s arm 1 S (or_intror eq_refl)) as (_ & _ & SA). destruct (straight_grad e arm 0 T (or_introl eq_refl)) as (_ & _ & TA).
  assert (Z : s_at s (1 + u0) arm = s_at e u1 arm).
  { rewrite (proj2 (SA (1 + u0) ltac:(lra))), (proj1 (TA u1 ltac:(lra))). replace (1 + u0 - 1) with u0 by ring. exact M. }
  assert (ZZ : forall n p, search n (tau ^ 2) s e arm (/ 2) (1 + u0) u1 (psub p p) = (1 + u0, u1)).
  { intros n p. assert (Q : len2 (psub p p) = 0) by (unfold len2, psub; cbn; ring). pose proof (pow2_ge_0 tau).
    destruct n; cbn [search]; rewrite Q; (destruct (Rlt_dec (tau ^ 2) 0); [lra|reflexivity]). }
  rewrite Z, ZZ. cbn. lra.
Qed.

(** ** Sides *)

Definition side_ok (tau : R) (arm : Z) (path : list sub) : Prop :=
  k = 1 /\ (b = true -> forall s, In s path -> moving s 0 /\ moving s 1) \/
  (forall s, In s path -> straight_side s arm) /\ fair_joints k tau arm path.
Lemma map_removelast {X Y} (g : X -> Y) l : removelast (map g l) = map g (removelast l).
Proof. induction l as [|x [|y l] IH]; try reflexivity. cbn [map removelast] in *. now rewrite IH. Qed.
Lemma side_F tau ev arm : arm = (-1)%Z \/ arm = 1%Z -> forall path path', Forall2 (moved_by F) path path' -> forall start,
  side_ok tau arm path -> (k = 1 \/ 0 <= start <= 1) -> side (tau ^ 2) ev arm start path' = option_map (map F) (side (tau ^ 2) ev arm start path).
Proof.
  intros AR path path' P. induction P as [|s s' path path' D P IH]; intros start OK ST; [reflexivity|]. cbn [side].
  destruct P as [|e e' rest rest' E P].
  - cbn [option_map]. f_equal. apply points_F; [exact D|]. destruct OK as [[K1 _]|[S _]]; [now left|]. destruct ST as [K1|ST]; [now left|right].
    split; [apply S; now left|lra].
  - assert (CF : crossing (tau ^ 2) ev s' e' arm = F3 (crossing (tau ^ 2) ev s e arm)).
    { apply crossing_F; auto. destruct OK as [[K1 M]|[S [J _]]].
      - left. split; [exact K1|]. destruct b; [right|now left]. destruct (M eq_refl s (or_introl eq_refl)) as [_ M1]. destruct (M eq_refl e (or_intror (or_introl eq_refl))) as [M2 _].
        split; [apply M1|apply M2]; destruct AR; auto.
      - right. split; [apply S; now left|]. split; [apply S; right; now left|exact J]. }
    assert (CR : k = 1 \/ 0 <= fst (fst (crossing (tau ^ 2) ev s e arm)) /\ snd (fst (crossing (tau ^ 2) ev s e arm)) <= 1).
    { destruct OK as [[K1 _]|[S [J _]]]; [now left|right]. apply crossing_range; [apply S; now left|apply S; right; now left|exact J]. }
    rewrite CF. destruct (crossing (tau ^ 2) ev s e arm) as [[u0 u1] px]. unfold F3. cbn [fst snd] in *.
    assert (PF : forall x, (k = 1 \/ 0 <= x <= 1) -> s_points s' start x arm = map F (s_points s start x arm)).
    { intros x X. apply points_F; [exact D|]. destruct OK as [[K1 _]|[S _]]; [now left|]. destruct ST as [K1|ST]; [now left|]. destruct X as [K1|X]; [now left|right].
      split; [apply S; now left|]. auto. }
    assert (OK' : side_ok tau arm (e :: rest)).
    { destruct OK as [[K1 M]|[S J]].
      { left. split; [exact K1|]. intros B x I. apply M; [exact B|now right]. }
      right.
      split; [intros x I; apply S; now right|exact (proj2 J)]. }
    destruct (Rle_dec 0 u1) as [U1|U1].
    + rewrite IH by (try exact OK'; (destruct CR as [|CR]; [now left|right; lra])).
      destruct (side (tau ^ 2) ev arm u1 (e :: rest)) as [l|]; [|reflexivity]. cbn [option_map]. f_equal.
      destruct (Rle_dec u0 1) as [U0|U0].
      * rewrite PF by (destruct CR as [|CR]; [now left|right; lra]). now rewrite map_removelast, map_app.
      * rewrite PF by (right; lra). now rewrite map_app.
    + rewrite IH by (try exact OK'; right; lra).
      destruct (side (tau ^ 2) ev arm 0 (e :: rest)) as [l|]; [|reflexivity]. cbn [option_map]. f_equal.
      destruct (Rle_dec u0 1) as [U0|U0].
      * rewrite PF by (destruct CR as [|CR]; [now left|right; lra]). now rewrite map_app.
      * rewrite PF by (right; lra). now rewrite !map_app.
Qed.

(** ** Ends *)

Lemma halve_F n : forall c tol prev rest, k = 1 ->
  halve_to n (fun u => F (c u)) tol (UF prev) (map UF rest) = map UF (halve_to n c tol prev rest).
Proof.
  induction n as [|n IH]; intros c tol prev rest K1; [reflexivity|]. cbn [halve_to].
  revert prev. induction rest as [|next more IHr]; intro prev; [reflexivity|]. cbn [map UF fst snd].
  match goal with |- (if Rlt_dec tol (fst ?e ^ 2 + snd ?e ^ 2) then _ else _) = map UF (if Rlt_dec tol (fst ?e' ^ 2 + snd ?e' ^ 2) then _ else _) =>
    assert (E : e = L e') by (apply pt_eq; unfold lin, rigid, padd, psub, smul; cbn [fst snd]; destruct b; field);
    assert (E2 : fst e ^ 2 + snd e ^ 2 = fst e' ^ 2 + snd e' ^ 2) by (rewrite E; change (len2 (L e') = len2 e'); rewrite L_len2, K1; ring)
  end.
  rewrite E2. destruct (Rlt_dec _ _).
  - set (u := / 2 * (fst prev + fst next)). change ((u, F (c u)) :: (fst next, F (snd next)) :: map UF more) with (map UF ((u, c u) :: next :: more)).
    apply (IH c tol prev ((u, c u) :: next :: more) K1).
  - cbn [map]. f_equal. apply IHr.
Qed.
Lemma halve_ext n : forall c c' tol prev rest, (forall u, c u = c' u) -> halve_to n c tol prev rest = halve_to n c' tol prev rest.
Proof.
  induction n as [|n IH]; intros c c' tol prev rest E; [reflexivity|]. cbn [halve_to].
  revert prev. induction rest as [|next more IHr]; intro prev; [reflexivity|].
  rewrite !E. destruct (Rlt_dec _ _); [now apply IH|]. f_equal. apply IHr.
Qed.
Lemma F_bezier l u : l <> [] -> bezier (map F l) u = F (bezier l u).
Proof. intro N. apply bezier_map; [exact N|]. intros p q. apply pt_eq; unfold rigid, padd, smul; cbn [fst snd]; destruct b; ring. Qed.
Lemma unit_F v : smul (/ len (L v)) (L v) = lin b 1 t (smul (/ len v) v).
Proof.
  rewrite lin_len, Rabs_pos_eq by lra. destruct (Req_dec (len2 v) 0) as [Z|N].
  - apply len2_zero in Z. subst v. apply pt_eq; unfold lin, rigid, smul; cbn [fst snd]; destruct b; ring.
  - assert (P : 0 < len v). { apply len_pos. intros ->. apply N. unfold len2. cbn. ring. }
    apply pt_eq; unfold lin, rigid, smul; cbn [fst snd]; destruct b; field; lra.
Qed.
Lemma sgn_pm arm : arm = (-1)%Z \/ arm = 1%Z -> sgn arm = -1 \/ sgn arm = 1.
Proof. intros [-> | ->]; unfold sgn; [left|right]; reflexivity. Qed.
Lemma smul_zero a v : a <> 0 -> v <> (0, 0) -> smul a v <> (0, 0).
Proof.
  intros A N E. apply N. pose proof (f_equal fst E) as E1. pose proof (f_equal snd E) as E2. unfold smul in E1, E2. cbn [fst snd] in E1, E2.
  apply pt_eq; cbn [fst snd]; [apply Rmult_integral in E1|apply Rmult_integral in E2]; tauto.
Qed.
Lemma circle_F r x v : b = false -> k = 1 -> v <> (0, 0) -> on_circle r (x + along (L v)) = L (on_circle r (x + along v)).
Proof.
  intros B K1 N. assert (N' : L v <> (0, 0)) by now apply lin_zero.
  assert (A : forall w : pt, w <> (0, 0) -> cos (along w) = fst w / len w /\ sin (along w) = snd w / len w).
  { intros w W. unfold along. apply cos_atan2. destruct w; exact W. }
  destruct (A v N) as [C S]. destruct (A (L v) N') as [C' S']. pose proof (len_pos v N) as LP.
  unfold on_circle. rewrite !cos_plus, !sin_plus, C, S, C', S', lin_len, Rabs_pos_eq by lra. rewrite K1, B.
  apply pt_eq; unfold lin, rigid; cbn [fst snd]; field; lra.
Qed.
Definition end_ok (en : cap) (s : sub) (u : R) : Prop :=
  match en with
  | Flush | CustomCap _ => True
  | Extended => b = false
  | Lengths _ _ => b = false /\ k = 1
  | RoundCap | SmoothCap => b = false /\ k = 1 /\ moving s u
  end.
Lemma ext_F s s' u x v : b = false -> moved_by F s s' -> 
  let p := s_at s u 0 in
  let w := smul (/ len v) v in let n := (snd w, - fst w) in
  let w' := smul (/ len (L v)) (L v) in let n' := (snd w', - fst w') in
  [padd (padd (s_at s' u 0) (smul (k * x) w')) (smul (/ 2 * s_width s' u) n'); psub (padd (s_at s' u 0) (smul (k * x) w')) (smul (/ 2 * s_width s' u) n')] =
  map F [padd (padd p (smul x w)) (smul (/ 2 * s_width s u) n); psub (padd p (smul x w)) (smul (/ 2 * s_width s u) n)].
Proof.
  intros B D p w n w' n'. unfold n', w', n. rewrite unit_F. fold w. rewrite (at_F _ _ D), (width_F _ _ D). fold p. clearbody p w. clear n w' n'.
  cbn [map]. f_equal; [|f_equal]; apply pt_eq; unfold lin, rigid, padd, psub, smul; cbn [fst snd]; rewrite B; ring.
Qed.
Lemma cap_F en tol ev s s' u arm : arm = (-1)%Z \/ arm = 1%Z -> moved_by F s s' -> end_ok en s u ->
  end_cap hob en tol ev s' u arm = option_map (map F) (end_cap hob en tol ev s u arm).
Proof.
  intros AR D OK. assert (SN : sgn arm <> 0) by (destruct (sgn_pm arm AR) as [-> | ->]; lra).
  assert (SN' : - sgn arm <> 0) by lra.
  unfold end_cap. cbv zeta. rewrite !(grad_F _ _ D), <- !(L_smul (- sgn arm)), <- !(L_smul (sgn arm)). destruct en as [| |x y| | |g]; cbn [end_ok] in OK; try reflexivity.
  - cbn [option_map]. f_equal. pose proof (ext_F s s' u (/ 2 * s_width s u) (smul (- sgn arm) (s_grad s u 0)) OK D) as X. cbv zeta in X. rewrite <- X.
    rewrite (width_F _ _ D). now replace (k * (/ 2 * s_width s u)) with (/ 2 * (k * s_width s u)) by ring.
  - destruct OK as [B K1]. cbn [option_map]. f_equal.
    pose proof (ext_F s s' u (if Req_EM_T u 0 then x else y) (smul (- sgn arm) (s_grad s u 0)) B D) as X. cbv zeta in X. rewrite <- X.
    rewrite K1, Rmult_1_l. reflexivity.
  - destruct OK as (B & K1 & M). rewrite (width_F _ _ D). replace (k * s_width s u) with (s_width s u) by (rewrite K1; ring).
    destruct (arc_count _ _ _ _) as [np|]; [|reflexivity]. cbn [option_map]. f_equal. rewrite map_map. apply map_ext. intro x.
    rewrite circle_F; auto; [|apply smul_zero; [exact SN'|apply M; auto]]. now rewrite (at_F _ _ D), F_add.
  - destruct OK as (B & K1 & M). cbn [option_map]. f_equal. rewrite !(at_F _ _ D).
    set (a := s_at s u (- arm)). set (e := s_at s u arm). set (v := smul (- sgn arm) (s_grad s u (- arm))). set (w := smul (sgn arm) (s_grad s u arm)).
    assert (Nv : v <> (0, 0)) by (apply smul_zero; [exact SN'|apply M; destruct AR as [-> | ->]; cbn; auto]).
    assert (Nw : w <> (0, 0)) by (apply smul_zero; [exact SN|apply M; destruct AR as [-> | ->]; cbn; auto]).
    clearbody a e v w. pose proof (H0 t d a e v w Nv Nw) as HH. cbv zeta in HH.
    assert (E1 : forall p, F p = rigid false 1 t d p) by (intro; now rewrite K1, B).
    assert (E2 : forall p, L p = rigid false 1 t (0, 0) p) by (intro; unfold lin; now rewrite K1, B).
    rewrite <- !E1, <- !E2 in HH. rewrite HH. cbn [fst snd]. set (h := hob (a, e) (along v, along w)). clearbody h.
    set (f := bezier [a; fst h; snd h; e]).
    assert (BF : forall x, bezier [F a; F (fst h); F (snd h); F e] x = F (f x)) by (intro x; apply (F_bezier [a; fst h; snd h; e] x); discriminate).
    rewrite (halve_ext _ _ (fun x => F (f x))) by exact BF. rewrite !BF.
    change (0, F (f 0)) with (UF (0, f 0)). change [(1, F (f 1))] with (map UF [(1, f 1)]). rewrite halve_F by exact K1.
    rewrite map_removelast, !map_map. reflexivity.
Qed.

(** ** The outline *)

Lemma last_moved path path' s s' : Forall2 (moved_by F) path path' -> moved_by F s s' -> moved_by F (last path s) (last path' s').
Proof. intros P D. induction P as [|x y l l' X P IH]; [exact D|]. destruct P; [exact X|exact IH]. Qed.
Lemma outline_F en tol ev path path' : Forall2 (moved_by F) path path' -> cap_follows b k en path ->
  (b = true -> forall s, In s path -> moving s 0 /\ moving s 1) -> (k = 1 \/ straight_robust k tol path) ->
  r_outline hob en tol ev path' = option_map (map F) (r_outline hob en tol ev path).
Proof.
  intros P C M S. unfold r_outline. destruct P as [|s s' path path' D P]; [reflexivity|].
  assert (P' : Forall2 (moved_by F) (s :: path) (s' :: path')) by now constructor.
  assert (O : forall arm, arm = (-1)%Z \/ arm = 1%Z -> side_ok tol arm (s :: path)).
  { intros arm AR. destruct S as [K1|S]; [left; auto|right]. now apply S. }
  rewrite (cap_F en tol ev _ _ 1 (-1) (or_introl eq_refl) (last_moved _ _ _ _ P' D)).
  2:{ destruct en; cbn [cap_follows end_ok] in *; try tauto. }
  rewrite (cap_F en tol ev _ _ 0 1 (or_intror eq_refl) D).
  2:{ destruct en; cbn [cap_follows end_ok] in *; try tauto. }
  rewrite (side_F tol ev (-1) (or_introl eq_refl) _ _ P' 0 (O _ (or_introl eq_refl))) by (right; lra).
  rewrite (side_F tol ev 1 (or_intror eq_refl) _ _ P' 0 (O _ (or_intror eq_refl))) by (right; lra).
  destruct (end_cap hob en tol ev (last (s :: path) s) 1 (-1)); [|reflexivity]. cbn [option_map].
  destruct (side (tol ^ 2) ev (-1) 0 (s :: path)); [|reflexivity]. cbn [option_map].
  destruct (end_cap hob en tol ev s 0 1); [|reflexivity]. cbn [option_map].
  destruct (side (tol ^ 2) ev 1 0 (s :: path)); [|reflexivity]. cbn [option_map]. f_equal. now rewrite !map_app, map_rev.
Qed.
End Map.
