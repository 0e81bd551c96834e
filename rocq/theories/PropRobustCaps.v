(** C71: the ends of RobustPath outlines, whatever the sections are. *)

From Coq Require Import Reals Lra Lia List ZArith Bool.
From Verif Require Import Plane PlaneProofs Curve CurveProofs Hier Engine Flex SpecFlex FlexProofs PropArc SpecRound PropFlexEnds PropFlexRound
  PropFlexRows SpecRobust Robust PropRobust PropRobustJoin PropRobustEnds RobustMove PropRobustMove PropRobustShape RobustExample.
Import ListNotations.
Open Scope R_scope.

(** The component has been moved without reflection, and its direction and width
    are defined there. *)
Definition upright (s : sub) (u : R) : Prop :=
  (exists k t d, 0 < k /\ forall p, apply (s_tr s) p = rigid false k t d p) /\ 0 < s_h s /\ regular s u /\ 0 <= s_wid s u.

(** ** The first and the last point of each side *)

Lemma refine_last room c tol : forall prev x rest, exists m, refine_to room c tol prev (rest ++ [x]) = m ++ [x].
Proof.
  induction room as [|n IH]; intros prev x rest; cbn [refine_to]; [eauto|].
  revert prev. induction rest as [|y rest IHr]; intro prev; cbn [app].
  - destruct (first_bad c tol prev x thirds) as [bad|]; [exact (IH prev x [bad])|exists []; reflexivity].
  - destruct (first_bad c tol prev y thirds) as [bad|]; [exact (IH prev x (bad :: y :: rest))|].
    destruct (IHr y) as [m E]. exists (y :: m). cbn [app]. f_equal. exact E.
Qed.
Lemma points_ends s u0 u1 arm : exists m, s_points s u0 u1 arm = s_at s u0 arm :: m ++ [s_at s u1 arm].
Proof.
  unfold s_points. destruct (refine_last (s_evals s - 2) (fun t => s_at s t arm) (s_err s) (u0, s_at s u0 arm) (u1, s_at s u1 arm) []) as [m E].
  cbn [app] in E. rewrite E, map_app. exists (map snd m). reflexivity.
Qed.
Lemma side_step tol ev arm start s t rest : side tol ev arm start (s :: t :: rest) =
  let '(u0, u1, px) := crossing tol ev s t arm in
  let '(piece, start') :=
    if Rle_dec 0 u1 then (if Rle_dec u0 1 then removelast (s_points s start u0 arm) else s_points s start 1 arm, u1)
    else (if Rle_dec u0 1 then s_points s start u0 arm else s_points s start 1 arm ++ [px], 0) in
  option_map (app piece) (side tol ev arm start' (t :: rest)).
Proof. reflexivity. Qed.
Lemma last_any {X} (l : list X) d e : l <> [] -> last l d = last l e.
Proof. induction l as [|a [|b l] IH]; intro N; [congruence|reflexivity|]. apply IH. discriminate. Qed.
Lemma side_ends tol ev arm : forall path s0 start l, side tol ev arm start (s0 :: path) = Some l ->
  hd (0, 0) l = s_at s0 start arm /\ last l (0, 0) = s_at (last (s0 :: path) s0) 1 arm /\ l <> [].
Proof.
  induction path as [|t path IH]; intros s0 start l H.
  - cbn [side last] in *. injection H as <-. destruct (points_ends s0 start 1 arm) as [m ->]. split; [reflexivity|]. split; [|discriminate].
    change (last ((s_at s0 start arm :: m) ++ [s_at s0 1 arm]) (0, 0) = s_at s0 1 arm). apply last_last.
  - rewrite side_step in H. destruct (crossing tol ev s0 t arm) as [[u0 u1] px].
    match type of H with (let '(_, _) := ?x in _) = _ => assert (P : exists piece start', x = (piece, start') /\ piece <> [] /\ hd (0, 0) piece = s_at s0 start arm) end.
    { destruct (Rle_dec 0 u1), (Rle_dec u0 1); eexists; eexists; (split; [reflexivity|]).
      - destruct (points_ends s0 start u0 arm) as [m ->]. change (s_at s0 start arm :: m ++ [s_at s0 u0 arm]) with ((s_at s0 start arm :: m) ++ [s_at s0 u0 arm]).
        rewrite removelast_last. split; [discriminate|reflexivity].
      - destruct (points_ends s0 start 1 arm) as [m ->]. split; [discriminate|reflexivity].
      - destruct (points_ends s0 start u0 arm) as [m ->]. split; [discriminate|reflexivity].
      - destruct (points_ends s0 start 1 arm) as [m ->]. split; [discriminate|reflexivity]. }
    destruct P as (piece & start' & X & NP & HP). rewrite X in H. destruct (side tol ev arm start' (t :: path)) as [m|] eqn:E; [|discriminate].
    cbn [option_map] in H. injection H as <-. destruct (IH t start' m E) as (A & B & C). split; [|split].
    + destruct piece as [|p piece]; [congruence|exact HP].
    + rewrite last_app_ne by exact C. rewrite B. f_equal. change (last (s0 :: t :: path) s0) with (last (t :: path) s0).
      apply last_any. discriminate.
    + intro Z. apply app_eq_nil in Z as [Z _]. contradiction.
Qed.

(** ** The frame at the end of a component *)

Lemma upright_frame s u : upright s u -> 0 <= u <= 1 -> exists L t, 0 < L /\ s_grad s u 0 = smul L (cos t, sin t) /\
  s_at s u 1 = spot (s_at s u 0) t 0 (- (s_width s u / 2)) /\ s_at s u (-1) = spot (s_at s u 0) t 0 (s_width s u / 2).
Proof.
  intros ((k & a & d & K & E) & H & RG & W) U. rewrite (rigid_width false k a d s u K E RG), Rabs_pos_eq by exact W.
  set (v := psub (s_centre s (Rmin 1 (u + s_h s))) (s_centre s (Rmax 0 (u - s_h s)))).
  assert (NV : v <> (0, 0)) by (intro Z; apply RG; now apply psub_zero).
  pose proof (len_pos v NV) as LV. set (b := along v).
  assert (PV : v = smul (len v) (cos b, sin b)).
  { unfold b, along. destruct (cos_atan2 (snd v) (fst v)) as [-> ->]; [destruct v; exact NV|]. fold (len2 v). fold (len v).
    apply pt_eq; unfold smul; cbn [fst snd]; field; lra. }
  set (du := Rmin 1 (u + s_h s) - Rmax 0 (u - s_h s)). assert (DU : 0 < du) by (unfold du, Rmin, Rmax; destruct (Rle_dec _ _), (Rle_dec _ _); lra).
  exists (/ du * (k * len v)), (a + b). split; [apply Rmult_lt_0_compat; [now apply Rinv_0_lt_compat|now apply Rmult_lt_0_compat]|].
  assert (RO : right_of v = (sin b, - cos b)).
  { rewrite PV at 1. rewrite right_smul; [|exact LV|]. 2:{ intro Z. pose proof (polar_nonzero 1 b ltac:(lra)) as Q. apply Q. rewrite Z. apply pt_eq; unfold smul; cbn [fst snd]; ring. }
    unfold right_of. replace (len (snd (cos b, sin b), - fst (cos b, sin b))) with 1; [apply pt_eq; unfold smul; cbn [fst snd]; field|].
    unfold len, len2. cbn [fst snd]. pose proof (sin2_cos2 b) as Q. unfold Rsqr in Q. replace (sin b ^ 2 + (- cos b) ^ 2) with 1 by (rewrite <- Q; ring). now rewrite sqrt_1. }
  split; [|split].
  - unfold s_grad, slope. fold du. unfold s_at, s_raw. cbn [Z.eqb]. rewrite !E, rigid_sub. fold v. rewrite PV at 1. clearbody v du b.
    rewrite cos_plus, sin_plus. apply pt_eq; unfold lin, rigid, smul, psub; cbn [fst snd]; ring.
  - unfold s_at, s_raw. cbn [Z.eqb Z.ltb Z.compare]. fold v. rewrite RO, !E. unfold spot. rewrite cos_plus, sin_plus.
    apply pt_eq; unfold rigid, padd, smul; cbn [fst snd]; field.
  - unfold s_at, s_raw. cbn [Z.eqb Z.ltb Z.compare]. fold v. rewrite RO, !E. unfold spot. rewrite cos_plus, sin_plus.
    apply pt_eq; unfold rigid, padd, psub, smul; cbn [fst snd]; field.
Qed.

(** ** The end itself *)

Lemma linspace_split a b n : (2 <= n)%nat -> linspace a b n = a :: removelast (tl (linspace a b n)) ++ [b].
Proof.
  intro N. pose proof (PropFlexRows.linspace_length a b n) as LL. destruct (linspace a b n) as [|x l] eqn:E; [cbn in LL; lia|]. cbn [tl].
  assert (X : x = a). { pose proof (nth_linspace a b n 0 ltac:(lia)) as Q. rewrite E in Q. cbn [nth INR] in Q. rewrite Q. ring. }
  subst x. f_equal. assert (NL : l <> []) by (intros ->; cbn in LL; lia). rewrite (app_removelast_last 0 NL) at 1. f_equal. f_equal.
  rewrite last_at. pose proof (nth_linspace a b n (n - 1) ltac:(lia)) as Q. rewrite E in Q. cbn [length] in LL.
  replace (n - 1)%nat with (S (length l - 1)) in Q at 1 by (destruct l; [congruence|cbn [length] in *; lia]). cbn [nth] in Q. rewrite Q.
  field. replace 0 with (INR 0) by reflexivity. apply not_INR. lia.
Qed.
Lemma round_list e r a n : (2 <= n)%nat ->
  padd e (on_circle r (- (PI / 2) + a)) :: map (fun x => padd e (on_circle r (x + a))) (removelast (tl (linspace (- (PI / 2)) (PI / 2) n))) ++
    [padd e (on_circle r (PI / 2 + a))] =
  map (fun x => padd e (on_circle r x)) (linspace (a - PI / 2) (a + PI / 2) n).
Proof.
  intro N. replace (linspace (a - PI / 2) (a + PI / 2) n) with (map (fun x => 1 * x + a) (linspace (- (PI / 2)) (PI / 2) n)).
  - rewrite map_map. rewrite (linspace_split (- (PI / 2)) (PI / 2) n N) at 2. cbn [map]. rewrite map_app. cbn [map].
    repeat rewrite Rmult_1_l. f_equal. f_equal. apply map_ext. intro x. now rewrite Rmult_1_l.
  - rewrite linspace_affine. f_equal; ring.
Qed.
Section Caps.
Variable hob : pt * pt -> R * R -> pt * pt.
Lemma end_cap_shape en tol ev s u arm t L c l : 0 < L -> s_grad s u 0 = smul L (cos t, sin t) ->
  (u = 1 /\ arm = (-1)%Z /\ c = 1 \/ u = 0 /\ arm = 1%Z /\ c = -1) -> (en = RoundCap -> 0 < tol /\ tol <= s_width s u / 4) ->
  end_cap hob en tol ev s u arm = Some l ->
  let e := s_at s u 0 in let w := s_width s u in
  end_shape en tol w e t c (if Rlt_dec 0 c then spot e t 0 (- (w / 2)) :: l ++ [spot e t 0 (w / 2)] else rev (spot e t 0 (w / 2) :: l ++ [spot e t 0 (- (w / 2))])).
Proof.
  intros P G A Rd C e w. fold w in Rd. unfold end_cap in C. cbv zeta in C. rewrite G in C. fold e w in C.
  assert (CS : - sgn arm = c) by (unfold sgn; destruct A as [(_ & -> & ->)|(_ & -> & ->)]; lra). rewrite CS in C.
  assert (C1 : c = 1 \/ c = -1) by tauto.
  assert (EXT : forall d, (let v := smul (/ len (smul c (smul L (cos t, sin t)))) (smul c (smul L (cos t, sin t))) in
      Some [padd (padd e (smul d v)) (smul (/ 2 * w) (snd v, - fst v)); psub (padd e (smul d v)) (smul (/ 2 * w) (snd v, - fst v))]) =
      Some [spot e t (c * d) (- (c * (w / 2))); spot e t (c * d) (c * (w / 2))]).
  { intro d. cbv zeta. rewrite unit_sign by (try assumption; now apply polar_nonzero). rewrite len_polar by exact P.
    do 2 f_equal; [|f_equal]; unfold spot; apply pt_eq; unfold padd, psub, smul; cbn [fst snd]; field; lra. }
  assert (SQ : forall d, l = [spot e t (c * d) (- (c * (w / 2))); spot e t (c * d) (c * (w / 2))] ->
     (if Rlt_dec 0 c then spot e t 0 (- (w / 2)) :: l ++ [spot e t 0 (w / 2)] else rev (spot e t 0 (w / 2) :: l ++ [spot e t 0 (- (w / 2))])) =
     [spot e t 0 (- (w / 2)); spot e t (c * d) (- (w / 2)); spot e t (c * d) (w / 2); spot e t 0 (w / 2)]).
  { intros d ->. destruct C1 as [-> | ->].
    - destruct (Rlt_dec 0 1) as [_|X]; [|lra]. cbn [app]. rewrite !Rmult_1_l. reflexivity.
    - destruct (Rlt_dec 0 (-1)) as [X|_]; [lra|]. cbn [app rev]. replace (- (-1 * (w / 2))) with (w / 2) by ring. replace (-1 * (w / 2)) with (- (w / 2)) by ring. reflexivity. }
  destruct en; cbn [end_shape]; try exact I.
  - injection C as <-. destruct (Rlt_dec 0 c); reflexivity.
  - cbv zeta in EXT. rewrite EXT in C. injection C as <-. rewrite (SQ (/ 2 * w) eq_refl). replace (/ 2 * w) with (w / 2) by field. reflexivity.
  - cbv zeta in EXT. rewrite EXT in C. injection C as <-. rewrite (SQ _ eq_refl).
    destruct A as [(-> & _ & ->)|(-> & _ & ->)]; destruct (Req_EM_T _ 0); try lra; destruct (Rlt_dec 0 _); try lra; reflexivity.
  - destruct (Rd eq_refl) as [Tp Tr]. destruct (arc_count 5 (PI / 2) tol (/ 2 * w)) as [np|] eqn:AC; [|discriminate]. injection C as <-.
    pose proof PI_RGT_0 as PP. destruct (arc_count_bound 5 (PI / 2) tol (/ 2 * w) np AC ltac:(lia) ltac:(lra)) as (_ & N & _).
    set (A0 := along (smul c (smul L (cos t, sin t)))).
    assert (AA : cos A0 = c * cos t /\ sin A0 = c * sin t).
    { assert (VE : smul c (smul L (cos t, sin t)) = smul L (cos (t + (1 - c) / 2 * PI), sin (t + (1 - c) / 2 * PI))).
      { destruct C1 as [-> | ->].
        - replace ((1 - 1) / 2 * PI) with 0 by field. rewrite Rplus_0_r. apply pt_eq; unfold smul; cbn [fst snd]; ring.
        - replace ((1 - -1) / 2 * PI) with PI by field. rewrite neg_cos, neg_sin. apply pt_eq; unfold smul; cbn [fst snd]; ring. }
      unfold A0. rewrite VE. destruct (along_polar L (t + (1 - c) / 2 * PI) P) as [-> ->]. destruct C1 as [-> | ->].
      - replace ((1 - 1) / 2 * PI) with 0 by field. rewrite Rplus_0_r. split; ring.
      - replace ((1 - -1) / 2 * PI) with PI by field. rewrite neg_cos, neg_sin. split; ring. }
    destruct AA as [CA SA].
    assert (HF : PI / 2 = / 2 * Rabs (A0 + PI / 2 - (A0 - PI / 2))) by (replace (A0 + PI / 2 - (A0 - PI / 2)) with PI by field; rewrite Rabs_pos_eq by lra; field).
    assert (X := arc_traces 5 _ tol (/ 2 * w) np e (A0 - PI / 2) (A0 + PI / 2) (9 / 8) (81 / 64 * tol) AC ltac:(lia) HF Tp ltac:(lra) ltac:(cbn; field) ltac:(field)).
    rewrite <- round_list in X by lia.
    assert (R1 : padd e (on_circle (/ 2 * w) (- (PI / 2) + A0)) = spot e t 0 (- (c * (w / 2)))).
    { rewrite (Rplus_comm _ A0). unfold on_circle, spot. rewrite cos_plus, sin_plus, cos_neg, sin_neg, cos_PI2, sin_PI2, CA, SA. apply pt_eq; unfold padd; cbn [fst snd]; field. }
    assert (R2 : padd e (on_circle (/ 2 * w) (PI / 2 + A0)) = spot e t 0 (c * (w / 2))).
    { rewrite (Rplus_comm _ A0). unfold on_circle, spot. rewrite cos_plus, sin_plus, cos_PI2, sin_PI2, CA, SA. apply pt_eq; unfold padd; cbn [fst snd]; field. }
    rewrite R1, R2 in X. replace (/ 2 * w) with (w / 2) in * by field. destruct C1 as [-> | ->].
    + destruct (Rlt_dec 0 1) as [_|Z]; [|lra]. rewrite !Rmult_1_l in *. eapply traces_ext; [|exact X]. intro x. apply arc_at_same; [| |field].
      * unfold Rminus. now apply same_angle.
      * unfold Rminus. now apply same_angle.
    + destruct (Rlt_dec 0 (-1)) as [Z|_]; [lra|]. replace (- (-1 * (w / 2))) with (w / 2) in X by ring. replace (-1 * (w / 2)) with (- (w / 2)) in X by ring.
      apply traces_rev in X; [|discriminate]. eapply traces_ext; [|exact X]. intro x. unfold arc_at.
      replace (t - PI / 2 + -1 * PI) with (t - PI / 2 - PI) by ring.
      replace (A0 - PI / 2 + (1 - x) * (A0 + PI / 2 - (A0 - PI / 2))) with (A0 + (PI / 2 - x * PI)) by field.
      replace (t - PI / 2 + x * (t - PI / 2 - PI - (t - PI / 2))) with (t + (PI / 2 - x * PI) - PI) by field.
      assert (M : forall y, cos (y - PI) = - cos y /\ sin (y - PI) = - sin y) by (intro y; rewrite cos_minus, sin_minus, cos_PI, sin_PI; split; ring).
      destruct (M (t + (PI / 2 - x * PI))) as [-> ->]. set (y := PI / 2 - x * PI). rewrite !cos_plus, !sin_plus, CA, SA. apply pt_eq; unfold padd; cbn [fst snd]; ring.
Qed.
End Caps.
(** The ends of every outline, for paths of any sections: looking in the direction in
    which the path arrives, its last edge is the end that was asked for, and in the same
    way its first edge.  [c1 ++ left ++ c0 ++ right]: the end, the left side from the
    end to the start, the start, the right side. *)
Theorem C71_ends : forall fuel hob eng r k s0 path d, (2 <= fuel)%nat -> r_aligned r -> r_uncut fuel hob eng r -> r_now fuel hob eng r = Some d ->
  nth_error (r_paths r) k = Some (s0 :: path) ->
  let sn := last (s0 :: path) s0 in let en := nth k (r_ends r) Flush in
  upright s0 0 -> upright sn 1 -> (en = RoundCap -> 0 < r_tol r /\ r_tol r <= s_width s0 0 / 4 /\ r_tol r <= s_width sn 1 / 4) ->
  exists l c1 left c0 right L0 L1 t0 t1, In ((nth k (r_layers r) 0%Z, nth k (r_dts r) 0%Z), l) d /\ In (c1 ++ left ++ c0 ++ right) l /\
    left <> [] /\ right <> [] /\ 0 < L0 /\ 0 < L1 /\
    s_grad s0 0 0 = smul L0 (cos t0, sin t0) /\ s_grad sn 1 0 = smul L1 (cos t1, sin t1) /\
    end_shape en (r_tol r) (s_width sn 1) (s_at sn 1 0) t1 1 (last right (0, 0) :: c1 ++ [hd (0, 0) left]) /\
    end_shape en (r_tol r) (s_width s0 0) (s_at s0 0 0) t0 (-1) (rev (last left (0, 0) :: c0 ++ [hd (0, 0) right])).
Proof.
  intros fuel hob eng r k s0 path d F A U D K sn en U0 U1 RC.
  destruct (now_item fuel hob eng r d _ _ _ _ F U D (zipped_nth r k _ A K)) as (p & ps & O & I & J).
  unfold r_outline in O. fold sn en in O.
  destruct (end_cap hob en (r_tol r) (r_evals r) sn 1 (-1)) as [c1|] eqn:E1; [|discriminate]. destruct (side (r_tol r ^ 2) (r_evals r) (-1) 0 (s0 :: path)) as [a0|] eqn:S0; [|discriminate].
  destruct (end_cap hob en (r_tol r) (r_evals r) s0 0 1) as [c0|] eqn:E0; [|discriminate]. destruct (side (r_tol r ^ 2) (r_evals r) 1 0 (s0 :: path)) as [a1|] eqn:S1; [|discriminate].
  injection O as <-. destruct (side_ends _ _ _ _ _ _ _ S0) as (HL & LL & NL). destruct (side_ends _ _ _ _ _ _ _ S1) as (HR & LR & NR). fold sn in LL, LR.
  destruct (upright_frame s0 0 U0 ltac:(lra)) as (L0 & t0 & P0 & G0 & R0 & Q0). destruct (upright_frame sn 1 U1 ltac:(lra)) as (L1 & t1 & P1 & G1 & R1 & Q1).
  exists ps, c1, (rev a0), c0, a1, L0, L1, t0, t1. split; [exact I|]. split; [exact J|].
  assert (NRV : rev a0 <> []) by (intro Z; apply NL; rewrite <- (rev_involutive a0), Z; reflexivity).
  split; [exact NRV|]. split; [exact NR|]. repeat (split; [assumption|]).
  assert (HV : hd (0, 0) (rev a0) = s_at sn 1 (-1)). { rewrite <- LL. rewrite <- (rev_involutive a0) at 2. destruct (rev a0) as [|x m]; [congruence|]. cbn [rev hd]. now rewrite last_last. }
  assert (LV : last (rev a0) (0, 0) = s_at s0 0 (-1)). { rewrite <- HL. destruct a0 as [|x m]; [congruence|]. cbn [rev hd]. apply last_last. }
  rewrite HV, LV, HR, LR, R0, Q0, R1, Q1. split.
  - pose proof (end_cap_shape hob en (r_tol r) (r_evals r) sn 1 (-1) t1 L1 1 c1 P1 G1 (or_introl (conj eq_refl (conj eq_refl eq_refl)))
      (fun e => conj (proj1 (RC e)) (proj2 (proj2 (RC e)))) E1) as X. cbv zeta in X. destruct (Rlt_dec 0 1) as [_|Z]; [exact X|lra].
  - pose proof (end_cap_shape hob en (r_tol r) (r_evals r) s0 0 1 t0 L0 (-1) c0 P0 G0 (or_intror (conj eq_refl (conj eq_refl eq_refl)))
      (fun e => conj (proj1 (RC e)) (proj1 (proj2 (RC e)))) E0) as X. cbv zeta in X. destruct (Rlt_dec 0 (-1)) as [Z|_]; [lra|exact X].
Qed.
Print Assumptions C71_ends.
(** With round ends there are polygons if the tolerance is at most the width there. *)
Theorem C71_round_defined : forall fuel hob eng r, (2 <= fuel)%nat -> r_uncut fuel hob eng r ->
  (forall l, In l (r_paths r) -> l <> []) ->
  (forall s path e, In (s :: path, e) (combine (r_paths r) (r_ends r)) ->
     match e with RoundCap => 0 < r_tol r /\ r_tol r <= s_width s 0 /\ r_tol r <= s_width (last (s :: path) s) 1 | CustomCap _ => False | _ => True end) ->
  exists d, r_now fuel hob eng r = Some d.
Proof.
  intros fuel hob eng r F U NP NE. rewrite now_gen. cbv zeta. destruct (some_or_none (map (out_item hob r) (zipped r))) as [(s & J)|(m & Em)].
  - exfalso. apply in_map_iff in J as ([[[path en] l] dt] & E & J). cbn [out_item] in E. injection E as _ E.
    unfold zipped in J. apply in_combine_l in J. apply in_combine_l in J. pose proof (in_combine_l _ _ _ _ J) as Jp.
    specialize (NP path Jp). unfold r_outline in E. destruct path as [|s0 path]; [congruence|]. specialize (NE s0 path en J).
    destruct (side_some (r_tol r ^ 2) (r_evals r) (-1) _ NP 0) as [a0 A0]. destruct (side_some (r_tol r ^ 2) (r_evals r) 1 _ NP 0) as [a1 A1].
    rewrite A0, A1 in E. destruct en; try contradiction; try discriminate E. destruct NE as (T & T0 & T1). unfold end_cap in E. cbv zeta in E.
    destruct (arc_count 5 (PI / 2) (r_tol r) (/ 2 * s_width (last (s0 :: path) s0) 1)) eqn:C1; [|apply arc_count_some in C1; [contradiction|exact T|lra]].
    destruct (arc_count 5 (PI / 2) (r_tol r) (/ 2 * s_width s0 0)) eqn:C0; [discriminate|apply arc_count_some in C0; [contradiction|exact T|lra]].
  - pose proof (uncut_short fuel hob eng r m F U Em) as SH. rewrite Em.
    rewrite gen_all by (intros s p J; apply r_cut_whole; [exact F|now apply (SH s)]). eexists. reflexivity.
Qed.
Print Assumptions C71_round_defined.

(** RobustPath((0, 0), 2, ends='round').segment((2, 0)) *)
Lemma rod_upright o w u : 0 <= w -> 0 <= u <= 1 -> upright (rod_sub o w) u.
Proof.
  intros W U. split; [|split; [exact h_pos|split; [now apply rod_regular|exact W]]].
  exists 1, 0, (0, 0). split; [lra|]. intro p. exact (id_rigid p).
Qed.
Example C71_ends_case : forall hob eng, let r := rod 0 2 RoundCap false true in
  r_aligned r /\ r_uncut 2 hob eng r /\ upright (rod_sub 0 2) 0 /\ upright (rod_sub 0 2) 1 /\
  r_tol r <= s_width (rod_sub 0 2) 0 / 4 /\ exists d, r_now 2 hob eng r = Some d.
Proof.
  intros hob eng r.
  assert (W : forall u, 0 <= u <= 1 -> s_width (rod_sub 0 2) u = 2).
  { intros u U. rewrite (rigid_width false 1 0 (0, 0) (rod_sub 0 2) u ltac:(lra) id_rigid (rod_regular 0 2 u U)). cbn [rod_sub new_sub s_wid]. rewrite Rabs_pos_eq; lra. }
  assert (UC : r_uncut 2 hob eng r) by (left; cbn; lia).
  split; [|split; [exact UC|split; [apply rod_upright; lra|split; [apply rod_upright; lra|split; [rewrite W; cbn; lra|]]]]].
  - repeat split. intros p q [<-|[]] [<-|[]]. reflexivity.
  - apply C71_round_defined; [lia|exact UC| |].
    + intros l [<-|[]]. discriminate.
    + intros s path e [E|[]]. injection E as <- <- <-. cbn [last]. rewrite !W by lra. cbn. lra.
Qed.
