(** C80: circles, ellipses, rings and their sections. *)

From Coq Require Import Reals Lra Lia List ZArith Bool Psatz.
From Verif Require Import Plane Curve Flex SpecFlex FlexProofs PropFlexRows PropFlexShape PropArc PropFlexEnds SpecRound PropFlexRound PropFillet Path SpecPath SpecPathArc PropPathArc Circles SpecCircles.
Import ListNotations.
Open Scope R_scope.

Lemma at_point : forall c r t, on_ellipse_c c r t = ellipse_at c r t.
Proof. intros c [x|x y] t; unfold on_ellipse_c, ellipse_at; cbn [rad_x rad_y semi fst snd]; f_equal; ring. Qed.
Lemma max_larger : forall r, rad_max r = larger r.
Proof. intros [x|x y]; unfold larger; cbn [rad_max semi fst snd]; [now rewrite Rmax_left by lra|reflexivity]. Qed.
Lemma linspace_map : forall a b n c r, map (on_ellipse_c c r) (linspace a b n) = map (ellipse_at c r) (linspace a b n).
Proof. intros. apply map_ext. intro. apply at_point. Qed.

(** ** Directions and parameters *)

Lemma pymod_ok : forall a, exists n, a - (pymod (a + PI) (2 * PI) - PI) = IZR n * (2 * PI) /\ - PI <= pymod (a + PI) (2 * PI) - PI < PI.
Proof.
  intro a. pose proof PI_RGT_0 as P. unfold pymod. set (x := (a + PI) / (2 * PI)). exists (Int_part x). destruct (base_Int_part x) as [B1 B2].
  assert (E : a + PI = x * (2 * PI)) by (unfold x; field; lra). split; [lra|]. split; nra.
Qed.
Lemma turns : forall n x, cos (x + IZR n * (2 * PI)) = cos x /\ sin (x + IZR n * (2 * PI)) = sin x.
Proof.
  intros n x. destruct (Z_le_gt_dec 0 n) as [L|L].
  - rewrite <- (Z2Nat.id n L), <- INR_IZR_INZ. replace (x + INR (Z.to_nat n) * (2 * PI)) with (x + 2 * INR (Z.to_nat n) * PI) by ring. split; [apply cos_period|apply sin_period].
  - assert (L' : (0 <= - n)%Z) by lia. pose proof (INR_IZR_INZ (Z.to_nat (- n))) as E. rewrite Z2Nat.id, opp_IZR in E by exact L'.
    rewrite <- (cos_period (x + IZR n * (2 * PI)) (Z.to_nat (- n))), <- (sin_period (x + IZR n * (2 * PI)) (Z.to_nat (- n))), E.
    replace (x + IZR n * (2 * PI) + 2 * - IZR n * PI) with x by ring. split; reflexivity.
Qed.
Theorem C80_direction : forall r a, positive r -> regular r a -> seen r a (as_param r a).
Proof.
  intros [x|rx ry] a [P1 P2] RG; cbn [semi fst snd as_param] in *.
  - split; [exists x; auto|]. replace (a - a) with 0 by ring. rewrite Rabs_R0. pose proof PI_RGT_0. lra.
  - pose proof PI_RGT_0 as PP. destruct (Req_EM_T a PI) as [->|NP].
    { split; [|replace (PI - PI) with 0 by ring; rewrite Rabs_R0; lra]. exists rx. rewrite cos_PI, sin_PI. repeat split; lra. }
    cbn [regular] in RG. destruct (pymod_ok a) as (n & En & Bn). set (b := pymod (a + PI) (2 * PI) - PI) in *.
    assert (Ea : a = b + IZR n * (2 * PI)) by lra. destruct (turns n b) as [Tc Ts]. rewrite <- Ea in Tc, Ts.
    assert (Nb : b <> - PI). { intro Z. apply NP, RG. rewrite Tc, Z, cos_neg, cos_PI. reflexivity. }
    rewrite Tc, Ts, En. set (u := atan2 (rx * sin b) (ry * cos b)).
    pose proof (sin2_cos2 b) as SC. unfold Rsqr in SC.
    set (h := sqrt ((ry * cos b) ^ 2 + (rx * sin b) ^ 2)).
    assert (H0 : 0 < (ry * cos b) ^ 2 + (rx * sin b) ^ 2).
    { destruct (Req_dec (cos b) 0) as [Z|Z].
      - assert (sin b * sin b = 1) by (rewrite Z in SC; lra). rewrite Z. replace ((ry * 0) ^ 2 + (rx * sin b) ^ 2) with (rx * rx * (sin b * sin b)) by ring. nra.
      - assert (0 < (ry * cos b) ^ 2) by (assert (ry * cos b <> 0) by (apply Rmult_integral_contrapositive_currified; lra); nra). pose proof (pow2_ge_0 (rx * sin b)). lra. }
    assert (Hh : 0 < h) by (now apply sqrt_lt_R0).
    assert (NZ : (ry * cos b, rx * sin b) <> (0, 0)). { intro Z. injection Z as Z1 Z2. rewrite Z1, Z2 in H0. lra. }
    destruct (cos_atan2 _ _ NZ) as [C S]. fold u in C, S. fold h in C, S.
    destruct (turns n u) as [Uc Us]. unfold seen. cbn [semi fst snd]. rewrite Uc, Us, Tc, Ts, C, S. split.
    + exists (rx * ry / h). split; [apply Rdiv_lt_0_compat; nra|]. split; field; lra.
    + replace (u + IZR n * (2 * PI) - a) with (u - b) by lra.
      assert (CD : 0 < cos (u - b)).
      { rewrite cos_minus, C, S. replace (ry * cos b / h * cos b + rx * sin b / h * sin b) with ((ry * (cos b * cos b) + rx * (sin b * sin b)) / h) by (field; lra).
        apply Rdiv_lt_0_compat; [|exact Hh]. pose proof (Rle_0_sqr (cos b)). pose proof (Rle_0_sqr (sin b)). unfold Rsqr in *.
        set (p := cos b * cos b) in *. set (q := sin b * sin b) in *. clearbody p q. destruct (Rle_lt_dec p 0); [assert (Zp : p = 0) by lra; assert (Zq : q = 1) by lra; rewrite Zp, Zq; lra|].
        assert (0 < ry * p) by nra. assert (0 <= rx * q) by nra. lra. }
      pose proof (atan2_bound (rx * sin b) (ry * cos b)) as UB. fold u in UB.
      assert (SS : sin u * h = rx * sin b) by (rewrite S; field; lra).
      apply Rabs_def1.
      * destruct (Rlt_dec (u - b) (PI / 2)) as [|G]; [assumption|exfalso].
        destruct (Rle_dec (u - b) (3 * (PI / 2))) as [G2|G2].
        -- pose proof (cos_le_0 (u - b) ltac:(lra) ltac:(lra)). lra.
        -- assert (sin b < 0) by (apply sin_lt_0_var; lra). assert (0 <= sin u) by (apply sin_ge_0; lra). nra.
      * destruct (Rlt_dec (- (PI / 2)) (u - b)) as [|G]; [assumption|exfalso].
        destruct (Rle_dec (- (3 * (PI / 2))) (u - b)) as [G2|G2].
        -- pose proof (cos_le_0 (- (u - b)) ltac:(lra) ltac:(lra)). rewrite cos_neg in *. lra.
        -- assert (0 <= sin b) by (apply sin_ge_0; lra). assert (sin u <= 0).
           { replace u with (- - u) by ring. rewrite sin_neg. assert (0 <= sin (- u)) by (apply sin_ge_0; lra). lra. }
           assert (0 < sin b); [|nra]. apply sin_gt_0; [lra|]. lra.
Qed.
Print Assumptions C80_direction.

(** Two parameters for the same direction are equal, and one parameter is seen in one
    direction only. *)
Lemma seen_once : forall r a b t, positive r -> seen r a t -> seen r b t -> a = b.
Proof.
  intros r a b t [P1 P2] [[q [Q [A1 A2]]] A3] [[q' [Q' [B1 B2]]] B3]. pose proof PI_RGT_0 as PP.
  pose proof (sin2_cos2 a) as Sa. pose proof (sin2_cos2 b) as Sb. unfold Rsqr in Sa, Sb.
  assert (E1 : q * cos a = q' * cos b) by lra. assert (E2 : q * sin a = q' * sin b) by lra.
  assert (QQ : q = q').
  { assert (q * q * (sin a * sin a + cos a * cos a) = q' * q' * (sin b * sin b + cos b * cos b)).
    { transitivity ((q * sin a) * (q * sin a) + (q * cos a) * (q * cos a)); [ring|]. rewrite E1, E2. ring. }
    rewrite Sa, Sb in *. nra. }
  subst q'. apply angle_unique.
  - apply (Rmult_eq_reg_l q); lra.
  - apply (Rmult_eq_reg_l q); lra.
  - apply Rabs_def2 in A3. apply Rabs_def2 in B3. apply Rabs_def1; lra.
Qed.
Lemma seen_param : forall r a t u, positive r -> seen r a t -> seen r a u -> t = u.
Proof.
  intros r a t u [P1 P2] [[q [Q [A1 A2]]] A3] [[q' [Q' [B1 B2]]] B3]. pose proof PI_RGT_0 as PP.
  set (x := fst (semi r)) in *. set (y := snd (semi r)) in *. clearbody x y.
  pose proof (sin2_cos2 t) as St. pose proof (sin2_cos2 u) as Su. unfold Rsqr in St, Su.
  assert (Ct : cos t = q * (cos a / x)) by (apply (Rmult_eq_reg_l x); [rewrite A1; field|]; lra).
  assert (Et : sin t = q * (sin a / y)) by (apply (Rmult_eq_reg_l y); [rewrite A2; field|]; lra).
  assert (Cu : cos u = q' * (cos a / x)) by (apply (Rmult_eq_reg_l x); [rewrite B1; field|]; lra).
  assert (Eu : sin u = q' * (sin a / y)) by (apply (Rmult_eq_reg_l y); [rewrite B2; field|]; lra).
  assert (QQ : q = q').
  { rewrite Ct, Et in St. rewrite Cu, Eu in Su. set (k := sin a / y * (sin a / y) + cos a / x * (cos a / x)).
    assert (K1 : q * q * k = 1) by (unfold k; lra). assert (K2 : q' * q' * k = 1) by (unfold k; lra). clearbody k.
    assert (K0 : 0 < k) by nra. assert (q * q = q' * q') by nra. nra. }
  subst q'. apply angle_unique; [lra|lra|]. apply Rabs_def2 in A3. apply Rabs_def2 in B3. apply Rabs_def1; lra.
Qed.

(** ** The polygons *)

Lemma round_inv : forall c rad inn a0 a1 tol npo mx la dt ps ls ds, round c rad inn a0 a1 tol npo mx la dt = Some (ps, ls, ds) ->
  exists np m e, round_points rad inn a0 a1 tol npo = Some np /\ parts np mx m /\ (0 < m)%nat /\ length ps = m /\ ls = repeat la m /\ ds = repeat dt m /\
    (a1 <> a0 -> e = a1) /\ (a1 = a0 -> m = 1%nat -> e = a0) /\ (a1 = a0 -> (1 < m)%nat -> e = a0 + 2 * PI) /\
    let th j := a0 + INR j / INR m * (e - a0) in
    forall j, (j < m)%nat -> round_piece c rad inn (np / m) (as_param rad (th j)) (as_param rad (th (S j))) (as_param inn (th j)) (as_param inn (th (S j))) = Some (nth j ps []).
Proof.
  intros c rad inn a0 a1 tol npo mx la dt ps ls ds H. unfold round in H. destruct (round_points rad inn a0 a1 tol npo) as [np|] eqn:En; [|discriminate].
  pose proof (pieces_parts np mx) as PA. set (m := piece_count np mx) in *. clearbody m.
  destruct (m =? 0)%nat eqn:M0; [discriminate|]. apply Nat.eqb_neq in M0.
  set (e := if Req_EM_T a1 a0 then if (1 <? m)%nat then a1 + 2 * PI else a1 else a1) in *.
  match type of H with match all_some (map ?f ?l) with _ => _ end = _ => set (g := f) in *; destruct (all_some (map g l)) as [ps'|] eqn:Es; [|discriminate] end.
  injection H as <- <- <-. exists np, m, e. split; [reflexivity|]. split; [exact PA|]. split; [lia|].
  assert (AL : forall (l : list nat) qs, all_some (map g l) = Some qs -> length qs = length l /\ forall i, (i < length l)%nat -> g (nth i l 0%nat) = Some (nth i qs [])).
  { induction l as [|x l IH]; intros qs Q; cbn [map all_some] in Q; [injection Q as <-; split; [reflexivity|cbn; lia]|].
    destruct (g x) as [y|] eqn:Gx; [|discriminate]. destruct (all_some (map g l)) as [qs'|]; [|discriminate]. injection Q as <-. destruct (IH _ eq_refl) as [L N].
    split; [cbn [length]; lia|]. intros [|i] I; cbn [nth length] in *; [exact Gx|apply N; lia]. }
  destruct (AL _ _ Es) as [L N]. rewrite seq_length in L, N. split; [exact L|]. split; [reflexivity|]. split; [reflexivity|].
  split; [intro NE; unfold e; now destruct (Req_EM_T a1 a0)|].
  split; [intros EQ M1; unfold e; destruct (Req_EM_T a1 a0); [|contradiction]; rewrite M1; exact EQ|].
  split; [intros EQ M1; unfold e; destruct (Req_EM_T a1 a0); [|contradiction]; apply Nat.ltb_lt in M1; rewrite M1; lra|].
  cbn zeta. intros j J. specialize (N j J). rewrite seq_nth in N by exact J. cbn [Nat.add] in N. rewrite <- N. unfold g.
  assert (AT : forall r i, (i < m + 1)%nat -> at_ (map (as_param r) (linspace a0 e (m + 1))) i = as_param r (a0 + INR i / INR m * (e - a0))).
  { intros r i I. unfold at_. rewrite (nth_indep _ 0 (as_param r 0)) by (rewrite map_length, linspace_length; exact I). rewrite map_nth, nth_linspace by exact I.
    f_equal. replace (m + 1 - 1)%nat with m by lia. assert (INR m <> 0) by (apply not_0_INR; lia). field. exact H. }
  rewrite !AT by lia. now rewrite Nat.add_1_r.
Qed.
Lemma piece_size : forall c rad inn k o0 o1 i0 i1 q, round_piece c rad inn k o0 o1 i0 i1 = Some q -> length q = k.
Proof.
  intros c rad inn k o0 o1 i0 i1 q H. unfold round_piece in H. assert (D : (k / 2 <= k)%nat) by (apply Nat.div_le_upper_bound; lia). set (h := (k / 2)%nat) in *. clearbody h.
  destruct (Req_EM_T o1 o0); destruct (Rle_dec _ 0).
  - injection H as <-. now rewrite map_length, seq_length.
  - destruct (_ <=? 1)%nat; [discriminate|]. injection H as <-. rewrite app_length, !map_length, !seq_length. lia.
  - destruct (k =? 0)%nat eqn:K; [discriminate|]. apply Nat.eqb_neq in K. injection H as <-. cbn [length]. rewrite map_length, linspace_length. lia.
  - injection H as <-. rewrite app_length, !map_length, !linspace_length. lia.
Qed.

(** As many polygons as needed for the limit on the number of points, all with the same
    number of points, each with its layer and datatype. *)
Theorem C80_sizes : forall c rad inn a0 a1 tol npo mx la dt ps ls ds, round c rad inn a0 a1 tol npo mx la dt = Some (ps, ls, ds) ->
  ps <> [] /\ ls = map (fun _ => la) ps /\ ds = map (fun _ => dt) ps /\
  (forall q, In q ps -> mx <> 0%nat -> (length q <= mx)%nat) /\
  (mx = 0%nat -> length ps = 1%nat) /\
  (forall n, npo = Some n -> parts n mx (length ps) /\ forall q, In q ps -> length q = (n / length ps)%nat).
Proof.
  intros c rad inn a0 a1 tol npo mx la dt ps ls ds H. destruct (round_inv _ _ _ _ _ _ _ _ _ _ _ _ _ H) as (np & m & e & En & PA & M & L & -> & -> & _ & _ & _ & P).
  assert (SZ : forall q, In q ps -> length q = (np / m)%nat).
  { intros q Q. apply (In_nth _ _ []) in Q as (j & J & <-). assert (J' : (j < m)%nat) by (rewrite <- L; exact J). clear J. rename J' into J. exact (piece_size _ _ _ _ _ _ _ _ _ (P j J)). }
  assert (RP : forall (X : Type) (x : X), repeat x m = map (fun _ => x) ps).
  { intros X x. rewrite <- L. clear. induction ps; cbn; congruence. }
  split; [intros ->; cbn in L; lia|]. split; [apply RP|]. split; [apply RP|]. split; [|split].
  - intros q Q X. rewrite (SZ q Q). destruct mx as [|x]; [contradiction|]. unfold parts in PA. apply Nat.div_le_upper_bound; lia.
  - intros ->. unfold parts in PA. lia.
  - intros n ->. cbn [round_points] in En. injection En as ->. rewrite L. split; [exact PA|exact SZ].
Qed.
Print Assumptions C80_sizes.

(** The whole disc in one polygon. *)
Theorem C80_disc : forall c rad inn a tol npo mx la dt q ls ds, round c rad inn a a tol npo mx la dt = Some ([q], ls, ds) -> larger inn <= 0 ->
  q = map (fun i => ellipse_at c rad (INR i / INR (length q) * (2 * PI))) (seq 0 (length q)).
Proof.
  intros c rad inn a tol npo mx la dt q ls ds H I. destruct (round_inv _ _ _ _ _ _ _ _ _ _ _ _ _ H) as (np & m & e & En & PA & M & L & _ & _ & _ & E1 & _ & P).
  cbn [length] in L. subst m. specialize (E1 eq_refl eq_refl). subst e. specialize (P 0%nat M). cbn [nth] in P. cbv zeta in P. rewrite (piece_size _ _ _ _ _ _ _ _ _ P).
  set (k := (np / 1)%nat) in *. clearbody k. unfold round_piece in P. rewrite max_larger in P. replace (a + INR 1 / INR 1 * (a - a)) with (a + INR 0 / INR 1 * (a - a)) in P by (replace (a - a) with 0 by ring; now rewrite !Rmult_0_r).
  destruct (Req_EM_T _ _) as [_|Z]; [|congruence]. destruct (Rle_dec (larger inn) 0) as [_|]; [|contradiction]. injection P as <-.
  apply map_ext. intro i. rewrite at_point. f_equal. unfold Rdiv. ring.
Qed.
Print Assumptions C80_disc.
(** The whole ring in one polygon: once around the outer border, and back around the
    inner one. *)
Theorem C80_ring : forall c rad inn a tol npo mx la dt q ls ds, round c rad inn a a tol npo mx la dt = Some ([q], ls, ds) -> 0 < larger inn ->
  let n2 := (length q / 2)%nat in (2 <= n2)%nat /\
  q = map (ellipse_at c rad) (linspace 0 (2 * PI) (length q - n2)) ++ map (ellipse_at c inn) (linspace 0 (- (2 * PI)) n2).
Proof.
  intros c rad inn a tol npo mx la dt q ls ds H I. destruct (round_inv _ _ _ _ _ _ _ _ _ _ _ _ _ H) as (np & m & e & En & PA & M & L & _ & _ & _ & E1 & _ & P).
  cbn [length] in L. subst m. specialize (E1 eq_refl eq_refl). subst e. specialize (P 0%nat M). cbn [nth] in P. cbv zeta in P. rewrite (piece_size _ _ _ _ _ _ _ _ _ P).
  set (k := (np / 1)%nat) in *. clearbody k. cbn zeta. unfold round_piece in P. rewrite max_larger in P. replace (a + INR 1 / INR 1 * (a - a)) with (a + INR 0 / INR 1 * (a - a)) in P by (replace (a - a) with 0 by ring; now rewrite !Rmult_0_r).
  destruct (Req_EM_T _ _) as [_|Z]; [|congruence]. destruct (Rle_dec (larger inn) 0) as [|_]; [lra|].
  destruct (k / 2 <=? 1)%nat eqn:K; [discriminate|]. apply Nat.leb_gt in K. split; [lia|].
  assert (D : (2 * (k / 2) <= k)%nat) by (apply Nat.mul_div_le; lia). set (h := (k / 2)%nat) in *. clearbody h. injection P as <-.
  f_equal; unfold linspace; rewrite map_map; apply map_ext; intro i; rewrite at_point; f_equal; rewrite (minus_INR _ 1) by lia; change (INR 1) with 1; unfold Rdiv; ring.
Qed.
Print Assumptions C80_ring.

Lemma sweep_angles : forall a0 a1 e (m : nat) e', (0 < m)%nat -> sweep a0 a1 e -> (a1 <> a0 -> e' = a1) -> (a1 = a0 -> (1 < m)%nat -> e' = a0 + 2 * PI) -> (a1 <> a0 \/ m <> 1%nat) -> e' = e /\ e <> a0.
Proof.
  intros a0 a1 e m e' M SW E1 E2 NE. pose proof PI_RGT_0. destruct SW as [[N ->]|[N ->]]; [auto|]. destruct NE as [|NE]; [contradiction|]. split; [apply E2; [exact N|lia]|lra].
Qed.
Lemma steps_differ : forall a0 e m j, (0 < m)%nat -> e <> a0 -> a0 + INR (S j) / INR m * (e - a0) <> a0 + INR j / INR m * (e - a0).
Proof.
  intros a0 e m j M N Z. assert (PM : 0 < INR m) by (now apply lt_0_INR). apply N. rewrite S_INR in Z.
  assert (Q : (e - a0) / INR m = 0) by (replace ((e - a0) / INR m) with ((a0 + (INR j + 1) / INR m * (e - a0)) - (a0 + INR j / INR m * (e - a0))) by (field; lra); lra).
  assert (E : (e - a0) = (e - a0) / INR m * INR m) by (field; lra). rewrite Q in E. lra.
Qed.
(** Slices: the centre, and the border from one direction to the next. *)
Theorem C80_slices : forall c rad inn a0 a1 e tol npo mx la dt ps ls ds, round c rad inn a0 a1 tol npo mx la dt = Some (ps, ls, ds) ->
  larger inn <= 0 -> sweep a0 a1 e -> a1 <> a0 \/ length ps <> 1%nat -> positive rad ->
  let th j := a0 + INR j / INR (length ps) * (e - a0) in
  (forall j, (j <= length ps)%nat -> regular rad (th j)) ->
  exists t, (forall j, (j <= length ps)%nat -> seen rad (th j) (t j)) /\
    forall j, (j < length ps)%nat -> let q := nth j ps [] in q = c :: map (ellipse_at c rad) (linspace (t j) (t (S j)) (length q - 1)).
Proof.
  intros c rad inn a0 a1 e tol npo mx la dt ps ls ds H I SW NE PO th RG. destruct (round_inv _ _ _ _ _ _ _ _ _ _ _ _ _ H) as (np & m & e' & En & PA & M & L & _ & _ & E0 & E1 & E2 & P).
  unfold th in *. clear th. rewrite L in *. destruct (sweep_angles a0 a1 e m e' M SW E0 E2 NE) as [-> NZ]. set (th j := a0 + INR j / INR m * (e - a0)) in *. cbv zeta in P.
  exists (fun j => as_param rad (th j)). split; [intros j J; exact (C80_direction _ _ PO (RG j J))|]. intros j J. cbv zeta. pose proof (P j J) as Q. change (a0 + INR j / INR m * (e - a0)) with (th j) in Q. change (a0 + INR (S j) / INR m * (e - a0)) with (th (S j)) in Q. rewrite (piece_size _ _ _ _ _ _ _ _ _ Q).
  unfold round_piece in Q. rewrite max_larger in Q. destruct (Req_EM_T _ _) as [Z|_].
  - exfalso. apply (steps_differ a0 e m j M NZ). fold (th j). fold (th (S j)). apply (seen_once rad _ _ (as_param rad (th j)) PO); [rewrite <- Z|]; apply C80_direction; try exact PO; apply RG; lia.
  - destruct (Rle_dec (larger inn) 0) as [_|]; [|contradiction]. set (k := (np / m)%nat) in *. clearbody k. destruct (k =? 0)%nat; [discriminate|]. injection Q as Q. rewrite <- Q. now rewrite linspace_map.
Qed.
Print Assumptions C80_slices.
(** Sections of a ring: the outer border from one direction to the next, and the inner
    border back. *)
Theorem C80_sections : forall c rad inn a0 a1 e tol npo mx la dt ps ls ds, round c rad inn a0 a1 tol npo mx la dt = Some (ps, ls, ds) ->
  sweep a0 a1 e -> a1 <> a0 \/ length ps <> 1%nat -> positive rad -> positive inn ->
  let th j := a0 + INR j / INR (length ps) * (e - a0) in
  (forall j, (j <= length ps)%nat -> regular rad (th j) /\ regular inn (th j)) ->
  exists t u, (forall j, (j <= length ps)%nat -> seen rad (th j) (t j) /\ seen inn (th j) (u j)) /\
    forall j, (j < length ps)%nat -> let q := nth j ps [] in
      q = map (ellipse_at c rad) (linspace (t j) (t (S j)) (length q - length q / 2)) ++ map (ellipse_at c inn) (linspace (u (S j)) (u j) (length q / 2)).
Proof.
  intros c rad inn a0 a1 e tol npo mx la dt ps ls ds H SW NE PO PI' th RG. destruct (round_inv _ _ _ _ _ _ _ _ _ _ _ _ _ H) as (np & m & e' & En & PA & M & L & _ & _ & E0 & E1 & E2 & P).
  unfold th in *. clear th. rewrite L in *. destruct (sweep_angles a0 a1 e m e' M SW E0 E2 NE) as [-> NZ]. set (th j := a0 + INR j / INR m * (e - a0)) in *. cbv zeta in P.
  exists (fun j => as_param rad (th j)), (fun j => as_param inn (th j)). split; [intros j J; exact (conj (C80_direction _ _ PO (proj1 (RG j J))) (C80_direction _ _ PI' (proj2 (RG j J))))|].
  intros j J. cbv zeta. pose proof (P j J) as Q. change (a0 + INR j / INR m * (e - a0)) with (th j) in Q. change (a0 + INR (S j) / INR m * (e - a0)) with (th (S j)) in Q. rewrite (piece_size _ _ _ _ _ _ _ _ _ Q).
  unfold round_piece in Q. rewrite max_larger in Q. assert (LP : 0 < larger inn) by (destruct PI' as [Q1 Q2]; unfold larger; eapply Rlt_le_trans; [exact Q1|apply Rmax_l]). destruct (Req_EM_T _ _) as [Z|_].
  - exfalso. apply (steps_differ a0 e m j M NZ). fold (th j). fold (th (S j)). apply (seen_once rad _ _ (as_param rad (th j)) PO); [rewrite <- Z|]; apply C80_direction; try exact PO; apply RG; lia.
  - destruct (Rle_dec (larger inn) 0) as [|_]; [lra|]. set (k := (np / m)%nat) in *. clearbody k. set (h := (k / 2)%nat) in *. clearbody h. injection Q as Q. rewrite <- Q. now rewrite !linspace_map.
Qed.
Print Assumptions C80_sections.

(** ** How far the polygons are from the borders *)

Lemma even_ellipse : forall n c r a b, (2 <= n)%nat -> positive r -> Rabs (b - a) / (2 * INR (n - 1)) <= PI / 2 ->
  traces (arc_on c r a b) (larger r * (1 - cos (Rabs (b - a) / (2 * INR (n - 1))))) (map (ellipse_at c r) (linspace a b n)).
Proof.
  intros n c r a b N [P1 P2] ST. destruct (even_steps n (0, 0) 1 a b N ltac:(lra) ST) as (T1 & T2 & T3 & T4).
  set (f := fun p : pt => (fst c + fst (semi r) * fst p, snd c + snd (semi r) * snd p)).
  assert (FE : forall t, ellipse_at c r t = f (padd (0, 0) (on_circle 1 t))) by (intro t; unfold ellipse_at, f, padd, on_circle; cbn [fst snd]; f_equal; ring).
  assert (FA : forall s, arc_on c r a b s = f (arc_at (0, 0) 1 a b s)) by (intro t; unfold arc_on, arc_at; rewrite FE; unfold on_circle; reflexivity).
  assert (FM : map (ellipse_at c r) (linspace a b n) = map f (map (fun x => padd (0, 0) (on_circle 1 x)) (linspace a b n))) by (rewrite map_map; apply map_ext; exact FE).
  rewrite FM. set (l := map (fun x => padd (0, 0) (on_circle 1 x)) (linspace a b n)) in *.
  assert (LL : length l = n) by (unfold l; now rewrite map_length, linspace_length).
  assert (NF : forall i, (i < length l)%nat -> nth i (map f l) (0, 0) = f (nth i l (0, 0))) by (intros i I; rewrite (nth_indep _ (0, 0) (f (0, 0))) by (now rewrite map_length); apply map_nth).
  split; [|split; [|split]].
  - rewrite FA, <- T1. destruct l; [cbn in LL; lia|reflexivity].
  - rewrite FA, <- T2. rewrite !last_at, map_length. apply NF. lia.
  - intros x X. apply in_map_iff in X as (y & <- & Y). destruct (T3 y Y) as (s & B & ->). exists s. split; [exact B|]. now rewrite FA.
  - intros s B. destruct (T4 s B) as (i & k & I & K & D). exists i, k. rewrite map_length. split; [exact I|]. split; [exact K|]. rewrite !NF by lia. rewrite FA.
    set (p := arc_at (0, 0) 1 a b s) in *. set (p1 := nth i l (0, 0)) in *. set (p2 := nth (S i) l (0, 0)) in *. clearbody p p1 p2.
    set (g := 1 - cos _) in *. clearbody g. rewrite Rmult_1_l in D. rewrite dist_dot in *. unfold f, padd, smul in *. cbn [fst snd] in *.
    set (dx := fst p - ((1 - k) * fst p1 + k * fst p2)) in *. set (dy := snd p - ((1 - k) * snd p1 + k * snd p2)) in *.
    pose proof (Rmax_l (fst (semi r)) (snd (semi r))) as L1. pose proof (Rmax_r (fst (semi r)) (snd (semi r))) as L2. fold (larger r) in L1, L2.
    set (rx := fst (semi r)) in *. set (ry := snd (semi r)) in *. set (big := larger r) in *. clearbody big rx ry.
    match goal with |- ?u ^ 2 + ?v ^ 2 <= _ => replace u with (rx * dx) by (unfold dx; ring); replace v with (ry * dy) by (unfold dy; ring) end. clearbody dx dy.
    assert (Q1 : rx * rx <= big * big) by nra. assert (Q2 : ry * ry <= big * big) by nra. pose proof (pow2_ge_0 dx). pose proof (pow2_ge_0 dy).
    replace ((rx * dx) ^ 2) with (rx * rx * dx ^ 2) by ring. replace ((ry * dy) ^ 2) with (ry * ry * dy ^ 2) by ring. replace ((big * g) ^ 2) with (big * big * g ^ 2) by ring. nra.
Qed.

Lemma count_bound : forall half tol r n, arc_count 3 half tol r = Some n -> 0 < r -> 0 <= half ->
  let al := acos (1 - tol / r) in (3 <= n)%nat /\ 0 < al <= PI /\ r * (1 - cos al) = tol /\ half < (INR n - / 2) * al.
Proof.
  intros half tol r n H R0 H0. unfold arc_count in H. destruct (Req_EM_T r 0) as [|_]; [discriminate|]. destruct (Rlt_dec (1 - tol / r) (-1)) as [|L1]; [discriminate|].
  destruct (Rlt_dec (1 - tol / r) 1) as [L2|]; [|discriminate]. cbn zeta.
  assert (CA : cos (acos (1 - tol / r)) = 1 - tol / r) by (apply cos_acos; lra).
  pose proof (acos_bound (1 - tol / r)) as AB. set (al := acos (1 - tol / r)) in *.
  assert (A0 : 0 < al). { destruct (Req_dec al 0) as [Z|]; [rewrite Z, cos_0 in CA; lra|lra]. }
  set (x := half / al) in *. assert (X0 : 0 <= x) by (unfold x, Rdiv; apply Rmult_le_pos; [exact H0|left; now apply Rinv_0_lt_compat]).
  destruct (base_Int_part (x + / 2)) as [B1 B2]. set (z := Int_part (x + / 2)) in *. assert (Z0 : (0 <= z)%Z). { assert (-1 < z)%Z; [|lia]. apply lt_IZR. lra. }
  set (zn := Z.to_nat z) in *. assert (En : n = Nat.max 3 (1 + zn)) by congruence. clear H. split; [lia|]. split; [lra|]. split; [rewrite CA; field; lra|].
  assert (Zn : INR zn = IZR z) by (unfold zn; rewrite INR_IZR_INZ, Z2Nat.id; auto). assert (Nn : INR (1 + zn) <= INR n) by (apply le_INR; lia). rewrite plus_INR, Zn in Nn. change (INR 1) with 1 in Nn.
  assert (half = x * al) by (unfold x; field; lra). assert (x < INR n - / 2) by lra. nra.
Qed.
Lemma sag : forall big al tol s x, 0 < big -> big * (1 - cos al) = tol -> 0 <= al <= PI -> 1 <= s -> s * al <= PI -> 0 <= x <= s * al -> 0 <= big * (1 - cos x) <= s ^ 2 * tol.
Proof.
  intros big al tol s x B E A S1 S2 X. pose proof (COS_bound x). split; [nra|]. pose proof PI_RGT_0. pose proof (cos_scale s al S1 ltac:(lra) ltac:(lra)) as C.
  assert (cos (s * al) <= cos x) by (apply cos_decr_1; lra). rewrite <- E. replace (s ^ 2 * (big * (1 - cos al))) with (big * (s ^ 2 * (1 - cos al))) by ring. apply Rmult_le_compat_l; lra.
Qed.
Lemma half_pi : forall big al tol s, 0 < big -> big * (1 - cos al) = tol -> 0 <= al <= PI -> 1 <= s -> s * al <= PI -> s ^ 2 * tol <= big -> s * al <= PI / 2.
Proof.
  intros big al tol s B E A S1 S2 T. destruct (Rle_lt_dec (s * al) (PI / 2)) as [|G]; [assumption|exfalso]. pose proof PI_RGT_0.
  destruct (sag big al tol s (s * al) B E A S1 S2 ltac:(lra)) as [_ L].
  assert (cos (s * al) < 0) by (apply cos_lt_0; lra). nra.
Qed.
(** The border of a disc in one piece is nowhere further than the tolerance from the
    outline of the polygon, whether it is a circle or an ellipse. *)
Theorem C80_disc_tolerance : forall c rad inn a tol mx la dt q ls ds, round c rad inn a a tol None mx la dt = Some ([q], ls, ds) -> larger inn <= 0 -> positive rad ->
  forall t, near (outline q) tol (ellipse_at c rad t).
Proof.
  intros c rad inn a tol mx la dt q ls ds H I PO t. pose proof (C80_disc _ _ _ _ _ _ _ _ _ _ _ _ H I) as Q.
  destruct (round_inv _ _ _ _ _ _ _ _ _ _ _ _ _ H) as (np & m & e & En & PA & M & L & _ & _ & _ & _ & _ & P). cbn [length] in L. subst m. specialize (P 0%nat M). cbn [nth] in P.
  apply piece_size in P. rewrite Nat.div_1_r in P. rewrite P in Q. clear P PA M H.
  unfold round_points in En. destruct (Req_EM_T a a) as [_|]; [|congruence]. rewrite !max_larger in En.
  assert (BP : 0 < larger rad) by (destruct PO as [P1 _]; unfold larger; eapply Rlt_le_trans; [exact P1|apply Rmax_l]).
  pose proof PI_RGT_0 as PP. destruct (arc_count 3 (/ 2 * (2 * PI)) tol (larger rad)) as [n|] eqn:En'; [|discriminate]. destruct (Rlt_dec 0 (larger inn)) as [|_]; [lra|]. injection En as <-.
  destruct (count_bound _ _ _ _ En' BP ltac:(lra)) as (N3 & A0 & AT & HB). set (al := acos _) in *. clearbody al.
  assert (Np : 3 <= INR n) by (replace 3 with (INR 3) by (cbn; ring); now apply le_INR).
  assert (OQ : outline q = map (ellipse_at c rad) (linspace 0 (2 * PI) (S n))).
  { unfold outline. unfold linspace. rewrite seq_S, !map_app, map_map. cbn [map Nat.add]. f_equal.
    - rewrite Q at 1. apply map_ext. intro i. f_equal. replace (S n - 1)%nat with n by lia. field. lra.
    - f_equal. rewrite Q. destruct n as [|n]; [lia|]. cbn [seq map hd]. unfold ellipse_at. replace (S (S n) - 1)%nat with (S n) by lia.
      replace (INR 0 / INR (S n) * (2 * PI)) with 0 by (change (INR 0) with 0; unfold Rdiv; ring). replace (0 + INR (S n) * ((2 * PI - 0) / INR (S n))) with (2 * PI) by (field; lra).
      now rewrite cos_0, sin_0, cos_2PI, sin_2PI. }
  rewrite OQ. assert (SB : Rabs (2 * PI - 0) / (2 * INR (S n - 1)) = PI / INR n) by (rewrite Rabs_pos_eq by lra; replace (S n - 1)%nat with n by lia; field; lra).
  assert (S1 : PI / INR n <= al). { apply (Rmult_le_reg_r (INR n)); [lra|]. unfold Rdiv. rewrite Rmult_assoc, Rinv_l by lra. nra. }
  assert (S2 : PI / INR n <= PI / 2). { apply Rmult_le_compat_l; [lra|]. apply Rinv_le_contravar; lra. }
  assert (S0 : 0 <= PI / INR n) by (apply Rmult_le_pos; [lra|left; apply Rinv_0_lt_compat; lra]).
  pose proof (even_ellipse (S n) c rad 0 (2 * PI) ltac:(lia) PO) as T. rewrite SB in T. specialize (T S2).
  assert (W : 0 <= larger rad * (1 - cos (PI / INR n)) <= tol). { destruct (sag (larger rad) al tol 1 (PI / INR n) BP AT ltac:(lra) ltac:(lra) ltac:(lra) ltac:(lra)). lra. }
  destruct (traces_weaken _ _ _ _ T W) as (_ & _ & _ & D). destruct (pymod_ok (t - PI)) as (z & Z1 & Z2). set (b := pymod (t - PI + PI) (2 * PI) - PI) in *.
  specialize (D ((b + PI) / (2 * PI))). unfold arc_on in D. replace (0 + (b + PI) / (2 * PI) * (2 * PI - 0)) with (b + PI) in D by (field; lra).
  assert (ET : ellipse_at c rad t = ellipse_at c rad (b + PI)). { destruct (turns z (b + PI)) as [Tc Ts]. unfold ellipse_at. rewrite <- Tc, <- Ts. replace (b + PI + IZR z * (2 * PI)) with t by lra. reflexivity. }
  rewrite ET. apply D. split; [apply Rmult_le_pos; [lra|left; apply Rinv_0_lt_compat; lra]|]. apply (Rmult_le_reg_r (2 * PI)); [lra|]. unfold Rdiv. rewrite Rmult_assoc, Rinv_l by lra. lra.
Qed.
Print Assumptions C80_disc_tolerance.
(** A whole ring in one piece: both borders within 25/16 of the tolerance. *)
Theorem C80_ring_tolerance : forall c rad inn a tol mx la dt q ls ds, round c rad inn a a tol None mx la dt = Some ([q], ls, ds) ->
  positive rad -> positive inn -> larger inn <= larger rad -> tol <= larger rad / 2 ->
  exists A B, q = A ++ B /\ traces (arc_on c rad 0 (2 * PI)) (25 / 16 * tol) A /\ traces (arc_on c inn 0 (- (2 * PI))) (25 / 16 * tol) B.
Proof.
  intros c rad inn a tol mx la dt q ls ds H PO PN LE TL.
  assert (LI : 0 < larger inn) by (destruct PN as [P1 _]; unfold larger; eapply Rlt_le_trans; [exact P1|apply Rmax_l]).
  destruct (C80_ring _ _ _ _ _ _ _ _ _ _ _ _ H LI) as (N2 & Q). cbn zeta in N2, Q.
  destruct (round_inv _ _ _ _ _ _ _ _ _ _ _ _ _ H) as (np & m & e & En & PA & M & L & _ & _ & _ & _ & _ & P). cbn [length] in L. subst m. specialize (P 0%nat M). cbn [nth] in P.
  apply piece_size in P. rewrite Nat.div_1_r in P. rewrite P in Q, N2. clear P PA M H.
  unfold round_points in En. destruct (Req_EM_T a a) as [_|]; [|congruence]. rewrite !max_larger in En.
  assert (BP : 0 < larger rad) by lra.
  pose proof PI_RGT_0 as PP. destruct (arc_count 3 (/ 2 * (2 * PI)) tol (larger rad)) as [n|] eqn:En'; [|discriminate]. destruct (Rlt_dec 0 (larger inn)) as [_|]; [|lra]. assert (En2 : np = (n * 2)%nat) by congruence. clear En. subst np.
  rewrite Nat.div_mul in Q, N2 by lia. replace (n * 2 - n)%nat with n in Q by lia.
  destruct (count_bound _ _ _ _ En' BP ltac:(lra)) as (N3 & A0 & AT & HB). set (al := acos _) in *. clearbody al.
  assert (Np : 3 <= INR n) by (replace 3 with (INR 3) by (cbn; ring); now apply le_INR).
  assert (Nm : INR (n - 1) = INR n - 1) by (rewrite minus_INR by lia; reflexivity).
  assert (A3 : al <= PI / 3).
  { apply Rnot_lt_le. intro Z. assert (cos al < cos (PI / 3)) by (apply cos_decreasing_1; lra). rewrite cos_PI3 in *. nra. }
  set (s := 2 * PI / (2 * INR (n - 1))). assert (S1 : s <= 5 / 4 * al).
  { unfold s. rewrite Nm. apply (Rmult_le_reg_r (2 * (INR n - 1))); [lra|]. unfold Rdiv at 1. rewrite Rmult_assoc, Rinv_l by lra. nra. }
  assert (S0 : 0 <= s) by (unfold s; apply Rmult_le_pos; [lra|left; apply Rinv_0_lt_compat; lra]).
  destruct (sag (larger rad) al tol (5 / 4) s BP AT ltac:(lra) ltac:(lra) ltac:(lra) ltac:(lra)) as [_ W].
  replace ((5 / 4) ^ 2 * tol) with (25 / 16 * tol) in W by field. pose proof (COS_bound s) as CB.
  exists (map (ellipse_at c rad) (linspace 0 (2 * PI) n)), (map (ellipse_at c inn) (linspace 0 (- (2 * PI)) n)). split; [exact Q|]. split.
  - eapply traces_weaken; [apply even_ellipse; [lia|exact PO|]|]; rewrite Rminus_0_r, Rabs_pos_eq by lra; fold s; [lra|]. split; [nra|exact W].
  - eapply traces_weaken; [apply even_ellipse; [lia|exact PN|]|]; rewrite Rminus_0_r, Rabs_Ropp, Rabs_pos_eq by lra; fold s; [lra|]. split; [nra|]. eapply Rle_trans; [|exact W]. apply Rmult_le_compat_r; lra.
Qed.
Print Assumptions C80_ring_tolerance.
Lemma seen_circle : forall r a t, 0 < r -> seen (Circle r) a t -> t = a.
Proof.
  intros r a t R0 S. symmetry. apply (seen_param (Circle r) a); [split; exact R0| |exact S]. exact (C80_direction (Circle r) a (conj R0 R0) I).
Qed.
(** Sections of a circular ring: both borders within 25/16 of the tolerance. *)
Theorem C80_sections_tolerance : forall c r r' a0 a1 e tol mx la dt ps ls ds, round c (Circle r) (Circle r') a0 a1 tol None mx la dt = Some (ps, ls, ds) ->
  0 < r' <= r -> 0 < tol -> tol <= r / 2 -> mx = 0%nat \/ (50 <= mx)%nat -> sweep a0 a1 e -> a1 <> a0 \/ length ps <> 1%nat ->
  let th j := a0 + INR j / INR (length ps) * (e - a0) in
  forall j, (j < length ps)%nat -> exists A B, nth j ps [] = A ++ B /\
    traces (arc_on c (Circle r) (th j) (th (S j))) (25 / 16 * tol) A /\ traces (arc_on c (Circle r') (th (S j)) (th j)) (25 / 16 * tol) B.
Proof.
  intros c r r' a0 a1 e tol mx la dt ps ls ds H [R0 RR] T0 TL MX SW NE th j J. pose proof PI_RGT_0 as PP.
  assert (PO : positive (Circle r)) by (split; cbn; lra). assert (PN : positive (Circle r')) by (split; cbn; lra).
  destruct (C80_sections _ _ _ _ _ _ _ _ _ _ _ _ _ _ H SW NE PO PN (fun _ _ => conj I I)) as (t & u & TU & Q). specialize (Q j J). cbv zeta in Q.
  assert (TE : forall i, (i <= length ps)%nat -> t i = th i /\ u i = th i) by (intros i Hi; destruct (TU i Hi) as [X Y]; split; [exact (seen_circle r _ _ ltac:(lra) X)|exact (seen_circle r' _ _ R0 Y)]).
  destruct (TE j ltac:(lia)) as [Tj Uj]. destruct (TE (S j) ltac:(lia)) as [Tj' Uj']. rewrite Tj, Tj', Uj, Uj' in Q.
  destruct (round_inv _ _ _ _ _ _ _ _ _ _ _ _ _ H) as (np & m & e' & En & PA & M & L & _ & _ & E0 & _ & E2 & P). rewrite L in J.
  rewrite (piece_size _ _ _ _ _ _ _ _ _ (P j J)) in Q. unfold th in *. clear th. rewrite L in *. clear P H TU TE.
  destruct (sweep_angles a0 a1 e m e' M SW E0 E2 NE) as [-> NZ]. clear E0 E2.
  assert (FA : (if Req_EM_T a1 a0 then 2 * PI else Rabs (a1 - a0)) = Rabs (e - a0)).
  { destruct SW as [[N ->]|[N ->]]; destruct (Req_EM_T a1 a0); try contradiction; [reflexivity|]. rewrite Rabs_pos_eq; lra. }
  unfold round_points in En. rewrite FA in En. cbn [rad_max] in En. destruct (arc_count 3 (/ 2 * Rabs (e - a0)) tol r) as [n|] eqn:En'; [|discriminate].
  destruct (Rlt_dec 0 r') as [_|]; [|lra]. assert (En2 : np = (n * 2)%nat) by congruence. clear En. subst np.
  assert (AU : auto_points tol r a0 e = Some (n * 2)%nat).
  { unfold arc_count in En'. unfold auto_points. destruct (Req_EM_T r 0); [lra|]. destruct (Rlt_dec (1 - tol / r) (-1)); [discriminate|]. destruct (Rlt_dec (1 - tol / r) 1); [|discriminate].
    destruct (Rle_dec (-1) (1 - tol / r)); [|lra]. set (z := Z.to_nat _) in *. assert (n = Nat.max 3 (1 + z)) by congruence. f_equal. lia. }
  destruct (half_angle tol r a0 e _ mx m AU MX PA M T0 TL) as [K4 HA]. set (k := (n * 2 / m)%nat) in *. clearbody k.
  destruct (count_bound _ _ _ _ En' ltac:(lra) ltac:(pose proof (Rabs_pos (e - a0)); lra)) as (N3 & A0 & AT & HB). set (al := acos _) in *. clearbody al.
  assert (A3 : al <= PI / 3).
  { apply Rnot_lt_le. intro Z. assert (cos al < cos (PI / 3)) by (apply cos_decreasing_1; lra). rewrite cos_PI3 in *. nra. }
  assert (H2 : (2 <= k / 2)%nat) by (apply Nat.div_le_lower_bound; lia). pose proof (Nat.mul_div_le k 2 ltac:(lia)) as H3. set (h := (k / 2)%nat) in *. clearbody h.
  assert (PM : 0 < INR m) by (now apply lt_0_INR). assert (PH : 0 < INR (h - 1)) by (apply lt_0_INR; lia).
  assert (PK : INR (h - 1) <= INR (k - h - 1)) by (apply le_INR; lia).
  set (b0 := a0 + INR j / INR m * (e - a0)) in *. set (b1 := a0 + INR (S j) / INR m * (e - a0)) in *.
  assert (BB : Rabs (b1 - b0) = Rabs (e - a0) / INR m).
  { replace (b1 - b0) with ((e - a0) * / INR m) by (unfold b0, b1; rewrite S_INR; field; lra). rewrite Rabs_mult, (Rabs_pos_eq (/ INR m)) by (left; now apply Rinv_0_lt_compat). reflexivity. }
  assert (S1 : Rabs (b1 - b0) / (2 * INR (h - 1)) <= 5 / 4 * al) by (rewrite BB; replace (Rabs (e - a0) / INR m / (2 * INR (h - 1))) with (Rabs (e - a0) / (2 * INR m * INR (h - 1))) by (field; lra); exact HA).
  assert (S2 : Rabs (b1 - b0) / (2 * INR (k - h - 1)) <= Rabs (b1 - b0) / (2 * INR (h - 1))) by (apply Rmult_le_compat_l; [apply Rabs_pos|apply Rinv_le_contravar; lra]).
  assert (S3 : forall d, 0 < d -> 0 <= Rabs (b1 - b0) / (2 * d)) by (intros d D; apply Rmult_le_pos; [apply Rabs_pos|left; apply Rinv_0_lt_compat; lra]).
  assert (W : forall x, 0 <= x <= 5 / 4 * al -> 0 <= r * (1 - cos x) <= 25 / 16 * tol).
  { intros x X. destruct (sag r al tol (5 / 4) x ltac:(lra) AT ltac:(lra) ltac:(lra) ltac:(lra) X). split; lra. }
  assert (LL : forall x, larger (Circle x) = x) by (intro x; unfold larger; cbn; apply Rmax_left; lra).
  exists (map (ellipse_at c (Circle r)) (linspace b0 b1 (k - h))), (map (ellipse_at c (Circle r')) (linspace b1 b0 h)). split; [exact Q|]. split.
  - eapply traces_weaken; [apply even_ellipse; [lia|exact PO|lra]|]. rewrite LL. apply W. split; [apply S3; lra|lra].
  - eapply traces_weaken; [apply even_ellipse; [lia|exact PN|rewrite Rabs_minus_sym; lra]|]. rewrite LL, Rabs_minus_sym. set (x := Rabs (b1 - b0) / (2 * INR (h - 1))) in *.
    pose proof (COS_bound x). destruct (W x) as [W1 W2]; [split; [apply S3; lra|lra]|]. split; [nra|]. eapply Rle_trans; [|exact W2]. apply Rmult_le_compat_r; lra.
Qed.
Print Assumptions C80_sections_tolerance.
(** Slices of a circle: a slice has one point less on the border, and its border may be
    up to 25/4 of the tolerance away. *)
Theorem C80_slices_tolerance : forall c r inn a0 a1 e tol mx la dt ps ls ds, round c (Circle r) inn a0 a1 tol None mx la dt = Some (ps, ls, ds) ->
  larger inn <= 0 -> 0 < r -> tol <= 4 / 25 * r -> mx = 0%nat \/ (50 <= mx)%nat -> sweep a0 a1 e -> a1 <> a0 \/ length ps <> 1%nat ->
  let th j := a0 + INR j / INR (length ps) * (e - a0) in
  forall j, (j < length ps)%nat -> exists A, nth j ps [] = c :: A /\ traces (arc_on c (Circle r) (th j) (th (S j))) (25 / 4 * tol) A.
Proof.
  intros c r inn a0 a1 e tol mx la dt ps ls ds H LI R0 TL MX SW NE th j J. pose proof PI_RGT_0 as PP.
  assert (PO : positive (Circle r)) by (split; cbn; lra).
  destruct (C80_slices _ _ _ _ _ _ _ _ _ _ _ _ _ _ H LI SW NE PO (fun _ _ => I)) as (t & TU & Q). specialize (Q j J). cbv zeta in Q.
  rewrite (seen_circle r _ _ R0 (TU j ltac:(lia))), (seen_circle r _ _ R0 (TU (S j) ltac:(lia))) in Q.
  destruct (round_inv _ _ _ _ _ _ _ _ _ _ _ _ _ H) as (np & m & e' & En & PA & M & L & _ & _ & E0 & _ & E2 & P). rewrite L in J.
  rewrite (piece_size _ _ _ _ _ _ _ _ _ (P j J)) in Q. unfold th in *. clear th. rewrite L in *. clear P H TU.
  destruct (sweep_angles a0 a1 e m e' M SW E0 E2 NE) as [-> NZ]. clear E0 E2.
  assert (FA : (if Req_EM_T a1 a0 then 2 * PI else Rabs (a1 - a0)) = Rabs (e - a0)).
  { destruct SW as [[N ->]|[N ->]]; destruct (Req_EM_T a1 a0); try contradiction; [reflexivity|]. rewrite Rabs_pos_eq; lra. }
  unfold round_points in En. rewrite FA in En. cbn [rad_max] in En. destruct (arc_count 3 (/ 2 * Rabs (e - a0)) tol r) as [n|] eqn:En'; [|discriminate].
  rewrite max_larger in En. destruct (Rlt_dec 0 (larger inn)) as [|_]; [lra|]. injection En as <-.
  destruct (count_bound _ _ _ _ En' R0 ltac:(pose proof (Rabs_pos (e - a0)); lra)) as (N3 & A0 & AT & HB). set (al := acos _) in *. clearbody al.
  set (k := (n / m)%nat) in *. assert (KK : (3 <= k)%nat /\ INR n - / 2 <= 5 / 2 * (INR m * INR (k - 2))).
  { destruct (Nat.eq_dec m 1) as [->|M1].
    - unfold k. rewrite Nat.div_1_r. split; [exact N3|]. rewrite minus_INR by lia. apply le_INR in N3. replace (INR 3) with 3 in N3 by (cbn; ring). replace (INR 2) with 2 by (cbn; ring). change (INR 1) with 1. lra.
    - destruct mx as [|mx]; [unfold parts in PA; lia|]. destruct MX as [|MX]; [discriminate|]. unfold parts in PA. set (x := S mx) in *. clearbody x.
      assert (X1 : (50 * (m - 1) < n)%nat) by nia. pose proof (Nat.div_mod n m ltac:(lia)) as D1. pose proof (Nat.mod_upper_bound n m ltac:(lia)) as U1. fold k in D1. clearbody k.
      assert (K25 : (25 <= k)%nat) by nia. split; [lia|]. assert (LB : (2 * n <= 5 * (m * (k - 2)))%nat) by nia. apply le_INR in LB. rewrite !mult_INR in LB.
      replace (INR 5) with 5 in LB by (cbn; ring). replace (INR 2) with 2 in LB by (cbn; ring). lra. }
  destruct KK as [K3 KB]. clearbody k.
  assert (PM : 0 < INR m) by (now apply lt_0_INR). assert (PH : 0 < INR (k - 2)) by (apply lt_0_INR; lia).
  assert (A3 : al < PI / 3).
  { apply Rnot_le_lt. intro Z. assert (cos al <= cos (PI / 3)) by (apply cos_decr_1; lra). rewrite cos_PI3 in *. nra. }
  pose proof (half_pi r al tol (5 / 2) R0 AT ltac:(lra) ltac:(lra) ltac:(lra) ltac:(lra)) as HP.
  set (b0 := a0 + INR j / INR m * (e - a0)) in *. set (b1 := a0 + INR (S j) / INR m * (e - a0)) in *.
  assert (BB : Rabs (b1 - b0) = Rabs (e - a0) / INR m).
  { replace (b1 - b0) with ((e - a0) * / INR m) by (unfold b0, b1; rewrite S_INR; field; lra). rewrite Rabs_mult, (Rabs_pos_eq (/ INR m)) by (left; now apply Rinv_0_lt_compat). reflexivity. }
  replace (k - 1 - 1)%nat with (k - 2)%nat in * by lia.
  assert (S1 : 0 <= Rabs (b1 - b0) / (2 * INR (k - 2)) <= 5 / 2 * al).
  { split; [apply Rmult_le_pos; [apply Rabs_pos|left; apply Rinv_0_lt_compat; lra]|]. rewrite BB. assert (PMK : 0 < INR m * INR (k - 2)) by nra.
    replace (Rabs (e - a0) / INR m / (2 * INR (k - 2))) with (/ 2 * Rabs (e - a0) / (INR m * INR (k - 2))) by (field; lra).
    apply (Rmult_le_reg_r (INR m * INR (k - 2))); [exact PMK|]. unfold Rdiv at 1. rewrite Rmult_assoc, Rinv_l by lra. set (w := INR m * INR (k - 2)) in *. clearbody w. nra. }
  assert (LL : larger (Circle r) = r) by (unfold larger; cbn; apply Rmax_left; lra).
  exists (map (ellipse_at c (Circle r)) (linspace b0 b1 (k - 1))). split; [exact Q|].
  eapply traces_weaken; [apply even_ellipse; [lia|exact PO|replace (k - 1 - 1)%nat with (k - 2)%nat by lia; lra]|]. replace (k - 1 - 1)%nat with (k - 2)%nat by lia. rewrite LL.
  destruct (sag r al tol (5 / 2) _ R0 AT ltac:(lra) ltac:(lra) ltac:(lra) S1). split; [assumption|lra].
Qed.
Print Assumptions C80_slices_tolerance.

(** ** What goes wrong *)

Lemma slice_three : forall c rad a0 a1 tol, round_points rad (Circle 0) a0 a1 tol None = Some 3%nat -> a1 <> a0 -> as_param rad a1 <> as_param rad a0 ->
  round c rad (Circle 0) a0 a1 tol None 199 0 0 = Some ([[c; ellipse_at c rad (as_param rad a0); ellipse_at c rad (as_param rad a1)]], [0%Z], [0%Z]).
Proof.
  intros c rad a0 a1 tol RP NE NP. unfold round. rewrite RP. cbn [piece_count]. replace (3 + (199 - 1))%nat with 201%nat by reflexivity. change (201 / 199)%nat with 1%nat. cbn [Nat.eqb Nat.ltb Nat.leb]. change (3 / 1)%nat with 3%nat.
  destruct (Req_EM_T a1 a0); [contradiction|]. cbn [seq map all_some Nat.add repeat]. unfold linspace, at_. cbn [seq map nth Nat.sub INR].
  replace (a0 + 0 * ((a1 - a0) / 1)) with a0 by field. replace (a0 + 1 * ((a1 - a0) / 1)) with a1 by field.
  unfold round_piece. destruct (Req_EM_T _ _) as [Z|_]; [contradiction|]. cbn [rad_max]. destruct (Rle_dec 0 0) as [_|]; [|lra]. cbn [Nat.eqb Nat.sub option_map]. unfold linspace. cbn [seq map INR Nat.sub].
  rewrite !at_point. set (p0 := as_param rad a0). set (p1 := as_param rad a1). replace (p0 + 0 * ((p1 - p0) / 1)) with p0 by field. replace (p0 + 1 * ((p1 - p0) / 1)) with p1 by field. reflexivity.
Qed.
(** A slice of a circle whose border is more than three times the tolerance away. *)
Theorem C80_slices_tolerance_refuted : forall c r tol, 0 < tol -> tol <= r / 4 -> exists a1 q x,
  round c (Circle r) (Circle 0) 0 a1 tol None 199 0 0 = Some ([q], [0%Z], [0%Z]) /\ 0 <= x <= 1 /\ ~ near (outline q) (3 * tol) (arc_on c (Circle r) 0 a1 x).
Proof.
  intros c r tol T0 TL. pose proof PI_RGT_0 as PP. destruct (alpha_ok tol r T0 ltac:(lra)) as [[A0 A3] AT]. rewrite sqrt_sq in * by lra. rewrite Rmax_left in * by lra.
  assert (RP : round_points (Circle r) (Circle 0) 0 (4 * acos (1 - tol / r)) tol None = Some 3%nat).
  { unfold round_points, arc_count. cbn [rad_max]. assert (Q : 0 < tol / r <= / 4).
    { split; [apply Rdiv_lt_0_compat; lra|]. apply (Rmult_le_reg_r r); [lra|]. unfold Rdiv. rewrite Rmult_assoc, Rinv_l by lra. lra. }
    destruct (Req_EM_T (4 * _) 0) as [Z|_]; [lra|]. destruct (Req_EM_T r 0); [lra|]. destruct (Rlt_dec (1 - tol / r) (-1)); [lra|]. destruct (Rlt_dec (1 - tol / r) 1); [|lra]. destruct (Rlt_dec 0 0); [lra|].
    set (al := acos _) in *. clearbody al. rewrite Rminus_0_r, Rabs_pos_eq by lra. replace (/ 2 * (4 * al) / al + / 2) with (5 / 2) by (field; lra).
    replace (Int_part (5 / 2)) with 2%Z; [reflexivity|]. symmetry. unfold Int_part. rewrite <- (tech_up (5 / 2) 3); [reflexivity| |]; lra. }
  set (al := acos _) in *. clearbody al. exists (4 * al). eexists. exists (/ 2). split; [apply slice_three; [exact RP|lra|cbn [as_param]; lra]|]. split; [lra|]. cbn [as_param].
  assert (C2 : cos (2 * al) = 2 * cos al * cos al - 1) by apply cos_2a_cos. assert (CA : 3 / 4 <= cos al) by nra.
  apply (half_far _ c (2 * al) (r * cos (2 * al)) r).
  - assert (U : forall t, t = 0 \/ t = 4 * al -> (fst (ellipse_at c (Circle r) t) - fst c) * cos (2 * al) + (snd (ellipse_at c (Circle r) t) - snd c) * sin (2 * al) <= r * cos (2 * al)).
    { intros t Ht. unfold ellipse_at. cbn [semi fst snd]. replace ((fst c + r * cos t - fst c) * cos (2 * al) + (snd c + r * sin t - snd c) * sin (2 * al)) with (r * cos (t - 2 * al)) by (rewrite cos_minus; ring).
      destruct Ht as [->| ->]; [replace (0 - 2 * al) with (- (2 * al)) by ring; rewrite cos_neg|replace (4 * al - 2 * al) with (2 * al) by ring]; lra. }
    assert (C0 : (fst c - fst c) * cos (2 * al) + (snd c - snd c) * sin (2 * al) <= r * cos (2 * al)) by (rewrite C2; nra).
    intros p P. cbn [outline app hd In] in P. destruct P as [<-|[<-|[<-|[<-|[]]]]]; try exact C0; apply U; auto.
  - unfold arc_on, ellipse_at. cbn [semi fst snd]. replace (0 + / 2 * (4 * al - 0)) with (2 * al) by field. pose proof (sin2_cos2 (2 * al)) as S. unfold Rsqr in S.
    transitivity (r * (sin (2 * al) * sin (2 * al) + cos (2 * al) * cos (2 * al))); [ring|rewrite S; ring].
  - lra.
  - rewrite C2. rewrite <- AT. pose proof (COS_bound al). assert (0 < 1 - cos al) by nra. nra.
Qed.
Print Assumptions C80_slices_tolerance_refuted.
(** For slices of ellipses there is no bound at all: the number of points is chosen for
    the angle that is seen, and the border may be a third of the half axis away, whatever
    the tolerance. *)
Theorem C80_ellipse_tolerance_refuted : forall c rx tol, 0 < tol -> tol <= rx / 2 -> exists ry a q, 0 < ry <= rx /\ 0 < a < PI / 2 /\
  round c (Ellipse rx ry) (Circle 0) (- a) a tol None 199 0 0 = Some ([q], [0%Z], [0%Z]) /\ seen (Ellipse rx ry) 0 0 /\ ~ near (outline q) (rx / 3) (ellipse_at c (Ellipse rx ry) 0).
Proof.
  intros c rx tol T0 TL. pose proof PI_RGT_0 as PP. destruct (alpha_ok tol rx T0 ltac:(lra)) as [[A0 A3] AT]. rewrite sqrt_sq in * by lra. rewrite Rmax_left in * by lra.
  set (al := acos (1 - tol / rx)) in *. assert (Cl : 1 / 2 <= cos al) by (rewrite <- cos_PI3; apply cos_decr_1; lra). assert (Sl : 0 < sin al) by (apply sin_gt_0; lra).
  assert (S3 : 0 < sqrt 3) by (apply sqrt_lt_R0; lra). assert (S33 : sqrt 3 * sqrt 3 = 3) by (apply sqrt_sqrt; lra).
  assert (SB : sin al <= sqrt 3 / 2) by (rewrite <- sin_PI3; apply sin_incr_1; lra).
  set (ry := rx * (sin al / cos al) / sqrt 3). exists ry, al.
  assert (RY : 0 < ry <= rx).
  { unfold ry. split; [apply Rdiv_lt_0_compat; [apply Rmult_lt_0_compat; [lra|apply Rdiv_lt_0_compat; lra]|lra]|].
    apply (Rmult_le_reg_r (cos al * sqrt 3)); [nra|]. replace (rx * (sin al / cos al) / sqrt 3 * (cos al * sqrt 3)) with (rx * sin al) by (field; lra). apply Rmult_le_compat_l; [lra|]. nra. }
  assert (PO : positive (Ellipse rx ry)) by (split; cbn; lra).
  assert (SP : seen (Ellipse rx ry) al (PI / 3)).
  { split; [|apply Rabs_def1; lra]. exists (rx / (2 * cos al)). split; [apply Rdiv_lt_0_compat; lra|]. cbn [semi fst snd]. rewrite cos_PI3, sin_PI3. unfold ry. split; field; lra. }
  assert (SM : seen (Ellipse rx ry) (- al) (- (PI / 3))).
  { split; [|apply Rabs_def1; lra]. exists (rx / (2 * cos al)). split; [apply Rdiv_lt_0_compat; lra|]. cbn [semi fst snd]. rewrite !cos_neg, !sin_neg, cos_PI3, sin_PI3. unfold ry. split; field; lra. }
  assert (GP : as_param (Ellipse rx ry) al = PI / 3) by (apply (seen_param (Ellipse rx ry) al); [exact PO|apply C80_direction; [exact PO|cbn; lra]|exact SP]).
  assert (GM : as_param (Ellipse rx ry) (- al) = - (PI / 3)) by (apply (seen_param (Ellipse rx ry) (- al)); [exact PO|apply C80_direction; [exact PO|cbn; rewrite cos_neg; lra]|exact SM]).
  assert (RP : round_points (Ellipse rx ry) (Circle 0) (- al) al tol None = Some 3%nat).
  { unfold round_points, arc_count. cbn [rad_max]. rewrite Rmax_left by lra. assert (Q : 0 < tol / rx <= / 2).
    { split; [apply Rdiv_lt_0_compat; lra|]. apply (Rmult_le_reg_r rx); [lra|]. unfold Rdiv. rewrite Rmult_assoc, Rinv_l by lra. lra. }
    destruct (Req_EM_T al (- al)) as [Z|_]; [lra|]. destruct (Req_EM_T rx 0); [lra|]. destruct (Rlt_dec (1 - tol / rx) (-1)); [lra|]. destruct (Rlt_dec (1 - tol / rx) 1); [|lra]. destruct (Rlt_dec 0 0); [lra|].
    fold al. rewrite Rabs_pos_eq by lra. replace (/ 2 * (al - - al) / al + / 2) with (3 / 2) by (field; lra).
    replace (Int_part (3 / 2)) with 1%Z; [reflexivity|]. symmetry. unfold Int_part. rewrite <- (tech_up (3 / 2) 2); [reflexivity| |]; lra. }
  eexists. split; [exact RY|]. split; [lra|]. split; [apply slice_three; [exact RP|lra|rewrite GP, GM; lra]|]. split.
  - split; [|rewrite Rminus_0_r, Rabs_R0; lra]. exists rx. rewrite cos_0, sin_0. cbn [semi fst snd]. repeat split; lra.
  - rewrite GP, GM. apply (half_far _ c 0 (rx / 2) rx).
    + intros p P. rewrite cos_0, sin_0. cbn [outline app hd In] in P. unfold ellipse_at in P. cbn [semi fst snd] in P. rewrite cos_neg, cos_PI3 in P.
      destruct P as [<-|[<-|[<-|[<-|[]]]]]; cbn [fst snd]; lra.
    + unfold ellipse_at. cbn [semi fst snd]. rewrite cos_0, sin_0. ring.
    + lra.
    + lra.
Qed.
Print Assumptions C80_ellipse_tolerance_refuted.
(** Beyond a full turn: the half of an ellipse above its centre, asked for by the angles
    from two to three times pi, has the lowest point of the ellipse as a vertex. *)
Theorem C80_turns_refuted : forall c rx ry tol k, 0 < rx -> 0 < ry -> (1 <= k)%nat -> exists q,
  round c (Ellipse rx ry) (Circle 0) (2 * PI) (3 * PI) tol (Some (2 * k + 2)%nat) 0 0 0 = Some ([q], [0%Z], [0%Z]) /\ In (fst c, snd c - ry) q.
Proof.
  intros c rx ry tol k RX RY K. pose proof PI_RGT_0 as PP. assert (PO : positive (Ellipse rx ry)) by (split; cbn; lra).
  assert (G2 : as_param (Ellipse rx ry) (2 * PI) = 2 * PI).
  { apply (seen_param (Ellipse rx ry) (2 * PI)); [exact PO|apply C80_direction; [exact PO|cbn; rewrite cos_2PI; lra]|].
    split; [exists rx; rewrite cos_2PI, sin_2PI; cbn [semi fst snd]; repeat split; lra|replace (2 * PI - 2 * PI) with 0 by ring; rewrite Rabs_R0; lra]. }
  assert (C3 : cos (3 * PI) = -1 /\ sin (3 * PI) = 0).
  { replace (3 * PI) with (PI + IZR 1 * (2 * PI)) by ring. destruct (turns 1 PI) as [-> ->]. rewrite cos_PI, sin_PI. split; reflexivity. }
  assert (G3 : as_param (Ellipse rx ry) (3 * PI) = 5 * PI).
  { cbn [as_param]. destruct (Req_EM_T (3 * PI) PI); [lra|]. destruct C3 as [-> ->]. unfold pymod. replace ((3 * PI + PI) / (2 * PI)) with 2 by (field; lra).
    replace (Int_part 2) with 2%Z by (symmetry; unfold Int_part; rewrite <- (tech_up 2 3); [reflexivity| |]; lra).
    replace (atan2 (rx * 0) (ry * -1)) with PI; [ring|]. unfold atan2. replace (sqrt ((ry * -1) ^ 2 + (rx * 0) ^ 2)) with ry by (replace ((ry * -1) ^ 2 + (rx * 0) ^ 2) with (ry * ry) by ring; symmetry; apply sqrt_square; lra).
    destruct (Req_EM_T ry 0); [lra|]. destruct (Rle_dec 0 (rx * 0)); [|lra]. replace (ry * -1 / ry) with (- (1)) by (field; lra). rewrite acos_opp, acos_1. ring. }
  eexists. split.
  - unfold round, round_points. cbn [piece_count]. cbn [Nat.eqb]. rewrite Nat.div_1_r. destruct (Req_EM_T (3 * PI) (2 * PI)); [exfalso; lra|]. cbn [seq map all_some Nat.add repeat]. unfold linspace at 1 2 3 4, at_. cbn [seq map nth Nat.sub INR].
    replace (2 * PI + 0 * ((3 * PI - 2 * PI) / 1)) with (2 * PI) by field. replace (2 * PI + 1 * ((3 * PI - 2 * PI) / 1)) with (3 * PI) by field. rewrite G2, G3.
    unfold round_piece. destruct (Req_EM_T (5 * PI) (2 * PI)); [exfalso; lra|]. cbn [rad_max]. destruct (Rle_dec 0 0) as [_|]; [|exfalso; lra]. destruct (_ =? 0)%nat eqn:Z; [apply Nat.eqb_eq in Z; lia|]. reflexivity.
  - right. rewrite linspace_map. apply in_map_iff. exists (2 * PI + INR k * ((5 * PI - 2 * PI) / INR (2 * k + 2 - 1 - 1))). split.
    + assert (PK : 0 < INR k) by (apply lt_0_INR; lia). replace (2 * k + 2 - 1 - 1)%nat with (2 * k)%nat by lia. rewrite mult_INR. change (INR 2) with (1 + 1).
      replace (2 * PI + INR k * ((5 * PI - 2 * PI) / ((1 + 1) * INR k))) with (3 * (PI / 2) + IZR 1 * (2 * PI)) by (field; lra). destruct (turns 1 (3 * (PI / 2))) as [Tc Ts]. unfold ellipse_at. rewrite Tc, Ts. cbn [semi fst snd].
      rewrite cos_3PI2, sin_3PI2. f_equal; ring.
    + unfold linspace. apply in_map_iff. exists k. split; [reflexivity|]. apply in_seq. lia.
Qed.
Print Assumptions C80_turns_refuted.

(** Non-vacuity: the examples of the documentation of Round, without a limit on the
    number of points; and a circle in three parts of four points. *)
Lemma one_piece : forall c rad inn a0 a1 tol, 0 < tol -> tol <= larger rad / 2 -> exists q, round c rad inn a0 a1 tol None 0 0 0 = Some ([q], [0%Z], [0%Z]).
Proof.
  intros c rad inn a0 a1 tol T0 TL. assert (Q : 0 < tol / larger rad <= / 2).
  { split; [apply Rdiv_lt_0_compat; lra|]. apply (Rmult_le_reg_r (larger rad)); [lra|]. unfold Rdiv. rewrite Rmult_assoc, Rinv_l by lra. lra. }
  unfold round, round_points. set (full := if Req_EM_T a1 a0 then 2 * PI else Rabs (a1 - a0)). clearbody full. rewrite !max_larger. unfold arc_count. destruct (Req_EM_T (larger rad) 0); [exfalso; lra|].
  destruct (Rlt_dec (1 - tol / larger rad) (-1)); [exfalso; lra|]. destruct (Rlt_dec (1 - tol / larger rad) 1); [|exfalso; lra]. set (z := Z.to_nat _). clearbody z. cbn [piece_count Nat.eqb]. rewrite Nat.div_1_r.
  set (e := if Req_EM_T a1 a0 then _ else _). clearbody e. cbn [seq map all_some repeat]. unfold round_piece. rewrite max_larger. set (w := Nat.max 3 (1 + z)). assert (3 <= w)%nat by lia. clearbody w.
  destruct (Rlt_dec 0 (larger inn)); destruct (Rle_dec (larger inn) 0); try (exfalso; lra).
  - rewrite Nat.div_mul by lia. destruct (w <=? 1)%nat eqn:K; [apply Nat.leb_le in K; lia|]. destruct (Req_EM_T _ _); eexists; reflexivity.
  - destruct (w =? 0)%nat eqn:K; [apply Nat.eqb_eq in K; lia|]. destruct (Req_EM_T _ _); eexists; reflexivity.
Qed.
Example C80_disc_case : exists q, round (30, 5) (Circle 8) (Circle 0) 0 0 (1 / 100) None 0 0 0 = Some ([q], [0%Z], [0%Z]) /\
  q = map (fun i => ellipse_at (30, 5) (Circle 8) (INR i / INR (length q) * (2 * PI))) (seq 0 (length q)) /\
  forall t, near (outline q) (1 / 100) (ellipse_at (30, 5) (Circle 8) t).
Proof.
  assert (L0 : larger (Circle 0) <= 0) by (unfold larger; cbn; rewrite Rmax_left; lra). assert (L8 : larger (Circle 8) = 8) by (unfold larger; cbn; apply Rmax_left; lra).
  destruct (one_piece (30, 5) (Circle 8) (Circle 0) 0 0 (1 / 100)) as [q H]; [lra|lra|]. exists q. split; [exact H|]. split; [exact (C80_disc _ _ _ _ _ _ _ _ _ _ _ _ H L0)|].
  apply (C80_disc_tolerance _ _ _ _ _ _ _ _ _ _ _ H L0). split; cbn; lra.
Qed.
Example C80_ring_case : exists q A B, round (50, 5) (Ellipse 8 7) (Ellipse 5 4) 0 0 (1 / 100) None 0 0 0 = Some ([q], [0%Z], [0%Z]) /\ q = A ++ B /\
  traces (arc_on (50, 5) (Ellipse 8 7) 0 (2 * PI)) (25 / 16 * (1 / 100)) A /\ traces (arc_on (50, 5) (Ellipse 5 4) 0 (- (2 * PI))) (25 / 16 * (1 / 100)) B.
Proof.
  assert (L8 : larger (Ellipse 8 7) = 8) by (unfold larger; cbn; apply Rmax_left; lra). assert (L5 : larger (Ellipse 5 4) = 5) by (unfold larger; cbn; apply Rmax_left; lra).
  destruct (one_piece (50, 5) (Ellipse 8 7) (Ellipse 5 4) 0 0 (1 / 100)) as [q H]; [lra|lra|]. exists q.
  destruct (C80_ring_tolerance _ _ _ _ _ _ _ _ _ _ _ H) as (A & B & T); try lra; try (split; cbn; lra). exists A, B. split; [exact H|exact T].
Qed.
Example C80_slice_case : exists q A, round (30, 25) (Circle 8) (Circle 0) 0 (- (5 * PI / 6)) (1 / 100) None 0 0 0 = Some ([q], [0%Z], [0%Z]) /\ q = (30, 25) :: A /\
  traces (arc_on (30, 25) (Circle 8) 0 (- (5 * PI / 6))) (25 / 4 * (1 / 100)) A.
Proof.
  pose proof PI_RGT_0. assert (L0 : larger (Circle 0) <= 0) by (unfold larger; cbn; rewrite Rmax_left; lra). assert (L8 : larger (Circle 8) = 8) by (unfold larger; cbn; apply Rmax_left; lra).
  assert (NE : - (5 * PI / 6) <> 0) by lra.
  destruct (one_piece (30, 25) (Circle 8) (Circle 0) 0 (- (5 * PI / 6)) (1 / 100)) as [q H']; [lra|lra|]. exists q.
  destruct (C80_slices_tolerance _ _ _ _ _ (- (5 * PI / 6)) _ _ _ _ _ _ _ H' L0 ltac:(lra) ltac:(lra) (or_introl eq_refl) (or_introl (conj NE eq_refl)) (or_introl NE) 0%nat ltac:(cbn; lia)) as (A & E & T).
  exists A. split; [exact H'|]. split; [exact E|]. cbn [length INR] in T. replace (0 + 0 / 1 * (- (5 * PI / 6) - 0)) with 0 in T by field. replace (0 + 1 / 1 * (- (5 * PI / 6) - 0)) with (- (5 * PI / 6)) in T by field. exact T.
Qed.
Example C80_section_case : exists q A B, round (50, 25) (Circle 8) (Circle 5) (- (5 * PI / 6)) 0 (1 / 100) None 0 0 0 = Some ([q], [0%Z], [0%Z]) /\ q = A ++ B /\
  traces (arc_on (50, 25) (Circle 8) (- (5 * PI / 6)) 0) (25 / 16 * (1 / 100)) A /\ traces (arc_on (50, 25) (Circle 5) 0 (- (5 * PI / 6))) (25 / 16 * (1 / 100)) B.
Proof.
  pose proof PI_RGT_0. assert (L8 : larger (Circle 8) = 8) by (unfold larger; cbn; apply Rmax_left; lra).
  assert (NE : 0 <> - (5 * PI / 6)) by lra.
  destruct (one_piece (50, 25) (Circle 8) (Circle 5) (- (5 * PI / 6)) 0 (1 / 100)) as [q H']; [lra|lra|]. exists q.
  destruct (C80_sections_tolerance _ _ _ _ _ 0 _ _ _ _ _ _ _ H' ltac:(lra) ltac:(lra) ltac:(lra) (or_introl eq_refl) (or_introl (conj NE eq_refl)) (or_introl NE) 0%nat ltac:(cbn; lia)) as (A & B & E & T1 & T2).
  exists A, B. split; [exact H'|]. split; [exact E|]. cbn [length INR] in T1, T2. set (a := - (5 * PI / 6)) in *. replace (a + 0 / 1 * (0 - a)) with a in T1, T2 by field. replace (a + 1 / 1 * (0 - a)) with 0 in T1, T2 by field. split; assumption.
Qed.
Example C80_parts_case : exists p0 p1 p2, round (0, 0) (Ellipse 2 1) (Circle 0) 0 0 1 (Some 12%nat) 4 7 8 = Some ([p0; p1; p2], [7; 7; 7]%Z, [8; 8; 8]%Z) /\
  length p0 = 4%nat /\ nth 0 p1 (1, 1) = (0, 0) /\ last p0 (0, 0) = nth 1 p1 (0, 0) /\ last p1 (0, 0) = nth 1 p2 (0, 0).
Proof.
  pose proof PI_RGT_0 as PP. assert (D : exists ps, round (0, 0) (Ellipse 2 1) (Circle 0) 0 0 1 (Some 12%nat) 4 7 8 = Some (ps, [7; 7; 7]%Z, [8; 8; 8]%Z)).
  { unfold round, round_points. cbn [piece_count]. change ((12 + (4 - 1)) / 4)%nat with 3%nat. change (12 / 3)%nat with 4%nat. cbn [Nat.eqb Nat.ltb Nat.leb seq map].
    assert (RP : forall o0 o1 i0 i1, exists q, round_piece (0, 0) (Ellipse 2 1) (Circle 0) 4 o0 o1 i0 i1 = Some q).
    { intros. unfold round_piece. cbn [rad_max Nat.eqb]. destruct (Req_EM_T o1 o0); (destruct (Rle_dec 0 0) as [_|]; [|exfalso; lra]); eexists; reflexivity. }
    set (oa := map (as_param (Ellipse 2 1)) _). set (ia := map (as_param (Circle 0)) _). clearbody oa ia.
    destruct (RP (at_ oa 0) (at_ oa (0 + 1)) (at_ ia 0) (at_ ia (0 + 1))) as [q0 ->]. destruct (RP (at_ oa 1) (at_ oa (1 + 1)) (at_ ia 1) (at_ ia (1 + 1))) as [q1 ->]. destruct (RP (at_ oa 2) (at_ oa (2 + 1)) (at_ ia 2) (at_ ia (2 + 1))) as [q2 ->].
    cbn [all_some option_map repeat]. eexists. reflexivity. }
  destruct D as [ps D]. destruct (C80_sizes _ _ _ _ _ _ _ _ _ _ _ _ _ D) as (_ & LS & _ & _ & _ & SZ). assert (L3 : length ps = 3%nat) by (apply (f_equal (@length Z)) in LS; rewrite map_length in LS; now rewrite <- LS).
  assert (L0 : larger (Circle 0) <= 0) by (unfold larger; cbn; rewrite Rmax_left; lra).
  assert (NL : length ps <> 1%nat) by (rewrite L3; discriminate).
  destruct (C80_slices _ _ _ _ _ (0 + 2 * PI) _ _ _ _ _ _ _ _ D L0 (or_intror (conj eq_refl eq_refl)) (or_intror NL) ltac:(split; cbn; lra)) as (t & _ & P).
  { intros j J. cbn [regular]. rewrite L3 in *. intro C. exfalso.
    assert (J4 : j = 0%nat \/ j = 1%nat \/ j = 2%nat \/ j = 3%nat) by lia. destruct J4 as [->|[->|[->| ->]]].
    - replace (0 + INR 0 / INR 3 * (0 + 2 * PI - 0)) with 0 in C by (cbn [INR]; field). rewrite cos_0 in C. lra.
    - replace (0 + INR 1 / INR 3 * (0 + 2 * PI - 0)) with (2 * (PI / 3)) in C by (cbn [INR]; field). rewrite cos_2PI3 in C. lra.
    - replace (0 + INR 2 / INR 3 * (0 + 2 * PI - 0)) with (PI / 3 + PI) in C by (cbn [INR]; field). rewrite neg_cos, cos_PI3 in C. lra.
    - replace (0 + INR 3 / INR 3 * (0 + 2 * PI - 0)) with (2 * PI) in C by (cbn [INR]; field). rewrite cos_2PI in C. lra. }
  rewrite L3 in P. destruct ps as [|p0 [|p1 [|p2 [|]]]]; try discriminate L3. exists p0, p1, p2. split; [exact D|].
  destruct (SZ 12%nat eq_refl) as [_ SZ']. cbn [length] in SZ'. change (12 / 3)%nat with 4%nat in SZ'.
  pose proof (P 0%nat ltac:(lia)) as P0. pose proof (P 1%nat ltac:(lia)) as P1. pose proof (P 2%nat ltac:(lia)) as P2. cbv zeta in P0, P1, P2. cbn [nth] in P0, P1, P2.
  rewrite (SZ' p0) in P0 by (cbn; auto). rewrite (SZ' p1) in P1 by (cbn; auto). rewrite (SZ' p2) in P2 by (cbn; auto).
  assert (LN : forall a b, linspace a b (4 - 1) = [a; (a + b) / 2; b]) by (intros a b; unfold linspace; cbn [Nat.sub seq map INR]; f_equal; [field|f_equal; [field|f_equal; field]]).
  rewrite LN in P0, P1, P2. cbn [map] in P0, P1, P2. rewrite P0, P1, P2. repeat split.
Qed.
