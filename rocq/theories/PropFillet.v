(** C48: fillet. *)

From Coq Require Import Reals Lra Lia List ZArith Bool Psatz.
From Verif Require Import Plane Curve Engine Flex SpecFlex FlexProofs PropFlexRows PropFlexShape PropArc PropFlexEnds SpecRound PropFlexRound Fillet SpecCurve SpecFillet.
Import ListNotations.
Open Scope R_scope.

Lemma even_steps n c r a b : (2 <= n)%nat -> 0 <= r -> Rabs (b - a) / (2 * INR (n - 1)) <= PI / 2 ->
  traces (arc_at c r a b) (r * (1 - cos (Rabs (b - a) / (2 * INR (n - 1))))) (map (fun x => padd c (on_circle r x)) (linspace a b n)).
Proof.
  intros N R0 BA. pose proof PI_RGT_0 as PP. assert (Np : 1 <= INR (n - 1)) by (replace 1 with (INR 1) by reflexivity; apply le_INR; lia).
  set (s := (b - a) / INR (n - 1)) in *. set (g := fun x => padd c (on_circle r x)).
  assert (Ln : length (linspace a b n) = n) by apply linspace_length.
  assert (P : forall i, (i < n)%nat -> nth i (map g (linspace a b n)) (0, 0) = g (a + INR i * s)).
  { intros i I. rewrite (nth_indep _ (0, 0) (g 0)) by (rewrite map_length; lia). rewrite (map_nth g), nth_linspace by exact I. reflexivity. }
  assert (AT : forall u, arc_at c r a b u = g (a + u * (b - a))) by reflexivity.
  split; [|split; [|split]].
  - rewrite AT. replace (a + 0 * (b - a)) with (a + INR 0 * s) by (cbn [INR]; ring). rewrite <- P by lia. destruct (map g (linspace a b n)); reflexivity.
  - rewrite last_at, map_length, Ln, P by lia. rewrite AT. f_equal. unfold s. field. lra.
  - intros x X. apply (In_nth _ _ (0, 0)) in X as (i & I & <-). rewrite map_length, Ln in I. exists (INR i / INR (n - 1)). split.
    + assert (0 <= INR i <= INR (n - 1)) by (split; [apply pos_INR|apply le_INR; lia]). split.
      * apply Rmult_le_pos; [lra|left; apply Rinv_0_lt_compat; lra].
      * apply (Rmult_le_reg_r (INR (n - 1))); [lra|]. unfold Rdiv. rewrite Rmult_assoc, Rinv_l by lra. lra.
    + rewrite P by exact I. rewrite AT. f_equal. unfold s. field. lra.
  - intros x X. rewrite AT. destruct (between (n - 1) (x * INR (n - 1))) as (i & Hi & I1 & I2); [lia|split; [apply Rmult_le_pos; lra|nra]|].
    set (m := a + (INR i + / 2) * s). set (h := s / 2). set (f := (x * INR (n - 1) - INR i - / 2) * s).
    assert (Am : a + x * (b - a) = m + f) by (unfold m, f, s; field; lra).
    assert (Eh : Rabs h = Rabs (b - a) / (2 * INR (n - 1))).
    { unfold h, s, Rdiv. rewrite !Rabs_mult, (Rabs_pos_eq (/ 2)) by lra. rewrite (Rabs_pos_eq (/ INR (n - 1))) by (left; apply Rinv_0_lt_compat; lra).
      rewrite Rinv_mult. ring. }
    assert (Ah : Rabs h <= PI / 2).
    { rewrite Eh. exact BA. }
    assert (Af : Rabs f <= Rabs h).
    { unfold f, h, Rdiv. rewrite Rmult_comm, !Rabs_mult. apply Rmult_le_compat_l; [apply Rabs_pos|]. rewrite (Rabs_pos_eq (/ 2)) by lra. apply Rabs_le. lra. }
    destruct (chord_near r m h f) as (q & Q & D); [lra|exact Af|lra|].
    exists i, q. rewrite map_length, Ln. split; [lia|]. split; [exact Q|]. rewrite !P by lia.
    rewrite <- Eh. assert (Ea : cos (Rabs h) = cos h) by (unfold Rabs; destruct (Rcase_abs h); [apply cos_neg|reflexivity]). rewrite Ea.
    rewrite Am. eapply Rle_trans; [|exact D]. right. unfold g, on_circle. rewrite S_INR.
    replace (m - h) with (a + INR i * s) by (unfold m, h; field). replace (m + h) with (a + (INR i + 1) * s) by (unfold m, h; field).
    rewrite !dist_dot. unfold padd, smul; cbn [fst snd]. ring.
Qed.

Lemma even_traces n c r a b : (2 <= n)%nat -> 0 <= r -> Rabs (b - a) <= PI ->
  traces (arc_at c r a b) (r * (1 - cos (Rabs (b - a) / (2 * INR (n - 1))))) (map (fun x => padd c (on_circle r x)) (linspace a b n)).
Proof.
  intros N R0 BA. apply even_steps; try assumption. pose proof PI_RGT_0.
  assert (Np : 1 <= INR (n - 1)) by (replace 1 with (INR 1) by reflexivity; apply le_INR; lia).
  apply (Rmult_le_reg_r (2 * INR (n - 1))); [lra|]. unfold Rdiv at 1. rewrite Rmult_assoc, Rinv_l by lra. nra.
Qed.
(** Angles with the same sine and cosine, less than a full turn apart, are equal. *)
Lemma angle_unique x y : cos x = cos y -> sin x = sin y -> Rabs (x - y) < 2 * PI -> x = y.
Proof.
  intros C S B. pose proof PI_RGT_0 as PP. assert (D : cos (x - y) = 1).
  { rewrite cos_minus, C, S. pose proof (sin2_cos2 y) as P. unfold Rsqr in P. lra. }
  assert (E : cos (Rabs (x - y)) = 1) by (unfold Rabs; destruct (Rcase_abs (x - y)); [rewrite cos_neg|]; exact D).
  assert (G : 2 * (sin (Rabs (x - y) / 2)) ^ 2 = 0) by (rewrite <- one_minus_cos; lra).
  assert (Z : sin (Rabs (x - y) / 2) = 0) by nra. pose proof (Rabs_pos (x - y)) as A.
  destruct (Req_dec (Rabs (x - y)) 0) as [Q|Q]; [apply Rabs_eq_0 in Q; lra|]. pose proof (sin_gt_0 (Rabs (x - y) / 2) ltac:(lra) ltac:(lra)). lra.
Qed.
Lemma unit_heads a b t : a <> b -> heads a b t -> unit_vec a b = (cos t, sin t).
Proof.
  intros N H. pose proof (apart_pos a b N) as P. unfold unit_vec, len, len2. unfold heads in H. 
  assert (A : sqrt (fst (psub b a) ^ 2 + snd (psub b a) ^ 2) = apart a b) by reflexivity. rewrite A. rewrite H. unfold smul. cbn [fst snd]. f_equal; field; lra.
Qed.
Lemma ceil_bound x : x <= IZR (ceil x) < x + 1.
Proof. unfold ceil. rewrite opp_IZR. destruct (base_Int_part (- x)). lra. Qed.

(** The direction of the centre from the corner, and from it to the ends of the arc. *)
Lemma bisect t0 t1 s th : t1 - t0 = s * th -> s = 1 \/ s = -1 -> 0 < th < PI ->
  let d := psub (cos t1, sin t1) (cos t0, sin t0) in let k := cos (th / 2) in
  len d <> 0 /\ (fst d / len d, snd d / len d) = (s * - sin ((t0 + t1) / 2), s * cos ((t0 + t1) / 2)) /\
  s * sin ((t0 + t1) / 2) = s * sin t0 * k + cos t0 * sin (th / 2) /\ s * cos ((t0 + t1) / 2) = s * cos t0 * k - sin t0 * sin (th / 2) /\
  s * sin ((t0 + t1) / 2) = s * sin t1 * k - cos t1 * sin (th / 2) /\ s * cos ((t0 + t1) / 2) = s * cos t1 * k + sin t1 * sin (th / 2).
Proof.
  intros D SS T d k. pose proof PI_RGT_0 as PP. set (m := (t0 + t1) / 2).
  assert (E0 : t0 = m - s * (th / 2)) by (unfold m; lra). assert (E1 : t1 = m + s * (th / 2)) by (unfold m; lra).
  assert (CS : cos (s * (th / 2)) = k) by (unfold k; destruct SS as [-> | ->]; [now rewrite Rmult_1_l|replace (-1 * (th / 2)) with (- (th / 2)) by ring; apply cos_neg]).
  assert (SN : sin (s * (th / 2)) = s * sin (th / 2)) by (destruct SS as [-> | ->]; [now rewrite !Rmult_1_l|replace (-1 * (th / 2)) with (- (th / 2)) by ring; rewrite sin_neg; ring]).
  pose proof (sin_gt_0 (th / 2) ltac:(lra) ltac:(lra)) as SP. set (q := sin (th / 2)) in *.
  assert (C0 : cos t0 = cos m * k + sin m * (s * q)) by (rewrite E0, cos_minus, CS, SN; ring).
  assert (S0 : sin t0 = sin m * k - cos m * (s * q)) by (rewrite E0, sin_minus, CS, SN; ring).
  assert (C1 : cos t1 = cos m * k - sin m * (s * q)) by (rewrite E1, cos_plus, CS, SN; ring).
  assert (S1 : sin t1 = sin m * k + cos m * (s * q)) by (rewrite E1, sin_plus, CS, SN; ring).
  assert (M : sin m * sin m + cos m * cos m = 1) by (pose proof (sin2_cos2 m) as P; exact P).
  assert (K : q * q + k * k = 1) by (pose proof (sin2_cos2 (th / 2)) as P; exact P).
  assert (s2 : s * s = 1) by (destruct SS as [-> | ->]; ring).
  assert (DD : d = (- (2 * q) * s * sin m, 2 * q * s * cos m)) by (unfold d, psub; cbn [fst snd]; rewrite C0, S0, C1, S1; f_equal; ring).
  assert (LD : len d = 2 * q).
  { unfold len, len2. rewrite DD. cbn [fst snd]. replace ((- (2 * q) * s * sin m) ^ 2 + (2 * q * s * cos m) ^ 2) with ((2 * q) ^ 2 * (s * s) * (sin m * sin m + cos m * cos m)) by ring.
    rewrite s2, M, !Rmult_1_r. rewrite sqrt_sq by lra. reflexivity. }
  split; [lra|]. split; [rewrite LD, DD; cbn [fst snd]; f_equal; field; lra|]. 
  set (sm := sin m) in *. set (cm := cos m) in *. rewrite C0, S0, C1, S1.
  repeat split.
  - transitivity (s * sm * (q * q + k * k)); [rewrite K; ring|]. transitivity (s * sm * (k * k) + s * sm * (q * q) + cm * k * q * (1 - s * s)); [rewrite s2; ring|ring].
  - transitivity (s * cm * (q * q + k * k)); [rewrite K; ring|]. transitivity (s * cm * (k * k) + s * cm * (q * q) - sm * k * q * (1 - s * s)); [rewrite s2; ring|ring].
  - transitivity (s * sm * (q * q + k * k)); [rewrite K; ring|]. transitivity (s * sm * (k * k) + s * sm * (q * q) - cm * k * q * (1 - s * s)); [rewrite s2; ring|ring].
  - transitivity (s * cm * (q * q + k * k)); [rewrite K; ring|]. transitivity (s * cm * (k * k) + s * cm * (q * q) + sm * k * q * (1 - s * s)); [rewrite s2; ring|ring].
Qed.
Lemma acos_abs x : Rabs x <= PI -> acos (cos x) = Rabs x.
Proof.
  intros B. pose proof (Rabs_pos x). rewrite <- (acos_cos (Rabs x)) by lra. f_equal. unfold Rabs. destruct (Rcase_abs x); [now rewrite cos_neg|reflexivity].
Qed.
Lemma unit_atan2 u : cos (atan2 (sin u) (cos u)) = cos u /\ sin (atan2 (sin u) (cos u)) = sin u.
Proof.
  assert (Q : cos u ^ 2 + sin u ^ 2 = 1) by (pose proof (sin2_cos2 u) as P; unfold Rsqr in P; lra).
  destruct (cos_atan2 (sin u) (cos u)) as [C S].
  - intros E. injection E as E1 E2. rewrite E1, E2 in Q. lra.
  - rewrite Q, sqrt_1 in C, S. rewrite C, S. split; field.
Qed.
(** Every corner is rounded as the specification says. *)
Theorem C48_corner : forall ppp a b c r, (0 < ppp)%Z -> a <> b -> b <> c -> 0 <= r -> ~ reverses a b c ->
  exists l, fillet_corner ppp a b c r = Some l /\ rounded ppp a b c r l.
Proof.
  intros ppp a b c r PP0 NA NB R0 NR. pose proof PI_RGT_0 as PP.
  (* the directions *)
  assert (HT : exists t0 t1, heads a b t0 /\ heads b c t1 /\ Rabs (t1 - t0) < PI).
  { destruct (corner_angles true (psub b a) (psub c b)) as [e0 e1] eqn:CA. destruct (corner_heads true a b c e0 e1 NA NB CA) as (t0 & t1 & H0 & H1 & _ & _ & B).
    exists t0, t1. split; [exact H0|]. split; [exact H1|]. destruct B as [B|B]; [exact B|exfalso]. apply NR. exists t0. split; [exact H0|].
    assert (Q : cos (t0 + PI) = cos t1 /\ sin (t0 + PI) = sin t1).
    { unfold Rabs in B. destruct (Rcase_abs (t1 - t0)).
      - replace t0 with (t1 + PI) by lra. rewrite !neg_cos, !neg_sin. split; ring.
      - replace t1 with (t0 + PI) by lra. split; reflexivity. }
    unfold heads in *. destruct Q as [-> ->]. exact H1. }
  destruct HT as (u0 & u1 & G0 & G1 & BB).
  (* any other pair of directions differs by full turns *)
  assert (ANY : forall t0 t1, heads a b t0 -> heads b c t1 -> Rabs (t1 - t0) < PI ->
            cos t0 = cos u0 /\ sin t0 = sin u0 /\ t1 - t0 = u1 - u0).
  { intros t0 t1 H0 H1 B. pose proof (unit_heads _ _ _ NA H0) as A0. rewrite (unit_heads _ _ _ NA G0) in A0. pose proof (unit_heads _ _ _ NB H1) as A1. rewrite (unit_heads _ _ _ NB G1) in A1.
    injection A0 as C0 S0. injection A1 as C1 S1. split; [now symmetry|]. split; [now symmetry|]. apply angle_unique.
    - rewrite !cos_minus. now rewrite C0, S0, C1, S1.
    - rewrite !sin_minus. now rewrite C0, S0, C1, S1.
    - apply Rabs_def2 in B. apply Rabs_def2 in BB. apply Rabs_def1; lra. }
  set (th := Rabs (u1 - u0)) in *. assert (TH0 : 0 <= th) by apply Rabs_pos.
  assert (TEQ : acos (fst (unit_vec b c) * fst (unit_vec a b) + snd (unit_vec b c) * snd (unit_vec a b)) = th).
  { rewrite (unit_heads _ _ _ NA G0), (unit_heads _ _ _ NB G1). cbn [fst snd]. rewrite <- cos_minus. apply acos_abs. fold th. lra. }
  unfold fillet_corner. rewrite TEQ. destruct (Rlt_dec (1 / 1000000) th) as [BIG|SMALL].
  2: { exists [b]. split; [reflexivity|]. intros t0 t1 H0 H1 B. destruct (ANY t0 t1 H0 H1 B) as (_ & _ & E). rewrite E. fold th. cbv zeta. split; [reflexivity|]. intros L. lra. }
  replace (th * / 2) with (th / 2) by reflexivity.
  pose proof (cos_gt_0 (th / 2) ltac:(lra) ltac:(lra)) as CP. pose proof (sin_gt_0 (th / 2) ltac:(lra) ltac:(lra)) as SP.
  assert (TP : 0 < tan (th / 2)) by (apply Rmult_lt_0_compat; [exact SP|now apply Rinv_0_lt_compat]).
  destruct (Req_EM_T (cos (th / 2)) 0) as [|_]; [lra|].
  set (s := if Rlt_dec u0 u1 then 1 else -1).
  assert (SS : s = 1 \/ s = -1) by (unfold s; destruct (Rlt_dec u0 u1); lra).
  assert (US : u1 - u0 = s * th) by (unfold s, th, Rabs; destruct (Rlt_dec u0 u1), (Rcase_abs (u1 - u0)); lra).
  rewrite (unit_heads _ _ _ NA G0), (unit_heads _ _ _ NB G1).
  destruct (bisect u0 u1 s th US SS ltac:(lra)) as (LD & DV & M1 & M2 & M3 & M4). cbv zeta in DV.
  destruct (Req_EM_T (len _) 0) as [|_]; [contradiction|].
  match goal with |- context [psub (smul (- tan (th / 2)) _) (smul _ ?d)] => replace d with (s * - sin ((u0 + u1) / 2), s * cos ((u0 + u1) / 2)) by (symmetry; exact DV) end.
  set (k := cos (th / 2)) in *. set (q := sin (th / 2)) in *.
  assert (TQ : tan (th / 2) = q / k) by reflexivity. set (tt := tan (th / 2)) in *.
  set (dv := (s * - sin ((u0 + u1) / 2), s * cos ((u0 + u1) / 2))).
  assert (D1 : fst dv = - (s * sin ((u0 + u1) / 2))) by (unfold dv; cbn [fst]; ring). assert (D2 : snd dv = s * cos ((u0 + u1) / 2)) by reflexivity.
  assert (W0 : psub (smul (- tt) (cos u0, sin u0)) (smul (/ k) dv) = (cos (u0 - s * (PI / 2)), sin (u0 - s * (PI / 2)))).
  { destruct (quarter u0 s SS) as [-> ->]. unfold psub, smul. cbn [fst snd]. rewrite D1, D2, M1, M2, TQ. f_equal; field; lra. }
  assert (W1 : psub (smul tt (cos u1, sin u1)) (smul (/ k) dv) = (cos (u1 - s * (PI / 2)), sin (u1 - s * (PI / 2)))).
  { destruct (quarter u1 s SS) as [-> ->]. unfold psub, smul. cbn [fst snd]. rewrite D1, D2, M3, M4, TQ. f_equal; field; lra. }
  rewrite W0, W1. cbn [fst snd]. clear W0 W1.
  destruct (unit_atan2 (u0 - s * (PI / 2))) as [CA0 SA0]. destruct (unit_atan2 (u1 - s * (PI / 2))) as [CA1 SA1].
  pose proof (atan2_bound (sin (u0 - s * (PI / 2))) (cos (u0 - s * (PI / 2)))) as B0. pose proof (atan2_bound (sin (u1 - s * (PI / 2))) (cos (u1 - s * (PI / 2)))) as B1.
  set (a0 := atan2 (sin (u0 - s * (PI / 2))) (cos (u0 - s * (PI / 2)))) in *. set (a1 := atan2 (sin (u1 - s * (PI / 2))) (cos (u1 - s * (PI / 2)))) in *.
  set (a1' := if Rlt_dec PI (a1 - a0) then a1 - 2 * PI else if Rlt_dec (a1 - a0) (- PI) then a1 + 2 * PI else a1).
  assert (A1 : cos a1' = cos a1 /\ sin a1' = sin a1 /\ - PI <= a1' - a0 <= PI).
  { unfold a1'. destruct (Rlt_dec PI (a1 - a0)); [|destruct (Rlt_dec (a1 - a0) (- PI))].
    - rewrite cos_minus, sin_minus, cos_2PI, sin_2PI. repeat split; lra.
    - rewrite cos_plus, sin_plus, cos_2PI, sin_2PI. repeat split; lra.
    - repeat split; lra. }
  destruct A1 as (CA1' & SA1' & BA).
  assert (SW : a1' - a0 = u1 - u0).
  { apply angle_unique.
    - replace (u1 - u0) with ((u1 - s * (PI / 2)) - (u0 - s * (PI / 2))) by ring. rewrite !(cos_minus _ a0), (cos_minus (u1 - s * (PI / 2))), CA1', SA1', CA1, SA1, CA0, SA0. reflexivity.
    - replace (u1 - u0) with ((u1 - s * (PI / 2)) - (u0 - s * (PI / 2))) by ring. rewrite !(sin_minus _ a0), (sin_minus (u1 - s * (PI / 2))), CA1', SA1', CA1, SA1, CA0, SA0. reflexivity.
    - apply Rabs_def2 in BB. apply Rabs_def1; lra. }
  rewrite SW. fold th. change (len (psub b a)) with (apart a b). change (len (psub c b)) with (apart b c).
  pose proof (apart_pos a b NA) as LA. pose proof (apart_pos b c NB) as LB.
  set (d := setback a b c r th). set (rho := d / tt).
  assert (RD : 0 <= rho /\ rho * tt = d).
  { unfold rho. split; [|field; lra]. apply Rmult_le_pos; [|left; now apply Rinv_0_lt_compat]. unfold d, setback. fold tt. apply Rmin_glb; [nra|apply Rmin_glb; lra]. }
  destruct RD as [RP RT].
  match goal with |- context [let '(_, _) := ?x in _] => assert (RE : exists r' ll, x = (r', ll) /\ (if Rlt_dec (49 / 100 * apart b c) ll then 49 / 100 * apart b c / tt else r') = rho) end.
  { unfold rho, d, setback. fold tt. assert (X : forall x, x * tt / tt = x) by (intros; field; lra).
    destruct (Rlt_dec (49 / 100 * apart a b) (r * tt)) as [L1|L1]; eexists; eexists; (split; [reflexivity|]).
    - rewrite (Rmin_right (r * tt)) by (apply Rle_trans with (49 / 100 * apart a b); [apply Rmin_l|lra]).
      destruct (Rlt_dec (49 / 100 * apart b c) (49 / 100 * apart a b)); [rewrite Rmin_right by lra|rewrite Rmin_left by lra]; reflexivity.
    - destruct (Rlt_dec (49 / 100 * apart b c) (r * tt)) as [L2|L2].
      + rewrite (Rmin_right (49 / 100 * apart a b)) by lra. rewrite Rmin_right by lra. reflexivity.
      + rewrite (Rmin_left (r * tt)) by (apply Rmin_glb; lra). now rewrite X. }
  destruct RE as (r' & ll & -> & ->).
  set (n := Z.to_nat (Z.max (ceil (th / (2 * PI) * IZR ppp)) 2)).
  eexists. split; [reflexivity|].
  assert (CT : padd (smul (rho / k) dv) b = spot b u0 (- d) (s * rho)).
  { unfold spot, padd, smul. cbn [fst snd]. rewrite D1, D2, M1, M2, <- RT, TQ. f_equal; field; lra. }
  rewrite CT. assert (N2 : (2 <= n)%nat) by (unfold n; lia).
  intros t0 t1 H0 H1 B. destruct (ANY t0 t1 H0 H1 B) as (C0 & S0 & E). rewrite E. fold th. cbv zeta. split; [intros L; lra|]. intros _. fold tt d rho.
  assert (C1 : cos t1 = cos u1 /\ sin t1 = sin u1).
  { replace t1 with (t0 + (u1 - u0)) by lra. replace u1 with (u0 + (u1 - u0)) at 2 4 by ring. now apply same_angle. }
  destruct C1 as [C1 S1].
  assert (SE : (if Rlt_dec t0 t1 then 1 else -1) = s) by (unfold s; destruct (Rlt_dec t0 t1), (Rlt_dec u0 u1); lra). rewrite SE.
  assert (SP0 : forall x y, spot b u0 x y = spot b t0 x y) by (intros; unfold spot; now rewrite C0, S0).
  rewrite SP0, map_length, linspace_length.
  assert (TR : traces (arc_at (spot b t0 (- d) (s * rho)) rho (t0 - s * (PI / 2)) (t1 - s * (PI / 2))) (rho * (1 - cos (th / (2 * INR (n - 1)))))
     (map (fun x => padd (spot b t0 (- d) (s * rho)) (on_circle rho x)) (linspace a0 a1' n))).
  { replace th with (Rabs (a1' - a0)) by (rewrite SW; reflexivity). eapply traces_ext; [|apply even_traces; [exact N2|exact RP|rewrite SW; fold th; lra]].
    intros x. replace (t1 - s * (PI / 2)) with ((t0 - s * (PI / 2)) + (u1 - u0)) by lra. apply arc_at_same; [| |lra].
    - rewrite CA0. unfold Rminus. now apply same_angle.
    - rewrite SA0. unfold Rminus. now apply same_angle. }
  split; [exact N2|]. pose proof (ceil_bound (th / (2 * PI) * IZR ppp)) as CB. split; [|split; [|split; [|split]]].
  - eapply Rle_trans; [apply (proj1 CB)|]. rewrite INR_IZR_INZ. apply IZR_le. unfold n. lia.
  - destruct (Z_le_gt_dec (ceil (th / (2 * PI) * IZR ppp)) 2) as [L|L]; [right; unfold n; lia|left].
    eapply Rle_lt_trans; [|apply (proj2 CB)]. rewrite INR_IZR_INZ. apply IZR_le. unfold n. lia.
  - destruct TR as (T1 & _). rewrite T1. unfold arc_at. replace (t0 - s * (PI / 2) + 0 * _) with (t0 - s * (PI / 2)) by ring.
    destruct (quarter t0 s SS) as [-> ->]. unfold spot, padd. cbn [fst snd]. f_equal; ring.
  - destruct TR as (_ & T2 & _). rewrite T2. unfold arc_at. replace (t0 - s * (PI / 2) + 1 * _) with (t1 - s * (PI / 2)) by ring.
    destruct (quarter t1 s SS) as [-> ->].
    assert (X1 : - d * cos t0 - s * rho * sin t0 = d * cos t1 - s * rho * sin t1).
    { rewrite C0, S0, C1, S1, <- RT, TQ. assert (s * sin u0 * k + cos u0 * q = s * sin u1 * k - cos u1 * q) by lra.
      replace (- (rho * (q / k)) * cos u0 - s * rho * sin u0) with (- (rho / k) * (s * sin u0 * k + cos u0 * q)) by (field; lra). rewrite H. field. lra. }
    assert (X2 : - d * sin t0 + s * rho * cos t0 = d * sin t1 + s * rho * cos t1).
    { rewrite C0, S0, C1, S1, <- RT, TQ. assert (s * cos u0 * k - sin u0 * q = s * cos u1 * k + sin u1 * q) by lra.
      replace (- (rho * (q / k)) * sin u0 + s * rho * cos u0) with ((rho / k) * (s * cos u0 * k - sin u0 * q)) by (field; lra). rewrite H. field. lra. }
    unfold spot, padd. cbn [fst snd]. rewrite X1, X2. f_equal; ring.
  - exact TR.
Qed.
(** The roundings at both ends of an edge leave at least 2% of it. *)
Theorem C48_room : forall a b c d r r' th th', setback a b c r th + setback b c d r' th' <= 98 / 100 * apart b c.
Proof.
  intros a b c d r r' th th'. unfold setback.
  assert (A : Rmin (r * tan (th / 2)) (Rmin (49 / 100 * apart a b) (49 / 100 * apart b c)) <= 49 / 100 * apart b c) by (eapply Rle_trans; [apply Rmin_r|apply Rmin_r]).
  assert (B : Rmin (r' * tan (th' / 2)) (Rmin (49 / 100 * apart b c) (49 / 100 * apart c d)) <= 49 / 100 * apart b c) by (eapply Rle_trans; [apply Rmin_r|apply Rmin_l]).
  lra.
Qed.

(** ** Repeated vertices *)
Lemma pt_eqb_spec p q : pt_eqb p q = true <-> p = q.
Proof.
  destruct p as [a b], q as [c d]. unfold pt_eqb. cbn [fst snd]. destruct (Req_EM_T a c), (Req_EM_T b d); split; intros H; try discriminate; try congruence.
Qed.
Lemma keep_links : forall l p, links (fun a b => a <> b) p (map fst (keep p l)) /\ last (map fst (keep p l)) p = last (map fst l) p.
Proof.
  induction l as [|x l IH]; intros p; cbn [keep]; [now split|]. destruct (pt_eqb (fst x) p) eqn:E.
  - apply pt_eqb_spec in E. rewrite E. destruct (IH p) as [A B]. split; [exact A|]. rewrite B. cbn [map]. rewrite E. destruct (map fst l) eqn:M; [reflexivity|]. reflexivity.
  - assert (N : p <> fst x) by (intros ->; rewrite (proj2 (pt_eqb_spec _ _) eq_refl) in E; discriminate).
    destruct (IH (fst x)) as [A B]. cbn [map]. split; [split; [exact N|exact A]|]. 
    assert (L : forall (l : list pt) a d, last (a :: l) d = last l a).
    { induction l0 as [|y l0 IHl]; intros a d; [reflexivity|]. change (last (a :: y :: l0) d) with (last (y :: l0) d). rewrite (IHl y d). symmetry. apply (IHl y a). }
    rewrite !L. exact B.
Qed.
Lemma last_default {X} (l : list X) d d' : l <> [] -> last l d = last l d'.
Proof. induction l as [|x l IH]; [congruence|]. intros _. destruct l; [reflexivity|]. apply IH. discriminate. Qed.
Lemma map_last {X Y} (f : X -> Y) l d : f (last l d) = last (map f l) (f d).
Proof. induction l as [|x l IH]; [reflexivity|]. destruct l; [reflexivity|]. exact IH. Qed.
(** Cleaning leaves no vertex equal to the one before (the first follows the last),
    drops only such vertices (in order, with their own radii), and loses no place. *)
Inductive sub {X} : list X -> list X -> Prop :=
| sub_nil : sub [] []
| sub_keep : forall x l m, sub l m -> sub (x :: l) (x :: m)
| sub_drop : forall x l m, sub l m -> sub l (x :: m).
Theorem C48_clean : forall l, sub (clean l) l /\
  (forall i, (i < length (clean l))%nat -> fst (at_ (clean l) (before (length (clean l)) i)) <> fst (at_ (clean l) i)) /\
  (clean l = [] -> forall x y, In x l -> In y l -> fst x = fst y) /\ (clean l <> [] -> forall x, In x l -> In (fst x) (map fst (clean l))).
Proof.
  intros l. unfold clean. set (z := fst (last l ((0, 0), 0))). destruct (keep_links l z) as [LK LL].
  assert (SU : forall l p, sub (keep p l) l).
  { induction l0 as [|x l0 IH]; intros p; cbn [keep]; [constructor|]. destruct (pt_eqb (fst x) p); constructor; apply IH. }
  assert (IN : forall l p x, In x l -> fst x = p \/ In (fst x) (map fst (keep p l))).
  { induction l0 as [|y l0 IH]; intros p x I; [destruct I|]. cbn [keep]. destruct (pt_eqb (fst y) p) eqn:E.
    - apply pt_eqb_spec in E. destruct I as [->|I]; [now left|]. rewrite E. now apply IH.
    - destruct I as [->|I]; [right; now left|]. destruct (IH (fst y) x I) as [Q|Q]; [right; left; now symmetry|right; now right]. }
  split; [apply SU|]. split; [|split].
  - intros i I. set (m := keep z l) in *.
    assert (LN : forall (m : list pt) p j, links (fun a b => a <> b) p m -> (j < length m)%nat -> nth j (p :: m) (0, 0) <> nth j m (0, 0)).
    { induction m0 as [|y m0 IH]; intros p j K J; [cbn in J; lia|]. destruct K as [K1 K2]. destruct j as [|j]; [exact K1|]. cbn [nth]. apply IH; [exact K2|cbn in J; lia]. }
    assert (AT : forall j, fst (at_ m j) = nth j (map fst m) (0, 0)) by (intros j; unfold at_; change ((0, 0) : pt) with (fst (((0, 0), 0) : pt * R)); now rewrite map_nth).
    rewrite !AT. specialize (LN (map fst m) z i LK ltac:(now rewrite map_length)). destruct i as [|i]; cbn [before].
    + cbn [nth] in LN. rewrite <- (map_length fst m), <- last_at.
      assert (Q : last (map fst m) (0, 0) = z).
      { etransitivity; [apply (last_default _ (0, 0) z); destruct m; [cbn in I; lia|discriminate]|]. etransitivity; [exact LL|]. etransitivity; [apply (last_default _ z (0, 0))|symmetry; exact (map_last fst l ((0, 0), 0))].
        unfold m in I. destruct l; [cbn in I; lia|discriminate]. }
      intros E. apply LN. rewrite <- E. symmetry. exact Q.
    + exact LN.
  - intros E x y X Y. destruct (IN l z x X) as [->|Q]; [|rewrite E in Q; destruct Q]. destruct (IN l z y Y) as [->|Q]; [reflexivity|rewrite E in Q; destruct Q].
  - intros E x X. destruct (IN l z x X) as [Q|Q]; [|exact Q]. rewrite Q.
    assert (Z : z = last (map fst (keep z l)) z).
    { rewrite LL. etransitivity; [exact (map_last fst l ((0, 0), 0))|]. apply (last_default _ (0, 0) z). destruct l; [destruct X|discriminate]. }
    assert (L : forall (m : list pt) a d, In (last (a :: m) d) (a :: m)).
    { induction m as [|y m IH]; intros u d; [now left|]. right. apply IH. }
    destruct (map fst (keep z l)) as [|a m] eqn:M; [apply map_eq_nil in M; contradiction|]. rewrite Z at 1. apply L.
Qed.

(** ** Polygons *)
Lemma all_some_map {X Y} (f : X -> option Y) l : (forall x, In x l -> exists y, f x = Some y) -> exists m, all_some (map f l) = Some m /\ length m = length l /\ forall i d d', (i < length l)%nat -> f (nth i l d) = Some (nth i m d').
Proof.
  induction l as [|x l IH]; intros H; [exists []; cbn; repeat split; intros; lia|].
  destruct (H x (or_introl eq_refl)) as [y HY]. destruct IH as (m & M & L & N); [intros; apply H; now right|]. exists (y :: m). cbn [map all_some]. rewrite HY, M. split; [reflexivity|]. split; [cbn; lia|].
  intros i d d' I. destruct i as [|i]; [exact HY|]. cbn [nth]. apply N. cbn in I. lia.
Qed.
Lemma order_nth : forall n i, (i < n)%nat -> nth i (order n) 0%nat = match i with O => (n - 1)%nat | S j => j end.
Proof.
  intros [|m] i I; [lia|]. cbn [order]. destruct i as [|i]; cbn [nth]; [lia|]. rewrite seq_nth by lia. reflexivity.
Qed.
Lemma order_length n : length (order n) = n.
Proof. destruct n; cbn [order length]; [reflexivity|now rewrite seq_length]. Qed.
Lemma order_in n i : In i (order n) -> (i < n)%nat.
Proof. destruct n; cbn [order]; [intros []|]. intros [<-|I]; [lia|]. apply in_seq in I. lia. Qed.
Lemma before_mod n i : (i < n)%nat -> ((i + n - 1) mod n)%nat = before n i.
Proof.
  intros I. destruct i as [|i]; cbn [before].
  - rewrite Nat.mod_small; lia.
  - replace (S i + n - 1)%nat with (i + 1 * n)%nat by lia. rewrite Nat.mod_add by lia. apply Nat.mod_small. lia.
Qed.
Lemma after_mod n i : (i < n)%nat -> ((i + 1) mod n)%nat = after n i.
Proof.
  intros I. unfold after. destruct (S i =? n)%nat eqn:E.
  - apply Nat.eqb_eq in E. replace (i + 1)%nat with n by lia. apply Nat.mod_same. lia.
  - apply Nat.eqb_neq in E. rewrite Nat.mod_small; lia.
Qed.
(** A polygon without repeated vertices and reversals: its rounded corners one after the
    other, the last corner first. *)
Theorem C48_polygon : forall ppp l, (0 < ppp)%Z -> let n := length l in
  let P i := fst (at_ l i) in
  (forall i, (i < n)%nat -> P (before n i) <> P i /\ 0 <= snd (at_ l i) /\ ~ reverses (P (before n i)) (P i) (P (after n i))) ->
  exists ls, fillet_poly ppp l = Some (concat ls) /\ length ls = n /\
    forall i, (i < n)%nat -> rounded ppp (P (before n i)) (P i) (P (after n i)) (snd (at_ l i)) (nth (after n i) ls []).
Proof.
  intros ppp l PP n P H. unfold fillet_poly. fold n.
  assert (AF : forall i, (i < n)%nat -> (after n i < n)%nat /\ before n (after n i) = i).
  { intros i I. unfold after. destruct (S i =? n)%nat eqn:E; [apply Nat.eqb_eq in E|apply Nat.eqb_neq in E]; cbn [before]; lia. }
  assert (C : forall i, (i < n)%nat -> exists c, fillet_corner ppp (fst (at_ l ((i + n - 1) mod n))) (fst (at_ l i)) (fst (at_ l ((i + 1) mod n))) (snd (at_ l i)) = Some c /\
      rounded ppp (P (before n i)) (P i) (P (after n i)) (snd (at_ l i)) c).
  { intros i I. rewrite before_mod, after_mod by exact I. destruct (H i I) as (A & B & D). apply C48_corner; try assumption.
    destruct (AF i I) as [A1 A2]. destruct (H (after n i) A1) as (N & _). rewrite A2 in N. exact N. }
  destruct (all_some_map (fun i => fillet_corner ppp (fst (at_ l ((i + n - 1) mod n))) (fst (at_ l i)) (fst (at_ l ((i + 1) mod n))) (snd (at_ l i))) (order n)) as (ls & LS & LN & LI).
  { intros i I. apply order_in in I. destruct (C i I) as (c & E & _). now exists c. }
  exists ls. rewrite LS. split; [reflexivity|]. rewrite order_length in LN, LI. split; [exact LN|]. intros i I.
  destruct (C i I) as (c & E & Rc). destruct (AF i I) as [A1 A2]. specialize (LI (after n i) 0%nat [] A1). rewrite order_nth in LI by exact A1.
  assert (BF : match after n i with O => (n - 1)%nat | S j => j end = i).
  { unfold after in *. destruct (S i =? n)%nat eqn:Q; [apply Nat.eqb_eq in Q; lia|reflexivity]. }
  rewrite BF in LI. rewrite E in LI. injection LI as <-. exact Rc.
Qed.

(** ** Radii *)
(** The radius documented for the vertex [v] of the polygon [j]. *)
Definition wanted (r : radius) (polys : list poly) (j v : nat) (x : R) : Prop :=
  match r with
  | Scalar y => x = y
  | Array l =>
      if (length l =? length polys)%nat then match nth j l (Num 0) with Num y => x = y | Arr m => nth_error m v = Some x end
      else nth_error l (total (firstn j polys) + v) = Some (Num x)
  end.
(** The lengths documented. *)
Definition fits (r : radius) (polys : list poly) : Prop :=
  match r with
  | Scalar _ => True
  | Array l =>
      (length l = length polys /\ forall j m, (j < length l)%nat -> nth j l (Num 0) = Arr m -> length m = length (nth j polys [])) \/
      (length l <> length polys /\ length l = total polys /\ forall x, In x l -> exists y, x = Num y)
  end.
Lemma all_some_none {X Y} (f : X -> option Y) l x : In x l -> f x = None -> all_some (map f l) = None.
Proof.
  induction l as [|y l IH]; [intros []|]. intros [->|I] E; cbn [map all_some]; [now rewrite E|]. rewrite IH by assumption. destruct (f y); reflexivity.
Qed.
Lemma split_spec : forall polys l, length l = total polys -> length (split_radii l polys) = length polys /\
  forall j, (j < length polys)%nat -> length (nth j (split_radii l polys) []) = length (nth j polys []) /\
    forall v, (v < length (nth j polys []))%nat -> nth_error (nth j (split_radii l polys) []) v = nth_error l (total (firstn j polys) + v).
Proof.
  induction polys as [|p polys IH]; intros l L; cbn [split_radii length]; [split; [reflexivity|intros; lia]|].
  unfold total in L. cbn [map list_sum fold_right] in L. fold (total polys) in L.
  change (fold_right Nat.add 0%nat (map (@length pt) polys)) with (total polys) in L.
  destruct (IH (skipn (length p) l)) as [A B]; [rewrite skipn_length; lia|]. split; [now rewrite A|]. intros j J. destruct j as [|j]; cbn [nth firstn].
  - split; [rewrite firstn_length; lia|]. intros v V. unfold total. cbn [map list_sum fold_right Nat.add].
    assert (X : forall (l : list R) k v, (v < k)%nat -> nth_error (firstn k l) v = nth_error l v).
    { induction l0 as [|y l0 IHl]; intros k w W; [now rewrite firstn_nil|]. destruct k; [lia|]. destruct w; [reflexivity|]. cbn. apply IHl. lia. }
    now apply X.
  - destruct (B j ltac:(lia)) as [C D]. split; [exact C|]. intros v V. rewrite (D v V). unfold total. cbn [map list_sum fold_right].
    assert (X : forall (l : list R) k v, nth_error (skipn k l) v = nth_error l (k + v)).
    { induction l0 as [|y l0 IHl]; intros k w; [rewrite skipn_nil; destruct w, k; reflexivity|]. destruct k; [reflexivity|]. cbn. apply IHl. }
    rewrite X. unfold list_sum. apply f_equal. apply Nat.add_assoc.
Qed.
(** Every vertex of every polygon gets the radius documented for it, and arguments of
    other lengths are rejected. *)
Theorem C48_radii : forall r polys,
  (fits r polys -> exists rr, radii_of r polys = Some rr /\ length rr = length polys /\
     forall j, (j < length polys)%nat -> length (nth j rr []) = length (nth j polys []) /\
       forall v, (v < length (nth j polys []))%nat -> wanted r polys j v (nth v (nth j rr []) 0)) /\
  (~ fits r polys -> radii_of r polys = None).
Proof.
  intros r polys. assert (RN : forall (x : R) n v, (v < n)%nat -> nth v (repeat x n) 0 = x).
  { intros x n. induction n as [|n IH]; intros v V; [lia|]. destruct v; [reflexivity|]. apply IH. lia. }
  destruct r as [x|l]; cbn [radii_of fits wanted].
  - split; [|tauto]. intros _. eexists. split; [reflexivity|]. split; [apply map_length|]. intros j J.
    rewrite (nth_indep _ [] (repeat x (length ([] : poly)))) by (now rewrite map_length). rewrite (map_nth (fun p : poly => repeat x (length p))).
    split; [apply repeat_length|]. intros v V. now apply RN.
  - destruct (length l =? length polys)%nat eqn:E; [apply Nat.eqb_eq in E|apply Nat.eqb_neq in E].
    + assert (CN : forall j, (j < length polys)%nat -> nth j (combine l polys) (Num 0, []) = (nth j l (Num 0), nth j polys [])) by (intros; now apply combine_nth).
      assert (CL : length (combine l polys) = length polys) by (rewrite combine_length; lia).
      split.
      * intros [[_ F]|[F _]]; [|contradiction].
        destruct (all_some_map (fun xp => one_radii (fst xp) (snd xp)) (combine l polys)) as (rr & RR & RL & RI).
        { intros xp I. apply (In_nth _ _ (Num 0, [])) in I as (j & J & <-). assert (J' : (j < length polys)%nat) by (eapply Nat.lt_le_trans; [exact J|apply Nat.eq_le_incl; exact CL]). clear J. rename J' into J. pose proof (CN j J) as CJ. match goal with |- exists y, one_radii (fst ?u) (snd ?u) = Some y => replace u with (nth j l (Num 0), nth j polys []) by (symmetry; exact CJ) end. cbn [fst snd]. unfold one_radii.
          destruct (nth j l (Num 0)) as [y|m] eqn:Q; [eauto|]. rewrite (F j m ltac:(lia) Q), Nat.eqb_refl. eauto. }
        exists rr. split; [exact RR|]. rewrite CL in RL, RI. split; [exact RL|]. intros j J. specialize (RI j (Num 0, []) [] J). rewrite CN in RI by exact J. cbn [fst snd] in RI. unfold one_radii in RI.
        destruct (nth j l (Num 0)) as [y|m] eqn:Q.
        -- injection RI as <-. split; [apply repeat_length|]. intros v V. now apply RN.
        -- destruct (length m =? length (nth j polys []))%nat eqn:LM; [|discriminate]. apply Nat.eqb_eq in LM. injection RI as <-. split; [exact LM|]. intros v V. apply nth_error_nth'. lia.
      * intros F. destruct (all_some (map (fun xp => one_radii (fst xp) (snd xp)) (combine l polys))) as [rr|] eqn:RR; [|reflexivity]. exfalso. apply F. left. split; [exact E|]. intros j m J Q.
        destruct (one_radii (Arr m) (nth j polys [])) as [y|] eqn:O.
        -- unfold one_radii in O. destruct (length m =? length (nth j polys []))%nat eqn:LM; [|discriminate]. now apply Nat.eqb_eq.
        -- rewrite (all_some_none _ _ (nth j (combine l polys) (Num 0, []))) in RR; [discriminate|apply nth_In; lia|]. rewrite CN by lia. cbn [fst snd]. now rewrite Q.
    + destruct (length l =? total polys)%nat eqn:T; [apply Nat.eqb_eq in T|apply Nat.eqb_neq in T].
      * split.
        -- intros [[F _]|(_ & _ & F)]; [contradiction|].
           destruct (all_some_map as_num l) as (m & M & ML & MI). { intros x X. destruct (F x X) as [y ->]. now exists y. }
           exists (split_radii m polys). rewrite M. split; [reflexivity|]. destruct (split_spec polys m ltac:(lia)) as [A B]. split; [exact A|]. intros j J. destruct (B j J) as [C D]. split; [exact C|].
           intros v V. specialize (D v V). rewrite (nth_error_nth' _ 0) in D by lia. symmetry in D.
           set (k := (total (firstn j polys) + v)%nat) in *. assert (K : (k < length m)%nat) by (apply nth_error_Some; congruence).
           rewrite (nth_error_nth' _ 0 K) in D. injection D as D. rewrite ML in K. rewrite (nth_error_nth' _ (Num 0) K). specialize (MI k (Num 0) 0 K).
           destruct (nth k l (Num 0)) as [y|]; [|discriminate]. cbn in MI. injection MI as MI. rewrite MI, D. reflexivity.
        -- intros F. destruct (all_some (map as_num l)) as [m|] eqn:M; [|reflexivity]. exfalso. apply F. right. split; [exact E|]. split; [exact T|]. intros x X. destruct x as [y|y]; [eauto|].
           rewrite (all_some_none as_num l (Arr y) X eq_refl) in M. discriminate.
      * split; [|reflexivity]. intros [[F _]|(_ & F & _)]; contradiction.
Qed.
(** The whole call: polygon by polygon, and fractured only if one has become too large. *)
Theorem C48_fillet : forall fracture r ppp max_points polys rr new, radii_of r polys = Some rr ->
  length new = length polys ->
  (forall j, (j < length polys)%nat -> fillet_poly ppp (clean (combine (nth j polys []) (nth j rr []))) = Some (nth j new [])) ->
  ((forall p, In p new -> (length p <= max_points)%nat) -> fillet fracture r ppp max_points polys = Some new) /\
  (~ (forall p, In p new -> (length p <= max_points)%nat) -> fillet fracture r ppp max_points polys = Some (fracture max_points new)).
Proof.
  intros fracture r ppp mp polys rr new RR LN H. unfold fillet. rewrite RR.
  assert (RL : length rr = length polys).
  { destruct (C48_radii r polys) as [A B]. destruct (Classical_Prop.classic (fits r polys)) as [F|F]; [|rewrite B in RR by exact F; discriminate].
    destruct (A F) as (rr' & E & L & _). rewrite E in RR. injection RR as <-. exact L. }
  assert (AS : all_some (map (fun pr => fillet_poly ppp (clean (combine (fst pr) (snd pr)))) (combine polys rr)) = Some new).
  { destruct (all_some_map (fun pr => fillet_poly ppp (clean (combine (fst pr) (snd pr)))) (combine polys rr)) as (m & M & ML & MI).
    - intros x X. apply (In_nth _ _ ([], [])) in X as (j & J & <-). assert (J' : (j < length polys)%nat) by (eapply Nat.lt_le_trans; [exact J|]; rewrite combine_length; apply Nat.le_min_l).
      pose proof (combine_nth polys rr j [] [] (eq_sym RL)) as E. exists (nth j new []). etransitivity; [|exact (H j J')]. do 2 f_equal. apply f_equal2; [exact (f_equal fst E)|exact (f_equal snd E)].
    - rewrite M. f_equal. assert (CL : length (combine polys rr) = length polys) by (rewrite combine_length; apply Nat.min_l; apply Nat.eq_le_incl; symmetry; exact RL).
      apply (nth_ext _ _ [] []); [etransitivity; [exact ML|]; etransitivity; [exact CL|symmetry; exact LN]|]. intros j J.
      assert (J' : (j < length polys)%nat) by (eapply Nat.lt_le_trans; [exact J|]; apply Nat.eq_le_incl; etransitivity; [exact ML|exact CL]).
      specialize (MI j ([], []) [] ltac:(eapply Nat.lt_le_trans; [exact J'|apply Nat.eq_le_incl; symmetry; exact CL])).
      pose proof (combine_nth polys rr j [] [] (eq_sym RL)) as E. specialize (H j J').
      assert (Q : Some (nth j new []) = Some (nth j m [])); [|injection Q; auto]. etransitivity; [symmetry; exact H|]. etransitivity; [|exact MI]. do 2 f_equal. symmetry. apply f_equal2; [exact (f_equal fst E)|exact (f_equal snd E)]. }
  rewrite AS. cbn [option_map]. destruct (existsb _ new) eqn:X.
  - apply existsb_exists in X as (p & I & L). apply Nat.ltb_lt in L. split; [|reflexivity]. intros F. specialize (F p I). lia.
  - split; [reflexivity|]. intros F. exfalso. apply F. intros p I. destruct (Nat.le_gt_cases (length p) mp) as [Q|Q]; [exact Q|].
    assert (existsb (fun p => mp <? length p)%nat new = true) by (apply existsb_exists; exists p; split; [exact I|now apply Nat.ltb_lt]). congruence.
Qed.
Lemma reverses_dot a b c : reverses a b c -> dot (psub b a) (psub c b) = - (apart a b * apart b c).
Proof.
  intros (t & H0 & H1). unfold heads in *. rewrite H0, H1, neg_cos, neg_sin. unfold dot, smul. cbn [fst snd].
  pose proof (sin2_cos2 t) as P. unfold Rsqr in P. replace (- (apart a b * apart b c)) with (- (apart a b * apart b c) * (sin t * sin t + cos t * cos t)) by (rewrite P; ring). ring.
Qed.
(** A square with a different radius at each corner, one of them larger than fits. *)
Example C48_case : let l := [((0, 0), 1); ((4, 0), 2); ((4, 4), 5); ((0, 4), 0)] in
  exists ls, fillet_poly 128 l = Some (concat ls) /\ length ls = 4%nat /\    rounded 128 (4, 0) (4, 4) (0, 4) 5 (nth 3 ls []).
Proof.
  intros l. destruct (C48_polygon 128 l ltac:(lia)) as (ls & E & L & H).
  - assert (NR : forall a b c : pt, a <> b -> b <> c -> dot (psub b a) (psub c b) = 0 -> ~ reverses a b c).
    { intros a b c A B D Q. apply reverses_dot in Q. pose proof (apart_pos a b A). pose proof (apart_pos b c B). nra. }
    intros i I. cbn [length l] in I. destruct i as [|[|[|[|i]]]]; [| | | |lia]; cbn; (split; [intros Q; injection Q; lra|]); (split; [lra|]);
      (apply NR; [intros Q; injection Q; lra|intros Q; injection Q; lra|unfold dot, psub; cbn [fst snd]; ring]).
  - exists ls. split; [exact E|]. split; [exact L|]. exact (H 2%nat ltac:(cbn; lia)).
Qed.
Print Assumptions C48_corner.
Print Assumptions C48_room.
Print Assumptions C48_clean.
Print Assumptions C48_polygon.
Print Assumptions C48_radii.
Print Assumptions C48_fillet.
