(** C72: the ends and corners of FlexPaths. *)

From Coq Require Import Reals Lra Lia List ZArith Bool Psatz.
From Verif Require Import Plane SpecPlane Hier Curve Engine Flex SpecFlex FlexProofs FlexMove PropFlexRows PropFlexShape PropArc PropFlexEnds SpecRound.
Import ListNotations.
Open Scope R_scope.

Lemma last_at {X} (l : list X) d : last l d = nth (length l - 1) l d.
Proof.
  induction l as [|x l IH]; [reflexivity|]. destruct l as [|y l]; [reflexivity|]. change (last (x :: y :: l) d) with (last (y :: l) d). rewrite IH.
  cbn [length]. replace (S (S (length l)) - 1)%nat with (S (S (length l) - 1)) by lia. reflexivity.
Qed.

(** ** Arcs *)

Lemma arc_count_bound base half tol r n : arc_count base half tol r = Some n -> (2 <= base)%nat -> 0 <= half ->
  r <> 0 /\ (base <= n)%nat /\ half / INR (n - 1) <= (1 + / (2 * INR (base - 1))) * acos (1 - tol / r).
Proof.
  intros H B Hh. unfold arc_count in H. destruct (Req_EM_T r 0) as [|R0]; [discriminate|]. destruct (Rlt_dec _ (-1)) as [|L1]; [discriminate|].
  destruct (Rlt_dec _ 1) as [L2|]; [|discriminate]. injection H as <-. split; [exact R0|]. split; [lia|].
  set (c := 1 - tol / r) in *. assert (A : 0 < acos c).
  { destruct (acos_bound c) as [[A|A] _]; [exact A|]. pose proof (cos_acos c ltac:(lra)) as C. rewrite <- A, cos_0 in C. lra. }
  set (al := acos c) in *. clearbody al. set (x := half / al). assert (X : 0 <= x) by (apply Rmult_le_pos; [exact Hh|left; now apply Rinv_0_lt_compat]).
  set (z := Int_part (x + / 2)). set (m := (Nat.max base (1 + Z.to_nat z) - 1)%nat).
  assert (Bp : 1 <= INR (base - 1)) by (replace 1 with (INR 1) by reflexivity; apply le_INR; lia).
  assert (M2 : INR (base - 1) <= INR m) by (apply le_INR; unfold m; lia).
  assert (M1 : x - / 2 <= INR m).
  { destruct (base_Int_part (x + / 2)) as [B1 B2]. fold z in B1, B2. assert (IZR z <= INR m); [|lra]. rewrite INR_IZR_INZ. apply IZR_le. unfold m. lia. }
  change (half / INR m <= (1 + / (2 * INR (base - 1))) * al). assert (Hx : half = x * al) by (unfold x; field; lra). rewrite Hx.
  clearbody m z x. replace (x * al / INR m) with (x / INR m * al) by (field; lra). apply Rmult_le_compat_r; [lra|].
  apply (Rmult_le_reg_r (INR m)); [lra|]. unfold Rdiv. rewrite Rmult_assoc, Rinv_l by lra. rewrite Rmult_1_r.
  assert (/ 2 <= / (2 * INR (base - 1)) * INR m); [|lra]. rewrite Rinv_mult.
  assert (1 <= / INR (base - 1) * INR m); [|lra]. apply (Rmult_le_reg_l (INR (base - 1))); [lra|]. rewrite <- Rmult_assoc, Rinv_r by lra. lra.
Qed.
Lemma nth_linspace a b n i : (i < n)%nat -> nth i (linspace a b n) 0 = a + INR i * ((b - a) / INR (n - 1)).
Proof. apply linspace_at. Qed.
(** The points of an arc of [n] points, enough for the tolerance, trace it. *)
Lemma arc_traces base half tol r n c a b k err : arc_count base half tol r = Some n -> (2 <= base)%nat -> half = / 2 * Rabs (b - a) ->
  0 < tol -> tol <= r / 2 -> k = 1 + / (2 * INR (base - 1)) -> err = k ^ 2 * tol ->
  traces (arc_at c r a b) err (map (fun x => padd c (on_circle r x)) (linspace a b n)).
Proof.
  intros H B Hh T Tr Hk ->. assert (R0 : 0 < r) by lra.
  assert (Hp : 0 <= half) by (subst half; pose proof (Rabs_pos (b - a)); lra).
  destruct (arc_count_bound base half tol r n H B Hp) as (_ & N & Hb). rewrite <- Hk in Hb.
  assert (Bp : 1 <= INR (base - 1)) by (replace 1 with (INR 1) by reflexivity; apply le_INR; lia).
  assert (K1 : 1 <= k <= 3 / 2).
  { subst k. assert (0 < / (2 * INR (base - 1)) <= / 2); [|lra]. split; [apply Rinv_0_lt_compat; lra|apply Rinv_le_contravar; lra]. }
  destruct (alpha_ok tol r T Tr) as [[Al Au] At]. rewrite sqrt_sq in * by lra. rewrite Rmax_left in * by lra. set (al := acos (1 - tol / r)) in *. clearbody al.
  pose proof PI_RGT_0 as PP. assert (Np : 0 < INR (n - 1)) by (apply lt_0_INR; lia).
  set (s := (b - a) / INR (n - 1)) in *. set (g := fun x => padd c (on_circle r x)).
  assert (Ln : length (linspace a b n) = n) by apply linspace_length.
  assert (P : forall i, (i < n)%nat -> nth i (map g (linspace a b n)) (0, 0) = g (a + INR i * s)).
  { intros i I. rewrite (nth_indep _ (0, 0) (g 0)) by (rewrite map_length; lia). rewrite (map_nth g), nth_linspace by exact I. reflexivity. }
  assert (AT : forall u, arc_at c r a b u = g (a + u * (b - a))) by reflexivity.
  split; [|split; [|split]].
  - rewrite AT. replace (a + 0 * (b - a)) with (a + INR 0 * s) by (cbn [INR]; ring). rewrite <- P by lia. destruct (map g (linspace a b n)); reflexivity.
  - rewrite last_at, map_length, Ln, P by lia. rewrite AT. f_equal. unfold s. field. lra.
  - intros x X. apply (In_nth _ _ (0, 0)) in X as (i & I & <-). rewrite map_length, Ln in I. exists (INR i / INR (n - 1)). split.
    + assert (0 <= INR i <= INR (n - 1)) by (split; [apply pos_INR|apply le_INR; lia]). split.
      * apply Rmult_le_pos; [lra|left; now apply Rinv_0_lt_compat].
      * apply (Rmult_le_reg_r (INR (n - 1))); [lra|]. unfold Rdiv. rewrite Rmult_assoc, Rinv_l by lra. lra.
    + rewrite P by exact I. rewrite AT. f_equal. unfold s. field. lra.
  - intros x X. rewrite AT. destruct (between (n - 1) (x * INR (n - 1))) as (i & Hi & I1 & I2); [lia|split; [apply Rmult_le_pos; lra|nra]|].
    set (m := a + (INR i + / 2) * s). set (h := s / 2). set (f := (x * INR (n - 1) - INR i - / 2) * s).
    assert (Am : a + x * (b - a) = m + f) by (unfold m, f, s; field; lra).
    assert (Ah : Rabs h <= k * al).
    { unfold h, s, Rdiv. rewrite !Rabs_mult, (Rabs_pos_eq (/ 2)) by lra. rewrite (Rabs_pos_eq (/ INR (n - 1))) by (left; now apply Rinv_0_lt_compat).
      subst half. unfold Rdiv in Hb. lra. }
    assert (Af : Rabs f <= Rabs h).
    { unfold f, h, Rdiv. rewrite Rmult_comm, !Rabs_mult. apply Rmult_le_compat_l; [apply Rabs_pos|]. rewrite (Rabs_pos_eq (/ 2)) by lra. apply Rabs_le. lra. }
    assert (KA : k * al <= PI / 2) by nra.
    destruct (chord_near r m h f) as (q & Q & D); [lra|exact Af|lra|].
    exists i, q. rewrite map_length, Ln. split; [lia|]. split; [exact Q|]. rewrite !P by lia.
    apply Rle_trans with ((r * (1 - cos h)) ^ 2).
    + rewrite Am. eapply Rle_trans; [|exact D]. right. unfold g, on_circle. rewrite S_INR.
      replace (m - h) with (a + INR i * s) by (unfold m, h; field). replace (m + h) with (a + (INR i + 1) * s) by (unfold m, h; field).
      rewrite !dist_dot. unfold padd, smul; cbn [fst snd]. ring.
    + apply pow_incr. split; [apply Rmult_le_pos; [lra|pose proof (COS_bound h); lra]|].
      assert (Ch : 1 - cos h <= 1 - cos (k * al)).
      { assert (Ea : cos (Rabs h) = cos h) by (unfold Rabs; destruct (Rcase_abs h); [apply cos_neg|reflexivity]). rewrite <- Ea.
        assert (cos (k * al) <= cos (Rabs h)) by (pose proof (Rabs_pos h); apply cos_decr_1; lra). lra. }
      assert (Cs := cos_scale k al ltac:(lra) ltac:(lra) ltac:(lra)).
      apply Rle_trans with (r * (k ^ 2 * (1 - cos al))); [apply Rmult_le_compat_l; lra|].
      replace (r * (k ^ 2 * (1 - cos al))) with (k ^ 2 * (r * (1 - cos al))) by ring. rewrite At. lra.
Qed.
Lemma near_rev l d p : near l d p -> near (rev l) d p.
Proof.
  intros (i & k & I & K & D). exists (length l - 2 - i)%nat, (1 - k). rewrite rev_length. split; [lia|]. split; [lra|].
  rewrite !rev_nth by lia. replace (length l - S (length l - 2 - i))%nat with (S i) by lia. replace (length l - S (S (length l - 2 - i)))%nat with i by lia.
  replace (padd (smul (1 - (1 - k)) (nth (S i) l (0, 0))) (smul (1 - k) (nth i l (0, 0)))) with
    (padd (smul (1 - k) (nth i l (0, 0))) (smul k (nth (S i) l (0, 0)))) by (apply pt_eq; unfold padd, smul; cbn [fst snd]; ring).
  exact D.
Qed.
Lemma hd_nth {X} (l : list X) d : hd d l = nth 0 l d. Proof. destruct l; reflexivity. Qed.
Lemma traces_rev g e l : l <> [] -> traces g e l -> traces (fun s => g (1 - s)) e (rev l).
Proof.
  intros N (A & B & C & D). assert (0 < length l)%nat by (destruct l; [congruence|cbn; lia]). split; [|split; [|split]].
  - rewrite hd_nth, rev_nth by lia. rewrite last_at in B. rewrite Rminus_0_r. exact B.
  - rewrite last_at, rev_length, rev_nth by lia. rewrite hd_nth in A. replace (length l - S (length l - 1))%nat with 0%nat by lia. now replace (1 - 1) with 0 by ring.
  - intros x X. apply in_rev in X. destruct (C x X) as (s & S & E). exists (1 - s). split; [lra|]. now replace (1 - (1 - s)) with s by ring.
  - intros s S. apply near_rev. apply D. lra.
Qed.
Lemma traces_ext g h e l : (forall s, g s = h s) -> traces g e l -> traces h e l.
Proof.
  intros E (A & B & C & D). split; [now rewrite <- E|]. split; [now rewrite <- E|]. split.
  - intros x X. destruct (C x X) as (s & S & Y). exists s. split; [exact S|]. now rewrite <- E.
  - intros s S. rewrite <- E. now apply D.
Qed.
Lemma linspace_affine k d a b n : map (fun x => k * x + d) (linspace a b n) = linspace (k * a + d) (k * b + d) n.
Proof. unfold linspace. rewrite map_map. apply map_ext. intro i. unfold Rdiv. ring. Qed.

(** ** Directions *)

Lemma heads_normal p q t : p <> q -> heads p q t -> normal p q = (- sin t, cos t).
Proof.
  intros N H. pose proof (apart_pos p q N) as P. rewrite normal_apart. unfold heads in H. destruct p as [px py], q as [qx qy].
  unfold psub, smul in H. cbn [fst snd] in *. injection H as H1 H2. rewrite H1, H2. apply pt_eq; cbn [fst snd]; field; lra.
Qed.
Lemma heads_side h p q t : p <> q -> heads p q t -> side h p q = (spot p t 0 h, spot q t 0 h).
Proof.
  intros N H. unfold side. rewrite (heads_normal p q t N H). unfold spot. f_equal; apply pt_eq; unfold padd, smul; cbn [fst snd]; ring.
Qed.
Lemma heads_cs p q t : p <> q -> cos t = fst (psub q p) / apart p q -> sin t = snd (psub q p) / apart p q -> heads p q t.
Proof.
  intros N C S. pose proof (apart_pos p q N) as P. unfold heads. rewrite C, S. apply pt_eq; unfold smul; cbn [fst snd]; field; lra.
Qed.
Lemma psub_nonzero p q : p <> q -> psub q p <> (0, 0).
Proof. intros N E. apply N. destruct p, q. unfold psub in E. cbn in E. injection E as A B. f_equal; lra. Qed.
Lemma atan2_bound y x : - PI <= atan2 y x <= PI.
Proof.
  pose proof PI_RGT_0. unfold atan2. destruct (Req_EM_T _ 0); [lra|]. pose proof (acos_bound (x / sqrt (x ^ 2 + y ^ 2))). destruct (Rle_dec 0 y); lra.
Qed.
Lemma apart_sqrt p q : apart p q = sqrt (fst (psub q p) ^ 2 + snd (psub q p) ^ 2).
Proof. reflexivity. Qed.
Lemma quarter a k : k = 1 \/ k = -1 -> cos (a - k * (PI / 2)) = k * sin a /\ sin (a - k * (PI / 2)) = - k * cos a.
Proof.
  rewrite cos_minus, sin_minus. intros [-> | ->].
  - rewrite Rmult_1_l, cos_PI2, sin_PI2. split; ring.
  - replace (-1 * (PI / 2)) with (- (PI / 2)) by ring. rewrite cos_neg, sin_neg, cos_PI2, sin_PI2. split; ring.
Qed.
Lemma heads_along p q : p <> q -> heads p q (along (psub q p)).
Proof.
  intro N. pose proof (psub_nonzero p q N) as Z. destruct (cos_atan2 (snd (psub q p)) (fst (psub q p))) as [C S]; [destruct (psub q p); exact Z|].
  apply heads_cs; [exact N|exact C|exact S].
Qed.
(** The angles of corner_angles are a quarter turn from the directions. *)
Lemma corner_heads left a b c a0 a1 : a <> b -> b <> c -> corner_angles left (psub b a) (psub c b) = (a0, a1) ->
  let k := if left then 1 else -1 in
  exists t0 t1, heads a b t0 /\ heads b c t1 /\ a0 = t0 - k * (PI / 2) /\ a1 = t1 - k * (PI / 2) /\ Rabs (t1 - t0) <= PI.
Proof.
  intros N M H k. pose proof PI_RGT_0 as PP. set (v0 := psub b a) in *. set (v1 := psub c b) in *.
  assert (G : forall p q, p <> q -> let v := psub q p in forall e,
    e = (if left then atan2 (- fst v) (snd v) else atan2 (fst v) (- snd v)) \/
    e = (if left then atan2 (- fst v) (snd v) else atan2 (fst v) (- snd v)) + 2 * PI -> heads p q (e + k * (PI / 2))).
  { intros p q Q v e E. pose proof (psub_nonzero p q Q) as Z. fold v in Z.
    assert (X : cos e = (if left then snd v else - snd v) / apart p q /\ sin e = (if left then - fst v else fst v) / apart p q).
    { assert (Y : cos (if left then atan2 (- fst v) (snd v) else atan2 (fst v) (- snd v)) = (if left then snd v else - snd v) / apart p q /\
                  sin (if left then atan2 (- fst v) (snd v) else atan2 (fst v) (- snd v)) = (if left then - fst v else fst v) / apart p q).
      { rewrite (apart_sqrt p q). fold v. destruct left.
        - destruct (cos_atan2 (- fst v) (snd v)) as [C S]; [intro E'; apply Z; destruct v; cbn in E'; injection E' as E1 E2; f_equal; lra|].
          replace (fst v ^ 2 + snd v ^ 2) with (snd v ^ 2 + (- fst v) ^ 2) by ring. split; assumption.
        - destruct (cos_atan2 (fst v) (- snd v)) as [C S]; [intro E'; apply Z; destruct v; cbn in E'; injection E' as E1 E2; f_equal; lra|].
          replace (fst v ^ 2 + snd v ^ 2) with ((- snd v) ^ 2 + fst v ^ 2) by ring. split; assumption. }
      destruct E as [-> | ->]; [exact Y|]. rewrite cos_plus, sin_plus, cos_2PI, sin_2PI. destruct Y as [Y1 Y2]. rewrite Y1, Y2. split; ring. }
    destruct X as [X1 X2]. assert (KK : - k = 1 \/ - k = -1) by (unfold k; destruct left; lra).
    destruct (quarter e (- k) KK) as [Q1 Q2]. replace (e - - k * (PI / 2)) with (e + k * (PI / 2)) in Q1, Q2 by ring.
    apply heads_cs; [exact Q| |]; fold v.
    - rewrite Q1, X2. unfold k. destruct left; unfold Rdiv; ring.
    - rewrite Q2, X1. unfold k. destruct left; unfold Rdiv; ring. }
  unfold corner_angles in H. set (e0 := if left then atan2 (- fst v0) (snd v0) else atan2 (fst v0) (- snd v0)) in *.
  set (e1 := if left then atan2 (- fst v1) (snd v1) else atan2 (fst v1) (- snd v1)) in *.
  assert (B0 : - PI <= e0 <= PI) by (unfold e0; destruct left; apply atan2_bound).
  assert (B1 : - PI <= e1 <= PI) by (unfold e1; destruct left; apply atan2_bound).
  exists (a0 + k * (PI / 2)), (a1 + k * (PI / 2)). cbv zeta in H.
  replace (a1 + k * (PI / 2) - (a0 + k * (PI / 2))) with (a1 - a0) by ring.
  assert (R : (a0 = e0 \/ a0 = e0 + 2 * PI) /\ (a1 = e1 \/ a1 = e1 + 2 * PI) /\ Rabs (a1 - a0) <= PI).
  { destruct (Rlt_dec PI (Rabs (e1 - e0))) as [L|L].
    - destruct (Rlt_dec e0 e1) as [O|O]; injection H as <- <-; (split; [auto|]); (split; [auto|]); unfold Rabs in *; destruct (Rcase_abs (e1 - e0)); destruct (Rcase_abs _); lra.
    - injection H as <- <-. split; [auto|]. split; [auto|]. lra. }
  destruct R as (R0 & R1 & RB). split; [apply G; auto|]. split; [apply G; auto|]. split; [ring|]. split; [ring|exact RB].
Qed.

(** ** Corners *)

Lemma tan_half x : Rabs x < PI -> tan (x / 2) * sin x = 1 - cos x /\ tan (x / 2) * (1 + cos x) = sin x.
Proof.
  intro B. assert (H : - (PI / 2) < x / 2 < PI / 2) by (unfold Rabs in B; destruct (Rcase_abs x); lra).
  pose proof (cos_gt_0 (x / 2) ltac:(lra) ltac:(lra)) as C. pose proof (sin2_cos2 (x / 2)) as P. unfold Rsqr in P.
  assert (E1 : sin x = 2 * sin (x / 2) * cos (x / 2)) by (replace x with (2 * (x / 2)) at 1 by field; apply sin_2a).
  assert (E2 : cos x = 1 - 2 * sin (x / 2) * sin (x / 2)) by (replace x with (2 * (x / 2)) at 1 by field; apply cos_2a_sin).
  unfold tan. rewrite E1, E2. set (s := sin (x / 2)) in *. set (c := cos (x / 2)) in *. clearbody s c. split; [field; lra|].
  apply (Rmult_eq_reg_r c); [|lra]. replace (s / c * (1 + (1 - 2 * s * s)) * c) with (2 * s * (1 - s * s)) by (field; lra).
  replace (1 - s * s) with (c * c) by lra. ring.
Qed.
Lemma tan_sign x : Rabs x < PI -> (0 < x -> 0 < tan (x / 2)) /\ (x < 0 -> tan (x / 2) < 0).
Proof.
  intro B. assert (H : - PI < x < PI) by (unfold Rabs in B; destruct (Rcase_abs x); lra). split; intro S.
  - apply tan_gt_0; lra.
  - apply tan_lt_0; lra.
Qed.
Lemma tan_one x : Rabs x < PI -> (Rabs x <= PI / 2 -> Rabs (tan (x / 2)) <= 1) /\ (PI / 2 < Rabs x -> 1 < Rabs (tan (x / 2))).
Proof.
  intro B. pose proof PI_RGT_0 as PP. assert (E : Rabs (tan (x / 2)) = tan (Rabs x / 2)).
  { destruct (tan_sign x B) as [S1 S2]. unfold Rabs at 2. destruct (Rcase_abs x) as [L|L].
    - rewrite Rabs_left by auto. replace (- x / 2) with (- (x / 2)) by field. now rewrite tan_neg.
    - destruct (Req_dec x 0) as [->|]; [unfold Rdiv; rewrite Rmult_0_l, tan_0; apply Rabs_R0|]. apply Rabs_pos_eq. left. apply S1. lra. }
  rewrite E. pose proof (Rabs_pos x) as A. assert (T4 : tan (PI / 4) = 1) by apply tan_PI4. split; intro H.
  - destruct (Req_dec (Rabs x) (PI / 2)) as [Q|Q]; [rewrite Q; replace (PI / 2 / 2) with (PI / 4) by field; lra|].
    rewrite <- T4. left. apply tan_increasing; lra.
  - rewrite <- T4. apply tan_increasing; lra.
Qed.
Lemma triple b t0 t1 h L0 L1 th : 0 < L0 -> 0 < L1 -> Rabs (t1 - t0) < PI -> t0 = t1 \/ tiny <= sin (t1 - t0) ^ 2 -> th = tiny * L0 ^ 2 * L1 ^ 2 ->
  let v0 := smul L0 (cos t0, sin t0) in let v1 := smul L1 (cos t1, sin t1) in
  let p0 := spot b t0 0 h in let p1 := spot b t1 0 h in
  let den := snd v1 * fst v0 - fst v1 * snd v0 in
  let d := psub p1 p0 in
  let T := tan ((t1 - t0) / 2) in
  (if Rlt_dec (den ^ 2) th then (0, 0, mid p0 p1)
   else
     let u0 := (snd v1 * fst d - fst v1 * snd d) / den in
     let u1 := (snd v0 * fst d - fst v0 * snd d) / den in
     (u0, u1, smul (/ 2) (padd (padd p0 (smul u0 v0)) (padd p1 (smul u1 v1))))) =
  (- (h * T) / L0, h * T / L1, crossing b t0 t1 h).
Proof.
  intros H0 H1 B Th ->. cbv zeta.
  assert (E1 : cos t1 = cos t0 * cos (t1 - t0) - sin t0 * sin (t1 - t0)) by (rewrite <- cos_plus; f_equal; ring).
  assert (E2 : sin t1 = sin t0 * cos (t1 - t0) + cos t0 * sin (t1 - t0)) by (rewrite <- sin_plus; f_equal; ring).
  assert (D : snd (smul L1 (cos t1, sin t1)) * fst (smul L0 (cos t0, sin t0)) - fst (smul L1 (cos t1, sin t1)) * snd (smul L0 (cos t0, sin t0)) = L0 * L1 * sin (t1 - t0)).
  { unfold smul. cbn [fst snd]. rewrite sin_minus. ring. }
  rewrite D. unfold crossing. destruct (tan_half _ B) as [T1 T2]. set (T := tan ((t1 - t0) / 2)) in *.
  pose proof (sin2_cos2 t0) as P0. pose proof (sin2_cos2 (t1 - t0)) as P1. unfold Rsqr in P0, P1. unfold spot, mid. rewrite E1, E2.
  set (c := cos t0) in *. set (s := sin t0) in *. set (C := cos (t1 - t0)) in *. set (X := sin (t1 - t0)) in *. 
  destruct (Rlt_dec _ _) as [L|L].
  - assert (Z : t0 = t1). { destruct Th as [|Th]; [auto|]. exfalso. assert (0 < L0 ^ 2 * L1 ^ 2) by nra. replace ((L0 * L1 * X) ^ 2) with (L0 ^ 2 * L1 ^ 2 * X ^ 2) in L by ring. nra. }
    assert (TZ : T = 0) by (unfold T; rewrite Z; replace ((t1 - t1) / 2) with 0 by field; apply tan_0).
    assert (CZ : C = 1) by (unfold C; rewrite Z; replace (t1 - t1) with 0 by ring; apply cos_0).
    assert (XZ : X = 0) by (unfold X; rewrite Z; replace (t1 - t1) with 0 by ring; apply sin_0).
    rewrite TZ, CZ, XZ. f_equal; [f_equal; unfold Rdiv; ring|]. apply pt_eq; unfold smul, padd; cbn [fst snd]; field.
  - assert (XN : X <> 0). { intro Z. rewrite Z in L. apply L. replace ((L0 * L1 * 0) ^ 2) with 0 by ring. assert (0 < tiny) by (unfold tiny; apply Rinv_0_lt_compat, pow_lt; lra). assert (0 < L0 ^ 2 * L1 ^ 2) by (apply Rmult_lt_0_compat; apply pow_lt; lra). rewrite Rmult_assoc. now apply Rmult_lt_0_compat. }
    clearbody T c s C X. clear D E1 E2 L Th B.
    match goal with |- (?u0, ?u1, _) = _ => assert (U0 : u0 = - (h * T) / L0); [|assert (U1 : u1 = h * T / L1); [|rewrite U0, U1; clear U0 U1]] end.
    + unfold psub, padd, smul. cbn [fst snd]. apply (Rmult_eq_reg_r (L0 * L1 * X)); [|apply Rmult_integral_contrapositive_currified; [nra|exact XN]].
      unfold Rdiv at 1. rewrite Rmult_assoc, Rinv_l by (apply Rmult_integral_contrapositive_currified; [nra|exact XN]).
      replace (- (h * T) / L0 * (L0 * L1 * X)) with (- h * L1 * (T * X)) by (field; lra). rewrite T1. rewrite Rmult_1_r.
      transitivity (h * L1 * (- ((s * s + c * c) * (X * X + C * C)) + (s * s + c * c) * C)); [ring|]. rewrite P0, P1. ring.
    + unfold psub, padd, smul. cbn [fst snd]. apply (Rmult_eq_reg_r (L0 * L1 * X)); [|apply Rmult_integral_contrapositive_currified; [nra|exact XN]].
      unfold Rdiv at 1. rewrite Rmult_assoc, Rinv_l by (apply Rmult_integral_contrapositive_currified; [nra|exact XN]).
      replace (h * T / L1 * (L0 * L1 * X)) with (h * L0 * (T * X)) by (field; lra). rewrite T1. rewrite Rmult_1_r.
      transitivity (h * L0 * ((s * s + c * c) - (s * s + c * c) * C)); [ring|]. rewrite P0. ring.
    + f_equal. assert (T3 : T * C = X - T) by lra. assert (T4 : C = 1 - T * X) by lra.
      apply pt_eq; unfold smul, padd; cbn [fst snd].
      * replace (- (h * T) / L0 * (L0 * c)) with (- h * T * c) by (field; lra). replace (h * T / L1 * (L1 * (c * C - s * X))) with (h * (c * (T * C) - s * (T * X))) by (field; lra).
        rewrite T3, T1. field_simplify. lra.
      * replace (- (h * T) / L0 * (L0 * s)) with (- h * T * s) by (field; lra). replace (h * T / L1 * (L1 * (s * C + c * X))) with (h * (s * (T * C) + c * (T * X))) by (field; lra).
        rewrite T3, T1. field_simplify. lra.
Qed.
Lemma turn_facts a b e t0 t1 : a <> b -> b <> e -> corner_ok a b e -> heads a b t0 -> heads b e t1 -> Rabs (t1 - t0) <= PI ->
  Rabs (t1 - t0) < PI /\ (t0 = t1 \/ tiny <= sin (t1 - t0) ^ 2) /\
  let k := fst (psub b a) * snd (psub e b) - snd (psub b a) * fst (psub e b) in
  (0 < k <-> t0 < t1) /\ (k = 0 <-> t0 = t1).
Proof.
  intros N M CO H0 H1 B. pose proof (apart_pos a b N) as P0. pose proof (apart_pos b e M) as P1. pose proof PI_RGT_0 as PP. unfold corner_ok in CO. cbv zeta in CO.
  set (k := fst (psub b a) * snd (psub e b) - snd (psub b a) * fst (psub e b)).
  assert (K : k = apart a b * apart b e * sin (t1 - t0)).
  { unfold k. rewrite H0, H1. unfold smul. cbn [fst snd]. rewrite sin_minus. ring. }
  change (fst b - fst a) with (fst (psub b a)) in CO. change (snd b - snd a) with (snd (psub b a)) in CO.
  change (fst e - fst b) with (fst (psub e b)) in CO. change (snd e - snd b) with (snd (psub e b)) in CO. fold k in CO.
  assert (Dd : fst (psub b a) * fst (psub e b) + snd (psub b a) * snd (psub e b) = apart a b * apart b e * cos (t1 - t0)).
  { rewrite H0, H1. unfold smul. cbn [fst snd]. rewrite cos_minus. ring. }
  rewrite Dd, K in CO. set (A := apart a b * apart b e) in *. assert (AP : 0 < A) by (apply Rmult_lt_0_compat; assumption). clearbody A.
  set (x := t1 - t0) in *. assert (Bx : - PI <= x <= PI) by (apply Rabs_le_inv; exact B).
  assert (S : x = 0 \/ (sin x <> 0 /\ tiny <= sin x ^ 2)).
  { destruct CO as [C|[C1 C2]].
    - right. assert (tiny <= sin x ^ 2).
      { unfold tiny. assert (0 < 10 ^ 12) by (apply pow_lt; lra). apply (Rmult_le_reg_l (10 ^ 12)); [assumption|]. rewrite Rinv_r by lra.
        apply (Rmult_le_reg_l (A ^ 2)); [apply pow_lt; exact AP|]. replace (A ^ 2 * (10 ^ 12 * sin x ^ 2)) with (10 ^ 12 * (A * sin x) ^ 2) by ring. lra. }
      split; [|assumption]. intro Z. rewrite Z in *. assert (0 < tiny) by (unfold tiny; apply Rinv_0_lt_compat, pow_lt; lra). nra.
    - left. assert (SX : sin x = 0) by (apply (Rmult_eq_reg_l A); lra). assert (CX : 0 < cos x) by (apply (Rmult_lt_reg_l A); lra).
      destruct (Rtotal_order x 0) as [L|[L|L]]; [|exact L|].
      + exfalso. destruct (Req_dec x (- PI)) as [Q|Q]; [rewrite Q, cos_neg, cos_PI in CX; lra|]. pose proof (sin_gt_0 (- x) ltac:(lra) ltac:(lra)) as G. rewrite sin_neg in G. lra.
      + exfalso. destruct (Req_dec x PI) as [Q|Q]; [rewrite Q, cos_PI in CX; lra|]. pose proof (sin_gt_0 x ltac:(lra) ltac:(lra)) as G. lra. }
  assert (LT : Rabs x < PI).
  { destruct S as [-> |[S _]]; [rewrite Rabs_R0; lra|]. destruct (Req_dec x PI) as [Q|Q]; [exfalso; apply S; rewrite Q; apply sin_PI|].
    destruct (Req_dec x (- PI)) as [Q'|Q']; [exfalso; apply S; rewrite Q', sin_neg, sin_PI; ring|]. apply Rabs_def1; lra. }
  split; [exact LT|]. split; [destruct S as [S|[_ S]]; [left; unfold x in S; lra|right; exact S]|].
  assert (Lx : - PI < x < PI) by (apply Rabs_def2 in LT; lra). rewrite K. unfold x in *.
  assert (G : (0 < t1 - t0 -> 0 < sin (t1 - t0)) /\ (t1 - t0 < 0 -> sin (t1 - t0) < 0)).
  { split; intro O; [apply sin_gt_0; lra|]. pose proof (sin_gt_0 (- (t1 - t0)) ltac:(lra) ltac:(lra)) as G. rewrite sin_neg in G. lra. }
  destruct G as [G1 G2]. cbv zeta. split; split; intro O.
  - destruct (Rtotal_order t0 t1) as [L|[L|L]]; [exact L| |].
    + exfalso. rewrite L in O. replace (t1 - t1) with 0 in O by ring. rewrite sin_0 in O. lra.
    + exfalso. specialize (G2 ltac:(lra)). nra.
  - specialize (G1 ltac:(lra)). nra.
  - destruct (Rtotal_order t0 t1) as [L|[L|L]]; [|exact L|].
    + exfalso. specialize (G1 ltac:(lra)). nra.
    + exfalso. specialize (G2 ltac:(lra)). nra.
  - rewrite O. replace (t1 - t1) with 0 by ring. rewrite sin_0. ring.
Qed.
Lemma len2_polar L t : len2 (smul L (cos t, sin t)) = L ^ 2.
Proof. unfold len2, smul. cbn [fst snd]. pose proof (sin2_cos2 t) as P. unfold Rsqr in P. transitivity (L ^ 2 * (sin t * sin t + cos t * cos t)); [ring|rewrite P; ring]. Qed.
Lemma len_polar L t : 0 < L -> len (smul L (cos t, sin t)) = L.
Proof. intro P. unfold len. rewrite len2_polar. replace (L ^ 2) with (L * L) by ring. apply sqrt_square. lra. Qed.
Lemma arc_at_flip c r a b k : k = 1 \/ k = -1 -> forall s, arc_at c r (a - k * (PI / 2)) (b - k * (PI / 2)) s = arc_at c (- k * r) (a + PI / 2) (b + PI / 2) s.
Proof.
  intros K s. unfold arc_at. replace (a - k * (PI / 2) + s * (b - k * (PI / 2) - (a - k * (PI / 2)))) with (a + s * (b - a) - k * (PI / 2)) by ring.
  replace (a + PI / 2 + s * (b + PI / 2 - (a + PI / 2))) with (a + s * (b - a) - -1 * (PI / 2)) by ring.
  destruct (quarter (a + s * (b - a)) k K) as [-> ->]. destruct (quarter (a + s * (b - a)) (-1) ltac:(lra)) as [-> ->]. f_equal. f_equal; ring.
Qed.
Lemma bend_radius s k h w A br : s = 1 \/ s = -1 -> 0 < s * k -> h = w / 2 \/ h = - (w / 2) -> 0 < w -> 0 < A ->
  (if Rlt_dec 0 (A * (k * h)) then br - / 2 * w else br + / 2 * w) = br - s * h.
Proof.
  intros SS SK Hh W PA. assert (G : 0 < A * (k * h) <-> 0 < k * h) by (split; intro X; [apply (Rmult_lt_reg_l A); lra|now apply Rmult_lt_0_compat]).
  destruct (Rlt_dec 0 (A * (k * h))) as [Q|Q]; rewrite G in Q; destruct SS as [-> | ->], Hh as [-> | ->]; try lra; exfalso; nra.
Qed.
Section Corner.
Variables (fuel : nat) (hob : pt * pt -> R * R -> pt * pt).
Lemma join_shape c bend tol a b e w h l : a <> b -> b <> e -> corner_ok a b e -> 0 < w -> h = w / 2 \/ h = - (w / 2) -> 0 < tol ->
  (c = RoundCorner -> tol <= w / 4) -> join fuel hob c bend tol (side h a b) (side h b e) b w = Some l ->
  exists t0 t1, heads a b t0 /\ heads b e t1 /\ Rabs (t1 - t0) < PI /\ corner_shape c bend tol b t0 t1 h l.
Proof.
  intros N M CO W Hh Tp Tr J. pose proof PI_RGT_0 as PP.
  set (k := fst (psub b a) * snd (psub e b) - snd (psub b a) * fst (psub e b)).
  set (left := if Rlt_dec 0 k then true else false).
  destruct (corner_angles left (psub b a) (psub e b)) as [a0 a1] eqn:CA.
  destruct (corner_heads left a b e a0 a1 N M CA) as (t0 & t1 & H0 & H1 & A0 & A1 & B). cbv zeta in *.
  destruct (turn_facts a b e t0 t1 N M CO H0 H1 B) as (LT & TI & K1 & K2). cbv zeta in K1, K2. fold k in K1, K2.
  exists t0, t1. split; [exact H0|]. split; [exact H1|]. split; [exact LT|].
  unfold join in J. rewrite !side_vec in J. rewrite (heads_side h a b t0 N H0), (heads_side h b e t1 M H1) in J. cbn [fst snd] in J.
  pose proof (apart_pos a b N) as P0. pose proof (apart_pos b e M) as P1.
  assert (AW : Rabs h = w / 2) by (destruct Hh as [-> | ->]; [apply Rabs_pos_eq; lra|rewrite Rabs_left; lra]).
  assert (HN : h <> 0) by (destruct Hh; lra).
  destruct (tan_sign _ LT) as [TS1 TS2]. destruct (tan_one _ LT) as [TO1 TO2].
  assert (T0 : t0 = t1 -> tan ((t1 - t0) / 2) = 0) by (intros ->; replace ((t1 - t1) / 2) with 0 by field; apply tan_0).
  assert (IN : 0 <= h * (t1 - t0) <-> 0 <= h * tan ((t1 - t0) / 2)).
  { destruct (Rtotal_order t0 t1) as [L|[L|L]].
    - specialize (TS1 ltac:(lra)). assert (0 < t1 - t0) by lra. split; intro X; nra.
    - rewrite (T0 L), L. split; intros _; lra.
    - specialize (TS2 ltac:(lra)). assert (t1 - t0 < 0) by lra. split; intro X; nra. }
  set (T := tan ((t1 - t0) / 2)) in *.
  assert (GEN : forall u0 u1 p, (u0, u1, p) = (- (h * T) / apart a b, h * T / apart b e, crossing b t0 t1 h) ->
    ((if Rle_dec u0 0 then if Rle_dec 0 u1 then true else false else false) = true <-> 0 <= h * (t1 - t0)) /\ p = crossing b t0 t1 h).
  { intros u0 u1 p E. assert (E0 : u0 = - (h * T) / apart a b) by congruence. assert (E1 : u1 = h * T / apart b e) by congruence. split; [|congruence]. rewrite IN.
    assert (X0 : u0 * apart a b = - (h * T)) by (rewrite E0; field; lra). assert (X1 : u1 * apart b e = h * T) by (rewrite E1; field; lra).
    split.
    - destruct (Rle_dec u0 0); [|discriminate]. intros _. nra.
    - intro X. destruct (Rle_dec u0 0); [|exfalso; nra]. destruct (Rle_dec 0 u1); [reflexivity|exfalso; nra]. }
  assert (TR := triple b t0 t1 h (apart a b) (apart b e) (tiny * apart a b ^ 2 * apart b e ^ 2) P0 P1 LT TI eq_refl). cbv zeta in TR. fold T in TR.
  destruct c; cbv zeta in J.
  - (* natural *)
    clear TR. rewrite H0, H1 in J. rewrite !len_polar in J by assumption.
    assert (Sm : forall L t, 0 < L -> smul (/ 2 * w / L) (smul L (cos t, sin t)) = smul (w / 2) (cos t, sin t)).
    { intros L t PL. apply pt_eq; unfold smul; cbn [fst snd]; field; lra. }
    rewrite !Sm in J by assumption.
    assert (TR := triple b t0 t1 h (w / 2) (w / 2) (tiny * (/ 2 * w) ^ 4) ltac:(lra) ltac:(lra) LT TI ltac:(unfold Rdiv; ring)). cbv zeta in TR. fold T in TR.
    rewrite TR in J. clear TR. injection J as <-.
    assert (C0 : forall x, x = - (h * T) -> padd (spot b t0 0 h) (smul (x / (w / 2)) (smul (w / 2) (cos t0, sin t0))) = crossing b t0 t1 h).
    { intros x ->. unfold crossing, spot. fold T. apply pt_eq; unfold padd, smul; cbn [fst snd]; field; lra. }
    assert (C1 : padd (spot b t1 0 h) (smul (h * T / (w / 2)) (smul (w / 2) (cos t1, sin t1))) = crossing b t0 t1 h).
    { unfold crossing, spot. fold T. destruct (tan_half _ LT) as [Y1 Y2]. fold T in Y1, Y2.
      assert (E1 : cos t1 = cos t0 * cos (t1 - t0) - sin t0 * sin (t1 - t0)) by (rewrite <- cos_plus; f_equal; ring).
      assert (E2 : sin t1 = sin t0 * cos (t1 - t0) + cos t0 * sin (t1 - t0)) by (rewrite <- sin_plus; f_equal; ring).
      rewrite E1, E2. set (C := cos (t1 - t0)) in *. set (X := sin (t1 - t0)) in *. clearbody C X T. assert (T3 : T * C = X - T) by lra.
      apply pt_eq; unfold padd, smul; cbn [fst snd].
      - replace (h * T / (w / 2) * (w / 2 * (cos t0 * C - sin t0 * X))) with (h * (cos t0 * (T * C) - sin t0 * (T * X))) by (field; lra). rewrite T3, Y1. ring.
      - replace (h * T / (w / 2) * (w / 2 * (sin t0 * C + cos t0 * X))) with (h * (sin t0 * (T * C) + cos t0 * (T * X))) by (field; lra). rewrite T3, Y1. ring. }
    set (u0 := - (h * T) / (w / 2)) in *. set (u1 := h * T / (w / 2)) in *. assert (U : u1 = - u0) by (unfold u0, u1; field; lra).
    assert (UA : Rabs u0 = Rabs T).
    { unfold u0, Rdiv. rewrite Rabs_mult, Rabs_Ropp, Rabs_mult, AW. rewrite Rabs_inv, (Rabs_pos_eq (w * / 2)) by lra. unfold Rdiv. field. lra. }
    assert (US : u0 <= 0 <-> 0 <= h * (t1 - t0)).
    { rewrite IN. assert (u0 * (w / 2) = - (h * T)) by (unfold u0; field; lra). split; intro; nra. }
    assert (MID : mid (crossing b t0 t1 h) (crossing b t0 t1 h) = crossing b t0 t1 h) by (apply pt_eq; unfold mid, smul, padd; cbn [fst snd]; field).
    cbn [corner_shape]. split; intro O.
    + destruct (Rlt_dec u0 0) as [L|L]; [destruct (Rlt_dec 0 u1); [reflexivity|exfalso; lra]|].
      assert (U1 : u0 <= 1).
      { destruct O as [O|O]; [apply US in O; lra|]. apply TO1 in O. rewrite <- UA in O. apply Rabs_le_inv in O. lra. }
      destruct (Rle_dec u0 1); [|contradiction]. destruct (Rle_dec (-1) u1); [|lra]. rewrite Rmin_right, Rmax_right by lra. rewrite C1. unfold u0. rewrite (C0 _ eq_refl), MID. reflexivity.
    + assert (O1 : ~ 0 <= h * (t1 - t0)) by tauto. assert (O2 : PI / 2 < Rabs (t1 - t0)) by (apply Rnot_le_lt; tauto).
      apply TO2 in O2. rewrite <- UA in O2. rewrite <- US in O1. rewrite Rabs_pos_eq in O2 by lra.
      destruct (Rlt_dec u0 0); [lra|]. destruct (Rle_dec u0 1); [lra|]. rewrite Rmin_left, Rmax_left by lra. rewrite AW.
      f_equal; [|f_equal]; unfold spot; apply pt_eq; unfold padd, smul; cbn [fst snd]; field.
  - (* miter *)
    rewrite H0, H1, !len2_polar in J. rewrite TR in J. injection J as <-. reflexivity.
  - (* bevel *)
    rewrite H0, H1, !len2_polar in J. rewrite TR in J. destruct (GEN _ _ _ eq_refl) as [G _]. cbn [corner_shape].
    destruct (if Rle_dec _ 0 then _ else _) in G, J; (injection J as <-); (split; intro O); try reflexivity; exfalso.
    + apply O, G. reflexivity.
    + apply G in O. discriminate.
  - (* round *)
    assert (LE : (if Rlt_dec (snd (psub b a) * fst (psub e b) - fst (psub b a) * snd (psub e b)) 0 then true else false) = left).
    { unfold left, k. generalize (fst (psub b a)) (snd (psub b a)) (fst (psub e b)) (snd (psub e b)). intros x y z u.
      destruct (Rlt_dec (y * z - x * u) 0), (Rlt_dec 0 (x * u - y * z)); try reflexivity; exfalso; lra. }
    rewrite LE, CA in J. rewrite H0, H1, !len2_polar in J. rewrite TR in J. destruct (GEN _ _ _ eq_refl) as [G _]. cbn [corner_shape].
    destruct (if Rle_dec _ 0 then _ else _) in G, J; (split; intro O).
    + injection J as <-. reflexivity.
    + exfalso. apply O, G. reflexivity.
    + exfalso. apply G in O. discriminate.
    + destruct (arc_count 4 (/ 2 * Rabs (a1 - a0)) tol (/ 2 * w)) as [np|] eqn:AC; [|discriminate]. injection J as <-.
      assert (X := arc_traces 4 _ tol (/ 2 * w) np b a0 a1 (7 / 6) (49 / 36 * tol) AC ltac:(lia) eq_refl Tp ltac:(specialize (Tr eq_refl); lra) ltac:(cbn; field) ltac:(field)).
      set (s := if left then 1 else -1) in *. assert (SS : s = 1 \/ s = -1) by (unfold s; destruct left; auto).
      assert (HS : h = - s * (/ 2 * w)).
      { assert (SL : 0 < s * (t1 - t0)).
        { unfold s, left. destruct (Rlt_dec 0 k) as [Q|Q]; [apply K1 in Q; lra|]. assert (t0 <> t1) by (intro Z; apply O; rewrite Z; lra).
          destruct (Rtotal_order t0 t1) as [L|[L|L]]; [exfalso; apply Q, K1, L|contradiction|lra]. }
        destruct SS as [Q|Q], Hh as [Z|Z]; rewrite Q in *; try lra; exfalso; apply O; rewrite Z; nra. }
      eapply traces_ext; [|exact X]. intro x. rewrite A0, A1. rewrite (arc_at_flip b (/ 2 * w) t0 t1 s SS x). now rewrite <- HS.
  - exact I.
  - (* circular *)
    cbn [corner_shape]. change (fst (psub b a) * snd (psub e b) - snd (psub b a) * fst (psub e b)) with k in J.
    destruct (Req_EM_T k 0) as [Z|Z].
    + assert (E : t0 = t1) by (apply K2; exact Z). injection J as <-. split; intro O; [|contradiction]. rewrite E. f_equal. apply pt_eq; unfold mid, smul, padd; cbn [fst snd]; field.
    + assert (E : t0 <> t1) by (intro E; apply Z, K2, E). split; intro O; [contradiction|]. destruct bend as [br|]; [|discriminate]. exists br. split; [reflexivity|].
      fold left in J. rewrite CA in J. set (s := if left then 1 else -1) in *. assert (SS : s = 1 \/ s = -1) by (unfold s; destruct left; auto).
      assert (SE : (if Rlt_dec t0 t1 then 1 else -1) = s).
      { unfold s, left. destruct (Rlt_dec 0 k) as [Q|Q]; destruct (Rlt_dec t0 t1) as [L|L]; try reflexivity; exfalso; [apply L, K1, Q|apply Q, K1, L]. }
      cbv zeta. rewrite SE. intro BR. rewrite H0 in J. rewrite len_polar in J by assumption.
      assert (SK : 0 < s * k).
      { unfold s, left. destruct (Rlt_dec 0 k); [lra|]. destruct (Rtotal_order k 0) as [Q|[Q|Q]]; [lra|contradiction|lra]. }
      match type of J with context [if Rlt_dec 0 ?z then _ else _] => assert (SD : z = apart a b * (k * h)); [|set (side := z) in *] end.
      { unfold spot, smul, psub, padd. cbn [fst snd]. pose proof (sin2_cos2 t0) as P. unfold Rsqr in P.
        transitivity (apart a b * (k * h) * (sin t0 * sin t0 + cos t0 * cos t0)); [ring|rewrite P; ring]. }
      assert (RR : (if Rlt_dec 0 side then br - / 2 * w else br + / 2 * w) = br - s * h).
      { rewrite SD. now apply bend_radius. }
      rewrite RR in J. clear RR SD. clearbody side.
      destruct (arc_count 2 (/ 2 * Rabs (a1 - a0)) tol (br - s * h)) as [np|] eqn:AC; [|discriminate].
      assert (NP := arc_count_base _ _ _ _ _ AC). destruct (linspace_cons a0 a1 np ltac:(lia)) as (m & LM & _).
      assert (HD : hd (0, 0) (map (on_circle (br - s * h)) (linspace a0 a1 np)) = on_circle (br - s * h) a0) by (rewrite LM; reflexivity).
      rewrite HD in J. injection J as <-. rewrite map_map.
      set (ctr := spot b t0 (- (br * tan (Rabs (t1 - t0) / 2))) (s * br)).
      assert (RB : br - Rabs h <= br - s * h) by (destruct SS as [-> | ->]; unfold Rabs; destruct (Rcase_abs h); lra).
      assert (X := arc_traces 2 _ tol (br - s * h) np ctr a0 a1 (3 / 2) (9 / 4 * tol) AC ltac:(lia) eq_refl Tp ltac:(lra) ltac:(cbn; field) ltac:(field)).
      assert (DD : a1 - a0 = t1 - t0) by (rewrite A0, A1; ring).
      match goal with |- traces _ _ ?l => replace l with (map (fun x => padd ctr (on_circle (br - s * h) x)) (linspace a0 a1 np)) end.
      * rewrite <- A0, <- A1. exact X.
      * apply map_ext. intro x. rewrite DD. replace (/ 2 * Rabs (t1 - t0)) with (Rabs (t1 - t0) / 2) by field. rewrite A0.
        unfold ctr, on_circle, spot. destruct (quarter t0 s SS) as [-> ->]. apply pt_eq; unfold padd, psub, smul; cbn [fst snd];
          (assert (s * s = 1) by (destruct SS as [-> | ->]; ring)); field_simplify; try lra; nra.
  - exact I.
Qed.
End Corner.

(** ** Ends *)

Lemma same_angle x y d : cos x = cos y -> sin x = sin y -> cos (x + d) = cos (y + d) /\ sin (x + d) = sin (y + d).
Proof. intros C S. rewrite !cos_plus, !sin_plus, C, S. auto. Qed.
Lemma arc_at_same c r a b a' d : cos a = cos a' -> sin a = sin a' -> b = a + d -> forall s, arc_at c r a b s = arc_at c r a' (a' + d) s.
Proof.
  intros C S -> s. unfold arc_at. replace (a + s * (a + d - a)) with (a + s * d) by ring. replace (a' + s * (a' + d - a')) with (a' + s * d) by ring.
  destruct (same_angle a a' (s * d) C S) as [-> ->]. reflexivity.
Qed.
Lemma polar_nonzero L t : 0 < L -> smul L (cos t, sin t) <> (0, 0).
Proof.
  intros P E. pose proof (len2_polar L t) as H. rewrite E in H. unfold len2 in H. cbn [fst snd] in H. assert (0 < L ^ 2) by (apply pow_lt; exact P). lra.
Qed.
Lemma along_polar L t : 0 < L -> cos (along (smul L (cos t, sin t))) = cos t /\ sin (along (smul L (cos t, sin t))) = sin t.
Proof.
  intro P. pose proof (polar_nonzero L t P) as N. pose proof (len_polar L t P) as E. unfold along. set (v := smul L (cos t, sin t)) in *.
  destruct (cos_atan2 (snd v) (fst v)) as [-> ->]; [destruct v; exact N|]. unfold len, len2 in E. rewrite E. unfold v, smul. cbn [fst snd]. split; field; lra.
Qed.
Section End.
Variables (fuel : nat) (hob : pt * pt -> R * R -> pt * pt).
Lemma cap_shape en tol (front : bool) e t L w blo bhi l : let s := if front then 1 else -1 in 0 < L -> (en = RoundCap -> 0 < tol /\ tol <= w / 4) ->
  cap_points fuel hob en tol front e (smul L (s * cos t, s * sin t)) w (spot e t 0 (- (w / 2))) (spot e t 0 (w / 2)) blo bhi = Some l ->
  end_shape en tol w e t s l.
Proof.
  intros s P Rd C. assert (SS : s = 1 \/ s = -1) by (unfold s; destruct front; auto). unfold cap_points in C. fold s in C. cbv zeta in C.
  assert (VE : smul L (s * cos t, s * sin t) = smul L (cos (t - (1 - s) / 2 * PI), sin (t - (1 - s) / 2 * PI))).
  { f_equal. destruct SS as [-> | ->].
    - replace ((1 - 1) / 2 * PI) with 0 by field. rewrite Rminus_0_r. apply pt_eq; cbn [fst snd]; ring.
    - replace ((1 - -1) / 2 * PI) with PI by field. rewrite cos_minus, sin_minus, cos_PI, sin_PI. apply pt_eq; cbn [fst snd]; ring. }
  assert (LL : len (smul L (s * cos t, s * sin t)) = L) by (rewrite VE; now apply len_polar).
  assert (EXT : forall d l, [padd e (smul (/ 2 * w) (smul s (snd (smul (/ L) (smul L (s * cos t, s * sin t))), - fst (smul (/ L) (smul L (s * cos t, s * sin t))))));
       padd (padd e (smul (/ 2 * w) (smul s (snd (smul (/ L) (smul L (s * cos t, s * sin t))), - fst (smul (/ L) (smul L (s * cos t, s * sin t)))))))
         (smul d (smul (/ L) (smul L (s * cos t, s * sin t))));
       padd (psub e (smul (/ 2 * w) (smul s (snd (smul (/ L) (smul L (s * cos t, s * sin t))), - fst (smul (/ L) (smul L (s * cos t, s * sin t)))))))
         (smul d (smul (/ L) (smul L (s * cos t, s * sin t))));
       psub e (smul (/ 2 * w) (smul s (snd (smul (/ L) (smul L (s * cos t, s * sin t))), - fst (smul (/ L) (smul L (s * cos t, s * sin t))))))] = l ->
    l = [spot e t 0 (- (w / 2)); spot e t (s * d) (- (w / 2)); spot e t (s * d) (w / 2); spot e t 0 (w / 2)]).
  { intros d m <-. unfold smul. cbn [fst snd]. replace (/ L * (L * (s * cos t))) with (s * cos t) by (field; lra). replace (/ L * (L * (s * sin t))) with (s * sin t) by (field; lra).
    assert (S2 : forall x, s * (s * x) = x) by (intro x; destruct SS as [-> | ->]; ring). replace (s * - (s * cos t)) with (- (s * (s * cos t))) by ring. rewrite !S2.
    unfold spot. repeat (f_equal; try (apply pt_eq; unfold padd, psub; cbn [fst snd]; field)). }
  destruct en; cbn [end_shape].
  - injection C as <-. reflexivity.
  - rewrite LL in C. injection C as C. apply EXT in C. rewrite C. unfold Rdiv. rewrite !(Rmult_comm w). reflexivity.
  - rewrite LL in C. injection C as C. apply EXT in C. rewrite C. unfold s. destruct front; destruct (Rlt_dec 0 _); try lra; reflexivity.
  - destruct (Rd eq_refl) as [Tp Tr]. destruct (arc_count 5 (PI / 2) tol (/ 2 * w)) as [np|] eqn:AC; [|discriminate]. injection C as <-.
    rewrite VE. set (u := along _). destruct (along_polar L (t - (1 - s) / 2 * PI) P) as [C1 S1]. fold u in C1, S1.
    rewrite <- (map_map (fun x => s * x + u) (fun x => padd e (on_circle (/ 2 * w) x))). rewrite linspace_affine. pose proof PI_RGT_0 as PP.
    assert (HF : PI / 2 = / 2 * Rabs (s * (PI / 2) + u - (s * - (PI / 2) + u))).
    { replace (s * (PI / 2) + u - (s * - (PI / 2) + u)) with (s * PI) by field. rewrite Rabs_mult, (Rabs_pos_eq PI) by lra.
      replace (Rabs s) with 1; [field|]. destruct SS as [-> | ->]; [rewrite Rabs_R1; reflexivity|rewrite Rabs_left; lra]. }
    assert (X := arc_traces 5 _ tol (/ 2 * w) np e (s * - (PI / 2) + u) (s * (PI / 2) + u) (9 / 8) (81 / 64 * tol) AC ltac:(lia) HF Tp ltac:(lra) ltac:(cbn; field) ltac:(field)).
    eapply traces_ext; [|exact X]. intro x. replace (/ 2 * w) with (w / 2) by field. apply arc_at_same.
    + replace (t - PI / 2) with (t - (1 - s) / 2 * PI + s * - (PI / 2)) by (destruct SS as [-> | ->]; field). rewrite (Rplus_comm _ u). now apply same_angle.
    + replace (t - PI / 2) with (t - (1 - s) / 2 * PI + s * - (PI / 2)) by (destruct SS as [-> | ->]; field). rewrite (Rplus_comm _ u). now apply same_angle.
    + field.
  - exact I.
  - exact I.
Qed.
End End.

Section Round.
Variables (fuel : nat) (hob : pt * pt -> R * R -> pt * pt) (eng : op -> list zpath -> list zpath -> list zpath).
Hypothesis enough : (2 <= fuel)%nat.
Notation now := (now fuel hob eng). Notation uncut := (uncut fuel hob eng).

Lemma arm_pieces c bend tol : forall ss cs ws l, arm fuel hob c bend tol ss cs ws = Some l -> (length ss <= S (length cs))%nat -> (length ss <= S (length ws))%nat ->
  exists pieces, l = concat pieces /\ length pieces = (length ss - 1)%nat /\
    forall i, (i < length pieces)%nat -> join fuel hob c bend tol (nth i ss ss0) (nth (S i) ss ss0) (nth i cs (0, 0)) (nth i ws 0) = Some (nth i pieces []).
Proof.
  induction ss as [|s ss IH]; intros cs ws l H C W; [injection H as <-; exists []; cbn; repeat split; intros; lia|].
  destruct ss as [|t ss]; [injection H as <-; exists []; cbn; repeat split; intros; lia|].
  destruct cs as [|p cs]; [cbn in C; lia|]. destruct ws as [|w ws]; [cbn in W; lia|].
  change (arm fuel hob c bend tol (s :: t :: ss) (p :: cs) (w :: ws)) with
    (match join fuel hob c bend tol s t p w, arm fuel hob c bend tol (t :: ss) cs ws with Some l, Some m => Some (l ++ m) | _, _ => None end) in H.
  destruct (join fuel hob c bend tol s t p w) as [x|] eqn:J; [|discriminate]. destruct (arm fuel hob c bend tol (t :: ss) cs ws) as [m|] eqn:A; [|discriminate].
  injection H as <-. destruct (IH cs ws m A) as (ps & E & L & G); [cbn in *; lia|cbn in *; lia|]. exists (x :: ps). split; [cbn; now rewrite E|]. split; [cbn in *; lia|].
  intros [|i] I; [exact J|]. apply G. cbn in I. lia.
Qed.
Lemma nth_const (l : list R) w i : (forall x, In x l -> x = w) -> (i < length l)%nat -> nth i l 0 = w.
Proof. intros H I. apply H. now apply nth_In. Qed.
Lemma hd_last_const (l : list R) w : (forall x, In x l -> x = w) -> l <> [] -> hd 0 l = w /\ last l 0 = w.
Proof.
  intros H N. split; [destruct l; [congruence|apply H; now left]|]. rewrite last_at. apply nth_const; [exact H|destruct l; [congruence|cbn; lia]].
Qed.

(** A path of three or more points, of constant width and offset: its polygon goes
    round the start, along the right side, round the end and back along the left. *)
Theorem C72_outline : forall f k w o d, aligned f -> (3 <= length (f_pts f))%nat -> bends (f_pts f) -> uncut f -> (k < f_n f)%nat ->
  let c := nth k (f_corners f) Natural in let en := nth k (f_ends f) Flush in
  (forall r, In r (f_w f) -> nth k r 0 = w) -> (forall r, In r (f_o f) -> nth k r 0 = o) ->
  (o = 0 \/ forall ctr, beside o (f_pts f) ctr -> bends ctr) ->
  0 < w -> 0 < f_tol f -> (c = RoundCorner \/ en = RoundCap -> f_tol f <= w / 4) -> now f = Some d ->
  exists l p ctr back right front left, In ((nth k (f_layers f) 0%Z, nth k (f_dts f) 0%Z), l) d /\ In p l /\
    beside o (f_pts f) ctr /\ p = rev back ++ right ++ front ++ rev left /\
    corners_shape c (nth k (f_bend f) None) (f_tol f) ctr (- (w / 2)) right /\
    corners_shape c (nth k (f_bend f) None) (f_tol f) ctr (w / 2) left /\
    (exists t, heads (nth 0 ctr (0, 0)) (nth 1 ctr (0, 0)) t /\ end_shape en (f_tol f) w (nth 0 ctr (0, 0)) t (-1) back) /\
    (let n := length ctr in exists t, heads (nth (n - 2) ctr (0, 0)) (nth (n - 1) ctr (0, 0)) t /\
       end_shape en (f_tol f) w (nth (n - 1) ctr (0, 0)) t 1 front).
Proof.
  intros f k w o d A N B U K c en W O BC Wp Tp Tr D.
  assert (F : flat2 f = false) by (unfold flat2; destruct (f_pts f) as [|x [|y [|z t]]]; try reflexivity; cbn in N; lia).
  destruct (now_out fuel hob eng enough f d k U F D K) as (r & l & R & I & J).
  assert (T : tidy f = f).
  { unfold tidy. assert (E : forallb (fun b => b) (keep (f_pts f)) = true); [|now rewrite E]. destruct B as [B _]. clear - B.
    destruct (f_pts f) as [|x t]; [reflexivity|]. unfold keep. cbn [forallb andb]. revert x B. induction t as [|y t IH]; intros x B; [reflexivity|].
    change (pairwise (fun p q => negb (same_pt p q)) (x :: y :: t)) with (negb (same_pt x y) :: pairwise (fun p q => negb (same_pt p q)) (y :: t)).
    cbn [forallb]. assert (E : same_pt x y = false).
    { unfold same_pt. destruct (Req_EM_T (len2 (psub y x)) 0) as [Z|]; [|reflexivity]. exfalso. apply (B 0%nat); [cbn; lia|]. cbn [nth]. apply len2_zero in Z.
      destruct x, y. unfold psub in Z. cbn in Z. injection Z as Z1 Z2. f_equal; lra. }
    rewrite E. cbn [negb andb]. apply IH. intros i Hi. apply (B (S i)). cbn in *; lia. }
  assert (R' : general_outline fuel hob f k = Some r).
  { unfold out_of in R. rewrite T in R. destruct (f_pts f) as [|x [|y [|z t]]] eqn:P; try exact R. cbn in N; lia. }
  clear R. destruct A as (LW & LO & _). unfold general_outline in R'. rewrite LW, LO, !Nat.eqb_refl in R'. cbn [andb] in R'. fold c en in R'.
  set (ws := col k (f_w f)) in *. set (os := col k (f_o f)) in *.
  assert (Lws : length ws = length (f_pts f)) by (unfold ws, col; now rewrite map_length).
  assert (Los : length os = length (f_pts f)) by (unfold os, col; now rewrite map_length).
  assert (Hws : forall x, In x ws -> x = w) by (intros x X; unfold ws, col in X; apply in_map_iff in X as (y & <- & Y); now apply W).
  assert (Hos : forall x, In x os -> x = o) by (intros x X; unfold os, col in X; apply in_map_iff in X as (y & <- & Y); now apply O).
  assert (CT : exists ctr, centre (f_pts f) os = ctr /\ beside o (f_pts f) ctr /\ bends ctr).
  { unfold centre. destruct (all_zero os) eqn:Z.
    - assert (o = 0).
      { destruct os as [|x os'] eqn:E; [cbn in Los; lia|]. unfold all_zero in Z. cbn [forallb] in Z. destruct (Req_EM_T x 0); [|discriminate]. rewrite <- (Hos x) by now left. assumption. }
      subst o. exists (f_pts f). split; [reflexivity|]. split; [apply (no_offset_beside fuel enough); [lia|exact B]|exact B].
    - assert (o <> 0).
      { intros ->. unfold all_zero in Z. assert (forallb (fun x => if Req_EM_T x 0 then true else false) os = true); [|congruence].
        apply forallb_forall. intros x X. rewrite (Hos x X). destruct (Req_EM_T 0 0); congruence. }
      pose proof (line_beside fuel enough meet o (f_pts f) os meet_joins Los Hos ltac:(lia) B) as X.
      exists (line_of meet (shifted (f_pts f) os)). split; [|split; [exact X|destruct BC as [BC|BC]; [contradiction|now apply BC]]].
      pose proof (shifted_length fuel enough (f_pts f) os Los) as LS. unfold line_of. destruct (shifted (f_pts f) os) as [|s ss]; [cbn in LS; lia|].
      cbn [hd]. f_equal. f_equal. f_equal. f_equal. clear. revert s. induction ss as [|t ss IH]; intro s; [reflexivity|]. cbn [last]. destruct ss; [reflexivity|apply IH]. }
  destruct CT as (ctr & CE & CB & BB). unfold outline in R'. rewrite CE in R'.
  assert (LC : length ctr = length (f_pts f)) by apply CB.
  destruct ctr as [|p0 [|p1 ctr']] eqn:EC; try (cbn in LC; lia). rewrite <- EC in *. cbv zeta in R'.
  set (lo := shifted ctr (map (fun w => -1 * / 2 * w) ws)) in *. set (hi := shifted ctr (map (fun w => 1 * / 2 * w) ws)) in *.
  assert (SL : length lo = (length ctr - 1)%nat) by (unfold lo; apply (shifted_length fuel enough); rewrite map_length; lia).
  assert (SH : length hi = (length ctr - 1)%nat) by (unfold hi; apply (shifted_length fuel enough); rewrite map_length; lia).
  assert (TC : length (tl ctr) = (length ctr - 1)%nat) by (rewrite EC; cbn; lia).
  assert (TW : length (tl ws) = (length ctr - 1)%nat) by (destruct ws; cbn in *; lia).
  assert (NL : forall i, (S i < length ctr)%nat -> nth i lo ss0 = side (- (w / 2)) (nth i ctr (0, 0)) (nth (S i) ctr (0, 0))).
  { intros i Hi. unfold lo. apply (shifted_nth fuel enough); [rewrite map_length; lia| |exact Hi]. intros x X. apply in_map_iff in X as (y & <- & Y). rewrite (Hws y Y). field. }
  assert (NH : forall i, (S i < length ctr)%nat -> nth i hi ss0 = side (w / 2) (nth i ctr (0, 0)) (nth (S i) ctr (0, 0))).
  { intros i Hi. unfold hi. apply (shifted_nth fuel enough); [rewrite map_length; lia| |exact Hi]. intros x X. apply in_map_iff in X as (y & <- & Y). rewrite (Hws y Y). field. }
  destruct BB as [BB1 BB2].
  destruct (arm fuel hob c (nth k (f_bend f) None) (f_tol f) lo (tl ctr) (tl ws)) as [arm0|] eqn:A0; [|discriminate].
  destruct (arm fuel hob c (nth k (f_bend f) None) (f_tol f) hi (tl ctr) (tl ws)) as [arm1|] eqn:A1; [|discriminate].
  assert (CS : forall h ss am, h = w / 2 \/ h = - (w / 2) -> length ss = (length ctr - 1)%nat ->
    (forall i, (S i < length ctr)%nat -> nth i ss ss0 = side h (nth i ctr (0, 0)) (nth (S i) ctr (0, 0))) ->
    arm fuel hob c (nth k (f_bend f) None) (f_tol f) ss (tl ctr) (tl ws) = Some am -> corners_shape c (nth k (f_bend f) None) (f_tol f) ctr h am).
  { intros h ss am Hh LS NS AM. destruct (arm_pieces c (nth k (f_bend f) None) (f_tol f) ss (tl ctr) (tl ws) am AM ltac:(lia) ltac:(lia)) as (ps & E & LP & G).
    exists ps. split; [exact E|]. split; [lia|]. intros i Hi. specialize (G i Hi). rewrite !NS in G by lia.
    assert (NT : nth i (tl ctr) (0, 0) = nth (S i) ctr (0, 0)) by (rewrite EC; reflexivity).
    assert (NW : nth i (tl ws) 0 = w). { apply nth_const; [|lia]. intros x X. apply Hws. destruct ws; [contradiction|now right]. }
    rewrite NT, NW in G.
    exact (join_shape fuel hob c _ (f_tol f) _ _ _ w h _ (BB1 i ltac:(lia)) (BB1 (S i) ltac:(lia)) (BB2 i ltac:(lia)) Wp Hh Tp (fun Q => Tr (or_introl Q)) G). }
  destruct (hd_last_const ws w Hws) as [HW LWs]; [intro Z; rewrite Z in Lws; cbn in Lws; lia|].
  assert (CL : forall ss : list (pt * pt), length ss = (length ctr - 1)%nat -> last ss ss0 = nth (length ctr - 2) ss ss0) by (intros ss LS; rewrite last_at, LS; f_equal; lia).
  assert (P0 : p0 = nth 0 ctr (0, 0)) by (rewrite EC; reflexivity). assert (P1 : p1 = nth 1 ctr (0, 0)) by (rewrite EC; reflexivity).
  assert (PN : last ctr (0, 0) = nth (length ctr - 1) ctr (0, 0)) by apply last_at.
  assert (PM : beforelast ctr = nth (length ctr - 2) ctr (0, 0)).
  { unfold beforelast. assert (NE : ctr <> []) by (rewrite EC; discriminate). pose proof (@app_removelast_last pt ctr (0, 0) NE) as Z. rewrite last_at.
    assert (LR : length (removelast ctr) = (length ctr - 1)%nat) by (pose proof (f_equal (@length pt) Z) as Z'; rewrite app_length in Z'; cbn [length] in Z'; lia).
    rewrite LR. transitivity (nth (length ctr - 2) (removelast ctr ++ [last ctr (0, 0)]) (0, 0)); [|now rewrite <- Z]. rewrite app_nth1 by lia. f_equal. lia. }
  set (n := length ctr) in *.
  assert (Q0 : nth 0 ctr (0, 0) <> nth 1 ctr (0, 0)) by (apply BB1; lia).
  assert (QN : nth (n - 2) ctr (0, 0) <> nth (n - 1) ctr (0, 0)) by (replace (n - 1)%nat with (S (n - 2)) by lia; apply BB1; lia).
  pose proof (heads_along _ _ Q0) as H0. pose proof (heads_along _ _ QN) as HN. set (t0 := along _) in H0. set (tn := along _) in HN. clearbody t0 tn.
  rewrite HW, LWs in R'. fold ss0 in R'. rewrite (CL lo SL), (CL hi SH), PN, PM, P0, P1 in R'.
  assert (E0 : hd ss0 lo = nth 0 lo ss0) by (destruct lo; reflexivity). assert (E1 : hd ss0 hi = nth 0 hi ss0) by (destruct hi; reflexivity).
  match type of R' with context [@hd ?A ss0 lo] => change (@hd A ss0 lo) with (@hd (pt * pt) ss0 lo) in R' end.
  match type of R' with context [@hd ?A ss0 hi] => change (@hd A ss0 hi) with (@hd (pt * pt) ss0 hi) in R' end.
  rewrite E0, E1, !NL, !NH in R' by lia. replace (S (n - 2)) with (n - 1)%nat in R' by lia.
  rewrite !(heads_side _ _ _ t0 Q0 H0) in R'. rewrite !(heads_side _ _ _ tn QN HN) in R'. cbn [fst snd] in R'.
  assert (V0 : psub (nth 0 ctr (0, 0)) (nth 1 ctr (0, 0)) = smul (apart (nth 0 ctr (0, 0)) (nth 1 ctr (0, 0))) (-1 * cos t0, -1 * sin t0)).
  { transitivity (smul (-1) (psub (nth 1 ctr (0, 0)) (nth 0 ctr (0, 0)))); [apply pt_eq; unfold psub, smul; cbn [fst snd]; ring|]. rewrite H0. apply pt_eq; unfold smul; cbn [fst snd]; ring. }
  assert (VN : psub (nth (n - 1) ctr (0, 0)) (nth (n - 2) ctr (0, 0)) = smul (apart (nth (n - 2) ctr (0, 0)) (nth (n - 1) ctr (0, 0))) (1 * cos tn, 1 * sin tn)).
  { rewrite HN. apply pt_eq; unfold smul; cbn [fst snd]; ring. }
  rewrite V0, VN in R'.
  match type of R' with match ?x with _ => _ end = _ => destruct x as [cap0|] eqn:X0; [|discriminate] end.
  match type of R' with match ?x with _ => _ end = _ => destruct x as [cap1|] eqn:X1; [|discriminate] end.
  injection R' as R'. exists l, r, ctr, cap0, arm0, cap1, arm1. split; [exact I|]. split; [exact J|]. split; [exact CB|]. split; [now symmetry|].
  split; [apply (CS _ lo); auto|]. split; [apply (CS _ hi); auto|].
  assert (RC : en = RoundCap -> 0 < f_tol f /\ f_tol f <= w / 4) by (intro Z; split; [exact Tp|apply Tr; now right]).
  split.
  - exists t0. split; [exact H0|]. exact (cap_shape fuel hob en (f_tol f) false _ t0 _ w _ _ cap0 (apart_pos _ _ Q0) RC X0).
  - exists tn. split; [exact HN|]. exact (cap_shape fuel hob en (f_tol f) true _ tn _ w _ _ cap1 (apart_pos _ _ QN) RC X1).
Qed.

(** A path of two points, of any widths and offsets at both.  Extended ends of a
    path of constant width have no points at the ends of the section itself. *)
Definition square_cap (en : cap) : Prop := match en with Extended | Lengths _ _ => True | _ => False end.
Definition trim (l : list pt) : list pt := tl (removelast l).
Theorem C72_section : forall f p q k w0 w1 o0 o1 d, aligned f -> f_pts f = [p; q] -> p <> q -> uncut f -> (k < f_n f)%nat ->
  let en := nth k (f_ends f) Flush in
  map (fun r => nth k r 0) (f_w f) = [w0; w1] -> map (fun r => nth k r 0) (f_o f) = [o0; o1] ->
  (en = RoundCap -> 0 < f_tol f /\ f_tol f <= w0 / 4 /\ f_tol f <= w1 / 4) -> now f = Some d ->
  exists l r a b t back front, In ((nth k (f_layers f) 0%Z, nth k (f_dts f) 0%Z), l) d /\ In r l /\
    at_xy p q 0 o0 a /\ at_xy p q (apart p q) o1 b /\ heads a b t /\
    end_shape en (f_tol f) w0 a t (-1) back /\ end_shape en (f_tol f) w1 b t 1 front /\
    (~ (square_cap en /\ w0 = w1) -> match en with SmoothCap | CustomCap _ => True | _ => r = back ++ rev front end) /\
    (square_cap en /\ w0 = w1 -> r = trim back ++ rev (trim front)).
Proof.
  intros f p q k w0 w1 o0 o1 d A P N U K en W O Rd D.
  assert (F : flat2 f = false).
  { unfold flat2. rewrite P. unfold same_pt. destruct (Req_EM_T (len2 (psub q p)) 0) as [Z|]; [|reflexivity]. exfalso. apply N. apply len2_zero in Z.
    destruct p, q. unfold psub in Z. cbn in Z. injection Z as Z1 Z2. f_equal; lra. }
  destruct (now_out fuel hob eng enough f d k U F D K) as (r & l & R & I & J).
  unfold out_of in R. rewrite P in R. unfold two_outline in R.
  destruct (f_w f) as [|r0 [|r1 [|]]]; try discriminate W. destruct (f_o f) as [|s0 [|s1 [|]]]; try discriminate O. cbn [nth_error] in R.
  cbn [map] in W, O. assert (W0 : nth k r0 0 = w0) by congruence. assert (W1 : nth k r1 0 = w1) by congruence.
  assert (O0 : nth k s0 0 = o0) by congruence. assert (O1 : nth k s1 0 = o1) by congruence. rewrite W0, W1, O0, O1 in R. clear W O W0 W1 O0 O1. fold en in R.
  pose proof (apart_pos p q N) as AP.
  unfold outline2 in R. cbv zeta in R. set (a := padd p (smul o0 (normal p q))) in *. set (b := padd q (smul o1 (normal p q))) in *.
  assert (XA : at_xy p q 0 o0 a).
  { apply frame; [exact N|]. unfold a. apply pt_eq; unfold padd, smul, Rdiv; cbn [fst snd]; ring. }
  assert (XB : at_xy p q (apart p q) o1 b).
  { apply frame; [exact N|]. unfold b. replace (apart p q / apart p q) with 1 by (field; lra). apply pt_eq; unfold padd, psub, smul; cbn [fst snd]; ring. }
  assert (AB : a <> b). { intro E. rewrite E in XA. destruct XA as [X _], XB as [Y _]. lra. }
  pose proof (heads_along a b AB) as H. set (t := along (psub b a)) in H. clearbody t. pose proof (apart_pos a b AB) as PAB.
  rewrite (heads_normal a b t AB H) in R. rewrite H in R. rewrite len_polar in R by exact PAB. 
  set (L := apart a b) in *.
  assert (SA : forall x e, x = e -> psub a (smul (/ 2 * x) (- sin t, cos t)) = spot a t 0 (- (e / 2)) /\ padd a (smul (/ 2 * x) (- sin t, cos t)) = spot a t 0 (e / 2)).
  { intros x e ->. split; unfold spot; apply pt_eq; unfold psub, padd, smul; cbn [fst snd]; field. }
  assert (SB : forall x e, x = e -> psub b (smul (/ 2 * x) (- sin t, cos t)) = spot b t 0 (- (e / 2)) /\ padd b (smul (/ 2 * x) (- sin t, cos t)) = spot b t 0 (e / 2)).
  { intros x e ->. split; unfold spot; apply pt_eq; unfold psub, padd, smul; cbn [fst snd]; field. }
  destruct (SA w0 w0 eq_refl) as [SA1 SA2]. destruct (SB w1 w1 eq_refl) as [SB1 SB2]. rewrite SA1, SA2, SB1, SB2 in R. clear SA SB SA1 SA2 SB1 SB2.
  assert (SQ : forall e x y z, (psub (spot e t y z) (smul x (smul (/ L) (smul L (cos t, sin t)))) = spot e t (y - x) z) /\
                               (padd (spot e t y z) (smul x (smul (/ L) (smul L (cos t, sin t)))) = spot e t (y + x) z)).
  { intros e x y z. split; unfold spot; apply pt_eq; unfold psub, padd, smul; cbn [fst snd]; field; lra. }
  assert (EXT : forall d0 d1, (if Req_EM_T w0 w1
         then Some [psub (spot a t 0 (- (w0 / 2))) (smul d0 (smul (/ L) (smul L (cos t, sin t)))); psub (spot a t 0 (w0 / 2)) (smul d0 (smul (/ L) (smul L (cos t, sin t))));
                    padd (spot b t 0 (w1 / 2)) (smul d1 (smul (/ L) (smul L (cos t, sin t)))); padd (spot b t 0 (- (w1 / 2))) (smul d1 (smul (/ L) (smul L (cos t, sin t))))]
         else Some [spot a t 0 (- (w0 / 2)); psub (spot a t 0 (- (w0 / 2))) (smul d0 (smul (/ L) (smul L (cos t, sin t)))); psub (spot a t 0 (w0 / 2)) (smul d0 (smul (/ L) (smul L (cos t, sin t)))); spot a t 0 (w0 / 2);
                    spot b t 0 (w1 / 2); padd (spot b t 0 (w1 / 2)) (smul d1 (smul (/ L) (smul L (cos t, sin t)))); padd (spot b t 0 (- (w1 / 2))) (smul d1 (smul (/ L) (smul L (cos t, sin t)))); spot b t 0 (- (w1 / 2))]) = Some r ->
    forall back front,
      back = [spot a t 0 (- (w0 / 2)); spot a t (-1 * d0) (- (w0 / 2)); spot a t (-1 * d0) (w0 / 2); spot a t 0 (w0 / 2)] ->
      front = [spot b t 0 (- (w1 / 2)); spot b t (1 * d1) (- (w1 / 2)); spot b t (1 * d1) (w1 / 2); spot b t 0 (w1 / 2)] ->
      (w0 <> w1 -> r = back ++ rev front) /\ (w0 = w1 -> r = trim back ++ rev (trim front))).
  { intros d0 d1 E back front -> ->. rewrite !(proj1 (SQ _ _ _ _)), !(proj2 (SQ _ _ _ _)) in E. replace (0 - d0) with (-1 * d0) in E by ring. replace (0 + d1) with (1 * d1) in E by ring.
    destruct (Req_EM_T w0 w1); injection E as <-; (split; intro; [|]); try contradiction; reflexivity. }
  assert (FIN : forall back front, end_shape en (f_tol f) w0 a t (-1) back -> end_shape en (f_tol f) w1 b t 1 front ->
    (~ (square_cap en /\ w0 = w1) -> match en with SmoothCap | CustomCap _ => True | _ => r = back ++ rev front end) -> (square_cap en /\ w0 = w1 -> r = trim back ++ rev (trim front)) ->
    exists l r a b t back front, In ((nth k (f_layers f) 0%Z, nth k (f_dts f) 0%Z), l) d /\ In r l /\
    at_xy p q 0 o0 a /\ at_xy p q (apart p q) o1 b /\ heads a b t /\
    end_shape en (f_tol f) w0 a t (-1) back /\ end_shape en (f_tol f) w1 b t 1 front /\
    (~ (square_cap en /\ w0 = w1) -> match en with SmoothCap | CustomCap _ => True | _ => r = back ++ rev front end) /\
    (square_cap en /\ w0 = w1 -> r = trim back ++ rev (trim front))).
  { intros back front E1 E2 E3 E4. exists l, r, a, b, t, back, front. repeat (split; [assumption|]). assumption. }
  clearbody en. destruct en as [| |d0 d1| | |].
  - apply (FIN [spot a t 0 (- (w0 / 2)); spot a t 0 (w0 / 2)] [spot b t 0 (- (w1 / 2)); spot b t 0 (w1 / 2)]); [reflexivity|reflexivity| |intros [[] _]].
    intros _. injection R as <-. reflexivity.
  - destruct (EXT _ _ R _ _ eq_refl eq_refl) as [G1 G2]. eapply FIN; [| | |intros [_ Z]; exact (G2 Z)].
    + cbn [end_shape]. unfold Rdiv. rewrite !(Rmult_comm w0). reflexivity.
    + cbn [end_shape]. unfold Rdiv. rewrite !(Rmult_comm w1). reflexivity.
    + intro Z. apply G1. intro Y. apply Z. split; [exact Logic.I|exact Y].
  - destruct (EXT _ _ R _ _ eq_refl eq_refl) as [G1 G2]. eapply FIN; [| | |intros [_ Z]; exact (G2 Z)].
    + cbn [end_shape]. destruct (Rlt_dec 0 (-1)); [lra|]. reflexivity.
    + cbn [end_shape]. destruct (Rlt_dec 0 1); [|lra]. reflexivity.
    + intro Z. apply G1. intro Y. apply Z. split; [exact Logic.I|exact Y].
  - destruct (Rd eq_refl) as (Tp & T0 & T1). pose proof PI_RGT_0 as PP.
    destruct (arc_count 5 (PI / 2) (f_tol f) (/ 2 * w0)) as [n0|] eqn:N0; [|discriminate]. destruct (arc_count 5 (PI / 2) (f_tol f) (/ 2 * w1)) as [n1|] eqn:N1; [|discriminate].
    injection R as R.
    assert (G : forall e w n u s, s = 1 \/ s = -1 -> arc_count 5 (PI / 2) (f_tol f) (/ 2 * w) = Some n -> f_tol f <= w / 4 ->
      cos u = s * cos t -> sin u = s * sin t ->
      traces (arc_at e (w / 2) (t + s * (PI / 2)) (t + s * (PI / 2) - PI)) (81 / 64 * f_tol f) (map (fun x => padd e (on_circle (/ 2 * w) (x + u))) (linspace (PI / 2) (- (PI / 2)) n))).
    { intros e w n u s SS AC TW CU SU. rewrite <- (map_map (fun x => x + u) (fun x => padd e (on_circle (/ 2 * w) x))).
      assert (LA : map (fun x => x + u) (linspace (PI / 2) (- (PI / 2)) n) = linspace (PI / 2 + u) (- (PI / 2) + u) n).
      { transitivity (map (fun x => 1 * x + u) (linspace (PI / 2) (- (PI / 2)) n)); [apply map_ext; intro; ring|]. rewrite linspace_affine. f_equal; ring. }
      rewrite LA. assert (HF : PI / 2 = / 2 * Rabs (- (PI / 2) + u - (PI / 2 + u))) by (replace (- (PI / 2) + u - (PI / 2 + u)) with (- PI) by field; rewrite Rabs_Ropp, Rabs_pos_eq by lra; field).
      assert (X := arc_traces 5 _ (f_tol f) (/ 2 * w) n e (PI / 2 + u) (- (PI / 2) + u) (9 / 8) (81 / 64 * f_tol f) AC ltac:(lia) HF Tp ltac:(lra) ltac:(cbn; field) ltac:(field)).
      eapply traces_ext; [|exact X]. intro x. replace (/ 2 * w) with (w / 2) by field. unfold Rminus. apply arc_at_same.
      - rewrite (cos_plus t), (cos_plus (PI / 2)), cos_PI2, sin_PI2, SU. destruct SS as [-> | ->]; [replace (1 * (PI / 2)) with (PI / 2) by ring; rewrite cos_PI2, sin_PI2|replace (-1 * (PI / 2)) with (- (PI / 2)) by ring; rewrite cos_neg, sin_neg, cos_PI2, sin_PI2]; ring.
      - rewrite (sin_plus t), (sin_plus (PI / 2)), cos_PI2, sin_PI2, CU. destruct SS as [-> | ->]; [replace (1 * (PI / 2)) with (PI / 2) by ring; rewrite cos_PI2, sin_PI2|replace (-1 * (PI / 2)) with (- (PI / 2)) by ring; rewrite cos_neg, sin_neg, cos_PI2, sin_PI2]; ring.
      - field. }
    destruct (along_polar L t PAB) as [C1 S1].
    assert (NV : smul (-1) (smul L (cos t, sin t)) = smul L (cos (t + PI), sin (t + PI))).
    { rewrite neg_cos, neg_sin. apply pt_eq; unfold smul; cbn [fst snd]; ring. }
    destruct (along_polar L (t + PI) PAB) as [C2 S2]. rewrite neg_cos, neg_sin in C2. rewrite neg_cos, neg_sin in S2. rewrite NV, neg_cos, neg_sin in R.
    match type of R with ?x ++ ?y = _ => apply (FIN x (rev y)) end.
    + cbn [end_shape]. assert (X := G a w0 n0 _ (-1) ltac:(auto) N0 T0 ltac:(rewrite C2; ring) ltac:(rewrite S2; ring)).
      eapply traces_ext; [|exact X]. intro x. unfold arc_at. f_equal. f_equal; f_equal; f_equal; field.
    + cbn [end_shape]. assert (X := G b w1 n1 _ 1 ltac:(auto) N1 T1 ltac:(rewrite C1; ring) ltac:(rewrite S1; ring)).
      apply traces_rev in X; [|intro Z; apply map_eq_nil in Z; apply arc_count_base in N1; apply (f_equal (@length _)) in Z; rewrite linspace_length in Z; cbn in Z; lia].
      eapply traces_ext; [|exact X]. intro x. unfold arc_at. cbv beta. f_equal. f_equal; f_equal; f_equal; field.
    + intros _. rewrite rev_involutive. now symmetry.
    + intros [[] _].
  - apply (FIN [] []); [exact Logic.I|exact Logic.I|intros _; exact Logic.I|intros [[] _]].
  - apply (FIN [] []); [exact Logic.I|exact Logic.I|intros _; exact Logic.I|intros [[] _]].
Qed.
End Round.

(** ** What the specification means *)

(** The crossing is on both lines, and a circular bend is centred at the radius from
    both sections: it starts and ends tangent to them. *)
Theorem C72_crossing : forall b t0 t1 h, Rabs (t1 - t0) < PI -> crossing b t0 t1 h = spot b t1 (h * tan ((t1 - t0) / 2)) h.
Proof.
  intros b t0 t1 h LT. unfold crossing, spot. set (T := tan ((t1 - t0) / 2)). destruct (tan_half _ LT) as [Y1 Y2]. fold T in Y1, Y2.
  assert (E1 : cos t1 = cos t0 * cos (t1 - t0) - sin t0 * sin (t1 - t0)) by (rewrite <- cos_plus; f_equal; ring).
  assert (E2 : sin t1 = sin t0 * cos (t1 - t0) + cos t0 * sin (t1 - t0)) by (rewrite <- sin_plus; f_equal; ring).
  rewrite E1, E2. set (C := cos (t1 - t0)) in *. set (X := sin (t1 - t0)) in *. clearbody C X T. assert (T3 : T * C = X - T) by lra.
  apply pt_eq; unfold padd; cbn [fst snd].
  - replace (h * T * (cos t0 * C - sin t0 * X)) with (h * (cos t0 * (T * C) - sin t0 * (T * X))) by ring. rewrite T3, Y1. ring.
  - replace (h * T * (sin t0 * C + cos t0 * X)) with (h * (sin t0 * (T * C) + cos t0 * (T * X))) by ring. rewrite T3, Y1. ring.
Qed.
Theorem C72_tangent : forall b t0 t1 br h, Rabs (t1 - t0) < PI -> t0 <> t1 ->
  let s := if Rlt_dec t0 t1 then 1 else -1 in let d := br * tan (Rabs (t1 - t0) / 2) in
  let c := spot b t0 (- d) (s * br) in
  c = spot b t1 d (s * br) /\
  arc_at c (br - s * h) (t0 - s * (PI / 2)) (t1 - s * (PI / 2)) 0 = spot b t0 (- d) h /\
  arc_at c (br - s * h) (t0 - s * (PI / 2)) (t1 - s * (PI / 2)) 1 = spot b t1 d h.
Proof.
  intros b t0 t1 br h LT NE s d c. assert (SS : s = 1 \/ s = -1) by (unfold s; destruct (Rlt_dec t0 t1); auto).
  assert (D : d = s * br * tan ((t1 - t0) / 2)).
  { unfold d, s. destruct (Rlt_dec t0 t1) as [L|L]; [rewrite Rabs_pos_eq by lra; ring|]. rewrite Rabs_left by lra. replace (- (t1 - t0) / 2) with (- ((t1 - t0) / 2)) by field.
    rewrite tan_neg. ring. }
  assert (E : c = spot b t1 d (s * br)).
  { rewrite D. rewrite <- (C72_crossing b t0 t1 (s * br) LT). unfold c, crossing. rewrite D. f_equal. ring. }
  clearbody s d. assert (S2 : s * s = 1) by (destruct SS as [-> | ->]; ring).
  split; [exact E|]. split.
  - unfold arc_at. replace (t0 - s * (PI / 2) + 0 * (t1 - s * (PI / 2) - (t0 - s * (PI / 2)))) with (t0 - s * (PI / 2)) by ring. destruct (quarter t0 s SS) as [-> ->].
    unfold c, spot. apply pt_eq; unfold padd; cbn [fst snd].
    + transitivity (fst b + (- d * cos t0 - s * br * sin t0 + (s * br * sin t0 - (s * s) * h * sin t0))); [ring|rewrite S2; ring].
    + transitivity (snd b + (- d * sin t0 + s * br * cos t0 - (s * br * cos t0 - (s * s) * h * cos t0))); [ring|rewrite S2; ring].
  - unfold arc_at. replace (t0 - s * (PI / 2) + 1 * (t1 - s * (PI / 2) - (t0 - s * (PI / 2)))) with (t1 - s * (PI / 2)) by ring. destruct (quarter t1 s SS) as [-> ->].
    rewrite E. unfold spot. apply pt_eq; unfold padd; cbn [fst snd].
    + transitivity (fst b + (d * cos t1 - s * br * sin t1 + (s * br * sin t1 - (s * s) * h * sin t1))); [ring|rewrite S2; ring].
    + transitivity (snd b + (d * sin t1 + s * br * cos t1 - (s * br * cos t1 - (s * s) * h * cos t1))); [ring|rewrite S2; ring].
Qed.

(** ** get_polygons does not fail *)

(** The tolerance does not exceed the diameters of the arcs to draw; nothing is left
    to functions or to smooth curves. *)
Definition dimensioned (f : flex) : Prop :=
  0 < f_tol f /\ forall k, (k < f_n f)%nat ->
    let c := nth k (f_corners f) Natural in let e := nth k (f_ends f) Flush in
    match c with SmoothCorner => False | _ => True end /\ match e with SmoothCap | CustomCap _ => False | _ => True end /\
    forall r, In r (f_w f) -> let w := nth k r 0 in
      (c = RoundCorner \/ e = RoundCap -> f_tol f <= w) /\
      (c = Circular -> exists br, nth k (f_bend f) None = Some br /\ 0 <= w /\ f_tol f <= 2 * br - w).
Lemma arc_count_some base half tol r : 0 < tol -> tol <= 2 * r -> arc_count base half tol r <> None.
Proof.
  intros T B. unfold arc_count. assert (P : 0 < tol / r <= 2).
  { assert (0 < r) by lra. split; [apply Rdiv_lt_0_compat; lra|]. apply (Rmult_le_reg_r r); [lra|]. unfold Rdiv. rewrite Rmult_assoc, Rinv_l by lra. lra. }
  destruct (Req_EM_T r 0); [lra|]. destruct (Rlt_dec _ (-1)); [lra|]. destruct (Rlt_dec _ 1); [discriminate|lra].
Qed.
Section Defined.
Variables (fuel : nat) (hob : pt * pt -> R * R -> pt * pt) (eng : op -> list zpath -> list zpath -> list zpath).
Hypothesis enough : (2 <= fuel)%nat.
Notation now := (now fuel hob eng). Notation uncut := (uncut fuel hob eng).
Lemma join_some c bend tol s t ctr w : 0 < tol -> match c with SmoothCorner => False | _ => True end -> (c = RoundCorner -> tol <= w) ->
  (c = Circular -> exists br, bend = Some br /\ 0 <= w /\ tol <= 2 * br - w) -> join fuel hob c bend tol s t ctr w <> None.
Proof.
  intros T C Rd Ci. destruct c; try contradiction; unfold join; cbv zeta.
  - destruct (if Rlt_dec _ _ then _ else _) as [[u0 u1] p]. discriminate.
  - destruct (if Rlt_dec _ _ then _ else _) as [[u0 u1] p]. discriminate.
  - destruct (if Rlt_dec _ _ then _ else _) as [[u0 u1] p]. destruct (if Rle_dec _ _ then _ else _); discriminate.
  - destruct (if Rlt_dec _ _ then _ else _) as [[u0 u1] p]. destruct (if Rle_dec _ _ then _ else _); [discriminate|].
    destruct (corner_angles _ _ _) as [a0 a1]. specialize (Rd eq_refl). pose proof (arc_count_some 4 (/ 2 * Rabs (a1 - a0)) tol (/ 2 * w) T ltac:(lra)) as A.
    destruct (arc_count _ _ _ _); [discriminate|congruence].
  - destruct (Req_EM_T _ 0); [discriminate|]. destruct (Ci eq_refl) as (br & -> & W0 & B). destruct (corner_angles _ _ _) as [a0 a1].
    match goal with |- match arc_count 2 ?h tol ?r with _ => _ end <> _ => pose proof (arc_count_some 2 h tol r T) as A; destruct (arc_count 2 h tol r); [discriminate|] end.
    intros _. apply A; [|reflexivity]. destruct (Rlt_dec 0 _); lra.
  - discriminate.
Qed.
Lemma arm_some c bend tol : 0 < tol -> match c with SmoothCorner => False | _ => True end -> forall ss cs ws,
  (forall w, In w ws -> (c = RoundCorner -> tol <= w) /\ (c = Circular -> exists br, bend = Some br /\ 0 <= w /\ tol <= 2 * br - w)) ->
  arm fuel hob c bend tol ss cs ws <> None.
Proof.
  intros T C. induction ss as [|s ss IH]; intros cs ws H; [discriminate|]. destruct ss as [|t ss]; [discriminate|].
  destruct cs as [|p cs]; [discriminate|]. destruct ws as [|w ws]; [discriminate|].
  change (arm fuel hob c bend tol (s :: t :: ss) (p :: cs) (w :: ws)) with
    (match join fuel hob c bend tol s t p w, arm fuel hob c bend tol (t :: ss) cs ws with Some l, Some m => Some (l ++ m) | _, _ => None end).
  destruct (H w (or_introl eq_refl)) as [H1 H2]. pose proof (join_some c bend tol s t p w T C H1 H2). specialize (IH cs ws (fun x X => H x (or_intror X))).
  destruct (join fuel hob c bend tol s t p w); [|congruence]. destruct (arm fuel hob c bend tol (t :: ss) cs ws); [discriminate|congruence].
Qed.
Lemma cap_some en tol front e v w lo hi a b : 0 < tol -> match en with SmoothCap | CustomCap _ => False | _ => True end -> (en = RoundCap -> tol <= w) ->
  cap_points fuel hob en tol front e v w lo hi a b <> None.
Proof.
  intros T C Rd. destruct en; try contradiction; cbn [cap_points]; try discriminate. specialize (Rd eq_refl).
  pose proof (arc_count_some 5 (PI / 2) tol (/ 2 * w) T ltac:(lra)) as A. destruct (arc_count _ _ _ _); [discriminate|congruence].
Qed.
Lemma select_in {X} ks : forall (l : list X) x, In x (select ks l) -> In x l.
Proof.
  induction ks as [|b ks IH]; intros [|y l] x; try contradiction. unfold select in *. cbn [combine filter fst]. destruct b; cbn [map].
  - intros [<-|H]; [now left|right; now apply IH].
  - intro H. right. now apply IH.
Qed.
Theorem C72_defined : forall f p q, aligned f -> dimensioned f -> uncut f -> In p (f_pts f) -> In q (f_pts f) -> p <> q ->
  exists d, now f = Some d.
Proof.
  intros f p q A [Tp DM] U P Q N.
  assert (F : flat2 f = false).
  { unfold flat2. destruct (f_pts f) as [|a [|b [|c l]]]; try reflexivity. unfold same_pt. destruct (Req_EM_T (len2 (psub b a)) 0) as [Z|]; [|reflexivity].
    exfalso. apply len2_zero in Z. assert (a = b) by (destruct a, b; unfold psub in Z; cbn in Z; injection Z as Z1 Z2; f_equal; lra).
    subst b. destruct P as [<-|[<-|[]]], Q as [<-|[<-|[]]]; congruence. }
  destruct A as (LW & LO & _).
  assert (D : forall k, In k (seq 0 (f_n f)) -> out_of fuel hob f k <> None).
  { intros k K. apply in_seq in K. destruct (DM k ltac:(lia)) as (DC & DE & DW). cbv zeta in DC, DE, DW.
    unfold out_of. pose proof (tidy_two fuel hob enough f p q P Q N) as T2.
    assert (G : general_outline fuel hob (tidy f) k <> None).
    { assert (TL : length (f_w (tidy f)) = length (f_pts (tidy f)) /\ length (f_o (tidy f)) = length (f_pts (tidy f)) /\ forall r, In r (f_w (tidy f)) -> In r (f_w f)).
      { unfold tidy. destruct (forallb _ _); [auto|]. cbn [f_w f_o f_pts]. split; [|split]; [apply select_same; assumption|apply select_same; assumption|]. intro r. apply select_in. }
      destruct TL as (T1 & T3 & T4). unfold general_outline. rewrite T1, T3, !Nat.eqb_refl. cbn [andb].
      assert (TC : f_corners (tidy f) = f_corners f /\ f_ends (tidy f) = f_ends f /\ f_bend (tidy f) = f_bend f /\ f_tol (tidy f) = f_tol f) by (unfold tidy; destruct (forallb _ _); auto).
      destruct TC as (-> & -> & -> & ->).
      set (c := nth k (f_corners f) Natural) in *. set (en := nth k (f_ends f) Flush) in *.
      assert (WS : forall w, In w (col k (f_w (tidy f))) -> (c = RoundCorner \/ en = RoundCap -> f_tol f <= w) /\
        (c = Circular -> exists br, nth k (f_bend f) None = Some br /\ 0 <= w /\ f_tol f <= 2 * br - w)).
      { intros w Hw. unfold col in Hw. apply in_map_iff in Hw as (r & <- & Hr). apply DW, T4, Hr. }
      assert (LWS : length (col k (f_w (tidy f))) = length (f_pts (tidy f))) by (unfold col; now rewrite map_length).
      set (ws := col k (f_w (tidy f))) in *. clearbody ws.
      unfold outline. destruct (centre_length fuel enough (f_pts (tidy f)) (col k (f_o (tidy f)))) as [X|X]; [unfold col; now rewrite map_length| |lia].
      destruct (centre (f_pts (tidy f)) (col k (f_o (tidy f)))) as [|p0 [|p1 ctr]] eqn:E; try (cbn in X; lia). rewrite <- E in *. cbv zeta.
      assert (AS : forall ss cs, arm fuel hob c (nth k (f_bend f) None) (f_tol f) ss cs (tl ws) <> None).
      { intros ss cs. apply arm_some; [exact Tp|exact DC|]. intros w Hw. destruct (WS w) as [W1 W2]; [destruct ws; [contradiction|now right]|]. split; [intro; apply W1; now left|exact W2]. }
      destruct ws as [|w0 ws']; [cbn in LWS; lia|].
      assert (CS : forall w front e v lo hi a b, In w (w0 :: ws') -> cap_points fuel hob en (f_tol f) front e v w lo hi a b <> None).
      { intros w front e v lo hi a b Hw. apply cap_some; [exact Tp|exact DE|]. intro Z. apply (WS w Hw). now right. }
      match goal with |- match ?a with _ => _ end <> _ => destruct a eqn:E1; [|exfalso; exact (AS _ _ E1)] end.
      match goal with |- match ?a with _ => _ end <> _ => destruct a eqn:E2; [|exfalso; exact (AS _ _ E2)] end.
      match goal with |- match ?a with _ => _ end <> _ => destruct a eqn:E3; [|exfalso; refine (CS _ _ _ _ _ _ _ _ _ E3); now left] end.
      match goal with |- match ?a with _ => _ end <> _ => destruct a eqn:E4; [discriminate|exfalso; refine (CS _ _ _ _ _ _ _ _ _ E4)] end.
      rewrite last_at. apply nth_In. cbn. lia. }
    destruct (f_pts f) as [|a [|b [|c l]]] eqn:E; auto.
    unfold two_outline. destruct (f_w f) as [|w0 [|w1 [|]]]; try discriminate LW. destruct (f_o f) as [|o0 [|o1 [|]]]; try discriminate LO.
    cbn [nth_error]. unfold outline2. cbv zeta. destruct (DW w0 (or_introl eq_refl)) as [R0 _]. destruct (DW w1 (or_intror (or_introl eq_refl))) as [R1 _].
    destruct (nth k (f_ends f) Flush); try contradiction; try discriminate; try (destruct (Req_EM_T _ _); discriminate).
    pose proof (arc_count_some 5 (PI / 2) (f_tol f) (/ 2 * nth k w0 0) Tp ltac:(specialize (R0 (or_intror eq_refl)); lra)) as A0.
    pose proof (arc_count_some 5 (PI / 2) (f_tol f) (/ 2 * nth k w1 0) Tp ltac:(specialize (R1 (or_intror eq_refl)); lra)) as A1.
    destruct (arc_count _ _ _ (/ 2 * nth k w0 0)); [|congruence]. destruct (arc_count _ _ _ (/ 2 * nth k w1 0)); [discriminate|congruence]. }
  unfold SpecFlex.now. rewrite get_fresh by reflexivity. change (flat2 (set_cache f None)) with (flat2 f). rewrite F. cbv zeta.
  assert (O : forall j, out_of fuel hob (set_cache f None) j = out_of fuel hob f j).
  { intro j. destruct f as [n pts ww oo en co be la dt to pr mx gd wt ca]. unfold out_of, two_outline, general_outline, tidy, set_cache. cbn [f_pts f_w f_o f_ends f_corners f_bend f_tol].
    destruct pts as [|p' [|q' [|r l]]]; try reflexivity. destruct (forallb _ _); reflexivity. }
  destruct (fill_spec fuel eng enough (set_cache f None) (out_of fuel hob (set_cache f None)) (seq 0 (f_n f)) []) as (X & _ & _).
  { intros j J. rewrite O. destruct (out_of fuel hob f j) as [r|] eqn:R; [|exfalso; exact (D j J R)]. exists r. split; [reflexivity|].
    change (f_max (set_cache f None)) with (f_max f). exact (uncut_length fuel hob eng f j r enough U F D J R). }
  change (f_n (set_cache f None)) with (f_n f). rewrite X. eexists. reflexivity.
Qed.
End Defined.

(** ** Cases *)

(** Three parallel paths round the same corner, with the rounded shapes. *)
Definition rounded : flex :=
  Flex 3 [(0, 0); (4, 0); (4, 3)] [[1; 2; 1]; [1; 2; 1]; [1; 2; 1]] [[0; 0; 0]; [0; 0; 0]; [0; 0; 0]]
       [RoundCap; Lengths 1 2; Extended] [RoundCorner; Circular; Natural] [None; Some 2; None]
       [1; 2; 3]%Z [0; 0; 0]%Z (/ 100) (/ 1000) 0 false true None.
Lemma rounded_bends : bends (f_pts rounded).
Proof.
  split.
  - intros [|[|i]] I; cbn [rounded f_pts nth]; [intro E; injection E; lra|intro E; injection E; lra|cbn in I; lia].
  - intros [|i] I; [|cbn in I; lia]. cbn [rounded f_pts nth]. left.
    assert (A1 : apart (0, 0) (4, 0) = 4) by (unfold apart; cbn [fst snd]; replace ((4 - 0) ^ 2 + (0 - 0) ^ 2) with (4 * 4) by ring; apply sqrt_square; lra).
    assert (A2 : apart (4, 0) (4, 3) = 3) by (unfold apart; cbn [fst snd]; replace ((4 - 4) ^ 2 + (3 - 0) ^ 2) with (3 * 3) by ring; apply sqrt_square; lra).
    rewrite A1, A2. cbn [fst snd]. lra.
Qed.
Example C72_case : forall hob eng, aligned rounded /\ dimensioned rounded /\ uncut 2 hob eng rounded /\ bends (f_pts rounded) /\
  (forall r, In r (f_w rounded) -> nth 0 r 0 = 1) /\ (forall r, In r (f_o rounded) -> nth 0 r 0 = 0) /\ f_tol rounded <= 1 / 4 /\
  exists d, now 2 hob eng rounded = Some d.
Proof.
  intros hob eng. assert (A : aligned rounded).
  { repeat split; try reflexivity; intros r I; repeat (destruct I as [<-|I]; [reflexivity|]); destruct I. }
  assert (U : uncut 2 hob eng rounded) by (left; cbn; lia).
  assert (DM : dimensioned rounded).
  { split; [cbn; lra|]. intros [|[|[|k]]] K; [| | |cbn in K; lia]; cbv zeta; cbn [rounded f_corners f_ends f_bend nth]; (split; [exact I|]); (split; [exact I|]).
    - intros r Hr. repeat (destruct Hr as [<-|Hr]; [cbn; split; [intros _; lra|discriminate]|]). destruct Hr.
    - intros r Hr. repeat (destruct Hr as [<-|Hr]; [cbn; split; [intros [H|H]; discriminate|intros _; exists 2; repeat split; lra]|]). destruct Hr.
    - intros r Hr. repeat (destruct Hr as [<-|Hr]; [cbn; split; [intros [H|H]; discriminate|discriminate]|]). destruct Hr. }
  split; [exact A|]. split; [exact DM|]. split; [exact U|]. split; [exact rounded_bends|]. split; [|split; [|split]].
  - intros r I. repeat (destruct I as [<-|I]; [reflexivity|]). destruct I.
  - intros r I. repeat (destruct I as [<-|I]; [reflexivity|]). destruct I.
  - cbn. lra.
  - apply (C72_defined 2 hob eng (le_n 2) rounded (0, 0) (4, 0) A DM U); [now left|right; now left|]. intro E. injection E. lra.
Qed.
(** A tapered section with round ends. *)
Example C72_section_case : forall hob eng, let f := Flex 1 [(0, 0); (4, 3)] [[2]; [4]] [[1]; [0]] [RoundCap] [Natural] [None] [1%Z] [0%Z] (/ 100) (/ 1000) 0 false true None in
  aligned f /\ dimensioned f /\ uncut 2 hob eng f /\ f_tol f <= 2 / 4 /\ exists d, now 2 hob eng f = Some d.
Proof.
  intros hob eng f. assert (A : aligned f).
  { repeat split; try reflexivity; intros r I; repeat (destruct I as [<-|I]; [reflexivity|]); destruct I. }
  assert (DM : dimensioned f).
  { split; [cbn; lra|]. intros [|k] K; [|cbn in K; lia]. cbv zeta; cbn [f f_corners f_ends f_bend nth]. split; [exact I|]. split; [exact I|].
    intros r Hr. repeat (destruct Hr as [<-|Hr]; [cbn; split; [intros _; lra|discriminate]|]). destruct Hr. }
  assert (U : uncut 2 hob eng f) by (left; cbn; lia). split; [exact A|]. split; [exact DM|]. split; [exact U|]. split; [cbn; lra|].
  apply (C72_defined 2 hob eng (le_n 2) f (0, 0) (4, 3) A DM U); [now left|right; now left|intro E; injection E; lra].
Qed.

Print Assumptions C72_outline.
Print Assumptions C72_section.
Print Assumptions C72_crossing.
Print Assumptions C72_tangent.
Print Assumptions C72_defined.
