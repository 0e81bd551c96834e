(** C79: arcs and turns of Path. *)

From Coq Require Import Reals Lra Lia List Arith ZArith Bool.
From Verif Require Import Plane PlaneProofs Curve SpecCurve CurveProofs Flex PropArc PropFlexEnds SpecRound PropFlexRound PropFillet Path SpecPath PropPath PropPathJoin SpecPathArc.
Import ListNotations.
Open Scope R_scope.

Lemma pieces_parts : forall np mx, parts np mx (piece_count np mx).
Proof.
  intros np [|mx]; [reflexivity|]. unfold parts, piece_count. pose proof (Nat.div_mod (np + (S mx - 1)) (S mx) ltac:(lia)) as D.
  pose proof (Nat.mod_upper_bound (np + (S mx - 1)) (S mx) ltac:(lia)) as U. set (q := ((np + (S mx - 1)) / S mx)%nat) in *. nia.
Qed.
Lemma parts_once : forall np mx m m', parts np mx m -> parts np mx m' -> m = m'.
Proof.
  intros np [|mx] m m' A B; unfold parts in *; [congruence|]. set (x := S mx) in *. clearbody x.
  destruct (Nat.lt_trichotomy m m') as [L|[E|L]]; [|exact E|].
  - assert ((m + 1) * x <= m' * x)%nat by (apply Nat.mul_le_mono_r; lia). lia.
  - assert ((m' + 1) * x <= m * x)%nat by (apply Nat.mul_le_mono_r; lia). lia.
Qed.
Lemma lerp_sides : forall c a b r r' k,
  map (polar c) (combine (linspace a b k) (linspace r r' k)) = map (fun x => padd c (smul (r + x * (r' - r)) (cos (a + x * (b - a)), sin (a + x * (b - a))))) (linspace 0 1 k).
Proof.
  intros c a b r r' k. apply (nth_ext _ _ (0, 0) (0, 0)).
  - rewrite !map_length, combine_length, !linspace_length. lia.
  - intros i I. rewrite map_length, combine_length, !linspace_length in I. rewrite polar_nth by (rewrite linspace_length; lia).
    rewrite (nth_map_lt _ _ i 0) by (rewrite linspace_length; lia). rewrite !nth_linspace by lia. rewrite polar_pt.
    replace (a + INR i * ((b - a) / INR (k - 1))) with (a + (0 + INR i * ((1 - 0) / INR (k - 1))) * (b - a)) by (unfold Rdiv; ring).
    f_equal. f_equal. unfold Rdiv. ring.
Qed.
Lemma linspace_flip : forall k (f : R -> pt), map f (linspace 1 0 k) = map (fun x => f (1 - x)) (linspace 0 1 k).
Proof. intros k f. unfold linspace. rewrite !map_map. apply map_ext. intros i. f_equal. unfold Rdiv. ring. Qed.

(** The vertices of the polygons of an arc. *)
Theorem C79_arc : forall radius a0 a1 tol npo np mx fw fd la dt s s', p_arc radius a0 a1 tol npo mx fw fd la dt s = Some s' ->
  points_used radius a0 a1 tol npo s s' = Some np -> 0 < p_w s -> 0 < p_w s' ->
  exists m ps, parts np mx m /\ (0 < m)%nat /\ p_polys s' = p_polys s ++ ps /\
    arc_drawn (psub (p_at s) (smul radius (cos a0, sin a0))) radius a0 a1 (np / m) m s s' ps.
Proof.
  intros radius a0 a1 tol npo np mx fw fd la dt s s' H PU W0 W1.
  destruct (arc_groups _ _ _ _ _ np _ _ _ _ _ _ _ H) as [M [ps [P [L G]]]]; [apply visible_left; lra|exact PU|].
  set (m := piece_count np mx) in *. exists m, ps. split; [apply pieces_parts|]. split; [exact M|]. split; [exact P|]. split; [exact L|].
  intros i j I J. cbn zeta. specialize (G i j I J). cbv beta in G. assert (PM : 0 < INR m) by (now apply lt_0_INR).
  unfold arc_poly in G. rewrite !lerp_sides in G.
  pose proof (PropPathJoin.between (p_w s) (p_w s') m j W0 W1 M ltac:(lia)) as B0. pose proof (PropPathJoin.between (p_w s) (p_w s') m (j + 1) W0 W1 M ltac:(lia)) as B1.
  destruct (Req_EM_T (p_w s + INR (j + 1) * ((p_w s' - p_w s) / INR m)) 0) as [Z|_]; [lra|].
  destruct (Req_EM_T (p_w s + INR j * ((p_w s' - p_w s) / INR m)) 0) as [Z|_]; [lra|]. rewrite !Nat.add_0_r in G.
  destruct (_ =? 0)%nat; [discriminate|]. injection G as <-. rewrite linspace_flip. rewrite !lateral_spec. f_equal; apply map_ext; intro x; rewrite plus_INR; change (INR 1) with 1; unfold place.
  - f_equal. f_equal; [field; lra|]. f_equal; f_equal; field; lra.
  - f_equal. f_equal; [field; lra|]. f_equal; f_equal; field; lra.
Qed.

(** ** Sides of constant width *)
Lemma rev_linspace : forall a b n, (2 <= n)%nat -> rev (linspace a b n) = linspace b a n.
Proof.
  intros a b n N. apply (nth_ext _ _ 0 0); [now rewrite rev_length, !linspace_length|]. intros i I. rewrite rev_length, linspace_length in I.
  rewrite rev_nth by (rewrite linspace_length; lia). rewrite linspace_length, !nth_linspace by lia.
  assert (P : 0 < INR (n - 1)) by (apply lt_0_INR; lia). replace (n - S i)%nat with (n - 1 - i)%nat by lia. rewrite minus_INR by lia. field. lra.
Qed.
Lemma traces_weaken : forall g e e' l, traces g e l -> 0 <= e <= e' -> traces g e' l.
Proof.
  intros g e e' l (A & B & C & D) E. repeat split; try assumption. intros s S. destruct (D s S) as (i & k & I & K & N). exists i, k. split; [exact I|]. split; [exact K|].
  apply Rle_trans with (1 := N). apply pow_incr. lra.
Qed.
Lemma side_traced : forall c r a0 a1 m j n e, (0 < m)%nat -> (2 <= n)%nat -> 0 <= r ->
  Rabs (a1 - a0) / (2 * INR m * INR (n - 1)) <= PI / 2 -> 1 - cos (Rabs (a1 - a0) / (2 * INR m * INR (n - 1))) <= e ->
  let th x := a0 + x / INR m * (a1 - a0) in
  traces (arc_at c r (th (INR j)) (th (INR j + 1))) (e * r)
    (map (fun x => padd c (smul r (cos (a0 + (INR j + x) / INR m * (a1 - a0)), sin (a0 + (INR j + x) / INR m * (a1 - a0))))) (linspace 0 1 n)).
Proof.
  intros c r a0 a1 m j n e M N R0 H E. cbn zeta. assert (PM : 0 < INR m) by (now apply lt_0_INR).
  assert (PN : 0 < INR (n - 1)) by (apply lt_0_INR; lia).
  set (b0 := a0 + INR j / INR m * (a1 - a0)). set (b1 := a0 + (INR j + 1) / INR m * (a1 - a0)).
  assert (BB : Rabs (b1 - b0) / (2 * INR (n - 1)) = Rabs (a1 - a0) / (2 * INR m * INR (n - 1))).
  { replace (b1 - b0) with ((a1 - a0) * / INR m) by (unfold b0, b1; field; lra). rewrite Rabs_mult, (Rabs_pos_eq (/ INR m)) by (left; now apply Rinv_0_lt_compat). field. lra. }
  pose proof (even_steps n c r b0 b1 N R0 ltac:(lra)) as T. rewrite BB in T.
  replace (map (fun x => padd c (smul r (cos (a0 + (INR j + x) / INR m * (a1 - a0)), sin (a0 + (INR j + x) / INR m * (a1 - a0))))) (linspace 0 1 n))
    with (map (fun x => padd c (on_circle r x)) (linspace b0 b1 n)).
  - apply (traces_weaken _ _ _ _ T). pose proof (COS_bound (Rabs (a1 - a0) / (2 * INR m * INR (n - 1)))). split; [nra|]. rewrite (Rmult_comm e). apply Rmult_le_compat_l; lra.
  - unfold linspace. rewrite !map_map. apply map_ext. intro i. unfold on_circle, smul. cbn [fst snd].
    replace (a0 + (INR j + (0 + INR i * ((1 - 0) / INR (n - 1)))) / INR m * (a1 - a0)) with (b0 + INR i * ((b1 - b0) / INR (n - 1))) by (unfold b0, b1; field; lra). reflexivity.
Qed.
Lemma drawn_traced : forall c r a0 a1 k m s s' ps e, arc_drawn c r a0 a1 k m s s' ps -> p_w s' = p_w s -> p_dist s' = p_dist s ->
  (0 < m)%nat -> (4 <= k)%nat -> no_overlap r s -> 0 <= p_w s ->
  Rabs (a1 - a0) / (2 * INR m * INR (k / 2 - 1)) <= PI / 2 -> 1 - cos (Rabs (a1 - a0) / (2 * INR m * INR (k / 2 - 1))) <= e ->
  arc_traced c r a0 a1 (Rmult e) m s ps.
Proof.
  intros c r a0 a1 k m s s' ps e [L D] Ew Ed M K In W0 H E. split; [exact L|]. intros i j I J. cbn zeta. specialize (D i j I J). cbn zeta in D. rewrite Ew, Ed in D.
  assert (PM : 0 < INR m) by (now apply lt_0_INR).
  pose proof (Nat.div_mod k 2 ltac:(lia)) as KD. pose proof (Nat.mod_upper_bound k 2 ltac:(lia)) as KU.
  assert (K2 : (2 <= k / 2)%nat) by lia. assert (K3 : (k / 2 <= k - k / 2)%nat) by lia. set (h := (k / 2)%nat) in *. clearbody h.
  assert (P1 : 0 < INR (h - 1)) by (apply lt_0_INR; lia). assert (P2 : INR (h - 1) <= INR (k - h - 1)) by (apply le_INR; lia).
  pose proof (Rabs_pos (a1 - a0)) as AP.
  assert (LE : Rabs (a1 - a0) / (2 * INR m * INR (k - h - 1)) <= Rabs (a1 - a0) / (2 * INR m * INR (h - 1))).
  { unfold Rdiv. apply Rmult_le_compat_l; [lra|]. apply Rinv_le_contravar; nra. }
  assert (PO : 0 <= Rabs (a1 - a0) / (2 * INR m * INR (k - h - 1))).
  { apply Rmult_le_pos; [lra|]. left. apply Rinv_0_lt_compat. nra. }
  assert (CO : cos (Rabs (a1 - a0) / (2 * INR m * INR (h - 1))) <= cos (Rabs (a1 - a0) / (2 * INR m * INR (k - h - 1)))).
  { pose proof PI_RGT_0. apply cos_decr_1; lra. }
  specialize (In i I).
  set (q := place (p_n s) i (p_dist s)) in *.
  assert (Q : forall t, place (p_n s) i (p_dist s + t * (p_dist s - p_dist s)) = q) by (intro t; unfold q; f_equal; ring).
  assert (WW : forall t, p_w s + t * (p_w s - p_w s) = p_w s) by (intro; ring).
  exists (map (fun x => padd c (smul (r + q + p_w s) (cos (a0 + (INR j + x) / INR m * (a1 - a0)), sin (a0 + (INR j + x) / INR m * (a1 - a0))))) (linspace 0 1 (k - h))).
  exists (map (fun x => padd c (smul (r + q - p_w s) (cos (a0 + (INR j + x) / INR m * (a1 - a0)), sin (a0 + (INR j + x) / INR m * (a1 - a0))))) (linspace 0 1 h)).
  split; [|split].
  - rewrite D. f_equal.
    + apply map_ext. intro x. rewrite Q, WW. f_equal. f_equal. ring.
    + rewrite <- map_rev, rev_linspace by lia. apply map_ext. intro x. rewrite Q, WW. f_equal. f_equal. ring.
  - apply side_traced; try assumption; try lia; lra.
  - apply side_traced; try assumption; try lia; lra.
Qed.

(** Arcs of constant width: the sides follow the circles. *)
Theorem C79_circle : forall radius a0 a1 tol npo np mx fw fd la dt s s', p_arc radius a0 a1 tol npo mx fw fd la dt s = Some s' ->
  points_used radius a0 a1 tol npo s s' = Some np -> enough_points np mx -> 0 < p_w s -> p_w s' = p_w s -> p_dist s' = p_dist s -> no_overlap radius s ->
  exists m ps, parts np mx m /\ (0 < m)%nat /\ p_polys s' = p_polys s ++ ps /\
    let h := Rabs (a1 - a0) / (2 * INR m * INR (np / m / 2 - 1)) in
    (h <= PI / 2 -> arc_traced (psub (p_at s) (smul radius (cos a0, sin a0))) radius a0 a1 (fun r => (1 - cos h) * r) m s ps).
Proof.
  intros radius a0 a1 tol npo np mx fw fd la dt s s' H PU EP W0 W1 D1 NO.
  destruct (C79_arc _ _ _ _ _ _ _ _ _ _ _ _ _ H PU W0 ltac:(lra)) as [m [ps [PA [M [P D]]]]]. exists m, ps. split; [exact PA|]. split; [exact M|]. split; [exact P|].
  cbn zeta. intro HH. assert (Em : m = piece_count np mx).
  { exact (parts_once _ _ _ _ PA (pieces_parts np mx)). }
  unfold enough_points in EP. rewrite <- Em in EP.
  apply (drawn_traced _ _ _ _ (np / m) _ _ _ _ _ D W1 D1 M EP NO (Rlt_le _ _ W0) HH). lra.
Qed.

(** The number of points that is chosen when none is given. *)
Lemma auto_even : forall tol r a0 a1 np, auto_points tol r a0 a1 = Some np -> exists n, np = (2 * n)%nat /\ (3 <= n)%nat /\ arc_count 3 (/ 2 * Rabs (a1 - a0)) tol r = Some n.
Proof.
  intros tol r a0 a1 np H. unfold auto_points in H. unfold arc_count. destruct (Req_EM_T r 0); [discriminate|]. destruct (Rle_dec (-1) (1 - tol / r)) as [L|]; [|discriminate].
  destruct (Rlt_dec (1 - tol / r) (-1)) as [Z|_]; [lra|]. destruct (Rlt_dec (1 - tol / r) 1); [|discriminate]. set (z := Z.to_nat _) in *. assert (En : np = Nat.max 6 (2 + 2 * z)) by congruence. clear H.
  exists (Nat.max 3 (1 + z)). split; [lia|]. split; [lia|reflexivity].
Qed.
Lemma half_angle : forall tol r a0 a1 np mx m, auto_points tol r a0 a1 = Some np -> mx = 0%nat \/ (50 <= mx)%nat -> parts np mx m -> (0 < m)%nat ->
  0 < tol -> tol <= r / 2 -> (4 <= np / m)%nat /\ Rabs (a1 - a0) / (2 * INR m * INR (np / m / 2 - 1)) <= 5 / 4 * acos (1 - tol / r).
Proof.
  intros tol r a0 a1 np mx m H MX PA M T B. destruct (auto_even _ _ _ _ _ H) as [n [En [N3 Ha]]].
  pose proof (Rabs_pos (a1 - a0)) as AP.
  destruct (alpha_ok tol r T B) as [[Al Au] _]. rewrite sqrt_sq in * by lra. rewrite Rmax_left in * by lra. set (al := acos (1 - tol / r)) in *.
  assert (Half : Rabs (a1 - a0) = 2 * (/ 2 * Rabs (a1 - a0))) by field. set (half := / 2 * Rabs (a1 - a0)) in *.
  assert (H0 : 0 <= half) by (unfold half; lra).
  assert (P1 : 0 < INR (n - 1)) by (apply lt_0_INR; lia).
  destruct (Nat.eq_dec m 1) as [->|M1].
  - rewrite Nat.div_1_r. split; [lia|]. subst np. replace (2 * n / 2)%nat with n by (rewrite Nat.mul_comm, Nat.div_mul; lia).
    destruct (arc_count_bound 3 half tol r n Ha ltac:(lia) H0) as [_ [_ E]]. fold al in E. replace (1 + / (2 * INR (3 - 1))) with (5 / 4) in E by (cbn; field).
    change (INR 1) with 1. rewrite Half. replace (2 * half / (2 * 1 * INR (n - 1))) with (half / INR (n - 1)) by (field; lra). exact E.
  - destruct mx as [|mx]; [unfold parts in PA; lia|]. destruct MX as [|MX]; [discriminate|]. unfold parts in PA. set (x := S mx) in *. clearbody x.
    assert (X1 : (50 * (m - 1) < np)%nat) by nia. assert (X2 : (25 * m < np)%nat) by lia. assert (N26 : (26 <= n)%nat) by lia.
    assert (Hb : arc_count 26 half tol r = Some n).
    { unfold arc_count in *. destruct (Req_EM_T r 0); [discriminate|]. destruct (Rlt_dec (1 - tol / r) (-1)); [discriminate|]. destruct (Rlt_dec (1 - tol / r) 1); [|discriminate].
      set (z := Z.to_nat _) in *. assert (Ez : n = Nat.max 3 (1 + z)) by congruence. f_equal. lia. }
    destruct (arc_count_bound 26 half tol r n Hb ltac:(lia) H0) as [_ [_ E]]. fold al in E.
    replace (INR (26 - 1)) with 25 in E by (rewrite INR_IZR_INZ; reflexivity).
    pose proof (Nat.div_mod np m ltac:(lia)) as D1. pose proof (Nat.mod_upper_bound np m ltac:(lia)) as U1. set (k := (np / m)%nat) in *. clearbody k.
    pose proof (Nat.div_mod k 2 ltac:(lia)) as D2. pose proof (Nat.mod_upper_bound k 2 ltac:(lia)) as U2. set (h := (k / 2)%nat) in *. clearbody h.
    assert (K25 : (25 <= k)%nat) by nia. split; [lia|].
    assert (LB : (21 * n <= 25 * (m * (h - 1)))%nat) by nia.
    apply le_INR in LB. rewrite !mult_INR in LB. replace (INR 21) with 21 in LB by (rewrite INR_IZR_INZ; reflexivity). replace (INR 25) with 25 in LB by (rewrite INR_IZR_INZ; reflexivity).
    assert (PM : 0 < INR m) by (now apply lt_0_INR). assert (PH : 0 < INR (h - 1)) by (apply lt_0_INR; lia).
    assert (PN : INR (n - 1) = INR n - 1) by (rewrite minus_INR by lia; reflexivity).
    assert (E' : half <= (1 + / (2 * 25)) * al * INR (n - 1)).
    { replace half with (half / INR (n - 1) * INR (n - 1)) by (field; lra). apply Rmult_le_compat_r; lra. }
    set (q := INR m * INR (h - 1)) in *. assert (Q : 0 < q) by (unfold q; nra). rewrite Half.
    replace (2 * half / (2 * INR m * INR (h - 1))) with (half / q) by (unfold q; field; lra).
    apply (Rmult_le_reg_r q); [exact Q|]. unfold Rdiv at 1. rewrite Rmult_assoc, Rinv_l by lra. rewrite Rmult_1_r. apply Rle_trans with (1 := E'). rewrite PN in *. nra.
Qed.
Lemma place_le : forall n i d, (i < n)%nat -> 0 <= d -> place n i d <= d * (INR n - 1) / 2.
Proof.
  intros n i d I D. unfold place. assert (INR i <= INR n - 1); [|nra]. replace 1 with (INR 1) by reflexivity. rewrite <- minus_INR by lia. apply le_INR. lia.
Qed.

(** The tolerance, up to the rounding of the number of points. *)
Theorem C79_tolerance : forall radius a0 a1 tol mx fw fd la dt s s', p_arc radius a0 a1 tol None mx fw fd la dt s = Some s' ->
  mx = 0%nat \/ (50 <= mx)%nat -> 0 < p_w s -> 0 <= p_dist s -> p_w s' = p_w s -> p_dist s' = p_dist s -> no_overlap radius s ->
  0 < tol -> tol <= outermost radius s / 2 ->
  exists m ps, (0 < m)%nat /\ (mx = 0%nat -> m = 1%nat) /\ p_polys s' = p_polys s ++ ps /\
    arc_traced (psub (p_at s) (smul radius (cos a0, sin a0))) radius a0 a1 (fun _ => 25 / 16 * tol) m s ps.
Proof.
  intros radius a0 a1 tol mx fw fd la dt s s' H MX W0 D0 W1 D1 NO T B. destruct (arc_points_used _ _ _ _ _ _ _ _ _ _ _ _ H) as [np PU].
  destruct (C79_arc _ _ _ _ _ _ _ _ _ _ _ _ _ H PU W0 ltac:(lra)) as [m [ps [PA [M [P D]]]]]. exists m, ps. split; [exact M|]. split; [intros ->; exact PA|]. split; [exact P|].
  unfold points_used in PU. rewrite W1, D1, !Rmax_left in PU by lra.
  replace (radius + p_dist s * (INR (p_n s) - 1) * / 2 + p_w s) with (outermost radius s) in PU by (unfold outermost; field). set (r := outermost radius s) in *.
  destruct (half_angle _ _ _ _ _ _ _ PU MX PA M T B) as [K4 HA].
  destruct (alpha_ok tol r T B) as [[Al Au] At]. rewrite sqrt_sq in * by lra. rewrite Rmax_left in * by lra. set (al := acos (1 - tol / r)) in *. clearbody al.
  pose proof PI_RGT_0 as PP. set (h := Rabs (a1 - a0) / (2 * INR m * INR (np / m / 2 - 1))) in *.
  assert (PM : 0 < INR m) by (now apply lt_0_INR).
  assert (H0 : 0 <= h).
  { pose proof (Nat.div_le_mono 4 (np / m) 2 ltac:(lia) K4) as K2. change (4 / 2)%nat with 2%nat in K2.
    apply Rmult_le_pos; [apply Rabs_pos|]. left. apply Rinv_0_lt_compat. apply Rmult_lt_0_compat; [lra|]. apply lt_0_INR. lia. }
  assert (CH : 1 - cos h <= 25 / 16 * (1 - cos al)).
  { apply Rle_trans with (1 - cos (5 / 4 * al)); [|pose proof (cos_scale (5 / 4) al ltac:(lra) ltac:(lra) ltac:(lra)); lra].
    assert (cos (5 / 4 * al) <= cos h) by (apply cos_decr_1; lra). lra. }
  assert (R0 : 0 < r) by lra.
  pose proof (drawn_traced _ _ _ _ (np / m) _ _ _ _ _ D W1 D1 M K4 NO (Rlt_le _ _ W0) ltac:(fold h; lra) CH) as [L TR]. split; [exact L|].
  intros i j I J. cbn zeta. destruct (TR i j I J) as [A [C [E [TA TC]]]]. exists A, C. split; [exact E|].
  pose proof (place_le (p_n s) i (p_dist s) I D0) as PL. specialize (NO i I). set (q := place (p_n s) i (p_dist s)) in *.
  pose proof (COS_bound al) as CB.
  assert (BD : forall x, 0 <= x -> x <= r -> 0 <= 25 / 16 * (1 - cos al) * x <= 25 / 16 * tol).
  { intros x X0 X1. split; [nra|]. rewrite <- At. nra. }
  unfold r, outermost in BD. split; [apply (traces_weaken _ _ _ _ TA)|apply (traces_weaken _ _ _ _ TC)]; apply BD; lra.
Qed.

(** ** Turns *)
Lemma turn_arc : forall radius t tol npo mx fw fd la dt s s', p_turn radius t tol npo mx fw fd la dt s = Some s' -> (forall a, t = By a -> a <> 0) ->
  exists b h q, p_arc radius b (b + turn_by t) tol npo mx fw fd la dt (with_dir s h) = Some q /\
    psub (p_at s) (smul radius (cos b, sin b)) = pivot radius t s /\ q = with_dir s' (p_dir q).
Proof.
  intros radius t tol npo mx fw fd la dt s s' H N. unfold p_turn in H. pose proof (deltas_spec t N) as D. destruct (deltas t) as [[di df] ex]. destruct D as [D1 [D2 _]].
  destruct (p_arc _ _ _ _ _ _ _ _ _ _ _) as [q|] eqn:E; [|discriminate]. set (a := turn_angle (p_dir s)) in *.
  exists (a + di), (Toward a), q. split; [|split].
  - rewrite <- E. f_equal. lra.
  - unfold pivot. rewrite (toward_angle (p_dir s)). fold a. unfold rightward. cbn [fst snd].
    destruct (Rlt_dec (turn_by t) 0); rewrite D2; [|replace (a + - (PI / 2)) with (a - PI / 2) by ring]; rewrite ?cos_plus, ?sin_plus, ?cos_minus, ?sin_minus, cos_PI2, sin_PI2; unfold psub, padd, smul; cbn [fst snd]; f_equal; ring.
  - assert (s' = with_dir q (p_dir s')) by (injection H as <-; destruct (ex && named (p_dir s))%bool; [reflexivity|now destruct q]). rewrite H0. now destruct q.
Qed.
(** The vertices of the polygons of a turn, about the centre of the turn. *)
Theorem C79_turn : forall radius t tol npo np mx fw fd la dt s s', p_turn radius t tol npo mx fw fd la dt s = Some s' ->
  points_used radius 0 (turn_by t) tol npo s s' = Some np -> (forall a, t = By a -> a <> 0) -> 0 < p_w s -> 0 < p_w s' ->
  exists b m ps, pivot radius t s = psub (p_at s) (smul radius (cos b, sin b)) /\ parts np mx m /\ (0 < m)%nat /\ p_polys s' = p_polys s ++ ps /\
    arc_drawn (pivot radius t s) radius b (b + turn_by t) (np / m) m s s' ps.
Proof.
  intros radius t tol npo np mx fw fd la dt s s' H PU N W0 W1. destruct (turn_arc _ _ _ _ _ _ _ _ _ _ _ H N) as [b [h [q [E [C Q]]]]].
  assert (PU' : points_used radius b (b + turn_by t) tol npo (with_dir s h) q = Some np).
  { rewrite <- PU, Q. unfold points_used, auto_points. replace (b + turn_by t - b) with (turn_by t - 0) by ring. reflexivity. }
  assert (WQ : 0 < p_w q) by (rewrite Q; exact W1).
  destruct (C79_arc _ _ _ _ _ _ _ _ _ _ _ _ _ E PU' W0 WQ) as [m [ps [PA [M [P D]]]]]. rewrite <- C. exists b, m, ps. split; [reflexivity|]. split; [exact PA|]. split; [exact M|].
  rewrite Q in P, D. split; [exact P|exact D].
Qed.
(** The tolerance of a turn. *)
Theorem C79_turn_tolerance : forall radius t tol mx fw fd la dt s s', p_turn radius t tol None mx fw fd la dt s = Some s' -> (forall a, t = By a -> a <> 0) ->
  mx = 0%nat \/ (50 <= mx)%nat -> 0 < p_w s -> 0 <= p_dist s -> p_w s' = p_w s -> p_dist s' = p_dist s -> no_overlap radius s ->
  0 < tol -> tol <= outermost radius s / 2 ->
  exists b m ps, pivot radius t s = psub (p_at s) (smul radius (cos b, sin b)) /\ (0 < m)%nat /\ p_polys s' = p_polys s ++ ps /\
    arc_traced (pivot radius t s) radius b (b + turn_by t) (fun _ => 25 / 16 * tol) m s ps.
Proof.
  intros radius t tol mx fw fd la dt s s' H N MX W0 D0 W1 D1 NO T B. destruct (turn_arc _ _ _ _ _ _ _ _ _ _ _ H N) as [b [h [q [E [C Q]]]]].
  destruct (C79_tolerance _ _ _ _ _ _ _ _ _ _ _ E MX) as [m [ps [M [_ [P D]]]]]; try assumption; try (rewrite Q; assumption).
  exists b, m, ps. rewrite <- C. split; [reflexivity|]. split; [exact M|]. rewrite Q in P. split; [exact P|exact D].
Qed.

(** ** The tolerance itself is exceeded *)

(** If a polygonal line stays in a half plane, points far beyond are not near it. *)
Lemma half_far : forall (l : list pt) (c : pt) b h r t (x : pt), (forall p, In p l -> (fst p - fst c) * cos b + (snd p - snd c) * sin b <= h) ->
  (fst x - fst c) * cos b + (snd x - snd c) * sin b = r -> 0 <= t -> t < r - h -> ~ near l t x.
Proof.
  intros l c b h r t x L X T Lt (i & k & I & K & D). pose proof (L _ (nth_In l (0, 0) (Nat.lt_trans _ _ _ (Nat.lt_succ_diag_r i) I))) as L1.
  pose proof (L _ (nth_In l (0, 0) I)) as L2. set (p1 := nth i l (0, 0)) in *. set (p2 := nth (S i) l (0, 0)) in *. clearbody p1 p2.
  rewrite dist_dot in D. unfold padd, smul in D. cbn [fst snd] in D.
  set (dx := fst x - ((1 - k) * fst p1 + k * fst p2)) in *. set (dy := snd x - ((1 - k) * snd p1 + k * snd p2)) in *.
  assert (G : r - h <= dx * cos b + dy * sin b).
  { assert ((1 - k) * ((fst p1 - fst c) * cos b + (snd p1 - snd c) * sin b) <= (1 - k) * h) by (apply Rmult_le_compat_l; lra).
    assert (k * ((fst p2 - fst c) * cos b + (snd p2 - snd c) * sin b) <= k * h) by (apply Rmult_le_compat_l; lra).
    unfold dx, dy. lra. }
  pose proof (sin2_cos2 b) as S. unfold Rsqr in S.
  assert (CS : (dx * cos b + dy * sin b) ^ 2 <= dx ^ 2 + dy ^ 2).
  { replace (dx ^ 2 + dy ^ 2) with ((dx ^ 2 + dy ^ 2) * (sin b * sin b + cos b * cos b)) by (rewrite S; ring).
    pose proof (pow2_ge_0 (dx * sin b - dy * cos b)). nra. }
  assert (t ^ 2 < (dx * cos b + dy * sin b) ^ 2); [|lra]. set (g := dx * cos b + dy * sin b) in *. clearbody g. assert (t < g) by lra. nra.
Qed.
Lemma arc_auto : forall r a0 a1 tol np mx la dt s, auto_points tol (outermost r s) a0 a1 = Some np -> p_arc r a0 a1 tol None mx None None la dt s = p_arc r a0 a1 tol (Some np) mx None None la dt s.
Proof.
  intros r a0 a1 tol np mx la dt s H. unfold p_arc. cbn [half option_map or_old]. rewrite !Rmax_left by lra. unfold outermost in H. unfold Rdiv in H at 1. now rewrite H.
Qed.
(** For every path and every tolerance there is an arc whose outermost side is further
    than that from its circle: the number of points is rounded to the nearest. *)
Theorem C79_tolerance_refuted : forall radius tol s, p_n s = 1%nat -> 0 < p_w s -> p_w s <= radius -> 0 < tol -> tol <= outermost radius s / 2 ->
  exists a1 s' q x, p_arc radius 0 a1 tol None 0 None None (Tag 0) (Tag 0) s = Some s' /\ p_polys s' = p_polys s ++ [q] /\ 0 <= x <= 1 /\
    ~ near q tol (arc_at (psub (p_at s) (radius, 0)) (radius + p_w s) 0 a1 x).
Proof.
  intros radius tol s N1 W0 W1 T B. pose proof PI_RGT_0 as PP. destruct (alpha_ok tol (outermost radius s) T B) as [[Al Au] At]. rewrite sqrt_sq in * by lra. rewrite Rmax_left in * by lra.
  assert (AP : auto_points tol (outermost radius s) 0 (24 / 5 * acos (1 - tol / outermost radius s)) = Some 6%nat).
  { unfold auto_points. assert (Q : 0 < tol / outermost radius s <= / 2).
    { split; [apply Rdiv_lt_0_compat; lra|]. apply (Rmult_le_reg_r (outermost radius s)); [lra|]. unfold Rdiv. rewrite Rmult_assoc, Rinv_l by lra. lra. }
    destruct (Req_EM_T (outermost radius s) 0) as [Z|_]; [lra|]. destruct (Rle_dec (-1) (1 - tol / outermost radius s)) as [_|Z]; [|lra].
    destruct (Rlt_dec (1 - tol / outermost radius s) 1) as [_|Z]; [|lra]. set (al := acos _) in *. clearbody al. rewrite Rminus_0_r, Rabs_pos_eq by lra.
    replace (/ 2 * (24 / 5 * al) / al + / 2) with (29 / 10) by (field; lra). replace (Int_part (29 / 10)) with 2%Z; [reflexivity|].
    symmetry. unfold Int_part. rewrite <- (tech_up (29 / 10) 3); [reflexivity| |]; lra. }
  set (al := acos _) in *. clearbody al. set (a1 := 24 / 5 * al) in *.
  destruct (arc_defined radius 0 a1 tol 6 0 None None (Tag 0) (Tag 0) s) as [s' E]; [lia|cbn; lia|discriminate|discriminate|].
  destruct (arc_facts _ _ _ _ _ _ _ _ _ _ _ _ E) as [_ [_ [Ew [Ed _]]]]. cbn [half option_map or_old] in Ew, Ed.
  destruct (C79_arc _ _ _ _ _ 6%nat _ _ _ _ _ _ _ E eq_refl W0 ltac:(lra)) as [m [ps [PA [M [P [L D]]]]]]. cbn in PA. subst m.
  rewrite N1 in L. destruct ps as [|q [|q' ps]]; try discriminate L. exists a1, s', q, (/ 4). rewrite (arc_auto _ _ _ _ _ _ _ _ _ AP). split; [exact E|]. split; [exact P|]. split; [lra|].
  specialize (D 0%nat 0%nat ltac:(lia) ltac:(lia)). cbn zeta in D. rewrite Ew, Ed, N1 in D. cbn [nth Nat.mul Nat.add Nat.div Nat.divmod fst snd Nat.sub] in D.
  rewrite cos_0, sin_0 in D. replace (smul radius (1, 0)) with (radius, 0) in D by (unfold smul; cbn [fst snd]; f_equal; ring). set (c := psub (p_at s) (radius, 0)) in *.
  set (b := 6 / 5 * al). assert (Ob : outermost radius s = radius + p_w s) by (unfold outermost; rewrite N1; cbn [INR]; field).
  rewrite Ob in *. assert (Cb : cos b < cos al) by (apply cos_decreasing_1; unfold b; lra). assert (C0 : 0 <= cos b) by (apply cos_ge_0; unfold b; lra).
  apply (half_far q c b ((radius + p_w s) * cos b) (radius + p_w s)).
  - assert (C3 : cos (3 * b) <= cos b).
    { assert (3 * b <= 6 * PI / 5) by (unfold b; lra). destruct (Rle_dec (3 * b) PI) as [Z|Z]; [apply cos_decr_1; unfold b in *; lra|].
      apply Rle_trans with 0; [|auto]. apply cos_le_0; lra. }
    assert (U : forall r u, 0 <= r <= radius + p_w s -> u = 0 \/ u = / 2 \/ u = 1 -> forall p, p = padd c (smul r (cos (0 + u * (a1 - 0)), sin (0 + u * (a1 - 0)))) ->
      (fst p - fst c) * cos b + (snd p - snd c) * sin b <= (radius + p_w s) * cos b).
    { intros r u Hr Hu p ->. unfold padd, smul. cbn [fst snd]. replace ((fst c + r * cos (0 + u * (a1 - 0)) - fst c) * cos b + (snd c + r * sin (0 + u * (a1 - 0)) - snd c) * sin b)
        with (r * cos (0 + u * (a1 - 0) - b)) by (rewrite cos_minus; ring).
      assert (cos (0 + u * (a1 - 0) - b) <= cos b).
      { destruct Hu as [->|[->| ->]].
        - replace (0 + 0 * (a1 - 0) - b) with (- b) by ring. rewrite cos_neg. lra.
        - replace (0 + / 2 * (a1 - 0) - b) with b by (unfold a1, b; field). lra.
        - replace (0 + 1 * (a1 - 0) - b) with (3 * b) by (unfold a1, b; field). lra. }
      apply Rle_trans with (r * cos b); [apply Rmult_le_compat_l; lra|apply Rmult_le_compat_r; lra]. }
    assert (Pl : forall t, place 1 0 (p_dist s + t * (p_dist s - p_dist s)) = 0) by (intro t; unfold place; cbn [INR]; field).
    assert (Wl : forall t, p_w s + t * (p_w s - p_w s) = p_w s) by (intro; ring).
    intros p I. rewrite D in I. apply in_app_iff in I. destruct I as [I|I]; apply in_map_iff in I; destruct I as [x [<- I]];
      unfold linspace in I; cbn [map seq Nat.sub INR In] in I; rewrite Pl, Wl;
      (eapply U; [|apply (fun x => x)|reflexivity]); try lra; destruct I as [<-|[<-|[<-|[]]]]; cbn [INR]; lra.
  - unfold arc_at, padd. cbn [fst snd]. replace (0 + / 4 * (a1 - 0)) with b by (unfold a1, b; field). pose proof (sin2_cos2 b) as S. unfold Rsqr in S.
    transitivity ((radius + p_w s) * (sin b * sin b + cos b * cos b)); [ring|rewrite S; ring].
  - lra.
  - rewrite <- At at 1. nra.
Qed.

(** Non-vacuity: half a circle with three parallel paths, whatever the number of points
    needed, in parts of at most 199 points; a turn to the right that becomes wider; and
    the case of the refutation. *)
Lemma auto_some : forall tol r a0 a1, 0 < tol -> tol <= r / 2 -> exists np, auto_points tol r a0 a1 = Some np.
Proof.
  intros tol r a0 a1 T B. unfold auto_points. assert (Q : 0 < tol / r <= / 2).
  { split; [apply Rdiv_lt_0_compat; lra|]. apply (Rmult_le_reg_r r); [lra|]. unfold Rdiv. rewrite Rmult_assoc, Rinv_l by lra. lra. }
  destruct (Req_EM_T r 0) as [Z|_]; [lra|]. destruct (Rle_dec (-1) (1 - tol / r)) as [_|Z]; [|lra]. destruct (Rlt_dec (1 - tol / r) 1) as [_|Z]; [|lra]. eexists; reflexivity.
Qed.
Example C79_case : exists s' m ps, p_arc 20 0 PI (1 / 100) None 199 None None (Tag 1) (Tag 0) (new_path 2 (5, 5) 3 4) = Some s' /\
  p_polys s' = ps /\ arc_traced (-15, 5) 20 0 PI (fun _ => 25 / 16 * (1 / 100)) m (new_path 2 (5, 5) 3 4) ps.
Proof.
  set (s := new_path 2 (5, 5) 3 4). assert (O : outermost 20 s = 25) by (unfold outermost; cbn; field).
  destruct (auto_some (1 / 100) (outermost 20 s) 0 PI) as [np A]; [lra|lra|].
  assert (En : enough_points np 199).
  { apply (C73_enough 20 0 PI (1 / 100) np 199 s s); [|right; lia]. unfold points_used. rewrite !Rmax_left by lra. rewrite <- A. f_equal. }
  unfold enough_points in En.
  destruct (arc_defined 20 0 PI (1 / 100) np 199 None None (Tag 1) (Tag 0) s) as [s' E]; [destruct (auto_even _ _ _ _ _ A) as [n [-> [? _]]]; lia|lia|discriminate|discriminate|].
  rewrite <- (arc_auto _ _ _ _ _ _ _ _ _ A) in E.
  destruct (arc_facts _ _ _ _ _ _ _ _ _ _ _ _ E) as [_ [_ [Ew [Ed _]]]]. cbn [half option_map or_old] in Ew, Ed.
  destruct (C79_tolerance _ _ _ _ _ _ _ _ _ _ _ E) as [m [ps [_ [_ [P D]]]]]; try assumption; try lra; try (cbn; lra); [right; lia| |].
  - intros i I. cbn in I. unfold place. cbn [s new_path p_n p_dist p_w INR]. destruct i as [|[|[|i]]]; cbn [INR]; try lra. lia.
  - exists s', m, ps. split; [exact E|]. split; [exact P|]. rewrite cos_0, sin_0 in D. cbn [s new_path p_at] in D.
    replace (psub (5, 5) (smul 20 (1, 0))) with (-15, 5) in D by (unfold psub, smul; cbn [fst snd]; f_equal; ring). exact D.
Qed.
Example C79_turn_case : exists s' b ps, p_turn 20 Right 1 (Some 8%nat) 4 (Some 4) None (Tag 1) (Tag 0) (new_path 2 (5, 5) 3 4) = Some s' /\
  p_polys s' = ps /\ arc_drawn (5, -15) 20 b (b - PI / 2) 4 2 (new_path 2 (5, 5) 3 4) s' ps.
Proof.
  set (s := new_path 2 (5, 5) 3 4). destruct (turn_defined 20 Right 1 8 4 (Some 4) None (Tag 1) (Tag 0) s) as [s' E]; [lia|cbn; lia|discriminate|discriminate|].
  destruct (turn_arc _ _ _ _ _ _ _ _ _ _ _ E) as [b' [h [q [E' [_ Q]]]]]; [discriminate|]. destruct (arc_facts _ _ _ _ _ _ _ _ _ _ _ _ E') as [_ [_ [Ew _]]].
  rewrite Q in Ew. cbn [half option_map or_old with_dir p_w] in Ew.
  destruct (C79_turn _ _ _ _ _ _ _ _ _ _ _ _ E eq_refl) as [b [m [ps [_ [PA [_ [P D]]]]]]]; [discriminate|cbn; lra|lra|].
  assert (m = 2%nat) by (unfold parts in PA; lia). subst m. exists s', b, ps. split; [exact E|]. split; [exact P|].
  assert (PV : pivot 20 Right s = (5, -15)).
  { unfold pivot. cbn [turn_by]. destruct (Rlt_dec _ 0) as [_|Z]; [|pose proof PI_RGT_0; lra]. unfold rightward, padd, smul. cbn. f_equal; ring. }
  rewrite PV in D. exact D.
Qed.
Example C79_refuted_case : exists a1 s' q x, p_arc 20 0 a1 1 None 0 None None (Tag 0) (Tag 0) (new_path 2 (5, 5) 1 0) = Some s' /\ p_polys s' = [] ++ [q] /\ 0 <= x <= 1 /\
  ~ near q 1 (arc_at (psub (5, 5) (20, 0)) (20 + 1 * 2 * / 2) 0 a1 x).
Proof.
  destruct (C79_tolerance_refuted 20 1 (new_path 2 (5, 5) 1 0)) as [a1 [s' [q [x [E [P [X F]]]]]]]; [reflexivity|cbn; lra|cbn; lra|lra|unfold outermost; cbn; lra|].
  exists a1, s', q, x. split; [exact E|]. split; [exact P|]. split; [exact X|]. cbn [new_path p_at p_w] in F. replace (20 + 1 * 2 * / 2) with (20 + 2 * / 2) by ring. exact F.
Qed.
Example C79_circle_case : exists s' ps, p_arc 20 0 (PI / 2) 1 (Some 10%nat) 0 None None (Tag 1) (Tag 0) (new_path 2 (5, 5) 3 4) = Some s' /\
  p_polys s' = ps /\ arc_traced (psub (5, 5) (smul 20 (cos 0, sin 0))) 20 0 (PI / 2) (fun r => (1 - cos (PI / 16)) * r) 1 (new_path 2 (5, 5) 3 4) ps.
Proof.
  set (s := new_path 2 (5, 5) 3 4). destruct (arc_defined 20 0 (PI / 2) 1 10 0 None None (Tag 1) (Tag 0) s) as [s' E]; [lia|cbn; lia|discriminate|discriminate|].
  destruct (arc_facts _ _ _ _ _ _ _ _ _ _ _ _ E) as [_ [_ [Ew [Ed _]]]]. cbn [half option_map or_old] in Ew, Ed. pose proof PI_RGT_0 as PP.
  destruct (C79_circle _ _ _ _ _ 10%nat _ _ _ _ _ _ _ E eq_refl) as [m [ps [PA [M [P D]]]]]; try assumption.
  - unfold enough_points. cbn. lia.
  - cbn. lra.
  - intros i I. cbn in I. unfold place. cbn [s new_path p_n p_dist p_w INR]. destruct i as [|[|[|i]]]; cbn [INR]; try lra. lia.
  - cbn in PA. subst m. exists s', ps. split; [exact E|]. split; [exact P|]. cbn zeta in D. cbn [Nat.div Nat.divmod fst Nat.sub] in D.
    replace (Rabs (PI / 2 - 0) / (2 * INR 1 * INR 4)) with (PI / 16) in D by (rewrite Rabs_pos_eq by lra; cbn [INR]; field). apply D. lra.
Qed.
Print Assumptions C79_arc.
Print Assumptions C79_circle.
Print Assumptions C79_tolerance.
Print Assumptions C79_turn.
Print Assumptions C79_turn_tolerance.
Print Assumptions C79_tolerance_refuted.
