(** Moving a Path and drawing with it (C75). *)

From Coq Require Import Reals Lra Lia List ZArith Bool.
From Verif Require Import Plane PlaneProofs SpecPlane Curve SpecCurve CurveProofs PropCurve Flex PropFlexEnds Path SpecPath PropPath PropPathJoin PropPathCurve PropPathMore SpecPathMove.
Import ListNotations.
Open Scope R_scope.

Section Carry.
Variables (a k : R) (v : pt).
Hypothesis K : 0 < k.
Notation M := (carry a k v).
Notation L := (carry_vec a k).

Lemma M_add : forall p u, M (padd p u) = padd (M p) (L u).
Proof. intros. unfold carry, carry_vec, spin, padd, smul. cbn [fst snd]. f_equal; ring. Qed.
Lemma M_sub : forall p q, psub (M p) (M q) = L (psub p q).
Proof. intros. unfold carry, carry_vec, spin, padd, psub, smul. cbn [fst snd]. f_equal; ring. Qed.
Lemma L_sub : forall p q, psub (L p) (L q) = L (psub p q).
Proof. intros. unfold carry_vec, spin, psub, smul. cbn [fst snd]. f_equal; ring. Qed.
Lemma L_smul : forall c u, L (smul c u) = smul c (L u).
Proof. intros. unfold carry_vec, spin, smul. cbn [fst snd]. f_equal; ring. Qed.
Lemma cs1 : cos a ^ 2 + sin a ^ 2 = 1.
Proof. pose proof (sin2_cos2 a) as H. unfold Rsqr in H. lra. Qed.
Lemma L_len2 : forall u, len2 (L u) = k ^ 2 * len2 u.
Proof.
  intros. unfold len2, carry_vec, spin, smul. cbn [fst snd].
  transitivity (k ^ 2 * (cos a ^ 2 + sin a ^ 2) * (fst u ^ 2 + snd u ^ 2)); [ring|]. rewrite cs1. ring.
Qed.
Lemma L_len : forall u, len (L u) = k * len u.
Proof.
  intros. unfold len. rewrite L_len2. rewrite sqrt_mult_alt by (apply pow2_ge_0). rewrite sqrt_pow2 by lra. reflexivity.
Qed.
Lemma M_uncarry : forall p, uncarry a k v (M p) = p.
Proof.
  intros p. unfold uncarry, carry, carry_vec, spin, padd, psub, smul. cbn [fst snd]. rewrite cos_neg, sin_neg.
  apply injective_projections; cbn [fst snd].
  - transitivity (/ k * k * (cos a ^ 2 + sin a ^ 2) * fst p); [ring|]. rewrite cs1. field. lra.
  - transitivity (/ k * k * (cos a ^ 2 + sin a ^ 2) * snd p); [ring|]. rewrite cs1. field. lra.
Qed.

(** ** The relation between a path and its image *)
Definition same_length (s t : path) : Prop := k = 1 -> p_len t = p_len s.
(** Distances are as they were, or there is only one path *)
Definition same_distance (n : nat) (d d' : R) : Prop := (n = 1%nat /\ k <> 1) \/ (k = 1 /\ d' = d).
Definition image (s t : path) : Prop :=
  p_at t = M (p_at s) /\ p_w t = k * p_w s /\ p_n t = p_n s /\ toward (p_dir t) = spin a (toward (p_dir s)) /\
  same_distance (p_n s) (p_dist s) (p_dist t) /\ same_length s t /\
  p_polys t = map (map M) (p_polys s) /\ p_layers t = p_layers s /\ p_dts t = p_dts s.

Lemma lateral_k : forall n d d' i, same_distance n d d' -> (i < n)%nat -> lateral n d' i = k * lateral n d i.
Proof.
  intros n d d' i [[-> _]|[-> ->]] I; [|ring]. assert (i = 0%nat) by lia. subst i. unfold lateral. cbn. ring.
Qed.
Lemma or_old_k : forall o x y, y = k * x -> or_old (half (option_map (Rmult k) o)) y = k * or_old (half o) x.
Proof. intros [z|] x y ->; cbn; [ring|reflexivity]. Qed.
Lemma or_old_d : forall n o x y, same_distance n x y -> same_distance n (or_old o x) (or_old (option_map (Rmult k) o) y).
Proof. intros n [z|] x y [N|[E ->]]; cbn; try (left; exact N); right; split; try exact E; try reflexivity. rewrite E. ring. Qed.
Lemma visible_k : forall x y, visible (k * x) (k * y) = visible x y.
Proof.
  intros x y. unfold visible. destruct (Req_EM_T (k * y) 0) as [Y|Y], (Req_EM_T y 0) as [Y'|Y'];
    try (exfalso; nra); [|reflexivity].
  destruct (Req_EM_T (k * x) 0) as [X|X], (Req_EM_T x 0) as [X'|X']; try reflexivity; exfalso; nra.
Qed.
Lemma zero_k : forall {X} w (x y : X), (if Req_EM_T (k * w) 0 then x else y) = (if Req_EM_T w 0 then x else y).
Proof. intros X w x y. destruct (Req_EM_T (k * w) 0), (Req_EM_T w 0); try reflexivity; exfalso; nra. Qed.
Lemma tl_map : forall {X Y} (f : X -> Y) l, tl (map f l) = map f (tl l). Proof. intros X Y f [|x l]; reflexivity. Qed.
Lemma removelast_map : forall {X Y} (f : X -> Y) l, removelast (map f l) = map f (removelast l).
Proof. intros X Y f l. induction l as [|x [|y l] IH]; try reflexivity. cbn [map removelast] in *. now rewrite IH. Qed.

Lemma toward_cs : forall h, toward h = (cos_of h, sin_of h). Proof. intros []; reflexivity. Qed.
Lemma turned_toward : forall h, toward (Toward (turn_angle h + a)) = spin a (toward h).
Proof.
  intros h. rewrite (toward_angle h). cbn [toward]. unfold spin. cbn [fst snd]. rewrite cos_plus, sin_plus. f_equal; ring.
Qed.

(** ** segment *)
Lemma seg_poly_k : forall ca sa p q w0 w1 d0 d1,
  seg_poly (fst (spin a (ca, sa))) (snd (spin a (ca, sa))) (M p) (M q) (k * w0) (k * w1) (k * d0) (k * d1) = map M (seg_poly ca sa p q w0 w1 d0 d1).
Proof.
  intros. unfold seg_poly. rewrite !zero_k.
  match goal with |- (if _ then tl (if _ then removelast ?l else ?l) else _) = map M (if _ then tl (if _ then removelast ?m else ?m) else _) =>
    assert (E : l = map M m) by (cbn [map]; unfold carry, carry_vec, spin, padd, smul; cbn [fst snd]; repeat (f_equal; try ring)) end.
  rewrite E. destruct (Req_EM_T w1 0), (Req_EM_T w0 0); rewrite ?removelast_map, ?tl_map; reflexivity.
Qed.
Lemma image_segment : forall l dir fw fd axis la dt s t, image s t ->
  both image (p_segment l dir fw fd axis la dt s)
    (p_segment (k * l) (option_map (fun h => Toward (turn_angle h + a)) dir) (option_map (Rmult k) fw) (option_map (Rmult k) fd) (k * axis) la dt t).
Proof.
  intros l dir fw fd axis la dt s t [I1 [I2 [I3 [I4 [I5 [I6 [I7 [I8 I9]]]]]]]]. unfold p_segment.
  set (h := match dir with Some h => h | None => p_dir s end).
  set (h' := match option_map (fun h => Toward (turn_angle h + a)) dir with Some h => h | None => p_dir t end).
  assert (T : toward h' = spin a (toward h)) by (unfold h, h'; destruct dir; [apply turned_toward|exact I4]).
  clearbody h h'. rewrite !toward_cs in T. assert (C : cos_of h' = fst (spin a (cos_of h, sin_of h))) by (now rewrite <- T).
  assert (S : sin_of h' = snd (spin a (cos_of h, sin_of h))) by (now rewrite <- T).
  rewrite (or_old_k fw (p_w s) (p_w t) I2), I2, visible_k, I3. pose proof (or_old_d _ fd _ _ I5) as D.
  set (w := or_old (half fw) (p_w s)). set (d := or_old fd (p_dist s)) in *. set (d' := or_old (option_map (Rmult k) fd) (p_dist t)) in *.
  set (q := (fst (p_at s) + (l * cos_of h + axis * sin_of h), snd (p_at s) + (l * sin_of h - axis * cos_of h))).
  match goal with |- both _ _ (if _ then match _ with Some _ => match _ with Some _ => Some (Path ?x _ _ _ _ _ _ _ _) | _ => _ end | _ => _ end else _) =>
    assert (Q : x = M q) by (unfold q; rewrite C, S, I1; unfold carry, carry_vec, spin, padd, smul; cbn [fst snd]; f_equal; ring); rewrite Q end.
  assert (T' : toward h' = spin a (toward h)) by (rewrite !toward_cs; exact T).
  destruct (visible (p_w s) w).
  - destruct (tag_list (p_n s) la) as [las|]; [|exact Logic.I]. destruct (tag_list (p_n s) dt) as [dts|]; [|exact Logic.I].
    cbn [both]. unfold image, same_length in *. cbn [p_at p_w p_n p_dir p_dist p_len p_polys p_layers p_dts].
    rewrite I8, I9, I7, map_app, map_map. repeat split; try reflexivity; try assumption.
    + intros E. rewrite (I6 E), E. f_equal. f_equal. ring.
    + f_equal. apply map_ext_in. intros i Hi. apply in_seq in Hi.
      rewrite C, S, I1, (lateral_k _ _ _ i I5), (lateral_k _ _ _ i D) by lia. apply seg_poly_k.
  - cbn [both]. unfold image, same_length in *. cbn [p_at p_w p_n p_dir p_dist p_len p_polys p_layers p_dts]. repeat split; assumption.
Qed.

(** ** arc and turn *)
Section Arc.
Variable b : R.
Hypothesis CB : cos b = cos a.
Hypothesis SB : sin b = sin a.
Lemma polar_k : forall c x r, polar (M c) (x + b, k * r) = M (polar c (x, r)).
Proof.
  intros c x r. unfold polar, carry, carry_vec, spin, padd, smul. cbn [fst snd]. rewrite cos_plus, sin_plus, CB, SB. f_equal; ring.
Qed.
Lemma linspace_shift : forall x y n, linspace (x + b) (y + b) n = map (fun z => z + b) (linspace x y n).
Proof. intros. unfold linspace. rewrite map_map. apply map_ext. intros i. replace (y + b - (x + b)) with (y - x) by ring. ring. Qed.
Lemma linspace_times : forall x y n, linspace (k * x) (k * y) n = map (Rmult k) (linspace x y n).
Proof. intros. unfold linspace. rewrite map_map. apply map_ext. intros i. unfold Rdiv. ring. Qed.
Lemma combine_map2 : forall {X Y X' Y'} (f : X -> X') (g : Y -> Y') l m, combine (map f l) (map g m) = map (fun q => (f (fst q), g (snd q))) (combine l m).
Proof. intros X Y X' Y' f g l. induction l as [|x l IH]; intros [|y m]; try reflexivity. cbn. now rewrite IH. Qed.
Lemma polars_k : forall c x y r s n, map (polar (M c)) (combine (linspace (x + b) (y + b) n) (linspace (k * r) (k * s) n)) =
  map M (map (polar c) (combine (linspace x y n) (linspace r s n))).
Proof.
  intros. rewrite linspace_shift, linspace_times, combine_map2, !map_map. apply map_ext. intros [z u]. cbn [fst snd]. apply polar_k.
Qed.
Lemma arc_poly_k : forall c np a0 a1 r0 r1 w0 w1,
  arc_poly (M c) np (a0 + b) (a1 + b) (k * r0) (k * r1) (k * w0) (k * w1) = option_map (map M) (arc_poly c np a0 a1 r0 r1 w0 w1).
Proof.
  intros. unfold arc_poly. rewrite !zero_k. rewrite <- !Rmult_plus_distr_l. replace (k * r1 - k * w1) with (k * (r1 - w1)) by ring.
  replace (k * r0 - k * w0) with (k * (r0 - w0)) by ring. rewrite !polars_k.
  match goal with |- (if (?n =? 0)%nat then _ else _) = _ => destruct (n =? 0)%nat; [reflexivity|] end. cbn [option_map]. f_equal. rewrite map_app.
  f_equal. destruct (Req_EM_T w1 0), (Req_EM_T w0 0); rewrite ?removelast_map, ?tl_map; reflexivity.
Qed.
Lemma all_some_map : forall {X Y Z} (f : X -> Y) (g : Z -> option X) (g' : Z -> option Y) l, (forall z, In z l -> g' z = option_map f (g z)) ->
  all_some (map g' l) = option_map (map f) (all_some (map g l)).
Proof.
  intros X Y Z f g g' l. induction l as [|z l IH]; intros H; [reflexivity|]. cbn [map all_some]. rewrite H by (left; reflexivity).
  destruct (g z) as [x|]; [|reflexivity]. cbn [option_map]. rewrite IH by (intros y Yi; apply H; right; exact Yi).
  destruct (all_some (map g l)); reflexivity.
Qed.
Lemma at_linspace_k : forall x y n j, at_ (linspace (k * x) (k * y) n) j = k * at_ (linspace x y n) j.
Proof. intros. unfold at_. rewrite linspace_times. rewrite <- (Rmult_0_r k) at 1. apply (map_nth (Rmult k)). Qed.
Lemma at_linspace_b : forall x y n j, (j < n)%nat -> at_ (linspace (x + b) (y + b) n) j = at_ (linspace x y n) j + b.
Proof.
  intros. unfold at_. rewrite linspace_shift. rewrite (nth_indep _ 0 (0 + b)) by (rewrite map_length; unfold linspace; now rewrite map_length, seq_length).
  apply (map_nth (fun z => z + b)).
Qed.
Lemma at_linspace_d : forall m x y x' y' n j, same_distance m x x' -> same_distance m y y' ->
  same_distance m (at_ (linspace x y n) j) (at_ (linspace x' y' n) j).
Proof. intros m x y x' y' n j [N|[E ->]] [F|[_ ->]]; try (left; assumption). right. split; [exact E|reflexivity]. Qed.
Lemma auto_points_k : forall tol r r' a0 a1, r' = k * r -> auto_points (k * tol) r' (a0 + b) (a1 + b) = auto_points tol r a0 a1.
Proof.
  intros tol r r' a0 a1 ->. unfold auto_points. replace (a1 + b - (a0 + b)) with (a1 - a0) by ring.
  destruct (Req_EM_T (k * r) 0) as [Z|Z], (Req_EM_T r 0) as [Z'|Z']; try reflexivity; try (exfalso; nra).
  replace (k * tol / (k * r)) with (tol / r) by (field; split; lra). reflexivity.
Qed.
Lemma Rmax_k : forall x y, Rmax (k * x) (k * y) = k * Rmax x y.
Proof. intros. apply RmaxRmult. lra. Qed.
Lemma image_arc : forall radius a0 a1 tol np mx fw fd la dt s t, image s t ->
  both image (p_arc radius a0 a1 tol np mx fw fd la dt s)
    (p_arc (k * radius) (a0 + b) (a1 + b) (k * tol) np mx (option_map (Rmult k) fw) (option_map (Rmult k) fd) la dt t).
Proof.
  intros radius a0 a1 tol np mx fw fd la dt s t [I1 [I2 [I3 [I4 [I5 [I6 [I7 [I8 I9]]]]]]]]. unfold p_arc.
  rewrite (or_old_k fw (p_w s) (p_w t) I2), I2, visible_k, I3, Rmax_k. pose proof (or_old_d _ fd _ _ I5) as D.
  set (w := or_old (half fw) (p_w s)). set (d := or_old fd (p_dist s)) in *. set (d' := or_old (option_map (Rmult k) fd) (p_dist t)) in *.
  set (c := (fst (p_at s) - radius * cos a0, snd (p_at s) - radius * sin a0)).
  set (c' := (fst (p_at t) - k * radius * cos (a0 + b), snd (p_at t) - k * radius * sin (a0 + b))).
  assert (C : c' = M c).
  { unfold c, c'. rewrite I1, cos_plus, sin_plus, CB, SB. unfold carry, carry_vec, spin, padd, smul. cbn [fst snd]. f_equal; ring. }
  clearbody c'. subst c'. set (q := (fst c + radius * cos a1, snd c + radius * sin a1)).
  assert (Q : (fst (M c) + k * radius * cos (a1 + b), snd (M c) + k * radius * sin (a1 + b)) = M q).
  { unfold q. rewrite cos_plus, sin_plus, CB, SB. unfold carry, carry_vec, spin, padd, smul. cbn [fst snd]. f_equal; ring. }
  rewrite Q. set (h := Toward (if Rlt_dec a0 a1 then a1 + PI * / 2 else a1 - PI * / 2)).
  set (h' := Toward (if Rlt_dec (a0 + b) (a1 + b) then a1 + b + PI * / 2 else a1 + b - PI * / 2)).
  assert (T : toward h' = spin a (toward h)).
  { unfold h, h'. destruct (Rlt_dec (a0 + b) (a1 + b)), (Rlt_dec a0 a1); try (exfalso; lra).
    - replace (a1 + b + PI * / 2) with (a1 + PI * / 2 + b) by ring. cbn [toward]. unfold spin. cbn [fst snd]. rewrite (cos_plus (a1 + PI * / 2)), (sin_plus (a1 + PI * / 2)), CB, SB. f_equal; ring.
    - replace (a1 + b - PI * / 2) with (a1 - PI * / 2 + b) by ring. cbn [toward]. unfold spin. cbn [fst snd]. rewrite (cos_plus (a1 - PI * / 2)), (sin_plus (a1 - PI * / 2)), CB, SB. f_equal; ring. }
  clearbody h h' q.
  assert (NP : match np with Some n => Some n | None => auto_points (k * tol) (k * radius + Rmax (p_dist t) d' * (INR (p_n s) - 1) * / 2 + k * Rmax (p_w s) w) (a0 + b) (a1 + b) end =
    match np with Some n => Some n | None => auto_points tol (radius + Rmax (p_dist s) d * (INR (p_n s) - 1) * / 2 + Rmax (p_w s) w) a0 a1 end).
  { destruct np; [reflexivity|]. apply auto_points_k. destruct I5 as [[N _]|[E F]].
    - rewrite N. cbn. ring.
    - destruct D as [[N _]|[_ G]]; [rewrite N; cbn; ring|]. rewrite F, G, E. ring. }
  rewrite NP. match type of NP with _ = ?x => destruct x as [m|] end; [|exact Logic.I].
  destruct (piece_count m mx =? 0)%nat; [exact Logic.I|]. set (pieces := piece_count m mx).
  destruct (visible (p_w s) w).
  2: { cbn [both]. unfold image, same_length in *. cbn [p_at p_w p_n p_dir p_dist p_len p_polys p_layers p_dts]. repeat split; assumption. }
  rewrite (all_some_map (map (map M)) (arc_piece c radius (p_n s) (m / pieces) (linspace a0 a1 (pieces + 1)) (linspace (p_w s) w (pieces + 1)) (linspace (p_dist s) d (pieces + 1)))
    (arc_piece (M c) (k * radius) (p_n s) (m / pieces) (linspace (a0 + b) (a1 + b) (pieces + 1)) (linspace (k * p_w s) (k * w) (pieces + 1)) (linspace (p_dist t) d' (pieces + 1)))).
  2: { intros j Hj. apply in_seq in Hj. unfold arc_piece. apply all_some_map. intros i Hi. apply in_seq in Hi.
       rewrite !at_linspace_b by lia. rewrite !at_linspace_k.
       rewrite (lateral_k _ (at_ (linspace (p_dist s) d (pieces + 1)) j) (at_ (linspace (p_dist t) d' (pieces + 1)) j)) by (try lia; now apply at_linspace_d).
       rewrite (lateral_k _ (at_ (linspace (p_dist s) d (pieces + 1)) (j + 1)) (at_ (linspace (p_dist t) d' (pieces + 1)) (j + 1))) by (try lia; now apply at_linspace_d).
       rewrite <- !Rmult_plus_distr_l. apply arc_poly_k. }
  destruct (all_some _) as [ps|]; [|exact Logic.I]. cbn [option_map].
  destruct (tag_list (p_n s) la) as [las|]; [|exact Logic.I]. destruct (tag_list (p_n s) dt) as [dts|]; [|exact Logic.I].
  cbn [both]. unfold image, same_length in *. cbn [p_at p_w p_n p_dir p_dist p_len p_polys p_layers p_dts].
  rewrite I8, I9, I7, map_app. repeat split; try reflexivity; try assumption.
  - intros E. rewrite (I6 E). f_equal. f_equal. apply map_ext_in. intros j Hj. apply in_seq in Hj. rewrite !at_linspace_b by lia. rewrite E. f_equal. ring.
  - f_equal. rewrite concat_map. reflexivity.
Qed.
End Arc.
Lemma turn_shift : forall s t, image s t -> exists b, cos b = cos a /\ sin b = sin a /\ turn_angle (p_dir t) = turn_angle (p_dir s) + b.
Proof.
  intros s t [_ [_ [_ [I4 _]]]]. exists (turn_angle (p_dir t) - turn_angle (p_dir s)). rewrite (toward_angle (p_dir s)), (toward_angle (p_dir t)) in I4.
  set (x := turn_angle (p_dir s)) in *. set (y := turn_angle (p_dir t)) in *. unfold spin in I4. cbn [fst snd] in I4. injection I4 as C S.
  pose proof (sin2_cos2 x) as E. unfold Rsqr in E. rewrite cos_minus, sin_minus, C, S. split; [|split; [|ring]].
  - transitivity (cos a * (sin x * sin x + cos x * cos x)); [ring|]. rewrite E. ring.
  - transitivity (sin a * (sin x * sin x + cos x * cos x)); [ring|]. rewrite E. ring.
Qed.
Lemma spin_spin : forall x y u, spin x (spin y u) = spin y (spin x u).
Proof. intros. unfold spin. cbn [fst snd]. f_equal; ring. Qed.
Lemma image_turn : forall radius r tol np mx fw fd la dt s t, image s t ->
  both image (p_turn radius r tol np mx fw fd la dt s)
    (p_turn (k * radius) r (k * tol) np mx (option_map (Rmult k) fw) (option_map (Rmult k) fd) la dt t).
Proof.
  intros radius r tol np mx fw fd la dt s t I.
  pose proof (C45_turn radius r tol np mx fw fd la dt s) as T1.
  pose proof (C45_turn (k * radius) r (k * tol) np mx (option_map (Rmult k) fw) (option_map (Rmult k) fd) la dt t) as T2.
  destruct (turn_shift s t I) as [b [CB [SB B]]].
  unfold p_turn in *. destruct (deltas r) as [[di df] ex] eqn:DE.
  assert (I' : image (with_dir s (Toward (turn_angle (p_dir s)))) (with_dir t (Toward (turn_angle (p_dir t))))).
  { destruct I as [I1 [I2 [I3 [I4 [I5 [I6 [I7 [I8 I9]]]]]]]]. unfold image, same_length in *. cbn [with_dir p_at p_w p_n p_dir p_dist p_len p_polys p_layers p_dts].
    repeat split; try assumption. now rewrite (toward_angle (p_dir s)), (toward_angle (p_dir t)) in I4. }
  pose proof (image_arc b CB SB radius (turn_angle (p_dir s) + di) (turn_angle (p_dir s) + df) tol np mx fw fd la dt _ _ I') as A.
  replace (turn_angle (p_dir s) + di + b) with (turn_angle (p_dir t) + di) in A by lra.
  replace (turn_angle (p_dir s) + df + b) with (turn_angle (p_dir t) + df) in A by lra.
  destruct (p_arc radius _ _ _ _ _ _ _ _ _ _) as [s'|], (p_arc (k * radius) _ _ _ _ _ _ _ _ _ _) as [t'|]; try exact A. cbn [both] in *.
  assert (ZN : r = By 0 \/ forall x, r = By x -> x <> 0).
  { destruct r as [| | | |x]; try (right; discriminate). destruct (Req_dec x 0) as [->|N]; [now left|]. right. intros y [= <-]. exact N. }
  destruct ZN as [->|NB].
  - cbn in DE. destruct (Rlt_dec 0 0); injection DE as _ _ <-; exact A.
  - specialize (T1 _ eq_refl NB). specialize (T2 _ eq_refl NB). destruct T1 as [T1 _]. destruct T2 as [T2 _].
    destruct A as [A1 [A2 [A3 [_ [A5 [A6 [A7 [A8 A9]]]]]]]]. destruct I as [_ [_ [_ [I4 _]]]].
    assert (F : toward (p_dir (if (ex && named (p_dir t))%bool then with_dir t' (compass (angle_of (p_dir t'))) else t')) =
      spin a (toward (p_dir (if (ex && named (p_dir s))%bool then with_dir s' (compass (angle_of (p_dir s'))) else s'))))
      by (rewrite T1, T2, I4; apply spin_spin).
    unfold image, same_length in *. destruct (ex && named (p_dir s))%bool, (ex && named (p_dir t))%bool;
      cbn [with_dir p_at p_w p_n p_dir p_dist p_len p_polys p_layers p_dts] in *; repeat split; assumption.
Qed.

(** ** parametric, bezier and smooth *)
Section Function.
Variable G : pt -> pt.
Hypothesis HG : forall p q, psub (G p) (G q) = L (psub p q).
Definition GU (x : R * pt) : R * pt := (fst x, G (snd x)).
Lemma G_mid : forall p q m, psub (smul (/ 2) (padd (G p) (G q))) (G m) = L (psub (smul (/ 2) (padd p q)) m).
Proof.
  intros p q m. pose proof (HG p m) as P. pose proof (HG q m) as Q. unfold psub, carry_vec, spin, smul, padd in *. cbn [fst snd] in *.
  injection P as P1 P2. injection Q as Q1 Q2. f_equal; lra.
Qed.
Lemma halve_k : forall fuel f err delta prev rest,
  halve fuel (fun u => G (f u)) (k ^ 2 * err) delta (GU prev) (map GU rest) = option_map (fun r => (map GU (fst r), snd r)) (halve fuel f err delta prev rest).
Proof.
  induction fuel as [|n IH]; intros f err delta prev rest; destruct rest as [|next more]; try reflexivity. cbn [map halve GU fst snd].
  set (m := / 2 * (fst next + fst prev)). rewrite G_mid. set (e := psub (smul (/ 2) (padd (snd next) (snd prev))) (f m)).
  change (fst (L e) ^ 2 + snd (L e) ^ 2) with (len2 (L e)). change (fst e ^ 2 + snd e ^ 2) with (len2 e). rewrite L_len2.
  destruct (Rlt_dec (k ^ 2 * err) (k ^ 2 * len2 e)) as [X|X], (Rlt_dec err (len2 e)) as [Y|Y].
  - apply (IH f err (Rmin delta (fst next - m)) prev ((m, f m) :: next :: more)).
  - exfalso. apply Y. apply Rmult_lt_reg_l with (k ^ 2); [apply pow_lt; exact K|exact X].
  - exfalso. apply X. apply Rmult_lt_compat_l; [apply pow_lt; exact K|exact Y].
  - change (halve n (fun u => G (f u)) (k ^ 2 * err) delta (fst next, G (snd next)) (map _ more)) with
      (halve n (fun u => G (f u)) (k ^ 2 * err) delta (GU next) (map GU more)). rewrite IH. destruct (halve n f err delta next more) as [[l d]|]; reflexivity.
Qed.
Lemma last_GU : forall x l d, last (map GU (x :: l)) d = GU (last (x :: l) d).
Proof. intros x l d. revert x. induction l as [|y l IH]; intro x; [reflexivity|]. cbn [map] in *. exact (IH y). Qed.
Lemma slopes_k : forall f df delta ups,
  slopes (fun u => G (f u)) (option_map (fun g u => L (g u)) df) delta (map GU ups) = option_map (map L) (slopes f df delta ups).
Proof.
  intros f df delta ups. unfold slopes. destruct df as [g|]; cbn [option_map]; [now rewrite !map_map|].
  rewrite removelast_map, tl_map, map_map. cbn [GU fst].
  rewrite (map_ext _ (fun x => L (psub (f (fst x + delta)) (f (fst x - delta))))) by (intros; apply HG).
  destruct ups as [|x l]; [reflexivity|]. rewrite last_GU. cbn [map hd GU snd].
  rewrite <- (map_map (fun x => psub (f (fst x + delta)) (f (fst x - delta))) L).
  destruct (tl (removelast (x :: l))) as [|y m]; [reflexivity|]. cbn [map option_map app]. rewrite map_app. cbn [map]. now rewrite !HG.
Qed.
Lemma chord_k : forall l, chord_sum (map G l) = k * chord_sum l.
Proof.
  intros l. unfold chord_sum. induction l as [|x [|y l] IH]; cbn [map pairwise fold_right] in *; try ring.
  rewrite IH, HG, L_len. ring.
Qed.
End Function.

Lemma leftward_k : forall d, leftward (L d) = option_map (spin a) (leftward d).
Proof.
  intros d. unfold leftward. rewrite L_len. destruct (Req_EM_T (k * len d) 0) as [X|X], (Req_EM_T (len d) 0) as [Y|Y]; try reflexivity; try (exfalso; nra).
  cbn [option_map]. f_equal. unfold carry_vec, spin, smul. cbn [fst snd]. f_equal; field; split; lra.
Qed.
Lemma track_k : forall x w u, track (/ 2) (carry_final k x) (k * w) u = k * track (/ 2) x w u.
Proof. intros [|y|g] w u; cbn; ring. Qed.
Lemma track_end_k : forall x w u, track_end (/ 2) (carry_final k x) (k * w) u = k * track_end (/ 2) x w u.
Proof. intros [|y|g] w u; cbn; ring. Qed.
Lemma track_d : forall n x d d' u, same_distance n d d' -> same_distance n (track 1 x d u) (track 1 (carry_final k x) d' u).
Proof. intros n x d d' u [N|[E ->]]; [now left|]. right. split; [exact E|]. destruct x; cbn; rewrite ?E; ring. Qed.
Lemma track_end_d : forall n x d d' u, same_distance n d d' -> same_distance n (track_end 1 x d u) (track_end 1 (carry_final k x) d' u).
Proof. intros n x d d' u [N|[E ->]]; [now left|]. right. split; [exact E|]. destruct x; cbn; rewrite ?E; ring. Qed.
Lemma atan2_k : forall d : pt, d <> (0, 0) ->
  toward (Toward (atan2 (- fst (spin a d)) (snd (spin a d)))) = spin a (toward (Toward (atan2 (- fst d) (snd d)))).
Proof.
  intros [x y] N. cbn [toward fst snd].
  assert (NZ : x ^ 2 + y ^ 2 <> 0) by (intro Z; apply N; assert (x = 0) by nra; assert (y = 0) by nra; subst; reflexivity).
  assert (E : (fst (spin a (x, y))) ^ 2 + (snd (spin a (x, y))) ^ 2 = x ^ 2 + y ^ 2).
  { unfold spin. cbn [fst snd]. transitivity ((cos a ^ 2 + sin a ^ 2) * (x ^ 2 + y ^ 2)); [ring|]. rewrite cs1. ring. }
  destruct (cos_atan2 (- x) y) as [C1 S1]; [intros [= Y X]; apply N; f_equal; lra|].
  destruct (cos_atan2 (- fst (spin a (x, y))) (snd (spin a (x, y)))) as [C2 S2].
  { clear - E NZ. destruct (spin a (x, y)) as [x' y']. cbn [fst snd] in *. intros [= Y X]. apply NZ. rewrite <- E, Y. replace x' with 0 by lra. ring. }
  rewrite C1, S1, C2, S2. replace (snd (spin a (x, y)) ^ 2 + (- fst (spin a (x, y))) ^ 2) with (x ^ 2 + y ^ 2) by (rewrite <- E; ring).
  replace (y ^ 2 + (- x) ^ 2) with (x ^ 2 + y ^ 2) by ring. unfold spin. cbn [fst snd]. unfold Rdiv. f_equal; ring.
Qed.

Definition row_image (n : nat) (r r' : row) : Prop :=
  let '(x, d, w, e) := r in let '(x', d', w', e') := r' in x' = M x /\ d' = spin a d /\ w' = k * w /\ same_distance n e e'.
Lemma edge_k : forall n sg i r r', row_image n r r' -> (i < n)%nat -> edge n sg i r' = M (edge n sg i r).
Proof.
  intros n sg i [[[x d] w] e] [[[x' d'] w'] e'] [-> [-> [-> E]]] I. unfold edge. rewrite M_add, L_smul. f_equal. unfold carry_vec.
  assert (F : e' * (INR i - (INR n - 1) * / 2) = k * (e * (INR i - (INR n - 1) * / 2))).
  { destruct E as [[-> _]|[-> ->]]; [|ring]. assert (i = 0%nat) by lia. subst i. cbn. ring. }
  rewrite F. unfold smul. cbn [fst snd]. f_equal; ring.
Qed.
Lemma edges_k : forall n sg i rows rows', Forall2 (row_image n) rows rows' -> (i < n)%nat -> map (edge n sg i) rows' = map M (map (edge n sg i) rows).
Proof. intros n sg i rows rows' F I. induction F as [|r r' l l' H F IH]; [reflexivity|]. cbn [map]. rewrite IH. f_equal. now apply edge_k. Qed.
Lemma row_w_k : forall n r r', row_image n r r' -> row_w r' = k * row_w r.
Proof. intros n [[[x d] w] e] [[[x' d'] w'] e'] [_ [_ [-> _]]]. reflexivity. Qed.
Lemma hd_k : forall n rows rows', Forall2 (row_image n) rows rows' -> row_w (hd row0 rows') = k * row_w (hd row0 rows).
Proof. intros n rows rows' F. destruct F; [cbn; ring|]. eapply row_w_k; eassumption. Qed.
Lemma last_k : forall n rows rows', Forall2 (row_image n) rows rows' -> row_w (last rows' row0) = k * row_w (last rows row0).
Proof.
  intros n rows rows' F. induction F as [|r r' l l' H F IH]; [cbn; ring|]. destruct F; [eapply row_w_k; eassumption|exact IH].
Qed.
Lemma strip_k : forall n i rows rows', Forall2 (row_image n) rows rows' -> (i < n)%nat -> strip n rows' i = map M (strip n rows i).
Proof.
  intros n i rows rows' F I. unfold strip. rewrite (hd_k _ _ _ F), (last_k _ _ _ F), !zero_k, !(edges_k _ _ _ _ _ F I), <- !map_rev, map_app.
  f_equal; match goal with |- (if ?c then _ else _) = _ => destruct c end; rewrite ?tl_map; reflexivity.
Qed.
Lemma Forall2_firstn : forall {X Y} (P : X -> Y -> Prop) m l l', Forall2 P l l' -> Forall2 P (firstn m l) (firstn m l').
Proof. intros X Y P m l l' F. revert m. induction F as [|x y l l' H F IH]; intros [|m]; cbn; constructor; auto. Qed.
Lemma Forall2_skipn : forall {X Y} (P : X -> Y -> Prop) m l l', Forall2 P l l' -> Forall2 P (skipn m l) (skipn m l').
Proof. intros X Y P m l l' F. revert m. induction F as [|x y l l' H F IH]; intros [|m]; cbn; try constructor; auto. Qed.
Lemma Forall2_len : forall {X Y} (P : X -> Y -> Prop) l l', Forall2 P l l' -> length l = length l'.
Proof. intros X Y P l l' F. induction F; cbn; congruence. Qed.
Lemma chunks_k : forall {X Y} (P : X -> Y -> Prop) fuel m l l', Forall2 P l l' -> Forall2 (Forall2 P) (chunks fuel m l) (chunks fuel m l').
Proof.
  intros X Y P. induction fuel as [|f IH]; intros m l l' F; [constructor|]. pose proof (Forall2_len _ _ _ F) as N.
  inversion F as [|x y u u' H1 F1]; subst; [constructor|]. inversion F1 as [|x2 y2 v2 v2' H2 F2]; subst; [constructor|].
  cbn [chunks]. rewrite N. constructor; [now apply Forall2_firstn|]. apply IH. now apply Forall2_skipn.
Qed.
Lemma strips_k : forall n cs cs', Forall2 (Forall2 (row_image n)) cs cs' ->
  flat_map (fun c => map (strip n c) (seq 0 n)) cs' = map (map M) (flat_map (fun c => map (strip n c) (seq 0 n)) cs).
Proof.
  intros n cs cs' F. induction F as [|c c' l l' H F IH]; [reflexivity|]. cbn [flat_map]. rewrite IH, map_app, map_map. f_equal.
  apply map_ext_in. intros i I. apply in_seq in I. apply strip_k; [exact H|lia].
Qed.
Lemma Forall2_combine : forall {A B C D} (P : A -> B -> Prop) (Q : C -> D -> Prop) l l' m m', Forall2 P l l' -> Forall2 Q m m' ->
  Forall2 (fun x y => P (fst x) (fst y) /\ Q (snd x) (snd y)) (combine l m) (combine l' m').
Proof.
  intros A B C D P Q l l' m m' F. revert m m'. induction F as [|x y l l' H F IH]; intros m m' F'; [constructor|].
  inversion F'; subst; [constructor|]. cbn. constructor; [now split|]. now apply IH.
Qed.
Lemma Forall2_map2 : forall {X Y Z} (P : Y -> Z -> Prop) (f : X -> Y) (g : X -> Z) l, (forall x, P (f x) (g x)) -> Forall2 P (map f l) (map g l).
Proof. intros X Y Z P f g l H. induction l; cbn; constructor; auto. Qed.
Lemma Forall2_impl2 : forall {X Y} (P Q : X -> Y -> Prop) l l', (forall x y, P x y -> Q x y) -> Forall2 P l l' -> Forall2 Q l l'.
Proof. intros X Y P Q l l' H F. induction F; constructor; auto. Qed.

Lemma image_parametric : forall (G : pt -> pt) fuel f df tol ev mx fw fd (rel : bool) la dt s t, image s t ->
  (forall p q, psub (G p) (G q) = L (psub p q)) ->
  (forall p, (if rel then padd (G p) (p_at t) else G p) = M (if rel then padd p (p_at s) else p)) ->
  both image (p_parametric fuel f df tol ev mx fw fd rel la dt s)
    (p_parametric fuel (fun u => G (f u)) (option_map (fun g u => L (g u)) df) (k * tol) ev mx (carry_final k fw) (carry_final k fd) rel la dt t).
Proof.
  intros G fuel f df tol ev mx fw fd rel la dt s t [I1 [I2 [I3 [I4 [I5 [I6 [I7 [I8 I9]]]]]]]] HG HB. unfold p_parametric.
  destruct (linspace 0 1 ev) as [|u0 [|u1 us]]; try exact Logic.I.
  replace ((k * tol) ^ 2) with (k ^ 2 * tol ^ 2) by ring. change (u0, G (f u0)) with (GU G (u0, f u0)).
  replace (map (fun u => (u, G (f u))) (u1 :: us)) with (map (GU G) (map (fun u => (u, f u)) (u1 :: us))) by (now rewrite map_map).
  rewrite (halve_k G HG). destruct (halve fuel f (tol ^ 2) u1 (u0, f u0) (map (fun u => (u, f u)) (u1 :: us))) as [[more delta]|]; [|exact Logic.I].
  cbn [option_map fst snd]. set (ups := (u0, f u0) :: more). change (GU G (u0, f u0) :: map (GU G) more) with (map (GU G) ups).
  rewrite (slopes_k G HG). destruct (slopes f df (delta * / 2) ups) as [derivs|] eqn:SL; [|exact Logic.I]. cbn [option_map].
  rewrite map_map, (all_some_map (spin a) leftward (fun d => leftward (L d))) by (intros; apply leftward_k).
  destruct (all_some (map leftward derivs)) as [dx|] eqn:DX; [|exact Logic.I]. cbn [option_map]. rewrite I3.
  destruct (tag_list (p_n s) la) as [las|]; [|exact Logic.I]. destruct (tag_list (p_n s) dt) as [dts|]; [|exact Logic.I]. cbn [both].
  assert (DN : derivs <> []).
  { unfold slopes in SL. destruct df as [g|]; [injection SL as <-; discriminate|].
    match type of SL with match ?x with _ => _ end = _ => destruct x; [discriminate|injection SL as <-; discriminate] end. }
  destruct (all_leftward _ _ DX) as [DL DZ].
  set (x0 := map (fun up : R * pt => if rel then padd (snd up) (p_at s) else snd up) ups).
  assert (X0 : map (fun up : R * pt => if rel then padd (snd up) (p_at t) else snd up) (map (GU G) ups) = map M x0).
  { unfold x0. rewrite !map_map. apply map_ext. intros [u p]. cbn [GU snd]. apply HB. }
  rewrite X0. rewrite !map_map. cbn [GU fst snd].
  set (width := map (fun up : R * pt => track (/ 2) fw (p_w s) (fst up)) ups). set (dist := map (fun up : R * pt => track 1 fd (p_dist s) (fst up)) ups).
  set (width' := map (fun up : R * pt => track (/ 2) (carry_final k fw) (p_w t) (fst up)) ups). set (dist' := map (fun up : R * pt => track 1 (carry_final k fd) (p_dist t) (fst up)) ups).
  assert (LU : fst (last (map (GU G) ups) (0, (0, 0))) = fst (last ups (0, (0, 0)))) by (unfold ups; now rewrite last_GU).
  rewrite LU. set (ulast := fst (last ups (0, (0, 0)))).
  assert (FR : Forall2 (row_image (p_n s)) (combine (combine (combine x0 dx) width) dist) (combine (combine (combine (map M x0) (map (spin a) dx)) width') dist')).
  { apply (Forall2_impl2 (fun x y => ((fst (fst (fst y)) = M (fst (fst (fst x))) /\ snd (fst (fst y)) = spin a (snd (fst (fst x)))) /\ snd (fst y) = k * snd (fst x)) /\
      same_distance (p_n s) (snd x) (snd y))).
    - intros [[[x d] w] e] [[[x' d'] w'] e'] [[[A B] C] D]. cbn in *. unfold row_image. auto.
    - apply (Forall2_combine (fun x y : pt * pt * R => (fst (fst y) = M (fst (fst x)) /\ snd (fst y) = spin a (snd (fst x))) /\ snd y = k * snd x) (same_distance (p_n s))).
      + apply (Forall2_combine (fun x y : pt * pt => fst y = M (fst x) /\ snd y = spin a (snd x)) (fun x y => y = k * x)).
        * apply (Forall2_combine (fun x y => y = M x) (fun x y => y = spin a x)).
          -- rewrite <- (map_id x0) at 1. apply Forall2_map2. reflexivity.
          -- rewrite <- (map_id dx) at 1. apply Forall2_map2. reflexivity.
        * apply Forall2_map2. intros x. rewrite I2. apply track_k.
      + apply Forall2_map2. intros x. now apply track_d. }
  pose proof (Forall2_len _ _ _ FR) as LR.
  set (rows := combine (combine (combine x0 dx) width) dist) in *. set (rows' := combine (combine (combine (map M x0) (map (spin a) dx)) width') dist') in *.
  match goal with |- image _ ?p => match p with context [chunks (length ?r) _ _] => change r with rows' end end.
  assert (LR' : @length (pt * pt * R * R) rows' = @length (pt * pt * R * R) rows) by (symmetry; exact LR). rewrite LR'.
  pose proof (chunks_k _ (length rows) (chunk_size mx (length rows)) _ _ FR) as FC. pose proof (Forall2_len _ _ _ FC) as LC.
  pose proof (strips_k _ _ _ FC) as SK. unfold row in *. rewrite <- LC, SK.
  unfold image, same_length in *. cbn [p_at p_w p_n p_dir p_dist p_len p_polys p_layers p_dts]. rewrite I7, I8, I9, map_app.
  repeat split.
  - unfold x0, ups. rewrite map_map. rewrite (last_map _ _ (0, (0, 0)) (0, 0)) by discriminate. rewrite (last_map _ _ (0, (0, 0)) (0, 0)) by discriminate. reflexivity.
  - rewrite I2. apply track_end_k.
  - assert (DXN : dx <> []) by (rewrite DL; destruct derivs; [now elim DN|discriminate]).
    assert (LM : last (map (spin a) dx) (0, 0) = spin a (last dx (0, 0))).
    { destruct dx as [|y dx]; [now elim DXN|]. clear. revert y. induction dx as [|z dx IH]; intro y; [reflexivity|]. exact (IH z). }
    rewrite LM. apply atan2_k. intro Z.
    assert (I : In (last dx (0, 0)) dx) by (destruct (@exists_last _ dx DXN) as [m [y ->]]; rewrite last_last; apply in_or_app; right; now left).
    rewrite Z, DL in I. apply in_map_iff in I. destruct I as [d [E J]]. specialize (DZ d J). apply DZ.
    unfold left_of, smul in E. cbn [fst snd] in E. injection E as E1 E2. pose proof (Rinv_neq_0_compat _ DZ) as N.
    apply Rmult_integral in E1. apply Rmult_integral in E2. unfold len, len2.
    replace (fst d) with 0 by (destruct E2; [now elim N|lra]). replace (snd d) with 0 by (destruct E1; [now elim N|lra]).
    replace (0 ^ 2 + 0 ^ 2) with 0 by ring. apply sqrt_0.
  - now apply track_end_d.
  - intros E. rewrite (I6 E). f_equal. rewrite <- (map_map snd G), (chord_k G HG), E. ring.
Qed.

Lemma param_ext : forall fuel f f' df df' tol ev mx fw fd rel la dt s, (forall u, f u = f' u) ->
  (match df, df' with Some g, Some g' => forall u, g u = g' u | None, None => True | _, _ => False end) ->
  p_parametric fuel f df tol ev mx fw fd rel la dt s = p_parametric fuel f' df' tol ev mx fw fd rel la dt s.
Proof.
  intros fuel f f' df df' tol ev mx fw fd rel la dt s E D.
  assert (H : forall n err delta prev rest, halve n f err delta prev rest = halve n f' err delta prev rest).
  { induction n as [|n IH]; intros err delta prev [|next more]; try reflexivity. cbn [halve]. rewrite !E, !IH. reflexivity. }
  assert (S : forall h ups, slopes f df h ups = slopes f' df' h ups).
  { intros h ups. unfold slopes. destruct df as [g|], df' as [g'|]; try contradiction.
    - f_equal. apply map_ext. intros; apply D.
    - rewrite !E. rewrite (map_ext _ (fun up => psub (f' (fst up + h)) (f' (fst up - h)))) by (intros; now rewrite !E). reflexivity. }
  unfold p_parametric. destruct (linspace 0 1 ev) as [|u0 [|u1 us]]; try reflexivity. rewrite !E.
  rewrite (map_ext (fun u => (u, f u)) (fun u => (u, f' u))) by (intros; now rewrite E). rewrite H.
  destruct (halve _ _ _ _ _ _) as [[more delta]|]; [|reflexivity]. now rewrite S.
Qed.
Lemma pairwise_map : forall {X Y Z} (f : Y -> Y -> Z) (g : X -> Y) l, pairwise f (map g l) = pairwise (fun p q => f (g p) (g q)) l.
Proof. intros X Y Z f g l. induction l as [|x [|y l] IH]; try reflexivity. cbn [map pairwise] in *. now rewrite IH. Qed.
Lemma map_pairwise : forall {X Y Z} (f : X -> X -> Y) (g : Y -> Z) l, map g (pairwise f l) = pairwise (fun p q => g (f p q)) l.
Proof. intros X Y Z f g l. induction l as [|x [|y l] IH]; try reflexivity. cbn [map pairwise] in *. now rewrite IH. Qed.
Lemma pairwise_ext : forall {X Y} (f g : X -> X -> Y) l, (forall x y, f x y = g x y) -> pairwise f l = pairwise g l.
Proof. intros X Y f g l H. induction l as [|x [|y l] IH]; try reflexivity. cbn [pairwise] in *. now rewrite H, IH. Qed.
Lemma image_bezier : forall fuel l tol ev mx fw fd (rel : bool) la dt s t, image s t ->
  both image (p_bezier fuel l tol ev mx fw fd rel la dt s)
    (p_bezier fuel (map (if rel then L else M) l) (k * tol) ev mx (carry_final k fw) (carry_final k fd) rel la dt t).
Proof.
  intros fuel l tol ev mx fw fd rel la dt s t I. unfold p_bezier. destruct l as [|x l]; [exact Logic.I|]. cbn [map].
  set (G := if rel then L else M) in *. set (pts := (if rel then (0, 0) else p_at s) :: x :: l).
  assert (P : (if rel then (0, 0) else p_at t) :: G x :: map G l = map G pts).
  { unfold pts. cbn [map]. f_equal. unfold G. destruct rel; [|destruct I as [-> _]; reflexivity].
    unfold carry_vec, spin, smul. cbn [fst snd]. apply injective_projections; cbn [fst snd]; ring. }
  rewrite P, map_length.
  assert (HG : forall p q, psub (G p) (G q) = L (psub p q)) by (unfold G; destruct rel; [apply L_sub|apply M_sub]).
  assert (GA : forall u p q, G (padd (smul u p) (smul (1 - u) q)) = padd (smul u (G p)) (smul (1 - u) (G q))).
  { unfold G. intros u p q. destruct rel; unfold carry, carry_vec, spin, padd, smul; cbn [fst snd]; f_equal; ring. }
  rewrite (param_ext _ (bezier (map G pts)) (fun u => G (bezier pts u)) _
    (option_map (fun g u => L (g u)) (Some (bezier (pairwise (fun p q => smul (INR (length pts - 1)) (psub q p)) pts))))).
  - apply image_parametric; [exact I|exact HG|]. intros p. unfold G. destruct rel; [|reflexivity].
    destruct I as [-> _]. unfold carry, carry_vec, spin, padd, smul. cbn [fst snd]. f_equal; ring.
  - intros u. apply bezier_map; [discriminate|apply GA].
  - cbn [option_map]. intros u. rewrite pairwise_map. rewrite (pairwise_ext _ (fun p q => L (smul (INR (length pts - 1)) (psub q p)))).
    + rewrite <- map_pairwise. apply bezier_map; [unfold pts; destruct rel; discriminate|].
      intros p q. unfold carry_vec, spin, padd, smul. cbn [fst snd]. f_equal; ring.
    + intros p q. now rewrite HG, L_smul.
Qed.
Definition M3 (x : pt * pt * pt) : pt * pt * pt := (M (fst (fst x)), M (snd (fst x)), M (snd x)).
Lemma image_sections : forall fuel secs fws fds tol ev mx la dt s t, image s t ->
  both image (p_sections fuel secs fws fds tol ev mx la dt s)
    (p_sections fuel (map M3 secs) (map (carry_final k) fws) (map (carry_final k) fds) (k * tol) ev mx la dt t).
Proof.
  intros fuel. induction secs as [|[[x y] e] r IH]; intros fws fds tol ev mx la dt s t I; [exact I|].
  destruct fws as [|fw fws]; [exact Logic.I|]. destruct fds as [|fd fds]; [exact Logic.I|]. cbn [map M3 fst snd p_sections].
  pose proof (image_bezier fuel [x; y; e] tol ev mx fw fd false la dt s t I) as B. cbn [map] in B.
  destruct (p_bezier fuel [x; y; e] _ _ _ _ _ _ _ _ _) as [s'|], (p_bezier fuel [M x; M y; M e] _ _ _ _ _ _ _ _ _) as [t'|]; try contradiction; try exact B.
  now apply IH.
Qed.
Definition M2 (x : pt * pt) : pt * pt := (M (fst x), M (snd x)).
Lemma image_smooth : forall fuel hs (cyc : bool) l tol ev mx fws fds (rel : bool) la dt s t, image s t ->
  both image (p_smooth fuel hs cyc l tol ev mx fws fds rel la dt s)
    (p_smooth fuel (fun pts => map M2 (hs (map (uncarry a k v) pts))) cyc (map (if rel then L else M) l) (k * tol) ev mx
       (option_map (map (carry_final k)) fws) (option_map (map (carry_final k)) fds) rel la dt t).
Proof.
  intros fuel hs cyc l tol ev mx fws fds rel la dt s t I. unfold p_smooth. assert (I1 : p_at t = M (p_at s)) by apply I.
  set (pts := if rel then p_at s :: map (fun p => padd p (p_at s)) l else p_at s :: l).
  assert (P : (if rel then p_at t :: map (fun p => padd p (p_at t)) (map (if rel then L else M) l) else p_at t :: map (if rel then L else M) l) = map M pts).
  { unfold pts. destruct rel; cbn [map]; rewrite I1; f_equal. rewrite !map_map. apply map_ext. intros p. 
    unfold carry, carry_vec, spin, padd, smul. cbn [fst snd]. f_equal; ring. }
  rewrite P. assert (U : map (uncarry a k v) (map M pts) = pts) by (rewrite map_map; rewrite <- (map_id pts) at 2; apply map_ext, M_uncarry).
  rewrite U. set (ks := hs pts). rewrite map_length.
  assert (A : forall o, match option_map (map (carry_final k)) o with Some l0 => l0 | None => repeat Same (length ks) end =
    map (carry_final k) (match o with Some l0 => l0 | None => repeat Same (length ks) end)).
  { intros [l0|]; [reflexivity|]. cbn [option_map]. generalize (length ks). intro n. induction n as [|n IH]; [reflexivity|]. cbn. now rewrite IH at 1. }
  rewrite !A. set (fw := match fws with Some _ => _ | None => _ end). set (fd := match fds with Some _ => _ | None => _ end).
  rewrite tl_map, combine_map2, map_map.
  assert (SE : map (fun x : pt * pt * pt => (fst (fst (M2 (fst x), M (snd x))), snd (fst (M2 (fst x), M (snd x))), snd (M2 (fst x), M (snd x)))) (combine ks (tl pts)) =
    map M3 (map (fun ke : pt * pt * pt => (fst (fst ke), snd (fst ke), snd ke)) (combine ks (tl pts)))).
  { rewrite map_map. apply map_ext. intros [[x y] e]. reflexivity. }
  rewrite SE.
  pose proof (image_sections fuel (map (fun ke : pt * pt * pt => (fst (fst ke), snd (fst ke), snd ke)) (combine ks (tl pts))) fw fd tol ev mx la dt s t I) as S.
  destruct (p_sections fuel (map (fun _ => _) _) _ _ _ _ _ _ _ _) as [s'|], (p_sections fuel (map M3 _) _ _ _ _ _ _ _ _) as [t'|]; try contradiction; try exact S.
  destruct cyc; [|exact S]. rewrite <- !map_rev. destruct (rev ks) as [|[x y] ?]; [exact Logic.I|].
  destruct (rev fw) as [|w ?]; [exact Logic.I|]. destruct (rev fd) as [|d ?]; [exact Logic.I|]. cbn [map M2 fst snd].
  assert (HD : hd (0, 0) (map M pts) = M (hd (0, 0) pts)) by (unfold pts; destruct rel; reflexivity).
  rewrite HD. apply (image_bezier fuel [x; y; hd (0, 0) pts] tol ev mx w d false la dt s' t' S).
Qed.

Lemma image_call : forall fuel c s t, drawing c -> image s t -> both image (do_pcall fuel c s) (do_pcall fuel (carried a k v c) t).
Proof.
  intros fuel c s t D I. destruct c; cbn [carried do_pcall]; try (exfalso; now apply D).
  - now apply image_segment.
  - now apply (image_arc a).
  - now apply image_turn.
  - destruct rel.
    + apply (image_parametric L); [exact I|apply L_sub|]. intros p. destruct I as [-> _]. unfold carry, carry_vec, spin, padd, smul. cbn [fst snd]. f_equal; ring.
    + apply (image_parametric M); [exact I|apply M_sub|reflexivity].
  - apply (image_bezier fuel l tol evals mx fw fd rel la dt s t I).
  - apply (image_smooth fuel hs cycle l tol evals mx fws fds rel la dt s t I).
Qed.
Lemma image_calls : forall fuel cs s t, Forall drawing cs -> image s t -> both image (do_pcalls fuel cs s) (do_pcalls fuel (map (carried a k v) cs) t).
Proof.
  intros fuel cs. induction cs as [|c cs IH]; intros s t F I; [exact I|]. inversion F as [|? ? D F']; subst. cbn [map do_pcalls].
  pose proof (image_call fuel c s t D I) as B. destruct (do_pcall fuel c s), (do_pcall fuel (carried a k v c) t); try contradiction; try exact B. now apply IH.
Qed.
End Carry.

(** ** C75 *)

(** The displacement of a rotation by [a] and magnification [k] about [c] *)
Definition about_shift (a k : R) (c : pt) : pt := psub c (carry_vec a k c).
Lemma rotate_carry : forall a c p, rotate_pt a c p = carry a 1 (about_shift a 1 c) p.
Proof. intros. unfold rotate_pt, rot_cs, carry, about_shift, carry_vec, spin, padd, psub, smul. cbn [fst snd]. f_equal; ring. Qed.
Lemma scale_carry : forall k c p, scale_pt k None c p = carry 0 k (about_shift 0 k c) p.
Proof. intros. unfold scale_pt, carry, about_shift, carry_vec, spin, padd, psub, pmul, smul. cbn [fst snd]. rewrite cos_0, sin_0. f_equal; ring. Qed.
Lemma translate_carry : forall v p, padd p v = carry 0 1 v p.
Proof. intros. unfold carry, carry_vec, spin, padd, smul. cbn [fst snd]. rewrite cos_0, sin_0. f_equal; ring. Qed.
Lemma spin_0 : forall u, spin 0 u = u.
Proof. intros [x y]. unfold spin. cbn [fst snd]. rewrite cos_0, sin_0. f_equal; ring. Qed.
Lemma map_map_ext : forall (f g : pt -> pt) (l : list poly), (forall p, f p = g p) -> map (map f) l = map (map g) l.
Proof. intros f g l H. apply map_ext. intros p. now apply map_ext. Qed.
Lemma angle_turn : forall h, angle_of h = turn_angle h. Proof. intros []; cbn; field. Qed.
Lemma image_translate : forall v s, image 0 1 v s (p_translate v s).
Proof.
  intros v s. unfold image, same_distance, same_length, p_translate, moved. cbn [p_at p_w p_n p_dir p_dist p_len p_polys p_layers p_dts].
  repeat split; try apply translate_carry; try ring; [now rewrite spin_0|right; split; reflexivity|]. apply map_map_ext, translate_carry.
Qed.
Lemma image_rotate : forall a c s, image a 1 (about_shift a 1 c) s (p_rotate a c s).
Proof.
  intros a c s. unfold image, same_distance, same_length, p_rotate, moved. cbn [p_at p_w p_n p_dir p_dist p_len p_polys p_layers p_dts].
  repeat split; try apply rotate_carry; try ring; [rewrite angle_turn; apply turned_toward|right; split; reflexivity|]. apply map_map_ext, rotate_carry.
Qed.
Lemma image_scale : forall k c s, p_n s = 1%nat -> image 0 k (about_shift 0 k c) s (p_scale k None c s).
Proof.
  intros k c s N. unfold image, same_distance, same_length, p_scale, moved. cbn [p_at p_w p_n p_dir p_dist p_len p_polys p_layers p_dts].
  repeat split; try apply scale_carry; try ring; [now rewrite spin_0|destruct (Req_dec k 1); [now right|now left]|]. apply map_map_ext, scale_carry.
Qed.
Lemma image_alike : forall a v s t t', image a 1 v s t -> image a 1 v s t' -> alike t t'.
Proof.
  intros a v s t t' [A1 [A2 [A3 [A4 [A5 [A6 [A7 [A8 A9]]]]]]]] [B1 [B2 [B3 [B4 [B5 [B6 [B7 [B8 B9]]]]]]]].
  assert (D : p_dist t = p_dist t') by (destruct A5 as [[_ X]|[_ A5]], B5 as [[_ Y]|[_ B5]]; congruence).
  pose proof (A6 eq_refl). pose proof (B6 eq_refl). unfold alike. repeat split; congruence.
Qed.
Lemma image_looks : forall a k v s t t', image a k v s t -> image a k v s t' -> looks_alike t t'.
Proof.
  intros a k v s t t' [A1 [A2 [A3 [A4 [A5 [A6 [A7 [A8 A9]]]]]]]] [B1 [B2 [B3 [B4 [B5 [B6 [B7 [B8 B9]]]]]]]].
  unfold looks_alike. repeat split; congruence.
Qed.
Lemma calls_n : forall fuel cs s s', do_pcalls fuel cs s = Some s' -> p_n s' = p_n s.
Proof.
  intros fuel cs. induction cs as [|c cs IH]; intros s s' H; cbn [do_pcalls] in H; [injection H as <-; reflexivity|].
  destruct (do_pcall fuel c s) as [q|] eqn:E; [|discriminate]. rewrite (IH _ _ H). apply (C34_path_call _ _ _ _ E).
Qed.

(** Drawing after a translation gives the translated drawing. *)
Theorem C75_translate : forall fuel v cs s, Forall drawing cs ->
  both alike (do_pcalls fuel (map (carried 0 1 v) cs) (p_translate v s)) (option_map (p_translate v) (do_pcalls fuel cs s)).
Proof.
  intros fuel v cs s F. pose proof (image_calls 0 1 v Rlt_0_1 fuel cs s _ F (image_translate v s)) as B.
  destruct (do_pcalls fuel cs s) as [s'|], (do_pcalls fuel (map _ cs) _) as [t'|]; try exact B. cbn [both option_map] in *.
  eapply image_alike; [exact B|apply image_translate].
Qed.
(** Drawing after a rotation gives the rotated drawing. *)
Theorem C75_rotate : forall fuel a c cs s, Forall drawing cs ->
  both alike (do_pcalls fuel (map (carried a 1 (psub c (spin a c))) cs) (p_rotate a c s)) (option_map (p_rotate a c) (do_pcalls fuel cs s)).
Proof.
  intros fuel a c cs s F. replace (psub c (spin a c)) with (about_shift a 1 c) by (unfold about_shift, carry_vec, smul, psub; cbn [fst snd]; f_equal; ring).
  pose proof (image_calls a 1 _ Rlt_0_1 fuel cs s _ F (image_rotate a c s)) as B.
  destruct (do_pcalls fuel cs s) as [s'|], (do_pcalls fuel (map _ cs) _) as [t'|]; try exact B. cbn [both option_map] in *.
  eapply image_alike; [exact B|apply image_rotate].
Qed.
(** Drawing after a magnification of a single path gives the magnified drawing. *)
Theorem C75_scale : forall fuel k c cs s, 0 < k -> p_n s = 1%nat -> Forall drawing cs ->
  both looks_alike (do_pcalls fuel (map (carried 0 k (smul (1 - k) c)) cs) (p_scale k None c s)) (option_map (p_scale k None c) (do_pcalls fuel cs s)).
Proof.
  intros fuel k c cs s K N F.
  replace (smul (1 - k) c) with (about_shift 0 k c) by (unfold about_shift, carry_vec; rewrite spin_0; unfold smul, psub; cbn [fst snd]; f_equal; ring).
  pose proof (image_calls 0 k _ K fuel cs s _ F (image_scale k c s N)) as B. pose proof (calls_n fuel cs s) as C.
  destruct (do_pcalls fuel cs s) as [s'|], (do_pcalls fuel (map _ cs) _) as [t'|]; try exact B. cbn [both option_map] in *.
  eapply image_looks; [exact B|]. apply image_scale. rewrite (C s' eq_refl). exact N.
Qed.
Print Assumptions C75_translate.
Print Assumptions C75_rotate.
Print Assumptions C75_scale.


(** Scaling leaves the distance of parallel paths (and the length) as it was: after a
    magnification, the next sections of two parallel paths do not start where the
    sections before end. *)
Definition seg10 : pcall := PSegment 10 None None None 0 (Tag 0) (Tag 0).
Theorem C75_scale_refuted : exists s,
  do_pcalls 0 [seg10; PScale 2 None (0, 0); seg10] (new_path 2 (0, 0) 2 10) = Some s /\
  p_polys s = [[(0, 12); (0, 8); (20, 8); (20, 12)]; [(0, -8); (0, -12); (20, -12); (20, -8)];
               [(20, 7); (20, 3); (30, 3); (30, 7)]; [(20, -3); (20, -7); (30, -7); (30, -3)]] /\
  p_len s = 20 /\ p_at s = (30, 0) /\
  ~ both looks_alike (do_pcalls 0 [seg10; PScale 2 None (0, 0); carried 0 2 (0, 0) seg10] (new_path 2 (0, 0) 2 10))
      (do_pcalls 0 [seg10; seg10; PScale 2 None (0, 0)] (new_path 2 (0, 0) 2 10)).
Proof.
  assert (V1 : forall x y, y <> 0 -> visible x y = true).
  { intros x y N. unfold visible. destruct (Req_EM_T y 0) as [Z|_]; [now elim N|reflexivity]. }
  assert (SP : forall ca sa p q w0 w1 d0 d1, w0 <> 0 -> w1 <> 0 -> seg_poly ca sa p q w0 w1 d0 d1 =
    [(fst p + (d0 - w0) * sa, snd p - (d0 - w0) * ca); (fst p + (d0 + w0) * sa, snd p - (d0 + w0) * ca);
     (fst q + (d1 + w1) * sa, snd q - (d1 + w1) * ca); (fst q + (d1 - w1) * sa, snd q - (d1 - w1) * ca)]).
  { intros ca sa p q w0 w1 d0 d1 N0 N1. unfold seg_poly. destruct (Req_EM_T w1 0) as [Z|_]; [now elim N1|]. destruct (Req_EM_T w0 0) as [Z|_]; [now elim N0|]. reflexivity. }
  unfold seg10, new_path, carried. cbn [do_pcalls do_pcall option_map]. unfold p_segment, p_scale, moved. cbn [p_at p_w p_n p_dir p_dist p_len p_polys p_layers p_dts or_old half option_map cos_of sin_of].
  rewrite !V1 by lra. cbn [tag_list repeat seq map app p_at p_w p_n p_dir p_dist p_len p_polys p_layers p_dts].
  rewrite !V1 by lra. cbn [tag_list repeat seq map app p_at p_w p_n p_dir p_dist p_len p_polys p_layers p_dts].
  rewrite !SP by lra. cbn [map fst snd]. unfold scale_pt, lateral, padd, pmul, psub. cbn [fst snd INR]. eexists. split; [reflexivity|].
  cbn [p_polys p_len p_at]. split; [|split; [|split]].
  - repeat match goal with |- _ :: _ = _ :: _ => f_equal end; apply injective_projections; cbn [fst snd cos_of sin_of]; lra.
  - replace (10 ^ 2 + 0 ^ 2) with (10 ^ 2) by ring. rewrite sqrt_pow2 by lra. lra.
  - apply injective_projections; cbn [fst snd cos_of sin_of]; lra.
  - cbn [both]. intros [_ [_ [_ [_ [P _]]]]]. cbn [p_polys] in P. injection P as P. lra.
Qed.
Print Assumptions C75_scale_refuted.

(** Non-vacuity: three parallel paths with a section to the north, a turn and a Bézier
    section, rotated by 1 about (2, 3) after and before. *)
Example C75_case : exists fuel s s',
  let cs := [PSegment 10 (Some Py) None None 0 (Tag 1) (Tag 0); PTurn 5 Left (1/10) (Some 8%nat) 0 (Some 4) None (Tag 1) (Tag 0);
    PBezier [(3, 0); (6, 2)] (1/10) 9 8 Same Same true (Tag 1) (Tag 0)] in
  do_pcalls fuel cs (new_path 2 (1, 1) 3 6) = Some s /\
  do_pcalls fuel (map (carried 1 1 (psub (2, 3) (spin 1 (2, 3)))) cs) (p_rotate 1 (2, 3) (new_path 2 (1, 1) 3 6)) = Some s' /\
  alike s' (p_rotate 1 (2, 3) s) /\ nth 1 (map (carried 1 1 (psub (2, 3) (spin 1 (2, 3)))) cs) (PTranslate (0, 0)) =
    PTurn (1 * 5) Left (1 * (1/10)) (Some 8%nat) 0 (Some (1 * 4)) None (Tag 1) (Tag 0).
Proof.
  destruct (segment_defined (Leg 10 (Some Py) None None 0 (Tag 1) (Tag 0)) (new_path 2 (1, 1) 3 6)) as [s1 E1]; [discriminate|discriminate|].
  destruct (turn_defined 5 Left (1/10) 8 0 (Some 4) None (Tag 1) (Tag 0) s1) as [s2 E2]; [lia|cbn; lia|discriminate|discriminate|].
  destruct (bezier_defined [(3, 0); (6, 2)] (1/10) 9 8 Same Same true (Tag 1) (Tag 0) s2) as [fuel [s3 E3]];
    [discriminate|lra|lia|discriminate|discriminate| |].
  - intros u U. unfold bezier. cbn. unfold padd, smul, psub. cbn. intros Z. injection Z as Z _. lra.
  - exists fuel, s3. cbn zeta.
    match goal with |- context [do_pcalls fuel ?l (new_path _ _ _ _)] => set (cs := l) end.
    assert (F : Forall drawing cs) by (repeat constructor; discriminate).
    assert (E : do_pcalls fuel cs (new_path 2 (1, 1) 3 6) = Some s3).
    { unfold cs. cbn [do_pcalls do_pcall leg_call l_len l_dir l_fw l_fd l_axis l_la l_dt] in *. now rewrite E1, E2, E3. }
    pose proof (C75_rotate fuel 1 (2, 3) cs (new_path 2 (1, 1) 3 6) F) as B. rewrite E in B. cbn [option_map] in B.
    destruct (do_pcalls fuel (map _ cs) _) as [s'|]; [|elim B]. exists s'. repeat split; try exact E; apply B.
Qed.
