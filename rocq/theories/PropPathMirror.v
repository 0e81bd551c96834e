(** Mirroring a Path and drawing with it (C75). *)

From Coq Require Import Reals Lra Lia List ZArith Bool FunctionalExtensionality.
From Verif Require Import Plane PlaneProofs SpecPlane Curve SpecCurve CurveProofs PropCurve Flex PropFlexEnds Path SpecPath PropPath PropPathJoin PropPathCurve PropPathMore SpecPathMove PropPathMove.
Import ListNotations.
Open Scope R_scope.

Section Flip.
Variables (m : R) (v : pt).
Notation J := (flip_vec m).
Definition flip (p : pt) : pt := padd (J p) v.
Notation F := flip.

Lemma F_add : forall p u, F (padd p u) = padd (F p) (J u).
Proof. intros. unfold flip, flip_vec, padd. cbn [fst snd]. f_equal; ring. Qed.
Lemma F_sub : forall p q, psub (F p) (F q) = J (psub p q).
Proof. intros. unfold flip, flip_vec, padd, psub. cbn [fst snd]. f_equal; ring. Qed.
Lemma J_sub : forall p q, psub (J p) (J q) = J (psub p q).
Proof. intros. unfold flip_vec, psub. cbn [fst snd]. f_equal; ring. Qed.
Lemma J_smul : forall c u, J (smul c u) = smul c (J u).
Proof. intros. unfold flip_vec, smul. cbn [fst snd]. f_equal; ring. Qed.
Lemma csm : cos m ^ 2 + sin m ^ 2 = 1.
Proof. pose proof (sin2_cos2 m) as H. unfold Rsqr in H. lra. Qed.
Lemma J_len2 : forall u, len2 (J u) = len2 u.
Proof.
  intros. unfold len2, flip_vec. cbn [fst snd]. transitivity ((cos m ^ 2 + sin m ^ 2) * (fst u ^ 2 + snd u ^ 2)); [ring|]. rewrite csm. ring.
Qed.
Lemma J_len : forall u, len (J u) = len u. Proof. intros. unfold len. now rewrite J_len2. Qed.
Lemma J_cs : forall x, J (cos x, sin x) = (cos (m - x), sin (m - x)).
Proof. intros. unfold flip_vec. cbn [fst snd]. rewrite cos_minus, sin_minus. f_equal; ring. Qed.

Definition mirror_image (s t : path) : Prop :=
  p_at t = F (p_at s) /\ p_w t = p_w s /\ p_n s = 1%nat /\ p_n t = 1%nat /\ toward (p_dir t) = J (toward (p_dir s)) /\ p_dist t = p_dist s /\
  p_len t = p_len s /\ Forall2 same_outline (map (map F) (p_polys s)) (p_polys t) /\ p_layers t = p_layers s /\ p_dts t = p_dts s.
Lemma outline_refl : forall p, same_outline p p. Proof. intros p. exists [], p. split; [reflexivity|]. left. now rewrite app_nil_r. Qed.
Lemma outlines_refl : forall l, Forall2 same_outline l l. Proof. induction l; constructor; [apply outline_refl|assumption]. Qed.
Lemma lateral_one : forall d, lateral 1 d 0 = 0. Proof. intros. unfold lateral. cbn. ring. Qed.

(** ** segment *)
Lemma seg_poly_m : forall ca sa p q w0 w1,
  same_outline (map F (seg_poly ca sa p q w0 w1 0 0)) (seg_poly (fst (J (ca, sa))) (snd (J (ca, sa))) (F p) (F q) w0 w1 0 0).
Proof.
  intros. unfold seg_poly.
  set (A := (fst p + (0 - w0) * sa, snd p - (0 - w0) * ca)). set (B := (fst p + (0 + w0) * sa, snd p - (0 + w0) * ca)).
  set (C := (fst q + (0 + w1) * sa, snd q - (0 + w1) * ca)). set (D := (fst q + (0 - w1) * sa, snd q - (0 - w1) * ca)).
  match goal with |- same_outline _ (if _ then tl (if _ then removelast ?l else _) else _) => assert (E : l = [F B; F A; F D; F C]) end.
  { unfold A, B, C, D, flip, flip_vec, padd. cbn [fst snd]. repeat (f_equal; try ring). }
  rewrite E. assert (AB : w0 = 0 -> A = B) by (intros ->; unfold A, B; f_equal; ring).
  assert (CD : w1 = 0 -> C = D) by (intros ->; unfold C, D; f_equal; ring). clearbody A B C D. clear E.
  destruct (Req_EM_T w1 0) as [Z1|_], (Req_EM_T w0 0) as [Z0|_]; cbn [removelast tl map].
  - rewrite (AB Z0), <- (CD Z1). apply outline_refl.
  - rewrite <- (CD Z1). exists [F A; F B], [F C]. split; [reflexivity|]. right. reflexivity.
  - rewrite (AB Z0). exists [F B], [F C; F D]. split; [reflexivity|]. right. reflexivity.
  - exists [F A; F B], [F C; F D]. split; [reflexivity|]. right. reflexivity.
Qed.
Lemma mirror_segment : forall l dir fw fd axis la dt s t, mirror_image s t ->
  both mirror_image (p_segment l dir fw fd axis la dt s) (p_segment l (option_map (fun h => Toward (m - turn_angle h)) dir) fw fd (- axis) la dt t).
Proof.
  intros l dir fw fd axis la dt s t [I1 [I2 [I3 [I3' [I4 [I5 [I6 [I7 [I8 I9]]]]]]]]]. unfold p_segment.
  set (h := match dir with Some h => h | None => p_dir s end).
  set (h' := match option_map (fun h => Toward (m - turn_angle h)) dir with Some h => h | None => p_dir t end).
  assert (T : toward h' = J (toward h)).
  { unfold h, h'. destruct dir as [g|]; [|exact I4]. cbn [option_map]. rewrite (toward_angle g), J_cs. reflexivity. }
  clearbody h h'. rewrite !toward_cs in T. assert (C : cos_of h' = fst (J (cos_of h, sin_of h))) by (now rewrite <- T).
  assert (S : sin_of h' = snd (J (cos_of h, sin_of h))) by (now rewrite <- T).
  rewrite I2, I3, I3', I5, I6. set (w := or_old (half fw) (p_w s)). set (d := or_old fd (p_dist s)).
  set (q := (fst (p_at s) + (l * cos_of h + axis * sin_of h), snd (p_at s) + (l * sin_of h - axis * cos_of h))).
  match goal with |- both _ _ (if _ then match _ with Some _ => match _ with Some _ => Some (Path ?x _ _ _ _ _ _ _ _) | _ => _ end | _ => _ end else _) =>
    assert (Q : x = F q) by (unfold q; rewrite C, S, I1; unfold flip, flip_vec, padd; cbn [fst snd]; f_equal; ring); rewrite Q end.
  assert (T' : toward h' = J (toward h)) by (rewrite !toward_cs; exact T).
  replace ((- axis) ^ 2) with (axis ^ 2) by ring. destruct (visible (p_w s) w).
  - destruct (tag_list 1 la) as [las|]; [|exact Logic.I]. destruct (tag_list 1 dt) as [dts|]; [|exact Logic.I].
    cbn [both]. unfold mirror_image. cbn [p_at p_w p_n p_dir p_dist p_len p_polys p_layers p_dts seq map].
    rewrite I8, I9, map_app, !lateral_one. repeat split; try reflexivity; try assumption.
    apply Forall2_app; [exact I7|]. constructor; [|constructor]. rewrite C, S, I1. apply seg_poly_m.
  - cbn [both]. unfold mirror_image. cbn [p_at p_w p_n p_dir p_dist p_len p_polys p_layers p_dts]. repeat split; assumption.
Qed.

(** ** arc and turn *)
Section Arc.
Variable b : R.
Hypothesis CB : cos b = cos m.
Hypothesis SB : sin b = sin m.
Lemma polar_m : forall c x r, polar (F c) (b - x, r) = F (polar c (x, r)).
Proof. intros c x r. unfold polar, flip, flip_vec, padd. cbn [fst snd]. rewrite cos_minus, sin_minus, CB, SB. f_equal; ring. Qed.
Lemma linspace_from : forall x y n, linspace (b - x) (b - y) n = map (fun z => b - z) (linspace x y n).
Proof. intros. unfold linspace. rewrite map_map. apply map_ext. intros i. replace (b - y - (b - x)) with (- (y - x)) by ring. unfold Rdiv. ring. Qed.
Lemma polars_m : forall c x y l n, map (polar (F c)) (combine (linspace (b - x) (b - y) n) l) = map F (map (polar c) (combine (linspace x y n) l)).
Proof.
  intros. rewrite linspace_from. rewrite <- (map_id l) at 1. rewrite combine_map2, !map_map. apply map_ext. intros [z u]. cbn [fst snd]. apply polar_m.
Qed.
Lemma arc_poly_m : forall c np a0 a1 r0 r1 w0 w1, arc_poly (F c) np (b - a0) (b - a1) r0 r1 w0 w1 = option_map (map F) (arc_poly c np a0 a1 r0 r1 w0 w1).
Proof.
  intros. unfold arc_poly. rewrite !polars_m.
  match goal with |- (if (?n =? 0)%nat then _ else _) = _ => destruct (n =? 0)%nat; [reflexivity|] end. cbn [option_map]. f_equal. rewrite map_app.
  f_equal. destruct (Req_EM_T w1 0), (Req_EM_T w0 0); rewrite ?removelast_map, ?tl_map; reflexivity.
Qed.
Lemma at_from : forall x y n j, (j < n)%nat -> at_ (linspace (b - x) (b - y) n) j = b - at_ (linspace x y n) j.
Proof.
  intros. unfold at_. rewrite linspace_from. rewrite (nth_indep _ 0 (b - 0)) by (rewrite map_length; unfold linspace; now rewrite map_length, seq_length).
  apply (map_nth (fun z => b - z)).
Qed.
Lemma auto_points_m : forall tol r a0 a1, auto_points tol r (b - a0) (b - a1) = auto_points tol r a0 a1.
Proof. intros. unfold auto_points. replace (b - a1 - (b - a0)) with (- (a1 - a0)) by ring. now rewrite Rabs_Ropp. Qed.
Lemma mirror_arc : forall radius a0 a1 tol np mx fw fd la dt s t, mirror_image s t -> a0 <> a1 ->
  both mirror_image (p_arc radius a0 a1 tol np mx fw fd la dt s) (p_arc radius (b - a0) (b - a1) tol np mx fw fd la dt t).
Proof.
  intros radius a0 a1 tol np mx fw fd la dt s t [I1 [I2 [I3 [I3' [I4 [I5 [I6 [I7 [I8 I9]]]]]]]]] NE. unfold p_arc.
  rewrite I2, I3, I3', I5, I6. set (w := or_old (half fw) (p_w s)). set (d := or_old fd (p_dist s)).
  set (c := (fst (p_at s) - radius * cos a0, snd (p_at s) - radius * sin a0)).
  set (c' := (fst (p_at t) - radius * cos (b - a0), snd (p_at t) - radius * sin (b - a0))).
  assert (C : c' = F c).
  { unfold c, c'. rewrite I1, cos_minus, sin_minus, CB, SB. unfold flip, flip_vec, padd. cbn [fst snd]. f_equal; ring. }
  clearbody c'. subst c'. set (q := (fst c + radius * cos a1, snd c + radius * sin a1)).
  assert (Q : (fst (F c) + radius * cos (b - a1), snd (F c) + radius * sin (b - a1)) = F q).
  { unfold q. rewrite cos_minus, sin_minus, CB, SB. unfold flip, flip_vec, padd. cbn [fst snd]. f_equal; ring. }
  rewrite Q. set (h := Toward (if Rlt_dec a0 a1 then a1 + PI * / 2 else a1 - PI * / 2)).
  set (h' := Toward (if Rlt_dec (b - a0) (b - a1) then b - a1 + PI * / 2 else b - a1 - PI * / 2)).
  assert (TW : forall x, (cos (b - x), sin (b - x)) = J (cos x, sin x)).
  { intros x. rewrite J_cs, !cos_minus, !sin_minus, CB, SB. reflexivity. }
  assert (T : toward h' = J (toward h)).
  { unfold h, h'. destruct (Rlt_dec (b - a0) (b - a1)), (Rlt_dec a0 a1); try (exfalso; lra); cbn [toward]; rewrite <- TW; f_equal; f_equal; ring. }
  clearbody h h' q. rewrite auto_points_m.
  destruct (match np with Some n => Some n | None => _ end) as [n|]; [|exact Logic.I].
  destruct (piece_count n mx =? 0)%nat; [exact Logic.I|]. set (pieces := piece_count n mx).
  destruct (visible (p_w s) w).
  2: { cbn [both]. unfold mirror_image. cbn [p_at p_w p_n p_dir p_dist p_len p_polys p_layers p_dts]. repeat split; assumption. }
  rewrite (all_some_map (map (map F)) (arc_piece c radius 1 (n / pieces) (linspace a0 a1 (pieces + 1)) (linspace (p_w s) w (pieces + 1)) (linspace (p_dist s) d (pieces + 1)))
    (arc_piece (F c) radius 1 (n / pieces) (linspace (b - a0) (b - a1) (pieces + 1)) (linspace (p_w s) w (pieces + 1)) (linspace (p_dist s) d (pieces + 1)))).
  2: { intros j Hj. apply in_seq in Hj. unfold arc_piece. apply all_some_map. intros i Hi. rewrite !at_from by lia. apply arc_poly_m. }
  destruct (all_some _) as [ps|]; [|exact Logic.I]. cbn [option_map].
  destruct (tag_list 1 la) as [las|]; [|exact Logic.I]. destruct (tag_list 1 dt) as [dts|]; [|exact Logic.I].
  cbn [both]. unfold mirror_image. cbn [p_at p_w p_n p_dir p_dist p_len p_polys p_layers p_dts].
  rewrite I8, I9, map_app. repeat split; try reflexivity; try assumption.
  - f_equal. f_equal. apply map_ext_in. intros j Hj. apply in_seq in Hj. rewrite !at_from by lia.
    rewrite <- Rabs_Ropp. f_equal. ring.
  - apply Forall2_app; [exact I7|]. rewrite concat_map. apply outlines_refl.
Qed.
End Arc.
Lemma flip_shift : forall s t, mirror_image s t -> exists b, cos b = cos m /\ sin b = sin m /\ turn_angle (p_dir t) = b - turn_angle (p_dir s).
Proof.
  intros s t [_ [_ [_ [_ [I4 _]]]]]. exists (turn_angle (p_dir t) + turn_angle (p_dir s)). rewrite (toward_angle (p_dir s)), (toward_angle (p_dir t)), J_cs in I4.
  set (x := turn_angle (p_dir s)) in *. set (y := turn_angle (p_dir t)) in *. injection I4 as C S.
  pose proof (sin2_cos2 x) as E. unfold Rsqr in E. rewrite cos_plus, sin_plus, C, S, cos_minus, sin_minus. split; [|split; [|ring]].
  - transitivity (cos m * (sin x * sin x + cos x * cos x)); [ring|]. rewrite E. ring.
  - transitivity (sin m * (sin x * sin x + cos x * cos x)); [ring|]. rewrite E. ring.
Qed.
Lemma deltas_opposite : forall r, r <> By 0 -> deltas (opposite r) = (- fst (fst (deltas r)), - snd (fst (deltas r)), snd (deltas r)).
Proof.
  intros [| | | |x] N; cbn [opposite deltas fst snd]; try (repeat f_equal; lra).
  assert (x <> 0) by (intros ->; now apply N). destruct (Rlt_dec (- x) 0), (Rlt_dec x 0); try (exfalso; lra); cbn [fst snd]; repeat f_equal; lra.
Qed.
Lemma turn_opposite : forall r, turn_by (opposite r) = - turn_by r. Proof. intros []; cbn; lra. Qed.
Lemma mirror_turn : forall radius r tol np mx fw fd la dt s t, mirror_image s t -> r <> By 0 ->
  both mirror_image (p_turn radius r tol np mx fw fd la dt s) (p_turn radius (opposite r) tol np mx fw fd la dt t).
Proof.
  intros radius r tol np mx fw fd la dt s t I NR.
  assert (NB : forall x, r = By x -> x <> 0) by (intros x -> ->; now apply NR).
  assert (NB' : forall x, opposite r = By x -> x <> 0).
  { intros x E Z. destruct r; try discriminate E. injection E as E. apply NR. f_equal. lra. }
  pose proof (C45_turn radius r tol np mx fw fd la dt s) as T1.
  pose proof (C45_turn radius (opposite r) tol np mx fw fd la dt t) as T2.
  destruct (flip_shift s t I) as [b [CB [SB B]]]. pose proof (deltas_opposite r NR) as DO.
  assert (DN : fst (fst (deltas r)) <> snd (fst (deltas r))).
  { pose proof PI_RGT_0. destruct r; cbn [deltas fst snd]; try lra. specialize (NB a eq_refl). destruct (Rlt_dec a 0); cbn [fst snd]; lra. }
  unfold p_turn in *. destruct (deltas r) as [[di df] ex]. rewrite DO in *. cbn [fst snd] in *.
  assert (I' : mirror_image (with_dir s (Toward (turn_angle (p_dir s)))) (with_dir t (Toward (turn_angle (p_dir t))))).
  { destruct I as [I1 [I2 [I3 [I3' [I4 [I5 [I6 [I7 [I8 I9]]]]]]]]]. unfold mirror_image. cbn [with_dir p_at p_w p_n p_dir p_dist p_len p_polys p_layers p_dts].
    repeat split; try assumption. now rewrite (toward_angle (p_dir s)), (toward_angle (p_dir t)) in I4. }
  pose proof (mirror_arc b CB SB radius (turn_angle (p_dir s) + di) (turn_angle (p_dir s) + df) tol np mx fw fd la dt _ _ I') as A.
  replace (b - (turn_angle (p_dir s) + di)) with (turn_angle (p_dir t) + - di) in A by lra.
  replace (b - (turn_angle (p_dir s) + df)) with (turn_angle (p_dir t) + - df) in A by lra. specialize (A ltac:(lra)).
  destruct (p_arc radius (_ + di) _ _ _ _ _ _ _ _ _) as [s'|], (p_arc radius (_ + - di) _ _ _ _ _ _ _ _ _) as [t'|]; try exact A. cbn [both] in *.
  specialize (T1 _ eq_refl NB). specialize (T2 _ eq_refl NB'). destruct T1 as [T1 _]. destruct T2 as [T2 _].
  destruct A as [A1 [A2 [A3 [A3' [_ [A5 [A6 [A7 [A8 A9]]]]]]]]]. destruct I as [_ [_ [_ [_ [I4 _]]]]].
  assert (X : toward (p_dir (if (ex && named (p_dir t))%bool then with_dir t' (compass (angle_of (p_dir t'))) else t')) =
    J (toward (p_dir (if (ex && named (p_dir s))%bool then with_dir s' (compass (angle_of (p_dir s'))) else s')))).
  { rewrite T1, T2, I4, turn_opposite. unfold spin, flip_vec. cbn [fst snd]. rewrite cos_neg, sin_neg. f_equal; ring. }
  unfold mirror_image. destruct (ex && named (p_dir s))%bool, (ex && named (p_dir t))%bool;
    cbn [with_dir p_at p_w p_n p_dir p_dist p_len p_polys p_layers p_dts] in *; repeat split; assumption.
Qed.

(** ** parametric, bezier and smooth *)
Section Function.
Variable G : pt -> pt.
Hypothesis HG : forall p q, psub (G p) (G q) = J (psub p q).
Notation GU := (fun x : R * pt => (fst x, G (snd x))).
Lemma halve_m : forall fuel f err delta prev rest,
  halve fuel (fun u => G (f u)) err delta (GU prev) (map GU rest) = option_map (fun r => (map GU (fst r), snd r)) (halve fuel f err delta prev rest).
Proof.
  assert (MID : forall p q x, psub (smul (/ 2) (padd (G p) (G q))) (G x) = J (psub (smul (/ 2) (padd p q)) x)).
  { intros p q x. pose proof (HG p x) as P. pose proof (HG q x) as Q. unfold psub, flip_vec, smul, padd in *. cbn [fst snd] in *.
    injection P as P1 P2. injection Q as Q1 Q2. f_equal; lra. }
  induction fuel as [|n IH]; intros f err delta prev rest; destruct rest as [|next more]; try reflexivity. cbn [map halve fst snd].
  set (x := / 2 * (fst next + fst prev)). rewrite MID. set (e := psub (smul (/ 2) (padd (snd next) (snd prev))) (f x)).
  change (fst (J e) ^ 2 + snd (J e) ^ 2) with (len2 (J e)). change (fst e ^ 2 + snd e ^ 2) with (len2 e). rewrite J_len2.
  destruct (Rlt_dec err (len2 e)) as [X|X].
  - apply (IH f err (Rmin delta (fst next - x)) prev ((x, f x) :: next :: more)).
  - pose proof (IH f err delta next more) as H. cbn beta in H. rewrite H. destruct (halve n f err delta next more) as [[l d]|]; reflexivity.
Qed.
Lemma last_GUm : forall x l d, last (map GU (x :: l)) d = GU (last (x :: l) d).
Proof. intros x l d. revert x. induction l as [|y l IH]; intro x; [reflexivity|]. cbn [map] in *. exact (IH y). Qed.
Lemma slopes_m : forall f df delta ups,
  slopes (fun u => G (f u)) (option_map (fun g u => J (g u)) df) delta (map GU ups) = option_map (map J) (slopes f df delta ups).
Proof.
  intros f df delta ups. unfold slopes. destruct df as [g|]; cbn [option_map]; [now rewrite !map_map|].
  rewrite removelast_map, tl_map, map_map. cbn [fst].
  rewrite (map_ext _ (fun x => J (psub (f (fst x + delta)) (f (fst x - delta))))) by (intros; apply HG).
  destruct ups as [|x l]; [reflexivity|]. rewrite last_GUm. cbn [map hd snd].
  rewrite <- (map_map (fun x => psub (f (fst x + delta)) (f (fst x - delta))) J).
  destruct (tl (removelast (x :: l))) as [|y q]; [reflexivity|]. cbn [map option_map app]. rewrite map_app. cbn [map]. now rewrite !HG.
Qed.
Lemma chord_m : forall l, chord_sum (map G l) = chord_sum l.
Proof.
  intros l. unfold chord_sum. induction l as [|x [|y l] IH]; cbn [map pairwise fold_right] in *; try reflexivity.
  rewrite IH, HG, J_len. reflexivity.
Qed.
End Function.
Definition back (d : pt) : pt := smul (-1) (J d).
Lemma leftward_m : forall d, leftward (J d) = option_map back (leftward d).
Proof.
  intros d. unfold leftward. rewrite J_len. destruct (Req_EM_T (len d) 0) as [Y|Y]; try reflexivity.
  cbn [option_map]. f_equal. unfold back, flip_vec, smul. cbn [fst snd]. f_equal; ring.
Qed.
Lemma atan2_m : forall d : pt, d <> (0, 0) ->
  toward (Toward (atan2 (- fst (back d)) (snd (back d)))) = J (toward (Toward (atan2 (- fst d) (snd d)))).
Proof.
  intros [x y] N. cbn [toward fst snd].
  assert (NZ : x ^ 2 + y ^ 2 <> 0) by (intro Z; apply N; assert (x = 0) by nra; assert (y = 0) by nra; subst; reflexivity).
  assert (E : (fst (back (x, y))) ^ 2 + (snd (back (x, y))) ^ 2 = x ^ 2 + y ^ 2).
  { unfold back, flip_vec, smul. cbn [fst snd]. transitivity ((cos m ^ 2 + sin m ^ 2) * (x ^ 2 + y ^ 2)); [ring|]. rewrite csm. ring. }
  destruct (cos_atan2 (- x) y) as [C1 S1]; [intros [= Y X]; apply N; f_equal; lra|].
  destruct (cos_atan2 (- fst (back (x, y))) (snd (back (x, y)))) as [C2 S2].
  { clear - E NZ. destruct (back (x, y)) as [x' y']. cbn [fst snd] in *. intros [= Y X]. apply NZ. rewrite <- E, Y. replace x' with 0 by lra. ring. }
  rewrite C1, S1, C2, S2. replace (snd (back (x, y)) ^ 2 + (- fst (back (x, y))) ^ 2) with (x ^ 2 + y ^ 2) by (rewrite <- E; ring).
  replace (y ^ 2 + (- x) ^ 2) with (x ^ 2 + y ^ 2) by ring. unfold back, flip_vec, smul. cbn [fst snd]. unfold Rdiv. f_equal; ring.
Qed.

Definition row_mirror (r r' : row) : Prop :=
  let '(x, d, w, e) := r in let '(x', d', w', e') := r' in x' = F x /\ d' = back d /\ w' = w /\ e' = e.
Lemma edges_m : forall sg rows rows', Forall2 row_mirror rows rows' -> map (edge 1 sg 0) rows' = map F (map (edge 1 (- sg) 0) rows).
Proof.
  intros sg rows rows' H. induction H as [|[[[x d] w] e] [[[x' d'] w'] e'] l l' H Hs IH]; [reflexivity|]. cbn [map]. rewrite IH. f_equal.
  destruct H as [-> [-> [-> ->]]]. unfold edge. rewrite F_add, J_smul. f_equal. unfold back, smul. cbn [fst snd INR]. f_equal; ring.
Qed.
Lemma hd_m : forall rows rows', Forall2 row_mirror rows rows' -> row_w (hd row0 rows') = row_w (hd row0 rows).
Proof. intros rows rows' H. destruct H as [|[[[x d] w] e] [[[x' d'] w'] e'] l l' H Hs]; [reflexivity|]. destruct H as [_ [_ [-> _]]]. reflexivity. Qed.
Lemma last_m : forall rows rows', Forall2 row_mirror rows rows' -> row_w (last rows' row0) = row_w (last rows row0).
Proof.
  intros rows rows' H. induction H as [|[[[x d] w] e] [[[x' d'] w'] e'] l l' H Hs IH]; [reflexivity|].
  destruct Hs; [destruct H as [_ [_ [-> _]]]; reflexivity|exact IH].
Qed.
Lemma outline_map : forall f p q, same_outline p q -> same_outline (map f p) (map f q).
Proof.
  intros f p q [a [b [-> [-> | ->]]]]; exists (map f a), (map f b); (split; [apply map_app|]).
  - left. apply map_app.
  - right. now rewrite map_rev, map_app.
Qed.
(** Two sides and their ends, traversed from the one side or from the other *)
Lemma two_sides : forall (P N : list pt) (z0 z1 : bool), length P = length N ->
  (z0 = true -> hd (0, 0) P = hd (0, 0) N) -> (z1 = true -> last P (0, 0) = last N (0, 0)) ->
  same_outline ((if z0 then tl P else P) ++ (if z1 then tl (rev N) else rev N)) ((if z0 then tl N else N) ++ (if z1 then tl (rev P) else rev P)).
Proof.
  intros P N z0 z1 LN Z0 Z1. destruct P as [|e p]; [destruct N; [|discriminate]; cbn; destruct z0, z1; apply outline_refl|].
  destruct N as [|e' n]; [discriminate|]. cbn [length] in LN. injection LN as LN. cbn [hd tl] in *.
  destruct z0; [rewrite <- (Z0 eq_refl) in *|].
  - destruct z1.
    + destruct p as [|x p] using rev_ind; [destruct n; [|discriminate]; cbn; apply outline_refl|]. clear IHp.
      destruct n as [|y n] using rev_ind; [rewrite app_length in LN; cbn in LN; lia|]. clear IHn.
      assert (X : x = y).
      { specialize (Z1 eq_refl). change (e :: p ++ [x]) with ((e :: p) ++ [x]) in Z1. change (e :: n ++ [y]) with ((e :: n) ++ [y]) in Z1. now rewrite !last_last in Z1. }
      subst y. cbn [rev]. rewrite !rev_app_distr. cbn [rev app tl]. exists (p ++ x :: rev n), [e]. split; [now rewrite <- !app_assoc|]. right.
      cbn [app rev]. rewrite rev_app_distr. cbn [rev]. rewrite rev_involutive, <- !app_assoc. reflexivity.
    + exists (p ++ rev n), [e]. cbn [rev]. split; [now rewrite app_assoc|]. right. cbn [app rev]. rewrite rev_app_distr, rev_involutive. now rewrite app_assoc.
  - destruct z1.
    + clear Z0 LN. assert (EX : exists p' n' f, e :: p = p' ++ [f] /\ e' :: n = n' ++ [f]).
      { destruct (@exists_last _ (e :: p)) as [p' [f E1]]; [discriminate|]. destruct (@exists_last _ (e' :: n)) as [n' [g E2]]; [discriminate|].
        specialize (Z1 eq_refl). rewrite E1, E2, !last_last in Z1. subst g. exists p', n', f. split; assumption. }
      destruct EX as [p' [n' [f [-> ->]]]]. rewrite !rev_app_distr. cbn [rev app tl]. exists [], ((p' ++ [f]) ++ rev n'). split; [reflexivity|]. right.
      rewrite app_nil_r, !rev_app_distr, rev_involutive. cbn [rev app]. now rewrite <- app_assoc.
    + exists [], ((e :: p) ++ rev (e' :: n)). split; [reflexivity|]. right. rewrite app_nil_r, rev_app_distr, rev_involutive. reflexivity.
Qed.
Lemma edge_zero : forall r, row_w r = 0 -> edge 1 1 0 r = edge 1 (-1) 0 r.
Proof. intros [[[x d] w] e]. unfold row_w, edge. cbn [fst snd]. intros ->. f_equal. f_equal. ring. Qed.
Lemma strip_m : forall rows rows', Forall2 row_mirror rows rows' -> same_outline (map F (strip 1 rows 0)) (strip 1 rows' 0).
Proof.
  intros rows rows' H. unfold strip. rewrite (hd_m _ _ H), (last_m _ _ H), !(edges_m _ _ _ H). replace (- -1) with 1 by ring. replace (- (1)) with (-1) by ring.
  set (P := map (edge 1 1 0) rows). set (N := map (edge 1 (-1) 0) rows).
  assert (LN : length P = length N) by (unfold P, N; now rewrite !map_length).
  assert (HD : row_w (hd row0 rows) = 0 -> hd (0, 0) P = hd (0, 0) N).
  { unfold P, N. destruct rows as [|r rows]; [reflexivity|]. cbn [hd map]. apply edge_zero. }
  assert (LA : row_w (last rows row0) = 0 -> last P (0, 0) = last N (0, 0)).
  { unfold P, N. destruct rows as [|r rows]; [reflexivity|]. intros Z. rewrite !(last_map _ _ row0) by discriminate. now apply edge_zero. }
  pose proof (two_sides P N (if Req_EM_T (row_w (hd row0 rows)) 0 then true else false) (if Req_EM_T (row_w (last rows row0)) 0 then true else false) LN) as T.
  apply (outline_map F) in T.
  - rewrite <- !map_rev. revert T. rewrite !map_app.
    destruct (Req_EM_T (row_w (hd row0 rows)) 0), (Req_EM_T (row_w (last rows row0)) 0); rewrite ?tl_map; exact (fun x => x).
  - destruct (Req_EM_T (row_w (hd row0 rows)) 0); [auto|discriminate].
  - destruct (Req_EM_T (row_w (last rows row0)) 0); [auto|discriminate].
Qed.
Lemma strips_m : forall cs cs', Forall2 (Forall2 row_mirror) cs cs' ->
  Forall2 same_outline (map (map F) (flat_map (fun c => map (strip 1 c) (seq 0 1)) cs)) (flat_map (fun c => map (strip 1 c) (seq 0 1)) cs').
Proof.
  intros cs cs' H. induction H as [|c c' l l' H Hs IH]; [constructor|]. cbn [flat_map seq map app] in *. constructor; [now apply strip_m|exact IH].
Qed.
Lemma mirror_parametric : forall (G : pt -> pt) fuel f df tol ev mx fw fd (rel : bool) la dt s t, mirror_image s t ->
  (forall p q, psub (G p) (G q) = J (psub p q)) ->
  (forall p, (if rel then padd (G p) (p_at t) else G p) = F (if rel then padd p (p_at s) else p)) ->
  both mirror_image (p_parametric fuel f df tol ev mx fw fd rel la dt s)
    (p_parametric fuel (fun u => G (f u)) (option_map (fun g u => J (g u)) df) tol ev mx fw fd rel la dt t).
Proof.
  intros G fuel f df tol ev mx fw fd rel la dt s t [I1 [I2 [I3 [I3' [I4 [I5 [I6 [I7 [I8 I9]]]]]]]]] HG HB. unfold p_parametric.
  destruct (linspace 0 1 ev) as [|u0 [|u1 us]]; try exact Logic.I. set (GU := fun x : R * pt => (fst x, G (snd x))).
  change (u0, G (f u0)) with (GU (u0, f u0)).
  replace (map (fun u => (u, G (f u))) (u1 :: us)) with (map GU (map (fun u => (u, f u)) (u1 :: us))) by (now rewrite map_map).
  pose proof (halve_m G HG) as HM. fold GU in HM. rewrite HM.
  destruct (halve fuel f (tol ^ 2) u1 (u0, f u0) (map (fun u => (u, f u)) (u1 :: us))) as [[more delta]|]; [|exact Logic.I].
  cbn [option_map fst snd]. set (ups := (u0, f u0) :: more). change (GU (u0, f u0) :: map GU more) with (map GU ups).
  pose proof (slopes_m G HG) as SM. fold GU in SM. rewrite SM. destruct (slopes f df (delta * / 2) ups) as [derivs|] eqn:SL; [|exact Logic.I]. cbn [option_map].
  rewrite map_map, (all_some_map back leftward (fun d => leftward (J d))) by (intros; apply leftward_m).
  destruct (all_some (map leftward derivs)) as [dx|] eqn:DX; [|exact Logic.I]. cbn [option_map]. rewrite I3, I3'.
  destruct (tag_list 1 la) as [las|]; [|exact Logic.I]. destruct (tag_list 1 dt) as [dts|]; [|exact Logic.I]. cbn [both].
  assert (DN : derivs <> []).
  { unfold slopes in SL. destruct df as [g|]; [injection SL as <-; discriminate|].
    match type of SL with match ?x with _ => _ end = _ => destruct x; [discriminate|injection SL as <-; discriminate] end. }
  destruct (all_leftward _ _ DX) as [DL DZ].
  set (x0 := map (fun up : R * pt => if rel then padd (snd up) (p_at s) else snd up) ups).
  assert (X0 : map (fun up : R * pt => if rel then padd (snd up) (p_at t) else snd up) (map GU ups) = map F x0).
  { unfold x0. rewrite !map_map. apply map_ext. intros [u p]. cbn [GU snd]. apply HB. }
  assert (LU : fst (last (map GU ups) (0, (0, 0))) = fst (last ups (0, (0, 0)))) by (unfold ups, GU; now rewrite last_GUm).
  rewrite X0, I2, I5, I6, LU. rewrite !map_map. unfold GU. cbn [fst snd]. clear GU HM SM X0 LU.
  set (width := map (fun up : R * pt => track (/ 2) fw (p_w s) (fst up)) ups). set (dist := map (fun up : R * pt => track 1 fd (p_dist s) (fst up)) ups).
  set (ulast := fst (last ups (0, (0, 0)))).
  assert (FR : Forall2 row_mirror (combine (combine (combine x0 dx) width) dist) (combine (combine (combine (map F x0) (map back dx)) width) dist)).
  { apply (Forall2_impl2 (fun x y => ((fst (fst (fst y)) = F (fst (fst (fst x))) /\ snd (fst (fst y)) = back (snd (fst (fst x)))) /\ snd (fst y) = snd (fst x)) /\ snd y = snd x)).
    - intros [[[x d] w] e] [[[x' d'] w'] e'] [[[A B] C] D]. cbn in *. unfold row_mirror. auto.
    - apply (Forall2_combine (fun x y : pt * pt * R => (fst (fst y) = F (fst (fst x)) /\ snd (fst y) = back (snd (fst x))) /\ snd y = snd x) (fun x y => y = x)).
      + apply (Forall2_combine (fun x y : pt * pt => fst y = F (fst x) /\ snd y = back (snd x)) (fun x y => y = x)).
        * apply (Forall2_combine (fun x y => y = F x) (fun x y => y = back x)).
          -- rewrite <- (map_id x0) at 1. apply Forall2_map2. reflexivity.
          -- rewrite <- (map_id dx) at 1. apply Forall2_map2. reflexivity.
        * apply Forall2_map2. reflexivity.
      + apply Forall2_map2. reflexivity. }
  pose proof (Forall2_len _ _ _ FR) as LR.
  set (rows := combine (combine (combine x0 dx) width) dist) in *. set (rows' := combine (combine (combine (map F x0) (map back dx)) width) dist) in *.
  match goal with |- mirror_image _ ?p => match p with context [chunks (length ?r) _ _] => change r with rows' end end.
  pose proof (chunks_k _ (length rows) (chunk_size mx (length rows)) _ _ FR) as FC. pose proof (Forall2_len _ _ _ FC) as LC.
  pose proof (strips_m _ _ FC) as SK. unfold row in *. rewrite <- LR, <- LC.
  unfold mirror_image. cbn [p_at p_w p_n p_dir p_dist p_len p_polys p_layers p_dts]. rewrite I8, I9, map_app.
  repeat split.
  - unfold x0, ups. rewrite map_map. rewrite (last_map _ _ (0, (0, 0)) (0, 0)) by discriminate. rewrite (last_map _ _ (0, (0, 0)) (0, 0)) by discriminate. reflexivity.
  - assert (DXN : dx <> []) by (rewrite DL; destruct derivs; [now elim DN|discriminate]).
    assert (LM : last (map back dx) (0, 0) = back (last dx (0, 0))) by (now rewrite (last_map _ _ (0, 0))).
    rewrite LM. apply atan2_m. intro Z.
    assert (I : In (last dx (0, 0)) dx) by (destruct (@exists_last _ dx DXN) as [q [y ->]]; rewrite last_last; apply in_or_app; right; now left).
    rewrite Z, DL in I. apply in_map_iff in I. destruct I as [d [E Hd]]. specialize (DZ d Hd). apply DZ.
    unfold left_of, smul in E. cbn [fst snd] in E. injection E as E1 E2. pose proof (Rinv_neq_0_compat _ DZ) as N.
    apply Rmult_integral in E1. apply Rmult_integral in E2. unfold len, len2.
    replace (fst d) with 0 by (destruct E2; [now elim N|lra]). replace (snd d) with 0 by (destruct E1; [now elim N|lra]).
    replace (0 ^ 2 + 0 ^ 2) with 0 by ring. apply sqrt_0.
  - f_equal. rewrite <- (map_map snd G), (chord_m G HG). reflexivity.
  - apply Forall2_app; [exact I7|exact SK].
Qed.
Lemma mirror_bezier : forall fuel l tol ev mx fw fd (rel : bool) la dt s t, mirror_image s t ->
  both mirror_image (p_bezier fuel l tol ev mx fw fd rel la dt s) (p_bezier fuel (map (if rel then J else F) l) tol ev mx fw fd rel la dt t).
Proof.
  intros fuel l tol ev mx fw fd rel la dt s t I. unfold p_bezier. destruct l as [|x l]; [exact Logic.I|]. cbn [map].
  set (G := if rel then J else F) in *. set (pts := (if rel then (0, 0) else p_at s) :: x :: l).
  assert (P : (if rel then (0, 0) else p_at t) :: G x :: map G l = map G pts).
  { unfold pts. cbn [map]. f_equal. unfold G. destruct rel; [|destruct I as [-> _]; reflexivity].
    unfold flip_vec. cbn [fst snd]. apply injective_projections; cbn [fst snd]; ring. }
  rewrite P, map_length.
  assert (HG : forall p q, psub (G p) (G q) = J (psub p q)) by (unfold G; destruct rel; [apply J_sub|apply F_sub]).
  assert (GA : forall u p q, G (padd (smul u p) (smul (1 - u) q)) = padd (smul u (G p)) (smul (1 - u) (G q))).
  { unfold G. intros u p q. destruct rel; unfold flip, flip_vec, padd, smul; cbn [fst snd]; f_equal; ring. }
  rewrite (param_ext _ (bezier (map G pts)) (fun u => G (bezier pts u)) _
    (option_map (fun g u => J (g u)) (Some (bezier (pairwise (fun p q => smul (INR (length pts - 1)) (psub q p)) pts))))).
  - apply mirror_parametric; [exact I|exact HG|]. intros p. unfold G. destruct rel; [|reflexivity].
    destruct I as [-> _]. unfold flip, flip_vec, padd, smul. cbn [fst snd]. f_equal; ring.
  - intros u. apply bezier_map; [discriminate|apply GA].
  - cbn [option_map]. intros u. rewrite pairwise_map. rewrite (pairwise_ext _ (fun p q => J (smul (INR (length pts - 1)) (psub q p)))).
    + rewrite <- map_pairwise. apply bezier_map; [unfold pts; destruct rel; discriminate|].
      intros p q. unfold flip_vec, padd, smul. cbn [fst snd]. f_equal; ring.
    + intros p q. now rewrite HG, J_smul.
Qed.
Definition F3 (x : pt * pt * pt) : pt * pt * pt := (F (fst (fst x)), F (snd (fst x)), F (snd x)).
Lemma mirror_sections : forall fuel secs fws fds tol ev mx la dt s t, mirror_image s t ->
  both mirror_image (p_sections fuel secs fws fds tol ev mx la dt s) (p_sections fuel (map F3 secs) fws fds tol ev mx la dt t).
Proof.
  intros fuel. induction secs as [|[[x y] e] r IH]; intros fws fds tol ev mx la dt s t I; [exact I|].
  destruct fws as [|fw fws]; [exact Logic.I|]. destruct fds as [|fd fds]; [exact Logic.I|]. cbn [map F3 fst snd p_sections].
  pose proof (mirror_bezier fuel [x; y; e] tol ev mx fw fd false la dt s t I) as B. cbn [map] in B.
  destruct (p_bezier fuel [x; y; e] _ _ _ _ _ _ _ _ _) as [s'|], (p_bezier fuel [F x; F y; F e] _ _ _ _ _ _ _ _ _) as [t'|]; try contradiction; try exact B.
  now apply IH.
Qed.
Definition F2 (x : pt * pt) : pt * pt := (F (fst x), F (snd x)).
Hypothesis INV : forall p, F (F p) = p.
Lemma mirror_smooth : forall fuel hs (cyc : bool) l tol ev mx fws fds (rel : bool) la dt s t, mirror_image s t ->
  both mirror_image (p_smooth fuel hs cyc l tol ev mx fws fds rel la dt s)
    (p_smooth fuel (fun pts => map F2 (hs (map F pts))) cyc (map (if rel then J else F) l) tol ev mx fws fds rel la dt t).
Proof.
  intros fuel hs cyc l tol ev mx fws fds rel la dt s t I. unfold p_smooth. assert (I1 : p_at t = F (p_at s)) by apply I.
  set (pts := if rel then p_at s :: map (fun p => padd p (p_at s)) l else p_at s :: l).
  assert (P : (if rel then p_at t :: map (fun p => padd p (p_at t)) (map (if rel then J else F) l) else p_at t :: map (if rel then J else F) l) = map F pts).
  { unfold pts. destruct rel; cbn [map]; rewrite I1; f_equal. rewrite !map_map. apply map_ext. intros p.
    unfold flip, flip_vec, padd, smul. cbn [fst snd]. f_equal; ring. }
  rewrite P. assert (U : map F (map F pts) = pts) by (rewrite map_map; rewrite <- (map_id pts) at 2; apply map_ext, INV).
  rewrite U. set (ks := hs pts). rewrite map_length.
  set (fw := match fws with Some _ => _ | None => _ end). set (fd := match fds with Some _ => _ | None => _ end).
  rewrite tl_map, combine_map2, map_map.
  assert (SE : map (fun x : pt * pt * pt => (fst (fst (F2 (fst x), F (snd x))), snd (fst (F2 (fst x), F (snd x))), snd (F2 (fst x), F (snd x)))) (combine ks (tl pts)) =
    map F3 (map (fun ke : pt * pt * pt => (fst (fst ke), snd (fst ke), snd ke)) (combine ks (tl pts)))).
  { rewrite map_map. apply map_ext. intros [[x y] e]. reflexivity. }
  rewrite SE.
  pose proof (mirror_sections fuel (map (fun ke : pt * pt * pt => (fst (fst ke), snd (fst ke), snd ke)) (combine ks (tl pts))) fw fd tol ev mx la dt s t I) as S.
  destruct (p_sections fuel (map (fun _ => _) _) _ _ _ _ _ _ _ _) as [s'|], (p_sections fuel (map F3 _) _ _ _ _ _ _ _ _) as [t'|]; try contradiction; try exact S.
  destruct cyc; [|exact S]. rewrite <- !map_rev. destruct (rev ks) as [|[x y] ?]; [exact Logic.I|].
  destruct (rev fw) as [|w ?]; [exact Logic.I|]. destruct (rev fd) as [|d ?]; [exact Logic.I|]. cbn [map F2 fst snd].
  assert (HD : hd (0, 0) (map F pts) = F (hd (0, 0) pts)) by (unfold pts; destruct rel; reflexivity).
  rewrite HD. apply (mirror_bezier fuel [x; y; hd (0, 0) pts] tol ev mx w d false la dt s' t' S).
Qed.
End Flip.

(** ** C75 *)
Lemma squares_zero : forall x y, x ^ 2 + y ^ 2 = 0 -> x = 0 /\ y = 0.
Proof. intros x y Z. split; apply Rsqr_0_uniq; unfold Rsqr; nra. Qed.
Lemma mirror_flip : forall p1 p2, p1 <> p2 -> mirror_pt p1 p2 = flip (double_angle p1 p2) (psub p1 (flip_vec (double_angle p1 p2) p1)).
Proof.
  intros [x1 y1] [x2 y2] N. apply functional_extensionality. intros [x y]. unfold mirror_pt, flip, flip_vec, double_angle, psub, padd. cbn [fst snd].
  destruct (cos_atan2 (y2 - y1) (x2 - x1)) as [C S]; [intros [= X Y]; apply N; f_equal; lra|].
  rewrite cos_2a_cos, sin_2a, C, S. set (q := (x2 - x1) ^ 2 + (y2 - y1) ^ 2) in *.
  assert (Q : q <> 0).
  { intro Z. unfold q in Z. clearbody q. destruct (squares_zero _ _ Z). apply N. f_equal; lra. }
  assert (SQ : sqrt q * sqrt q = q) by (apply sqrt_sqrt; unfold q; apply Rplus_le_le_0_compat; apply pow2_ge_0).
  assert (R : forall u w, u / sqrt q * (w / sqrt q) = u * w / q).
  { intros u w. replace (u * w / q) with (u * w / (sqrt q * sqrt q)) by (now rewrite SQ). field. intro Z. rewrite Z in SQ. lra. }
  match goal with |- context [2 * ?u * ?w - 1] => replace (2 * u * w - 1) with (2 * (u * w) - 1) by ring end.
  match goal with |- context [2 * ((y2 - y1) / ?r) * ((x2 - x1) / ?r)] => replace (2 * ((y2 - y1) / r) * ((x2 - x1) / r)) with (2 * ((y2 - y1) / r * ((x2 - x1) / r))) by ring end.
  rewrite !R. unfold dot, smul, q in *. cbn [fst snd]. f_equal; field; nra.
Qed.
Lemma flip_involutive : forall m p0 p, flip m (psub p0 (flip_vec m p0)) (flip m (psub p0 (flip_vec m p0)) p) = p.
Proof.
  intros m [a b] [x y]. pose proof (csm m) as E. unfold flip, flip_vec, psub, padd. cbn [fst snd].
  assert (C : cos m ^ 2 = 1 - sin m ^ 2) by lra. apply injective_projections; cbn [fst snd]; ring_simplify; rewrite ?C; ring.
Qed.
Lemma mirror_call : forall fuel p1 p2 c s t, p1 <> p2 -> drawing c -> moves_on c ->
  let m := double_angle p1 p2 in let v := psub p1 (flip_vec m p1) in
  mirror_image m v s t -> both (mirror_image m v) (do_pcall fuel c s) (do_pcall fuel (mirrored p1 p2 c) t).
Proof.
  intros fuel p1 p2 c s t N D O m v I. pose proof (mirror_flip p1 p2 N) as MF. unfold mirrored. rewrite MF. fold m. fold v.
  destruct c; cbn [do_pcall]; try (exfalso; now apply D).
  - now apply mirror_segment.
  - now apply mirror_arc.
  - now apply mirror_turn.
  - destruct rel.
    + apply (mirror_parametric m v (flip_vec m)); [exact I|apply J_sub|]. intros p. destruct I as [-> _]. unfold flip, flip_vec, padd, smul. cbn [fst snd]. f_equal; ring.
    + apply (mirror_parametric m v (flip m v)); [exact I|apply F_sub|reflexivity].
  - apply (mirror_bezier m v fuel l tol evals mx fw fd rel la dt s t I).
  - apply (mirror_smooth m v (flip_involutive m p1) fuel hs cycle l tol evals mx fws fds rel la dt s t I).
Qed.
Lemma mirror_calls : forall fuel p1 p2 cs s t, p1 <> p2 -> Forall drawing cs -> Forall moves_on cs ->
  let m := double_angle p1 p2 in let v := psub p1 (flip_vec m p1) in
  mirror_image m v s t -> both (mirror_image m v) (do_pcalls fuel cs s) (do_pcalls fuel (map (mirrored p1 p2) cs) t).
Proof.
  intros fuel p1 p2 cs. induction cs as [|c cs IH]; intros s t N FD FO m v I; [exact I|]. inversion FD as [|? ? D FD']; subst. inversion FO as [|? ? O FO']; subst.
  cbn [map do_pcalls]. pose proof (mirror_call fuel p1 p2 c s t N D O I) as B.
  destruct (do_pcall fuel c s), (do_pcall fuel (mirrored p1 p2 c) t); try contradiction; try exact B. now apply IH.
Qed.
Lemma image_mirror : forall p1 p2 s, p1 <> p2 -> p_n s = 1%nat ->
  mirror_image (double_angle p1 p2) (psub p1 (flip_vec (double_angle p1 p2) p1)) s (p_mirror p1 p2 s).
Proof.
  intros p1 p2 s N P1. unfold mirror_image, p_mirror, moved. cbn [p_at p_w p_n p_dir p_dist p_len p_polys p_layers p_dts]. rewrite (mirror_flip _ _ N).
  repeat split; try assumption; [|apply outlines_refl]. cbn [toward]. rewrite angle_turn. fold (double_angle p1 p2).
  rewrite (toward_angle (p_dir s)), J_cs. reflexivity.
Qed.

(** Drawing after mirroring a single path, with left and right exchanged, gives the
    mirrored drawing. *)
Theorem C75_mirror : forall fuel p1 p2 cs s, p1 <> p2 -> p_n s = 1%nat -> Forall drawing cs -> Forall moves_on cs ->
  both mirror_alike (option_map (p_mirror p1 p2) (do_pcalls fuel cs s)) (do_pcalls fuel (map (mirrored p1 p2) cs) (p_mirror p1 p2 s)).
Proof.
  intros fuel p1 p2 cs s N P1 FD FO. pose proof (mirror_calls fuel p1 p2 cs s _ N FD FO (image_mirror p1 p2 s N P1)) as B.
  pose proof (calls_n fuel cs s) as C.
  destruct (do_pcalls fuel cs s) as [s'|], (do_pcalls fuel (map _ cs) _) as [t'|]; try exact B. cbn [both option_map] in *.
  assert (P1' : p_n s' = 1%nat) by (rewrite (C s' eq_refl); exact P1).
  destruct (image_mirror p1 p2 s' N P1') as [A1 [A2 [A3 [A3' [A4 [A5 [A6 [A7 [A8 A9]]]]]]]]].
  destruct B as [B1 [B2 [B3 [B3' [B4 [B5 [B6 [B7 [B8 B9]]]]]]]]]. unfold mirror_alike. repeat split; try congruence.
  unfold p_mirror, moved. cbn [p_polys]. rewrite (mirror_flip _ _ N). exact B7.
Qed.
Print Assumptions C75_mirror.

(** Two parallel paths: the mirror image of path 0 is on the side where path 1 is drawn
    next, so the layers of the later sections are exchanged. *)
Theorem C75_mirror_refuted : exists s,
  do_pcalls 0 [PSegment 10 None None None 0 (Tags [1%Z; 2%Z]) (Tag 0); PMirror (0, 0) (1, 0); PSegment 10 None None None 0 (Tags [1%Z; 2%Z]) (Tag 0)]
    (new_path 2 (0, 0) 2 10) = Some s /\
  p_layers s = [1; 2; 1; 2]%Z /\
  p_polys s = [[(0, -6); (0, -4); (10, -4); (10, -6)]; [(0, 4); (0, 6); (10, 6); (10, 4)];
               [(10, 6); (10, 4); (20, 4); (20, 6)]; [(10, -4); (10, -6); (20, -6); (20, -4)]].
Proof.
  assert (V1 : forall x y, y <> 0 -> visible x y = true).
  { intros x y N. unfold visible. destruct (Req_EM_T y 0) as [Z|_]; [now elim N|reflexivity]. }
  assert (SP : forall ca sa p q w0 w1 d0 d1, w0 <> 0 -> w1 <> 0 -> seg_poly ca sa p q w0 w1 d0 d1 =
    [(fst p + (d0 - w0) * sa, snd p - (d0 - w0) * ca); (fst p + (d0 + w0) * sa, snd p - (d0 + w0) * ca);
     (fst q + (d1 + w1) * sa, snd q - (d1 + w1) * ca); (fst q + (d1 - w1) * sa, snd q - (d1 - w1) * ca)]).
  { intros ca sa p q w0 w1 d0 d1 N0 N1. unfold seg_poly. destruct (Req_EM_T w1 0) as [Z|_]; [now elim N1|]. destruct (Req_EM_T w0 0) as [Z|_]; [now elim N0|]. reflexivity. }
  assert (AT : 2 * atan2 (0 - 0) (1 - 0) - 0 * PI = 0).
  { unfold atan2. replace ((1 - 0) ^ 2 + (0 - 0) ^ 2) with 1 by ring. rewrite sqrt_1. destruct (Req_EM_T 1 0) as [Z|_]; [lra|].
    destruct (Rle_dec 0 (0 - 0)) as [_|Z]; [|elim Z; lra]. replace ((1 - 0) / 1) with 1 by field. rewrite acos_1. ring. }
  unfold new_path. cbn [do_pcalls do_pcall option_map]. unfold p_segment, p_mirror, moved. cbn [p_at p_w p_n p_dir p_dist p_len p_polys p_layers p_dts or_old half option_map cos_of sin_of angle_of].
  unfold psub at 1 2. cbn [fst snd].
  rewrite !V1 by lra. cbn [tag_list repeat seq map app p_at p_w p_n p_dir p_dist p_len p_polys p_layers p_dts angle_of psub fst snd].
  rewrite !AT. cbn [cos_of sin_of]. rewrite cos_0, sin_0.
  rewrite !V1 by lra. cbn [tag_list repeat seq map app p_at p_w p_n p_dir p_dist p_len p_polys p_layers p_dts].
  rewrite !SP by lra. cbn [map fst snd]. unfold mirror_pt, dot, smul, lateral, padd, pmul, psub. cbn [fst snd INR]. eexists. split; [reflexivity|].
  cbn [p_polys p_layers]. split; [reflexivity|].
  repeat match goal with |- _ :: _ = _ :: _ => f_equal end; apply injective_projections; cbn [fst snd cos_of sin_of]; field.
Qed.
Print Assumptions C75_mirror_refuted.

(** Non-vacuity: a section to the north, a turn to the left and a Bézier section; and
    the mirror images: a turn to the right and the control points below the axis. *)
Example C75_mirror_case : exists fuel s s',
  let cs := [PSegment 10 (Some Py) None None 3 (Tag 1) (Tag 0); PTurn 5 Left (1/10) (Some 8%nat) 0 (Some 4) None (Tag 1) (Tag 0);
    PBezier [(3, 0); (6, 2)] (1/10) 9 8 Same Same true (Tag 1) (Tag 0)] in
  do_pcalls fuel cs (new_path 2 (1, 1) 1 0) = Some s /\
  do_pcalls fuel (map (mirrored (0, 0) (1, 0)) cs) (p_mirror (0, 0) (1, 0) (new_path 2 (1, 1) 1 0)) = Some s' /\
  mirror_alike (p_mirror (0, 0) (1, 0) s) s' /\
  nth 1 (map (mirrored (0, 0) (1, 0)) cs) (PTranslate (0, 0)) = PTurn 5 Right (1/10) (Some 8%nat) 0 (Some 4) None (Tag 1) (Tag 0).
Proof.
  destruct (segment_defined (Leg 10 (Some Py) None None 3 (Tag 1) (Tag 0)) (new_path 2 (1, 1) 1 0)) as [s1 E1]; [discriminate|discriminate|].
  destruct (turn_defined 5 Left (1/10) 8 0 (Some 4) None (Tag 1) (Tag 0) s1) as [s2 E2]; [lia|cbn; lia|discriminate|discriminate|].
  destruct (bezier_defined [(3, 0); (6, 2)] (1/10) 9 8 Same Same true (Tag 1) (Tag 0) s2) as [fuel [s3 E3]];
    [discriminate|lra|lia|discriminate|discriminate| |].
  - intros u U. unfold bezier. cbn. unfold padd, smul, psub. cbn. intros Z. injection Z as Z _. lra.
  - exists fuel, s3. cbn zeta.
    match goal with |- context [do_pcalls fuel ?l (new_path _ _ _ _)] => set (cs := l) end.
    assert (F : Forall drawing cs) by (repeat constructor; discriminate).
    assert (O : Forall moves_on cs) by (repeat constructor; discriminate).
    assert (E : do_pcalls fuel cs (new_path 2 (1, 1) 1 0) = Some s3).
    { unfold cs. cbn [do_pcalls do_pcall leg_call l_len l_dir l_fw l_fd l_axis l_la l_dt] in *. now rewrite E1, E2, E3. }
    assert (N : (0, 0) <> (1, 0)) by (intros [= X]; lra).
    pose proof (C75_mirror fuel (0, 0) (1, 0) cs (new_path 2 (1, 1) 1 0) N eq_refl F O) as B. rewrite E in B. cbn [option_map] in B.
    destruct (do_pcalls fuel (map _ cs) _) as [s'|]; [|elim B]. exists s'. repeat split; try exact E; apply B.
Qed.
