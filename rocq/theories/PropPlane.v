(** PolygonSet areas, transformations and boxes: C26, C27, C57. *)

From Coq Require Import Reals Lra List ZArith Bool Lia.
From Verif Require Import Plane SpecPlane PlaneProofs.
Import ListNotations.
Open Scope R_scope.

(** ** C26: area *)

(** The area of a polygon set is the sum over its polygons of half the absolute
    value of the shoelace sum. *)
Theorem C26_area : forall s,
  ps_area s = fold_right Rplus 0 (map (fun g => / 2 * Rabs (shoelace (g_pts g))) s).
Proof.
  intro s; unfold ps_area. f_equal. apply map_ext; intro g; apply area_shoelace.
Qed.

Theorem C26_isometries : forall s,
  (forall v, ps_area (ps_translate v s) = ps_area s) /\
  (forall a c, ps_area (ps_rotate a c s) = ps_area s) /\
  (forall p1 p2, p1 <> p2 -> ps_area (ps_mirror p1 p2 s) = ps_area s).
Proof.
  intro s; repeat split; intros.
  - unfold ps_translate. rewrite (ps_area_map 1) by apply det_translate. rewrite Rabs_R1; lra.
  - unfold ps_rotate. rewrite (ps_area_map 1) by apply det_rotate. rewrite Rabs_R1; lra.
  - unfold ps_mirror. rewrite (ps_area_map (-1)) by now apply det_mirror.
    rewrite (Rabs_left (-1)); lra.
Qed.

Theorem C26_scale : forall s sx c,
  (forall sy, ps_area (ps_scale sx (Some sy) c s) = Rabs (sx * sy) * ps_area s) /\
  ps_area (ps_scale sx None c s) = sx * sx * ps_area s.
Proof.
  intros s sx c; split; intros; unfold ps_scale.
  - now rewrite (ps_area_map (sx * sy)) by apply (det_scale sx (Some sy)).
  - rewrite (ps_area_map (sx * sx)) by apply (det_scale sx None).
    rewrite Rabs_right; [lra|]. apply Rle_ge, Rle_0_sqr.
Qed.

(** Starting the list of vertices elsewhere, or walking it backwards. *)
Theorem C26_vertex_order : forall l1 l2,
  poly_area (l1 ++ l2) = poly_area (l2 ++ l1) /\ poly_area (rev l1) = poly_area l1.
Proof.
  intros; rewrite !area_shoelace. split.
  - now rewrite shoelace_turn.
  - now rewrite shoelace_rev, Rabs_Ropp.
Qed.

Theorem C26_rectangle : forall p1 p2 l d,
  ps_area [GPoly (rectangle p1 p2) l d] = Rabs ((fst p2 - fst p1) * (snd p2 - snd p1)).
Proof.
  intros; unfold ps_area, rectangle; cbn.
  match goal with |- / 2 * Rabs ?a + 0 = Rabs ?b => replace a with (- (2 * b)) by ring end.
  rewrite Rabs_Ropp, Rabs_mult, (Rabs_right 2) by lra. lra.
Qed.

(** [area(by_spec=True)]: one entry per (layer, datatype) present, each the area
    of the polygons of that specification; together they make the total. *)
Theorem C26_by_spec : forall s,
  NoDup (map fst (ps_area_spec s)) /\
  (forall k, In k (map fst (ps_area_spec s)) <-> In k (map g_spec s)) /\
  (forall k v, In (k, v) (ps_area_spec s) ->
     v = ps_area (filter (fun g => spec_eqb (g_spec g) k) s)) /\
  fold_right Rplus 0 (map snd (ps_area_spec s)) = ps_area s.
Proof.
  intro s. unfold ps_area_spec.
  assert (G : forall s d, NoDup (map fst d) ->
    let r := fold_left (fun d g => acc_add d (g_spec g) (poly_area (g_pts g))) s d in
    NoDup (map fst r) /\ (forall k, In k (map fst r) <-> In k (map fst d) \/ In k (map g_spec s)) /\
    (forall k, acc_get r k = acc_get d k + ps_area (filter (fun g => spec_eqb (g_spec g) k) s)) /\
    acc_total r = acc_total d + ps_area s).
  { clear s; intro s; induction s as [|g s IH]; intros d N; cbn [fold_left map In].
    - cbn. unfold ps_area; cbn. split; [auto|]. split; [intuition|]. split; [intro; lra|lra].
    - destruct (IH (acc_add d (g_spec g) (poly_area (g_pts g)))) as (A & B & C & D); [now apply acc_add_nodup|].
      split; [auto|]. split; [intro k; rewrite B, acc_add_keys; intuition auto|]. split.
      + intro k; rewrite C, acc_add_get. cbn [filter].
        destruct (spec_eqb (g_spec g) k); unfold ps_area; cbn [map fold_right]; lra.
      + rewrite D, acc_add_total. unfold ps_area; cbn [map fold_right]; lra. }
  destruct (G s [] (NoDup_nil _)) as (A & B & C & D). clear G.
  split; [auto|]. split; [intro k; rewrite B; cbn; intuition|]. split.
  - intros k v H.
    assert (E : forall r, NoDup (map fst r) -> In (k, v) r -> acc_get r k = v).
    { clear; induction r as [|[k' w] r IH]; cbn; [tauto|]. intros N [[= -> ->]|H].
      - now rewrite spec_eqb_refl.
      - inversion N; subst. destruct (spec_eqb k' k) eqn:E; [|auto].
        apply spec_eqb_eq in E; subst. exfalso; apply H2. now apply (in_map fst) in H. }
    rewrite <- (E _ A H), C. cbn; lra.
  - unfold acc_total in D. rewrite D. cbn; lra.
Qed.

(** An L-shaped polygon of area 3 with a 1 by 1 square on another layer. *)
Example C26_demo :
  let s := [GPoly [(0, 0); (2, 0); (2, 1); (1, 1); (1, 2); (0, 2)] 1 0; GPoly (rectangle (5, 5) (4, 4)) 2 7] in
  ps_area s = 4 /\ ps_area (ps_scale 2 (Some (-3)) (7, 7) s) = 24 /\
  ps_area (ps_mirror (1, 1) (2, 5) s) = 4.
Proof.
  intro s.
  assert (A : ps_area s = 4).
  { rewrite C26_area. unfold s; cbn. unfold cross; cbn [fst snd].
    match goal with |- / 2 * Rabs ?a + (/ 2 * Rabs ?b + 0) = 4 => replace a with 6 by lra; replace b with (-2) by lra end.
    rewrite (Rabs_right 6), (Rabs_left (-2)); lra. }
  split; [exact A|]. split.
  - rewrite (proj1 (C26_scale _ _ _)), A. rewrite Rabs_left; lra.
  - rewrite (proj2 (proj2 (C26_isometries s))); [exact A|]. intros [= H]; lra.
Qed.

(** ** C27: algebra of transformations *)

Lemma map_pts_comp f g s : map_pts f (map_pts g s) = map_pts (fun p => f (g p)) s.
Proof.
  unfold map_pts. rewrite map_map. apply map_ext; intros [l a b]; unfold on_pts; cbn. now rewrite map_map.
Qed.
Lemma map_pts_ext f g s : (forall p, f p = g p) -> map_pts f s = map_pts g s.
Proof.
  intro H; unfold map_pts. apply map_ext; intros [l a b]; unfold on_pts; cbn. f_equal. now apply map_ext.
Qed.
Lemma map_pts_id s : map_pts (fun p => p) s = s.
Proof.
  unfold map_pts. rewrite <- (map_id s) at 2. apply map_ext; intros [l a b]; unfold on_pts; cbn. now rewrite map_id.
Qed.

Theorem C27_rotate : forall a b c s,
  ps_rotate b c (ps_rotate a c s) = ps_rotate (a + b) c s /\
  ps_rotate 0 c s = s /\
  rotate_pt a c c = c /\ isometry (rotate_pt a c) /\
  (* a quarter turn is counter-clockwise *)
  rotate_pt (PI / 2) c (padd c (1, 0)) = padd c (0, 1).
Proof.
  intros a b c s. split; [|split; [|split; [|split]]].
  - unfold ps_rotate; rewrite map_pts_comp; apply map_pts_ext; intro p.
    apply pt_eq; pts; rewrite cos_plus, sin_plus; ring.
  - unfold ps_rotate. rewrite (map_pts_ext _ (fun p => p)); [apply map_pts_id|].
    intro p; apply pt_eq; pts; rewrite cos_0, sin_0; ring.
  - apply pt_eq; pts; ring.
  - intros p q; pts. pose proof (cs1 a) as H.
    transitivity ((cos a * cos a + sin a * sin a) *
       ((fst p - fst q) * (fst p - fst q) + (snd p - snd q) * (snd p - snd q))); [ring|rewrite H; ring].
  - apply pt_eq; pts; rewrite cos_PI2, sin_PI2; ring.
Qed.

Theorem C27_mirror : forall p1 p2 s, p1 <> p2 ->
  ps_mirror p1 p2 (ps_mirror p1 p2 s) = s /\
  isometry (mirror_pt p1 p2) /\
  (forall p, mirror_pt p1 p2 p = p <-> on_line p1 p2 p) /\
  (forall p, on_line p1 p2 (smul (/ 2) (padd p (mirror_pt p1 p2 p)))).
Proof.
  intros p1 p2 s H. pose proof (dot_pos _ _ H) as D.
  split; [|split; [|split]].
  - unfold ps_mirror; rewrite map_pts_comp, <- (map_pts_id s) at 1. rewrite map_pts_id.
    rewrite (map_pts_ext _ (fun p => p)); [apply map_pts_id|]. intro p. apply pt_eq; pts; field; lra.
  - intros p q; pts; field; lra.
  - intro p; unfold on_line. split; intro E.
    + assert (E1 : fst (mirror_pt p1 p2 p) = fst p) by now rewrite E.
      assert (E2 : snd (mirror_pt p1 p2 p) = snd p) by now rewrite E.
      clear E. pts. set (d := (fst p2 - fst p1) * (fst p2 - fst p1) + (snd p2 - snd p1) * (snd p2 - snd p1)) in *.
      set (u := fst p2 - fst p1) in *; set (v := snd p2 - snd p1) in *.
      set (x := fst p - fst p1) in *; set (y := snd p - snd p1) in *.
      assert (F1 : (x * u + y * v) / d * u = x).
      { replace ((x * u + y * v) / d * u) with (/ 2 * ((x * (2 / d * u) + y * (2 / d * v)) * u)) by (field; lra).
        unfold x in *; lra. }
      assert (F2 : (x * u + y * v) / d * v = y).
      { replace ((x * u + y * v) / d * v) with (/ 2 * ((x * (2 / d * u) + y * (2 / d * v)) * v)) by (field; lra).
        unfold y in *; lra. }
      transitivity (u * ((x * u + y * v) / d * v) - (x * u + y * v) / d * u * v); [rewrite F1, F2; ring|field; lra].
    + pts. set (u := fst p2 - fst p1) in *; set (v := snd p2 - snd p1) in *.
      assert (K : forall x y k : R, k <> 0 -> k * x = k * y -> x = y) by (intros; eapply Rmult_eq_reg_l; eauto).
      apply pt_eq; cbn [fst snd]; apply (K _ _ (u * u + v * v)); try lra.
      * replace ((u * u + v * v) * _) with
          (2 * ((fst p - fst p1) * u + (snd p - snd p1) * v) * u - (u * u + v * v) * fst p + (u * u + v * v) * (2 * fst p1)) by (field; lra).
        assert (Q : u * (snd p - snd p1) = (fst p - fst p1) * v) by lra.
        transitivity (2 * ((fst p - fst p1) * u * u + (u * (snd p - snd p1)) * v) - (u * u + v * v) * fst p + (u * u + v * v) * (2 * fst p1)); [ring|].
        rewrite Q. ring.
      * replace ((u * u + v * v) * _) with
          (2 * ((fst p - fst p1) * u + (snd p - snd p1) * v) * v - (u * u + v * v) * snd p + (u * u + v * v) * (2 * snd p1)) by (field; lra).
        assert (Q : (fst p - fst p1) * v = u * (snd p - snd p1)) by lra.
        transitivity (2 * (((fst p - fst p1) * v) * u + (snd p - snd p1) * v * v) - (u * u + v * v) * snd p + (u * u + v * v) * (2 * snd p1)); [ring|].
        rewrite Q. ring.
  - intro p; unfold on_line; pts. field; lra.
Qed.

Theorem C27_translate : forall v w s,
  ps_translate w (ps_translate v s) = ps_translate (padd v w) s /\
  ps_translate (0, 0) s = s /\ isometry (fun p => padd p v).
Proof.
  intros; split; [|split].
  - unfold ps_translate; rewrite map_pts_comp; apply map_pts_ext; intro p; apply pt_eq; pts; ring.
  - unfold ps_translate. rewrite (map_pts_ext _ (fun p => p)); [apply map_pts_id|].
    intro p; apply pt_eq; pts; ring.
  - intros p q; pts; ring.
Qed.

Theorem C27_scale : forall a b a' b' c s,
  ps_scale a' (Some b') c (ps_scale a (Some b) c s) = ps_scale (a * a') (Some (b * b')) c s /\
  ps_scale a None c s = ps_scale a (Some a) c s /\
  ps_scale 1 None c s = s /\
  scale_pt a (Some b) c c = c /\
  similarity a (scale_pt a None c).
Proof.
  intros; split; [|split; [|split; [|split]]].
  - unfold ps_scale; rewrite map_pts_comp; apply map_pts_ext; intro p; apply pt_eq; pts; ring.
  - reflexivity.
  - unfold ps_scale. rewrite (map_pts_ext _ (fun p => p)); [apply map_pts_id|].
    intro p; apply pt_eq; pts; ring.
  - apply pt_eq; pts; ring.
  - intros p q; pts; ring.
Qed.

(** Layers, datatypes and the number and order of polygons and vertices do not
    change under any of the four. *)
Theorem C27_keeps_specs : forall s f, f = map_pts (fun p => p) \/
    (exists a c, f = ps_rotate a c) \/ (exists x y c, f = ps_scale x y c) \/
    (exists v, f = ps_translate v) \/ (exists p q, f = ps_mirror p q) ->
  map g_spec (f s) = map g_spec s /\ map (fun g => length (g_pts g)) (f s) = map (fun g => length (g_pts g)) s.
Proof.
  assert (G : forall f s, map g_spec (map_pts f s) = map g_spec s /\
     map (fun g => length (g_pts g)) (map_pts f s) = map (fun g => length (g_pts g)) s).
  { intros f s; unfold map_pts; rewrite !map_map; split; apply map_ext; intros [l a b]; cbn; auto.
    now rewrite map_length. }
  intros s f [->|[(a & c & ->)|[(x & y & c & ->)|[(v & ->)|(p & q & ->)]]]]; apply G.
Qed.

Example C27_demo :
  ps_mirror (0, 0) (1, 1) [GPoly [(1, 0); (2, 0); (2, 1)] 3 4] = [GPoly [(0, 1); (0, 2); (1, 2)] 3 4].
Proof.
  unfold ps_mirror, map_pts, on_pts; cbn. repeat (f_equal; try (apply pt_eq; pts; lra)).
Qed.

(** ** C57: bounding box of a polygon set *)

Theorem C57_box : forall s, right_box (ps_bbox s) (flat_map g_pts s).
Proof. intro; apply box_of_right. Qed.

(** The box follows translations and scalings with positive or negative factors
    exactly. *)
Theorem C57_box_unique : forall s b, right_box b (flat_map g_pts s) -> b = ps_bbox s.
Proof. intros s b H; eapply right_box_unique; [exact H|apply C57_box]. Qed.

Example C57_demo : ps_bbox [GPoly [(1, 5); (2, 0); (-2, 1)] 0 0; GPoly [(0, 7)] 0 0] = Some ((-2, 0), (2, 7)).
Proof.
  symmetry; apply C57_box_unique. cbn. unfold is_box; cbn [fst snd].
  split; [intros p [<-|[<-|[<-|[<-|[]]]]]; cbn; lra|].
  split; [exists (-2, 1); cbn; intuition|]. split; [exists (2, 0); cbn; intuition|].
  split; [exists (2, 0); cbn; intuition|exists (0, 7); cbn; intuition].
Qed.

Print Assumptions C26_area.
Print Assumptions C26_isometries.
Print Assumptions C26_scale.
Print Assumptions C26_vertex_order.
Print Assumptions C26_rectangle.
Print Assumptions C26_by_spec.
Print Assumptions C27_rotate.
Print Assumptions C27_mirror.
Print Assumptions C27_translate.
Print Assumptions C27_scale.
Print Assumptions C27_keeps_specs.
Print Assumptions C57_box.
Print Assumptions C57_box_unique.
