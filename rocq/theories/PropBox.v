(** C20: bounding boxes of cells, computed from scratch and through the cache. *)

From Coq Require Import Reals Lra List ZArith Bool Lia Permutation.
From Verif Require Import Graph SpecGraph GraphProofs Plane SpecPlane PlaneProofs Hier SpecHier HierProofs HierQuery
  HierBox HierFlat Cache CacheProofs PropHier PropQuery.
Import ListNotations.
Open Scope R_scope.

Section PropBox.
Context {P : Type} (ops : pathops P).
Notation heap := (heap place (stuff P)).

(** A box computed without any cache is the smallest one around all vertices of
    all polygons of the cell, references expanded, for all rotations; it is [None]
    exactly when there are no vertices. *)
Theorem C20_fresh : forall (h : heap) pf fuel m c b l, in_range ops h c ->
  box_fuel ops h pf fuel c = Some b -> polys_fuel ops h m c = Some l -> right_box b (concat l).
Proof. intros h pf fuel m c b l R B L. rewrite (box_ok ops h pf fuel m c b l R B L). apply box_of_right. Qed.

(** In a history without additions below a measured cell, every box returned,
    cached or not, is the smallest box around the polygons of that moment. *)
Theorem C20_cached : forall acts (h : heap) M c h' b, careful ops nothing (fun _ => False) acts h M ->
  (c < h_ncell h)%nat -> in_range ops h c -> measure ops h c = Some (h', b) ->
  exists l, get_polygons ops h c = Some l /\ right_box b (concat l) /\ get_polygons ops h' c = Some l.
Proof.
  intros acts h M c h' b H Hc RG Me. pose proof (careful_sound ops _ _ _ _ _ H (nothing_sound ops)) as S.
  destruct S as (W & C & V). destruct (measure_ok ops _ _ h c h' b RG C Me) as (G & _ & F & _).
  apply (fresh_geom ops h' h) in F; [|now apply same_geom_sym]. destruct F as (m & l & E & ->).
  assert (D : exists ds, get_dependencies h c true = Some ds).
  { unfold measure in Me. cbn [measure_fuel] in Me. destruct (get_dependencies h c true) as [ds|]; [eauto|discriminate]. }
  destruct D as [ds D]. destruct (polys_fuel_total ops h c ds D) as [l' E'].
  pose proof (polys_det ops h _ _ c _ _ E E') as <-. exists l. split; [exact E'|]. split; [apply box_of_right|].
  unfold get_polygons. destruct G as (G1 & G2 & G3 & G4). rewrite G3.
  rewrite (same_geom_polys ops h h'); [exact E'|]. split; [auto|split; [auto|split; auto]].
Qed.

(** The query is defined on every acyclic cell, apart from paths of fewer than two
    points, which raise. *)
Theorem C20_defined : forall acts (h : heap) M c, careful ops nothing (fun _ => False) acts h M ->
  (c < h_ncell h)%nat -> acyclic h c -> in_range ops h c -> solid ops h c -> exists h' b, measure ops h c = Some (h', b).
Proof.
  intros acts h M c H Hc A RG S. pose proof (careful_sound ops _ _ _ _ _ H (nothing_sound ops)) as (W & C & _).
  destruct (defined_deps h c (conj W (conj Hc A))) as [dl E].
  assert (GD : forall d, under h c d -> get_dependencies h d true <> None).
  { intros d U. apply deps_total; [exact W| |].
    - destruct U as [->|U]; [auto|eapply reach_lt; eauto].
    - intros x Ux. apply A. destruct U as [->|U]; [exact Ux|]. right. destruct Ux as [->|Ux]; [auto|eapply reach_trans; eauto]. }
  destruct (measure_total ops (Datatypes.S (h_ncell h)) _ h c dl RG C S GD (le_n _) E) as [[h' b] R]. eauto.
Qed.

End PropBox.

(** ** Stale boxes

    A refers to the empty B; A is measured; a polygon is added to B; B is
    measured; A's cached box is then returned unchanged. *)
Definition stale_acts : list (@deed (list (spec * list poly))) :=
  [Make [65%Z]; Make [66%Z]; Add 0 (ERef (ToCell 1) here); Measure 0; Add 1 (EPoly (PSet [GPoly tri 1 0] false)); Measure 1].
Definition st0 : heap place (stuff (list (spec * list poly))) :=
  put (new_cell (new_cell nothing [65%Z]) [66%Z]) 0 (ERef (ToCell 1) here).
Definition st1 := set_bb (set_bb st0 1 None) 0 None.
Definition st2 := put st1 1 (EPoly (PSet [GPoly tri 1 0] false)).
Definition st3 := set_bb st2 1 (option_map clamp_box (box_of ((tri ++ []) ++ []))).
Lemma st_measure0 : measure toy st0 0 = Some (st1, None). Proof. reflexivity. Qed.
Lemma st_measure1 : measure toy st2 1 = Some (st3, option_map clamp_box (box_of ((tri ++ []) ++ []))). Proof. reflexivity. Qed.
Lemma st_measure2 : measure toy st3 0 = Some (st3, None). Proof. reflexivity. Qed.
Lemma st_polygons : get_polygons toy st3 0 = Some [map (ref_map here) tri]. Proof. reflexivity. Qed.
Theorem C20_stale_refuted : exists h l, doing toy nothing stale_acts h /\ measure toy h 0 = Some (h, None) /\
  get_polygons toy h 0 = Some l /\ ~ right_box None (concat l).
Proof.
  exists st3, [map (ref_map here) tri]. split; [|split; [apply st_measure2|split; [apply st_polygons|]]].
  - unfold stale_acts. do 2 constructor. constructor; [cbn; lia|cbn; lia|].
    eapply doing_measure; [cbn; lia|apply st_measure0|]. constructor; [cbn; lia|exact I|].
    eapply doing_measure; [cbn; lia|apply st_measure1|]. constructor.
  - discriminate.
Qed.

(** Even the cell asked for can be wrong: R refers to B and, further away, to A,
    which refers to B. R is measured, a polygon is added to B, and R is measured
    again. The second reference contributes the box A had before. *)
Definition far : place := Place (Some (100, 0)) None None false None.
Definition top_acts : list (@deed (list (spec * list poly))) :=
  [Make [65%Z]; Make [66%Z]; Make [67%Z]; Add 0 (ERef (ToCell 1) here); Add 2 (ERef (ToCell 1) here);
   Add 2 (ERef (ToCell 0) far); Measure 2; Add 1 (EPoly (PSet [GPoly tri 1 0] false))].
Definition tp0 : heap place (stuff (list (spec * list poly))) :=
  put (put (put (new_cell (new_cell (new_cell nothing [65%Z]) [66%Z]) [67%Z]) 0 (ERef (ToCell 1) here))
    2 (ERef (ToCell 1) here)) 2 (ERef (ToCell 0) far).
Definition tp1 := set_bb (set_bb (set_bb tp0 1 None) 0 None) 2 None.
Definition tp2 := put tp1 1 (EPoly (PSet [GPoly tri 1 0] false)).
Definition boxB := option_map clamp_box (box_of ((tri ++ []) ++ [])).
Definition boxR := option_map clamp_box
  (box_of (box_pts (match boxB with Some b => box_of (concat (place_polys here [[fst b; snd b]])) | None => None end) ++ [])).
Definition tp3 := set_bb (set_bb tp2 1 boxB) 2 boxR.
Lemma tp_measure0 : measure toy tp0 2 = Some (tp1, None). Proof. reflexivity. Qed.
Lemma tp_measure1 : measure toy tp2 2 = Some (tp3, boxR). Proof. reflexivity. Qed.
Lemma tp_polygons : get_polygons toy tp2 2 = Some [map (ref_map here) tri; map (ref_map far) (map (ref_map here) tri)].
Proof. reflexivity. Qed.
Lemma here_id p : ref_map here p = p. Proof. now destruct p. Qed.
Lemma tri_modest : forall p, In p tri -> Rabs (fst p) <= huge /\ Rabs (snd p) <= huge.
Proof.
  assert (H : 4 <= huge).
  { unfold huge. apply Rle_trans with (10 ^ 1); [lra|]. apply Rle_pow; [lra|]. apply leb_complete. reflexivity. }
  intros p [<-|[<-|[<-|[]]]]; cbn [fst snd]; rewrite !Rabs_right; lra.
Qed.
Lemma boxB_ok : boxB = box_of tri.
Proof.
  unfold boxB. rewrite !app_nil_r. destruct (box_of tri) as [b|] eqn:E; [|reflexivity]. cbn [option_map].
  f_equal. eapply clamp_id; [exact E|apply tri_modest].
Qed.
Lemma boxR_ok : boxR = box_of tri.
Proof.
  unfold boxR. rewrite app_nil_r, boxB_ok. destruct (box_of tri) as [b|] eqn:E; [|discriminate E].
  assert (Q : box_of (concat (place_polys here [[fst b; snd b]])) = Some b).
  { unfold place_polys; cbn [p_arr here map concat app]. rewrite !here_id, <- E. symmetry. apply hull_box. now apply hull_corners. }
  rewrite Q. cbn [box_pts]. rewrite <- (hull_box _ _ (hull_corners _ _ E)), E. cbn [option_map].
  f_equal. eapply clamp_id; [exact E|apply tri_modest].
Qed.
Theorem C20_stale_top_refuted : exists h h' b l, doing toy nothing top_acts h /\ measure toy h 2 = Some (h', b) /\
  get_polygons toy h 2 = Some l /\ ~ right_box b (concat l).
Proof.
  exists tp2, tp3, boxR, [map (ref_map here) tri; map (ref_map far) (map (ref_map here) tri)].
  split; [|split; [apply tp_measure1|split; [apply tp_polygons|]]].
  - unfold top_acts. do 3 constructor. do 3 (constructor; [cbn; lia|cbn; lia|]).
    eapply doing_measure; [cbn; lia|apply tp_measure0|]. constructor; [cbn; lia|exact I|]. constructor.
  - rewrite boxR_ok. intro H. pose proof (box_of_right tri) as T. destruct (box_of tri) as [b|]; [|discriminate T].
    destruct T as (_ & _ & _ & (p & Hp & Ep) & _). destruct H as (H & _).
    destruct (H (100, 0)) as [[_ G] _].
    { cbn [concat]. apply in_or_app; right. apply in_or_app; left. rewrite map_map. apply in_map_iff. exists (0, 0).
      split; [|now left]. rewrite here_id. cbn. unfold padd; cbn. f_equal; lra. }
    destruct Hp as [<-|[<-|[<-|[]]]]; cbn [fst] in *; lra.
Qed.

(** *** The hypotheses are met: a triangle is added to B, B is measured, a reference
    to B is added to A, A is measured, A is measured again. *)
Definition dm0 : heap place (stuff (list (spec * list poly))) :=
  put (new_cell (new_cell nothing [65%Z]) [66%Z]) 1 (EPoly (PSet [GPoly tri 1 0] false)).
Definition dm1 := set_bb dm0 1 boxB.
Definition dm2 := put dm1 0 (ERef (ToCell 1) far).
Definition boxA := option_map clamp_box
  (box_of (box_pts (match boxB with Some b => box_of (concat (place_polys far [[fst b; snd b]])) | None => None end) ++ [])).
Definition dm3 := set_bb dm2 0 boxA.
Lemma dm_measure0 : measure toy dm0 1 = Some (dm1, boxB). Proof. reflexivity. Qed.
Lemma dm_measure1 : measure toy dm2 0 = Some (dm3, boxA). Proof. reflexivity. Qed.
Lemma dm_measure2 : measure toy dm3 0 = Some (dm3, boxA). Proof. reflexivity. Qed.
Lemma dm_polys0 : polys_fuel toy dm0 1 1 = Some [tri]. Proof. reflexivity. Qed.
Lemma dm_polys1 : polys_fuel toy dm2 1 1 = Some [tri]. Proof. reflexivity. Qed.
Lemma dm_polys2 : polys_fuel toy dm2 2 0 = Some [map (ref_map far) tri]. Proof. reflexivity. Qed.
Lemma dm_crefs : crefs dm0 1 = [] /\ crefs dm2 1 = [] /\ crefs dm2 0 = [0%nat] /\ rtarget dm2 0 = ToCell 1.
Proof. repeat split. Qed.
Lemma reach_nothing {A B} (h : Graph.heap A B) x y : crefs h x = [] -> ~ reach h x y.
Proof. intros E R. inversion R as [a b (r & Hr & _)|a b c (r & Hr & _)]; subst; rewrite E in Hr; destruct Hr. Qed.
Lemma big_huge : 103 <= huge.
Proof. unfold huge. apply Rle_trans with (10 ^ 3); [lra|]. apply Rle_pow; [lra|]. apply leb_complete. reflexivity. Qed.
Example C20_demo : exists acts M, careful toy nothing (fun _ => False) acts dm3 M /\
  acts = [Make [65%Z]; Make [66%Z]; Add 1 (EPoly (PSet [GPoly tri 1 0] false)); Measure 1; Add 0 (ERef (ToCell 1) far); Measure 0] /\
  measure toy dm3 0 = Some (dm3, boxA) /\ get_polygons toy dm3 0 = Some [map (ref_map far) tri] /\ in_range toy dm3 0.
Proof.
  destruct dm_crefs as (R0 & R1 & R2 & T). pose proof tri_modest as TM. pose proof big_huge as BH.
  assert (FM : forall p, In p (map (ref_map far) tri) -> Rabs (fst p) <= huge /\ Rabs (snd p) <= huge).
  { intros p [<-|[<-|[<-|[]]]]; cbn; rewrite !Rabs_right; lra. }
  assert (G2 : in_range toy dm2 0).
  { intros d U m l p E Ip. assert (D : d = 0%nat \/ d = 1%nat).
    { destruct U as [->|U]; [auto|]. right. inversion U as [a b (r & Hr & Q)|a b c (r & Hr & Q) W]; subst.
      - rewrite R2 in Hr. destruct Hr as [<-|[]]. rewrite T in Q. now injection Q.
      - rewrite R2 in Hr. destruct Hr as [<-|[]]. rewrite T in Q. injection Q as <-. destruct (reach_nothing _ _ _ R1 W). }
    destruct D as [->| ->].
    - rewrite (polys_det toy dm2 _ _ _ _ _ E dm_polys2) in Ip. cbn [concat] in Ip. rewrite app_nil_r in Ip. auto.
    - rewrite (polys_det toy dm2 _ _ _ _ _ E dm_polys1) in Ip. cbn [concat] in Ip. rewrite app_nil_r in Ip. auto. }
  do 2 eexists. split; [|split; [reflexivity|split; [apply dm_measure2|split; [reflexivity|]]]].
  - do 2 constructor. constructor; [cbn; lia|exact I|intros a []|].
    eapply do_measure; [cbn; lia| |apply dm_measure0|].
    { intros d U m l p E Ip. destruct U as [->|U]; [|destruct (reach_nothing _ _ _ R0 U)].
      rewrite (polys_det toy dm0 _ _ _ _ _ E dm_polys0) in Ip. cbn [concat] in Ip. rewrite app_nil_r in Ip. auto. }
    constructor; [cbn; lia|cbn; lia| |].
    { intros a [[]|[->|U]]; [|destruct (reach_nothing _ _ _ R0 U)]. now apply reach_nothing. }
    eapply do_measure; [cbn; lia|exact G2|apply dm_measure1|constructor].
  - apply (same_geom_range toy dm2); [apply set_bb_geom|exact G2].
Qed.

Print Assumptions C20_fresh.
Print Assumptions C20_cached.
Print Assumptions C20_defined.
Print Assumptions C20_stale_refuted.
Print Assumptions C20_stale_top_refuted.
