(** Queries over hierarchies: C20 (boxes), C22 (areas), C23 (references),
    C24 (arrays), C39 (get_polygons). *)

From Coq Require Import Reals Lra List ZArith Bool Lia Permutation.
From Verif Require Import Graph SpecGraph GraphProofs Plane SpecPlane PlaneProofs Hier SpecHier HierProofs HierQuery
  HierBox HierFlat Cache CacheProofs.
Import ListNotations.
Open Scope R_scope.

(** ** A library to test the statements on

    Paths are lists of polygons that move as they should. *)
Definition toy_map (org : option pt) (rot mag : option R) (refl : bool) (arr : option pt) (p : pt) : pt :=
  do_org org (match rot with Some t => rot_cs (cos t) (sin t) | None => fun p => p end
    (do_refl refl (do_org arr (do_mag mag p)))).
Definition toy : pathops (list (spec * list poly)) :=
  PathOps (fun p => p) (map fst) (fun p => match p with [] => true | _ => false end)
    (fun o r m b a => map (fun kv => (fst kv, map (map (toy_map o r m b a)) (snd kv))))
    (fun l d p => match p with
                  | kv :: _ => [((or_old l (fst (fst kv)), or_old d (snd (fst kv))), flat_map snd p)]
                  | [] => [] end).
Definition tri : poly := [(0, 0); (3, 0); (0, 4)].
Definition here : place := Place None None None false None.
(** Cell 0 has a triangle on layer 1 and a path on layer 2; cell 1 a label and a
    reflected, rotated, doubled reference to cell 0; cell 2 a 2 by 3 array of cell 1,
    a plain reference to cell 0 and a reference by name. *)
Definition demo : heap place (stuff (list (spec * list poly))) :=
  let h := nothing in
  let h := new_cell (new_cell (new_cell h [65%Z]) [66%Z]) [67%Z] in
  let h := put h 0 (EPoly (PSet [GPoly tri 1 0] false)) in
  let h := put h 0 (EPath [((2%Z, 0%Z), [tri])]) in
  let h := put h 1 (ELabel (Lbl [88%Z] (5, 6) 3 (Some 4%Z) None None false)) in
  let h := put h 1 (ERef (ToCell 0) (Place (Some (10, 0)) (Some 90) (Some 2) true None)) in
  let h := put h 2 (ERef (ToCell 1) (Place None (Some 30) None false (Some (2%nat, 3%nat, (100, 50))))) in
  let h := put h 2 (ERef (ToCell 0) here) in
  put h 2 (ERef (ToName [90%Z]) here).
Lemma demo_ok : heap_wf demo /\ (forall c, (c < h_ncell demo)%nat -> acyclic demo c) /\ h_ncell demo = 3%nat.
Proof.
  split; [|split; [|reflexivity]].
  - assert (W : heap_wf (new_cell (new_cell (new_cell (@nothing (list (spec * list poly))) [65%Z]) [66%Z]) [67%Z])).
    { apply (sound_new toy _ (fun _ => False)), (sound_new toy), (sound_new toy), nothing_sound. }
    repeat (apply put_wf; [|cbn; lia|cbn; auto; lia]). exact W.
  - intros c H. change (h_ncell demo) with 3%nat in H.
    assert (D : forall c, (c < 3)%nat -> get_dependencies demo c true <> None).
    { intros [|[|[|d]]] Hd; try lia; vm_compute; discriminate. }
    specialize (D c H). destruct (get_dependencies demo c true) as [l|] eqn:E; [|congruence].
    exact (deps_acyclic _ _ _ _ E).
Qed.

Section PropHier.
Context {P : Type} (ops : pathops P).
Notation heap := (heap place (stuff P)).

(** ** C23: references are similarity transformations and compose *)

(** The polygons of a reference are those of the cell reflected in the x axis,
    scaled, rotated and translated, in that order. *)
Theorem C23_reference : forall pl l, p_arr pl = None ->
  place_polys pl l =
  map (map (fun p => padd (origin pl) (turn (angle pl) (smul (factor pl) (flip (p_refl pl) p))))) l.
Proof.
  intros pl l E. unfold place_polys. rewrite E. apply map_ext; intro q. apply map_ext; intro p.
  apply ref_map_similar. now right.
Qed.
(** All distances are multiplied by the magnification (squared distances by its
    square). *)
Theorem C23_similarity : forall pl p q, p_arr pl = None ->
  dist2 (ref_map pl p) (ref_map pl q) = factor pl * factor pl * dist2 p q.
Proof. intros pl p q E. rewrite !ref_map_similar by now right. apply similar_similarity. Qed.

Lemma compose_similar a b p :
  ref_map a (ref_map b p) = ref_map (compose a b) p.
Proof.
  rewrite !ref_map_similar by now right. unfold compose; cbn [p_refl].
  set (pl := Place _ _ _ _ None).
  assert (O : origin pl = similar (origin a) (angle a) (factor a) (p_refl a) (origin b)) by reflexivity.
  assert (F : factor pl = factor a * factor b) by reflexivity.
  assert (A : angle pl = if p_refl a then angle a - angle b else angle a + angle b).
  { unfold pl, angle, deg_of; cbn [p_rot]. destruct (p_refl a), (p_rot a), (p_rot b); field. }
  rewrite O, F, A. clear O F A pl.
  unfold similar, turn, flip, smul, padd. destruct (p_refl a), (p_refl b); cbn [xorb fst snd];
    rewrite ?cos_plus, ?sin_plus, ?cos_minus, ?sin_minus; f_equal; ring.
Qed.
(** A reference to a cell that holds nothing but a reference is one reference
    with composed parameters. *)
Theorem C23_composes : forall (h : heap) c d e r r' fuel l,
  crefs h c = [r] -> rtarget h r = ToCell d -> crefs h d = [r'] -> rtarget h r' = ToCell e ->
  contents ops h c = [] -> contents ops h d = [] ->
  p_arr (place_of h r) = None -> p_arr (place_of h r') = None ->
  polys_fuel ops h (S (S fuel)) c = Some l ->
  exists le, polys_fuel ops h fuel e = Some le /\
             l = place_polys (compose (place_of h r) (place_of h r')) le.
Proof.
  intros h c d e r r' fuel l Rc Tr Rd Tr' Cc Cd A A' E.
  assert (N : forall x, contents ops h x = [] -> own_polys (stuff_of h x) ++ flat_map (path_flat ops) (s_paths (stuff_of h x)) = []).
  { intros x Hx. apply (f_equal (map snd)) in Hx. cbn in Hx. rewrite <- Hx. unfold contents. rewrite map_app, !map_flat_map. f_equal.
    - unfold own_polys. apply flat_map_ext; intro. now rewrite map_map.
    - apply flat_map_ext; intro. unfold path_flat. rewrite map_flat_map. apply flat_map_ext; intro. rewrite map_map. cbn. now rewrite map_id. }
  apply polys_step in E as (r0 & E & ->). rewrite app_assoc, (N c Cc). cbn [app].
  unfold expand in E. rewrite Rc in E. cbn [collect] in E. rewrite Tr in E.
  change (iter_fuel (flat_step ops (fun _ => None) h) (S fuel) (None, d)) with (polys_fuel ops h (S fuel) d) in E.
  destruct (polys_fuel ops h (S fuel) d) as [ld|] eqn:Ed; [|discriminate]. injection E as <-.
  apply polys_step in Ed as (r1 & Ed & ->). rewrite app_assoc, (N d Cd). cbn [app].
  unfold expand in Ed. rewrite Rd in Ed. cbn [collect] in Ed. rewrite Tr' in Ed.
  change (iter_fuel (flat_step ops (fun _ => None) h) fuel (None, e)) with (polys_fuel ops h fuel e) in Ed.
  destruct (polys_fuel ops h fuel e) as [le|] eqn:Ee; [|discriminate]. injection Ed as <-.
  exists le. split; [reflexivity|]. rewrite !app_nil_r. unfold place_polys. rewrite A, A'. cbn [compose p_arr].
  rewrite map_map. apply map_ext; intro q. rewrite map_map. apply map_ext; intro p. apply compose_similar.
Qed.

(** ** C24: an array is the union of its references *)

(** Element (i, j) as a reference of its own. *)
Definition elem_ref (pl : place) (i j : nat) (sp : pt) : place :=
  Place (Some (padd (origin pl) (turn (angle pl) (flip (p_refl pl) (INR i * fst sp, INR j * snd sp)))))
        (p_rot pl) (p_mag pl) (p_refl pl) None.
Definition elem_refs (pl : place) (n m : nat) (sp : pt) : list place :=
  flat_map (fun i => map (fun j => elem_ref pl i j sp) (seq 0 m)) (seq 0 n).

Theorem C24_array : forall pl n m sp l, p_arr pl = Some (n, m, sp) ->
  place_polys pl l = flat_map (fun e => place_polys e l) (elem_refs pl n m sp) /\
  length (elem_refs pl n m sp) = (n * m)%nat.
Proof.
  intros pl n m sp l E. split.
  2: { unfold elem_refs. rewrite (flat_map_const _ m); [now rewrite seq_length|]. intros. now rewrite map_length, seq_length. }
  unfold place_polys at 1. rewrite E. unfold grid, elem_refs. rewrite !flat_map_flat_map. apply flat_map_ext; intro i.
  rewrite !flat_map_map. apply flat_map_ext; intro j. unfold place_polys; cbn [elem_ref p_arr].
  apply map_ext; intro q. apply map_ext; intro p. rewrite arr_map_similar. rewrite ref_map_similar by now right. reflexivity.
Qed.

(** A cell holding one array and a cell holding the single references show the
    same polygons, have the same area and the same box. *)
Theorem C24_cells : forall (h : heap) c c' r rs e n m sp,
  p_arr (place_of h r) = Some (n, m, sp) -> crefs h c = [r] -> rtarget h r = ToCell e ->
  crefs h c' = rs -> Forall (fun x => rtarget h x = ToCell e) rs ->
  map (place_of h) rs = elem_refs (place_of h r) n m sp -> contents ops h c = contents ops h c' ->
  forall fuel l l', polys_fuel ops h fuel c = Some l -> polys_fuel ops h fuel c' = Some l' ->
  l = l' /\
  (forall f a a', area_fuel ops h f c = Some a -> area_fuel ops h f c' = Some a' -> a = a') /\
  (forall pf f b b', in_range ops h c -> in_range ops h c' ->
     box_fuel ops h pf f c = Some b -> box_fuel ops h pf f c' = Some b' -> b = b').
Proof.
  intros h c c' r rs e n m sp A Rc Tr Rc' Ts Ps Co fuel l l' E E'.
  assert (LL : l = l').
  { destruct fuel as [|f]; [discriminate|].
    assert (N : forall x, own_polys (stuff_of h x) ++ flat_map (path_flat ops) (s_paths (stuff_of h x)) = map snd (contents ops h x)).
    { intros x. unfold contents. rewrite map_app, !map_flat_map. f_equal.
      - unfold own_polys. apply flat_map_ext; intro. now rewrite map_map.
      - apply flat_map_ext; intro. unfold path_flat. rewrite map_flat_map. apply flat_map_ext; intro. rewrite map_map. cbn. now rewrite map_id. }
    apply polys_step in E as (x & E & ->). apply polys_step in E' as (x' & E' & ->).
    rewrite !app_assoc, !N, Co. f_equal. unfold expand in E, E'. rewrite Rc in E. rewrite Rc' in E'. cbn [collect] in E. rewrite Tr in E.
    change (iter_fuel (flat_step ops (fun _ => None) h) f (None, e)) with (polys_fuel ops h f e) in E.
    destruct (polys_fuel ops h f e) as [le|] eqn:Le; [|discriminate]. injection E as <-. rewrite app_nil_r.
    rewrite (proj1 (C24_array _ _ _ _ _ A)), <- Ps.
    clear - Ts Le E'. revert x' E'. induction Ts as [|y ys T _ IH]; intros x' E'; cbn [collect] in E'; [injection E' as <-; reflexivity|].
    rewrite T in E'. change (iter_fuel (flat_step ops (fun _ => None) h) f (None, e)) with (polys_fuel ops h f e) in E'.
    rewrite Le in E'. destruct (collect _ ys) as [b|] eqn:B; [|discriminate]. injection E' as <-. cbn [map]. simpl. f_equal. now apply IH. }
  subst l'. split; [reflexivity|]. split.
  - intros f a a' H H'. rewrite (area_ok ops h f _ c a l H E), (area_ok ops h f _ c' a' l H' E'). reflexivity.
  - intros pf f b b' I I' H H'.
    rewrite (box_ok ops h pf f _ c b l I H E), (box_ok ops h pf f _ c' b' l I' H' E'). reflexivity.
Qed.

(** The dictionary form agrees unless the magnification is zero. *)
Theorem C24_dictionary : forall pl l, (p_arr pl <> None -> p_mag pl <> Some 0) -> place_entry pl l = place_polys pl l.
Proof. exact place_entry_ok. Qed.

End PropHier.

(** Shown in the list, an array of magnification zero collapses to a point; in the
    dictionary it does not. *)
Theorem C24_zero_magnification_refuted : exists pl l, place_entry pl l <> place_polys pl l.
Proof.
  exists (Place None None (Some 0) false (Some (1%nat, 1%nat, (0, 0)))), [[(1, 1)]].
  unfold place_entry, place_polys, arr_map, arr_map_dict; cbn. destruct (Req_EM_T 0 0) as [_|N]; [|lra].
  unfold padd, pmul; cbn. intro H. injection H as H _. lra.
Qed.

(** A reference inside a reference, both reflected, turned by 90 and 30 degrees. *)
Example C23_demo : forall p,
  ref_map (Place (Some (1, 2)) (Some 90) (Some 3) true None) (ref_map (Place (Some (4, 0)) (Some 30) (Some (1/2)) true None) p)
  = ref_map (Place (Some (1, 14)) (Some 60) (Some (3/2)) false None) p.
Proof.
  intro p. rewrite compose_similar. f_equal. unfold compose; cbn [p_refl p_rot p_mag p_org deg_of factor origin angle xorb].
  unfold similar, turn, flip, smul, padd; cbn [fst snd].
  replace (90 * PI / 180) with (PI / 2) by field. rewrite cos_PI2, sin_PI2.
  f_equal; f_equal; try lra. f_equal; lra.
Qed.
Example C24_demo : length (elem_refs (Place None (Some 30) None false (Some (2%nat, 3%nat, (100, 50)))) 2 3 (100, 50)) = 6%nat.
Proof. reflexivity. Qed.

Print Assumptions C23_reference.
Print Assumptions C23_similarity.
Print Assumptions C23_composes.
Print Assumptions C24_array.
Print Assumptions C24_cells.
Print Assumptions C24_dictionary.
Print Assumptions C24_zero_magnification_refuted.
