(** Copying cells: Cell.copy (gdspy/library.py 180-294), and gdspy.copy
    (gdspy/operation.py 302-332) on polygon sets, labels and references. *)

From Coq Require Import Reals Lra List ZArith Bool Lia.
From Verif Require Import Graph Plane Hier.
Import ListNotations.
Open Scope R_scope.

(** The arguments translation, rotation (radians), scale and x_reflection. *)
Record motion := Motion { m_v : option pt; m_t : option R; m_s : option R; m_x : bool }.
Definition is_some {X} (o : option X) : bool := match o with Some _ => true | None => false end.
(** [transform], library.py 216-225 *)
Definition moving (m : motion) : bool := m_x m || is_some (m_s m) || is_some (m_t m) || is_some (m_v m).

(** [r], [s], [t], [(dx, dy)], library.py 240-243 *)
Definition mr (m : motion) : R := if m_x m then -1 else 1.
Definition ms (m : motion) : R := match m_s m with None => 1 | Some s => s end.
Definition mt (m : motion) : R := match m_t m with None => 0 | Some t => t end.
Definition mv (m : motion) : pt := match m_v m with None => (0, 0) | Some v => v end.

(** Polygon sets, library.py 247-255 *)
Definition copy_gset (m : motion) (g : gset) : gset :=
  let g := if m_x m then ps_scale 1 (Some (-1)) (0, 0) g else g in
  let g := match m_s m with Some s => ps_scale s None (0, 0) g | None => g end in
  let g := match m_t m with Some t => ps_rotate t (0, 0) g | None => g end in
  match m_v m with Some v => ps_translate v g | None => g end.
Definition copy_pset (m : motion) (ps : pset) : pset := PSet (copy_gset m (ps_list ps)) (ps_tup ps).

(** Positions, rotations, magnifications, library.py 260-277 and 279-294.  The
    test [x_reflection is None] never succeeds for a boolean: [r0] is 1. *)
Definition copy_pos (m : motion) (p : pt) : pt :=
  (fst (mv m) + ms m * (fst p * cos (mt m) - mr m * snd p * sin (mt m)),
   snd (mv m) + ms m * (fst p * sin (mt m) + mr m * snd p * cos (mt m))).
Definition copy_rot (m : motion) (rot : option R) : option R :=
  let t0 := match rot with None => 0 | Some d => d * PI / 180 end in
  let a := (mr m * t0 + mt m) * 180 / PI in
  if Req_EM_T a 0 then None else Some a.
Definition copy_mag (m : motion) (mag : option R) : option R :=
  let s0 := match mag with None => 1 | Some k => k end in
  if Req_EM_T (ms m * s0) 1 then None else Some (ms m * s0).
Definition copy_refl (m : motion) (own : bool) : bool :=
  let r0 := 1 in if Rlt_dec (mr m * r0) 0 then true else false.

Definition copy_label (m : motion) (l : lbl) : lbl :=
  Lbl (l_text l) (copy_pos m (l_pos l)) (l_layer l) (l_tt l)
      (copy_rot m (l_rot l)) (copy_mag m (l_mag l)) (copy_refl m (l_refl l)).
(** [dx0, dy0 = ref.origin] raises when the origin is None. *)
Definition copy_place (m : motion) (pl : place) : option place :=
  match p_org pl with
  | None => None
  | Some o => Some (Place (Some (copy_pos m o)) (copy_rot m (p_rot pl)) (copy_mag m (p_mag pl))
                          (copy_refl m (p_refl pl)) (p_arr pl))
  end.

Section Copy.
Context {P : Type} (ops : pathops P).
Notation heap := (heap place (stuff P)).

Definition copy_ref (m : motion) (g : gref place) : option (gref place) :=
  if moving m then option_map (GRef (r_target g)) (copy_place m (r_data g)) else Some g.

(** New reference objects. *)
Definition alloc_refs (h : heap) (gs : list (gref place)) : heap :=
  Heap (h_cell h)
       (fun r => if (r <? h_nref h)%nat then h_ref h r else nth (r - h_nref h) gs (h_ref h r))
       (h_ncell h) (h_nref h + length gs).

Definition move_stuff (m : motion) (s : stuff P) : stuff P :=
  if moving m
  then Stuff (map (copy_pset m) (s_polys s)) (map (po_move ops (m_v m) (m_t m) (m_s m) (m_x m) None) (s_paths s))
             (map (copy_label m) (s_labels s)) None false
  else Stuff (s_polys s) (s_paths s) (s_labels s) None false.

(** Cell.copy: the new cell is object number [h_ncell h].  Without deep copy the
    lists are new but hold the same objects. *)
Definition cell_copy (h : heap) (c : nat) (n : name) (deep : bool) (m : motion) : option heap :=
  if deep || moving m then
    match collect (fun r => option_map (fun g => [g]) (copy_ref m (h_ref h r))) (crefs h c) with
    | None => None
    | Some gs => Some (fst (alloc_cell (alloc_refs h gs) n (seq (h_nref h) (length gs)) (move_stuff m (stuff_of h c))))
    end
  else Some (fst (alloc_cell h n (crefs h c) (move_stuff m (stuff_of h c)))).

(** ** gdspy.copy *)

(** PolygonSet.translate (polygon.py 511), Label.translate (label.py 322),
    CellReference.translate (library.py 1530; CellArray 2162), which raises when the
    origin is None. *)
Definition label_translate (v : pt) (l : lbl) : lbl :=
  Lbl (l_text l) (padd (l_pos l) v) (l_layer l) (l_tt l) (l_rot l) (l_mag l) (l_refl l).
Definition place_translate (v : pt) (pl : place) : option place :=
  match p_org pl with
  | None => None
  | Some o => Some (Place (Some (padd o v)) (p_rot pl) (p_mag pl) (p_refl pl) (p_arr pl))
  end.
(** operation.py 329-332; elements are values, so the deep copy is the value
    itself. *)
Definition copy_translated {X} (tr : pt -> X -> option X) (v : pt) (x : X) : option X :=
  if Req_EM_T (fst v) 0 then (if Req_EM_T (snd v) 0 then Some x else tr v x) else tr v x.
Definition copy_polygons (v : pt) (s : gset) : option gset := copy_translated (fun v s => Some (ps_translate v s)) v s.
Definition copy_a_label (v : pt) (l : lbl) : option lbl := copy_translated (fun v l => Some (label_translate v l)) v l.

(** [deepcopy] of a reference also copies the referenced cell and everything
    below it.  Simplification: the copies of all objects of the heap are made, cell
    [c] becoming [h_ncell h + c] and reference [r] becoming [h_nref h + r]; those that
    the copied reference does not lead to cannot be observed.  Cells are values but for
    their references, so a copied cell equals the old one with renamed references. *)
Definition deep_target (h : heap) (t : target) : target :=
  match t with ToCell c => ToCell (h_ncell h + c) | ToName n => ToName n end.
Definition deep_heap (h : heap) : heap :=
  Heap (fun c => if (c <? h_ncell h)%nat then h_cell h c
                 else let o := h_cell h (c - h_ncell h) in
                      GCell (c_name o) (map (fun r => (h_nref h + r)%nat) (c_refs o)) (c_data o))
       (fun r => if (r <? h_nref h)%nat then h_ref h r
                 else let g := h_ref h (r - h_nref h) in GRef (deep_target h (r_target g)) (r_data g))
       (h_ncell h + h_ncell h) (h_nref h + h_nref h).
(** The copy of reference [r] is reference [h_nref h + r]. *)
Definition copy_reference (v : pt) (h : heap) (r : nat) : option heap :=
  let h1 := deep_heap h in
  let r1 := (h_nref h + r)%nat in
  match copy_translated place_translate v (place_of h1 r1) with
  | None => None
  | Some pl => Some (set_ref h1 r1 (GRef (rtarget h1 r1) pl))
  end.

End Copy.
