(** Geometry of cell hierarchies: the queries and transformations of Cell,
    CellReference and CellArray (gdspy/library.py 180-854, 1254-1547, 1848-2180).

    The heap of [Graph] is instantiated: references carry a placement, cells
    carry polygon sets, paths and labels.  Polygon sets, paths and labels are
    values: sharing one object between cells is not modelled.  Coordinates are
    exact reals.

    FlexPath and RobustPath are represented by the operations the queries call
    on them (record [pathops]); they are modelled in their own files. *)

From Coq Require Import Reals Lra List ZArith Bool Lia.
From Verif Require Import Graph Plane.
Import ListNotations.
Open Scope R_scope.

(** ** Placements

    CellReference (library.py 1061-1092): origin, rotation in degrees,
    magnification, x_reflection.  CellArray (1612-1640) also has columns, rows
    and spacing. *)
Record place := Place {
  p_org : option pt; p_rot : option R; p_mag : option R; p_refl : bool;
  p_arr : option (nat * nat * pt) }.

Definition do_refl (b : bool) (p : pt) : pt := if b then pmul p (1, -1) else p.
Definition do_mag (m : option R) (p : pt) : pt := match m with Some k => pmul p (k, k) | None => p end.
Definition do_rot (a : option R) (p : pt) : pt :=
  match a with Some d => rot_cs (cos (d * PI / 180)) (sin (d * PI / 180)) p | None => p end.
Definition do_org (o : option pt) (p : pt) : pt := match o with Some v => padd p v | None => p end.

(** One point: CellReference._transform_polygons, library.py 1307-1333. *)
Definition ref_map (pl : place) (p : pt) : pt :=
  do_org (p_org pl) (do_rot (p_rot pl) (do_mag (p_mag pl) (do_refl (p_refl pl) p))).
(** One point of one element of an array: library.py 1926-1943; [spc] is the
    displacement of the element. *)
Definition arr_map (pl : place) (spc : pt) (p : pt) : pt :=
  do_org (p_org pl) (do_rot (p_rot pl) (do_refl (p_refl pl) (padd (do_mag (p_mag pl) p) spc))).
(** [if self.magnification:] in the dictionary branch, library.py 1908. *)
Definition truthy (m : option R) : option R :=
  match m with Some k => if Req_EM_T k 0 then None else Some k | None => None end.
Definition arr_map_dict (pl : place) (spc : pt) (p : pt) : pt :=
  do_org (p_org pl) (do_rot (p_rot pl) (do_refl (p_refl pl) (padd (do_mag (truthy (p_mag pl)) p) spc))).

(** The displacements, columns outside, rows inside. *)
Definition grid (n m : nat) (sp : pt) : list pt :=
  flat_map (fun i => map (fun j => (fst sp * INR i, snd sp * INR j)) (seq 0 m)) (seq 0 n).

(** _transform_polygons on a list and on the list of one dictionary entry. *)
Definition place_polys (pl : place) (l : list poly) : list poly :=
  match p_arr pl with
  | None => map (map (ref_map pl)) l
  | Some (n, m, sp) => flat_map (fun spc => map (map (arr_map pl spc)) l) (grid n m sp)
  end.
Definition place_entry (pl : place) (l : list poly) : list poly :=
  match p_arr pl with
  | None => map (map (ref_map pl)) l
  | Some (n, m, sp) => flat_map (fun spc => map (map (arr_map_dict pl spc)) l) (grid n m sp)
  end.

(** ** Contents of cells *)

(** A PolygonSet; [ps_tup] is true when [remove_polygons] has turned its lists
    into tuples (library.py 374-379), which do not support item assignment. *)
Record pset := PSet { ps_list : gset; ps_tup : bool }.
(** A Label, label.py 122-181; a texttype of None is possible after [flatten]
    (anchor and properties play no role here). *)
Record lbl := Lbl { l_text : name; l_pos : pt; l_layer : Z; l_tt : option Z;
  l_rot : option R; l_mag : option R; l_refl : bool }.

(** What the queries use of a path: [get_polygons(True)] (a dictionary from
    specifications to polygons), [zip(layers, datatypes)], whether
    [to_polygonset] returns None, [transform(translation, rotation, scale,
    x_reflection, array_trans)], and assignment of layers and datatypes. *)
Record pathops (P : Type) := PathOps {
  po_polys : P -> list (spec * list poly);
  po_specs : P -> list spec;
  po_empty : P -> bool;
  po_move : option pt -> option R -> option R -> bool -> option pt -> P -> P;
  po_setspec : option Z -> option Z -> P -> P }.
Arguments PathOps {P}. Arguments po_polys {P}. Arguments po_specs {P}. Arguments po_empty {P}.
Arguments po_move {P}. Arguments po_setspec {P}.

(** Cell, library.py 104-117; [s_bb] and [s_valid] are the cached box. *)
Record stuff (P : Type) := Stuff {
  s_polys : list pset; s_paths : list P; s_labels : list lbl;
  s_bb : option bbox; s_valid : bool }.
Arguments Stuff {P}. Arguments s_polys {P}. Arguments s_paths {P}. Arguments s_labels {P}.
Arguments s_bb {P}. Arguments s_valid {P}.

(** Recursion over the hierarchy with bounded depth; running out of [fuel]
    stands for RecursionError. *)
Fixpoint iter_fuel {K X : Type} (F : (K -> option X) -> K -> option X) (n : nat) : K -> option X :=
  match n with O => fun _ => None | S m => F (iter_fuel F m) end.

(** [for x in l: out.extend(f(x))]; [None] is an exception. *)
Fixpoint collect {X Y : Type} (f : X -> option (list Y)) (l : list X) : option (list Y) :=
  match l with
  | [] => Some []
  | x :: r => match f x, collect f r with Some a, Some b => Some (a ++ b) | _, _ => None end
  end.

(** Keys of the dictionaries returned by get_polygons: specifications, or the
    name of a cell shown as its box. *)
Inductive key := KSpec (s : spec) | KName (n : name).
Definition key_eqb (a b : key) : bool :=
  match a, b with
  | KSpec s, KSpec t => spec_eqb s t
  | KName n, KName m => name_eqb n m
  | _, _ => false
  end.
Definition pdict := list (key * list poly).
(** [if k in d: d[k].extend(l) else: d[k] = l] *)
Fixpoint dext (d : pdict) (k : key) (l : list poly) : pdict :=
  match d with
  | [] => [(k, l)]
  | (k', l') :: r => if key_eqb k' k then (k', l' ++ l) :: r else (k', l') :: dext r k l
  end.
Definition dmerge (d e : pdict) : pdict := fold_left (fun d kv => dext d (fst kv) (snd kv)) e d.

(** [self.rotation is None or self.rotation % 90 == 0] *)
Definition cardinal (a : option R) : bool :=
  match a with
  | None => true
  | Some d => if Req_EM_T d (90 * IZR (Int_part (d / 90))) then true else false
  end.

(** The initial box of library.py 564. *)
Definition huge : R := 10 ^ 300.

(** The rectangle shown for a box, library.py 627-636. *)
Definition box_poly (b : bbox) : poly :=
  [(fst (fst b), snd (fst b)); (fst (fst b), snd (snd b));
   (fst (snd b), snd (snd b)); (fst (snd b), snd (fst b))].

Definition next (d : option Z) : option Z := option_map (fun z => (z - 1)%Z) d.
Definition below (d : option Z) : bool := match d with Some z => (z <? 0)%Z | None => false end.
(** [depth is None or depth > 0] *)
Definition deeper (d : option Z) : bool := match d with Some z => (0 <? z)%Z | None => true end.

Section Hier.
Context {P : Type} (ops : pathops P).
Notation heap := (heap place (stuff P)).

Definition stuff_of (h : heap) (c : nat) : stuff P := c_data (h_cell h c).
Definition place_of (h : heap) (r : nat) : place := r_data (h_ref h r).

(** Own polygons, library.py 665-667 and the own paths' 669. *)
Definition own_polys (s : stuff P) : list poly := flat_map (fun ps => map g_pts (ps_list ps)) (s_polys s).
Definition path_flat (p : P) : list poly := flat_map snd (po_polys ops p).

(** [for reference in self.references: out.extend(reference.get_x(depth))]
    with the references' get_x: nothing for a reference by name, else the
    transformed result of the referenced cell. *)
Definition expand {Y : Type} (h : heap) (rec : option Z * nat -> option (list Y))
    (pf : place -> list Y -> option (list Y)) (d : option Z) (rs : list nat) : option (list Y) :=
  collect (fun r =>
    match rtarget h r with
    | ToName _ => Some []
    | ToCell c => match rec (d, c) with Some l => pf (place_of h r) l | None => None end
    end) rs.

(** ** Cell.get_polygons, library.py 591-699, and the references' methods,
    1336-1368 and 1946-1976.

    [bx] is what [get_bounding_box] returns for a cell ([None]: an exception). *)

(** by_spec=False *)
Definition flat_step (bx : nat -> option (option bbox)) (h : heap)
    (rec : option Z * nat -> option (list poly)) (dc : option Z * nat) : option (list poly) :=
  let (d, c) := dc in
  if below d then
    match bx c with
    | None => None
    | Some None => Some []
    | Some (Some b) => Some [box_poly b]
    end
  else
    match expand h rec (fun pl l => Some (place_polys pl l)) (next d) (crefs h c) with
    | Some l => Some (own_polys (stuff_of h c) ++ flat_map path_flat (s_paths (stuff_of h c)) ++ l)
    | None => None
    end.
Definition flat_fuel bx h fuel d c := iter_fuel (flat_step bx h) fuel (d, c).

(** by_spec=(layer, datatype) *)
Definition path_spec (s : spec) (p : P) : list poly :=
  if existsb (fun k => spec_eqb k s) (po_specs ops p)
  then match find (fun kv => spec_eqb (fst kv) s) (po_polys ops p) with Some kv => snd kv | None => [] end
  else [].
Definition tuple_step (s : spec) (h : heap)
    (rec : option Z * nat -> option (list poly)) (dc : option Z * nat) : option (list poly) :=
  let (d, c) := dc in
  if below d then Some []
  else
    match expand h rec (fun pl l => Some (place_polys pl l)) (next d) (crefs h c) with
    | Some l =>
        Some (flat_map (fun ps => map g_pts (filter (fun g => Z.eqb (g_layer g) (fst s) && Z.eqb (g_dt g) (snd s))
                                                    (ps_list ps))) (s_polys (stuff_of h c))
              ++ flat_map (path_spec s) (s_paths (stuff_of h c)) ++ l)
    | None => None
    end.
Definition tuple_fuel s h fuel d c := iter_fuel (tuple_step s h) fuel (d, c).

(** by_spec=True *)
Definition own_dict (s : stuff P) : pdict :=
  fold_left (fun d p => dmerge d (map (fun kv => (KSpec (fst kv), snd kv)) (po_polys ops p)))
    (s_paths s)
    (fold_left (fun d g => dext d (KSpec (g_spec g)) [g_pts g]) (flat_map ps_list (s_polys s)) []).
Definition dict_step (bx : nat -> option (option bbox)) (h : heap)
    (rec : option Z * nat -> option pdict) (dc : option Z * nat) : option pdict :=
  let (d, c) := dc in
  if below d then
    match bx c with
    | None => None
    | Some None => Some []
    | Some (Some b) => Some [(KName (cname h c), [box_poly b])]
    end
  else
    (fix loop (rs : list nat) (acc : pdict) : option pdict :=
       match rs with
       | [] => Some acc
       | r :: rest =>
           match rtarget h r with
           | ToName _ => loop rest acc
           | ToCell e =>
               match rec (next d, e) with
               | Some l => loop rest (dmerge acc (map (fun kv => (fst kv, place_entry (place_of h r) (snd kv))) l))
               | None => None
               end
           end
       end) (crefs h c) (own_dict (stuff_of h c)).
Definition dict_fuel bx h fuel d c := iter_fuel (dict_step bx h) fuel (d, c).

(** ** Bounding boxes computed from scratch

    CellReference.get_bounding_box 1496-1528 and CellArray's 2130-2160, given
    the box of the referenced cell and its polygons. *)
Definition ref_box (pl : place) (bb : option (option bbox)) (polys : option (list poly))
    : option (option bbox) :=
  if cardinal (p_rot pl) then
    match bb with
    | None => None
    | Some None => Some None
    | Some (Some b) => Some (box_of (concat (place_polys pl [[fst b; snd b]])))
    end
  else
    match polys with
    | None => None
    | Some l => Some (box_of (concat (place_polys pl l)))
    end.

(** Lines 572-583: the box of all the points, started from [huge]. *)
Definition clamp_box (b : bbox) : bbox :=
  ((Rmin huge (fst (fst b)), Rmin huge (snd (fst b))),
   (Rmax (- huge) (fst (snd b)), Rmax (- huge) (snd (snd b)))).
Definition box_pts (b : option bbox) : list pt := match b with Some b => [fst b; snd b] | None => [] end.
(** Own points, library.py 566-569; a path without [to_polygonset] raises. *)
Definition own_points (s : stuff P) : option (list pt) :=
  if existsb (po_empty ops) (s_paths s) then None
  else Some (concat (own_polys s) ++ concat (flat_map path_flat (s_paths s))).

(** Cell.get_bounding_box, library.py 551-589, ignoring the cache. *)
Definition box_step (h : heap) (polys : nat -> option (list poly))
    (rec : nat -> option (option bbox)) (c : nat) : option (option bbox) :=
  match own_points (stuff_of h c),
        collect (fun r => match rtarget h r with
                          | ToName _ => Some []
                          | ToCell e => option_map box_pts (ref_box (place_of h r) (rec e) (polys e))
                          end) (crefs h c) with
  | Some own, Some refs => Some (option_map clamp_box (box_of (own ++ refs)))
  | _, _ => None
  end.
(** [get_polygons()] with default arguments. *)
Definition polys_fuel (h : heap) (fuel : nat) (c : nat) : option (list poly) :=
  flat_fuel (fun _ => None) h fuel None c.
Definition box_fuel (h : heap) (pf fuel : nat) : nat -> option (option bbox) :=
  iter_fuel (box_step h (polys_fuel h pf)) fuel.

(** ** Cell.area, library.py 445-474, and the references', 1254-1282 and
    1848-1876 *)
Definition ref_factor (pl : place) : R :=
  match p_arr pl with
  | None => match p_mag pl with None => 1 | Some m => m ^ 2 end
  | Some (n, k, _) => match p_mag pl with None => INR n * INR k | Some m => INR n * INR k * m ^ 2 end
  end.
Definition path_area (p : P) : R := ps_area (map (fun l => GPoly l 0%Z 0%Z) (path_flat p)).
Definition area_step (h : heap) (rec : nat -> option R) (c : nat) : option R :=
  let s := stuff_of h c in
  if existsb (po_empty ops) (s_paths s) then None
  else
    (fix loop (rs : list nat) (acc : R) : option R :=
       match rs with
       | [] => Some acc
       | r :: rest =>
           match rtarget h r with
           | ToName _ => loop rest (acc + 0)
           | ToCell e => match rec e with
                         | Some a => loop rest (acc + a * ref_factor (place_of h r))
                         | None => None
                         end
           end
       end) (crefs h c)
      (fold_left (fun a p => a + path_area p) (s_paths s)
        (fold_left (fun a ps => a + ps_area (ps_list ps)) (s_polys s) 0)).
Definition area_fuel (h : heap) (fuel : nat) : nat -> option R := iter_fuel (area_step h) fuel.

(** by_spec=True: dictionaries {spec: area} *)
Definition amerge (d e : list (spec * R)) : list (spec * R) :=
  fold_left (fun d kv => acc_add d (fst kv) (snd kv)) e d.
Definition path_area_spec (p : P) : list (spec * R) :=
  ps_area_spec (flat_map (fun kv => map (fun l => GPoly l (fst (fst kv)) (snd (fst kv))) (snd kv)) (po_polys ops p)).
Definition area_spec_step (h : heap) (rec : nat -> option (list (spec * R))) (c : nat) : option (list (spec * R)) :=
  let s := stuff_of h c in
  if existsb (po_empty ops) (s_paths s) then None
  else
    (fix loop (rs : list nat) (acc : list (spec * R)) : option (list (spec * R)) :=
       match rs with
       | [] => Some acc
       | r :: rest =>
           match rtarget h r with
           | ToName _ => loop rest acc
           | ToCell e =>
               match rec e with
               | Some a => loop rest (amerge acc (map (fun kv => (fst kv, snd kv * ref_factor (place_of h r))) a))
               | None => None
               end
           end
       end) (crefs h c)
      (fold_left (fun a p => amerge a (path_area_spec p)) (s_paths s)
        (fold_left (fun a ps => amerge a (ps_area_spec (ps_list ps))) (s_polys s) [])).
Definition area_spec_fuel (h : heap) (fuel : nat) := iter_fuel (area_spec_step h) fuel.

(** ** get_polygonsets, get_paths, get_labels *)

(** Assigning to an element of a tuple raises TypeError; nothing is assigned
    when the reference has no transformation at all (library.py 1398-1409). *)
Definition inert (pl : place) : bool :=
  match p_org pl, p_rot pl, p_mag pl, p_refl pl, p_arr pl with
  | None, None, None, false, None => true
  | _, _, _, _, _ => false
  end.
Definition set_fails (ps : pset) : bool := ps_tup ps && negb (match ps_list ps with [] => true | _ => false end).
Definition on_set (f : pt -> pt) (ps : pset) : pset := PSet (map_pts f (ps_list ps)) (ps_tup ps).
(** CellReference.get_polygonsets 1370-1410, CellArray.get_polygonsets 1978-2024 *)
Definition place_sets (pl : place) (l : list pset) : option (list pset) :=
  match p_arr pl with
  | None => if negb (inert pl) && existsb set_fails l then None
            else Some (map (on_set (ref_map pl)) l)
  | Some (n, m, sp) =>
      match grid n m sp with
      | [] => Some []
      | g => if existsb set_fails l then None
             else Some (flat_map (fun spc => map (on_set (arr_map pl spc)) l) g)
      end
  end.
(** Cell.get_polygonsets, library.py 701-725 *)
Definition sets_step (h : heap) (rec : option Z * nat -> option (list pset)) (dc : option Z * nat)
    : option (list pset) :=
  let (d, c) := dc in
  match (if deeper d then expand h rec place_sets (next d) (crefs h c) else Some []) with
  | Some l => Some (s_polys (stuff_of h c) ++ l)
  | None => None
  end.
Definition sets_fuel h fuel d c := iter_fuel (sets_step h) fuel (d, c).

(** CellReference.get_paths 1412-1440, CellArray.get_paths 2026-2064 *)
Definition rads (a : option R) : option R := option_map (fun d => d * PI / 180) a.
Definition place_paths (pl : place) (l : list P) : option (list P) :=
  Some match p_arr pl with
       | None => map (po_move ops (p_org pl) (rads (p_rot pl)) (p_mag pl) (p_refl pl) None) l
       | Some (n, m, sp) =>
           flat_map (fun spc => map (po_move ops (p_org pl) (rads (p_rot pl)) (p_mag pl) (p_refl pl) (Some spc)) l)
                    (grid n m sp)
       end.
(** Cell.get_paths, library.py 727-750 *)
Definition paths_step (h : heap) (rec : option Z * nat -> option (list P)) (dc : option Z * nat)
    : option (list P) :=
  let (d, c) := dc in
  match (if deeper d then expand h rec place_paths (next d) (crefs h c) else Some []) with
  | Some l => Some (s_paths (stuff_of h c) ++ l)
  | None => None
  end.
Definition paths_fuel h fuel d c := iter_fuel (paths_step h) fuel (d, c).

(** [set_transform]: library.py 1482-1494 and 2118-2130.  [self.x_reflection is
    not None] always holds, so the label is reflected whatever its value. *)
Definition label_attrs (pl : place) (l : lbl) : lbl :=
  Lbl (l_text l) (l_pos l) (l_layer l) (l_tt l)
    (match p_rot pl, l_rot l with
     | Some a, Some b => Some (b + a) | Some a, None => Some a | None, x => x end)
    (match p_mag pl, l_mag l with
     | Some a, Some b => Some (b * a) | Some a, None => Some a | None, x => x end)
    (negb (l_refl l)).
Definition label_at (f : pt -> pt) (l : lbl) : lbl :=
  Lbl (l_text l) (f (l_pos l)) (l_layer l) (l_tt l) (l_rot l) (l_mag l) (l_refl l).
(** CellReference.get_labels 1442-1494, CellArray.get_labels 2066-2128 *)
Definition place_labels (st : bool) (pl : place) (l : list lbl) : option (list lbl) :=
  let tr := fun x => if st then label_attrs pl x else x in
  Some match p_arr pl with
       | None => map (fun x => tr (label_at (ref_map pl) x)) l
       | Some (n, m, sp) => flat_map (fun spc => map (fun x => tr (label_at (arr_map pl spc) x)) l) (grid n m sp)
       end.
(** Cell.get_labels, library.py 752-778 *)
Definition labels_step (st : bool) (h : heap) (rec : option Z * nat -> option (list lbl)) (dc : option Z * nat)
    : option (list lbl) :=
  let (d, c) := dc in
  match (if deeper d then expand h rec (place_labels st) (next d) (crefs h c) else Some []) with
  | Some l => Some (s_labels (stuff_of h c) ++ l)
  | None => None
  end.
Definition labels_fuel st h fuel d c := iter_fuel (labels_step st h) fuel (d, c).

(** ** Cell.flatten, library.py 802-854

    A label's texttype is overwritten by [single_texttype], be it None or not,
    whenever [single_datatype] is given. *)
Definition or_old (new : option Z) (old : Z) : Z := match new with Some z => z | None => old end.
Definition set_label (sl sd st : option Z) (l : lbl) : lbl :=
  Lbl (l_text l) (l_pos l) (or_old sl (l_layer l))
    (match sd with Some _ => st | None => l_tt l end)
    (l_rot l) (l_mag l) (l_refl l).
Definition set_spec (sl sd : option Z) (g : gpoly) : gpoly :=
  GPoly (g_pts g) (or_old sl (g_layer g)) (or_old sd (g_dt g)).
Definition set_pset (sl sd : option Z) (ps : pset) : pset := PSet (map (set_spec sl sd) (ps_list ps)) (ps_tup ps).
Definition set_data (h : heap) (c : nat) (refs : list nat) (s : stuff P) : heap :=
  set_cell h c (GCell (cname h c) refs s).
Definition flatten (h : heap) (fuel : nat) (c : nat) (sl sd st : option Z) : option heap :=
  match labels_fuel false h fuel None c, sets_fuel h fuel None c, paths_fuel h fuel None c with
  | Some ls, Some ps, Some qs =>
      let s := stuff_of h c in
      Some (set_data h c []
              (Stuff (map (set_pset sl sd) ps)
                     (match sl, sd with None, None => qs | _, _ => map (po_setspec ops sl sd) qs end)
                     (map (set_label sl sd st) ls) (s_bb s) (s_valid s)))
  | _, _, _ => None
  end.

(** ** Cell.remove_polygons, remove_paths, remove_labels, library.py 338-443 *)
Definition remove_polygons (test : poly -> Z -> Z -> bool) (l : list pset) : list pset :=
  flat_map (fun ps =>
    match filter (fun g => negb (test (g_pts g) (g_layer g) (g_dt g))) (ps_list ps) with
    | [] => []
    | kept => [PSet kept true]
    end) l.
(** [while ii < len(l): if test(l[ii]): l.pop(ii) else: ii += 1]; [fuel] bounds
    the number of rounds. *)
Fixpoint pop_loop {X : Type} (test : X -> bool) (fuel ii : nat) (l : list X) : list X :=
  match fuel with
  | O => l
  | S f => match nth_error l ii with
           | None => l
           | Some x => if test x then pop_loop test f ii (firstn ii l ++ skipn (S ii) l)
                       else pop_loop test f (S ii) l
           end
  end.
Definition remove_where {X : Type} (test : X -> bool) (l : list X) : list X := pop_loop test (length l) 0 l.

(** The three methods on a cell; the cached bounding box stays as it is. *)
Definition cell_remove_polygons (h : heap) (c : nat) (test : poly -> Z -> Z -> bool) : heap :=
  let s := stuff_of h c in
  set_data h c (crefs h c) (Stuff (remove_polygons test (s_polys s)) (s_paths s) (s_labels s) (s_bb s) (s_valid s)).
Definition cell_remove_paths (h : heap) (c : nat) (test : P -> bool) : heap :=
  let s := stuff_of h c in
  set_data h c (crefs h c) (Stuff (s_polys s) (remove_where test (s_paths s)) (s_labels s) (s_bb s) (s_valid s)).
Definition cell_remove_labels (h : heap) (c : nat) (test : lbl -> bool) : heap :=
  let s := stuff_of h c in
  set_data h c (crefs h c) (Stuff (s_polys s) (s_paths s) (remove_where test (s_labels s)) (s_bb s) (s_valid s)).

(** ** get_layers, get_datatypes, get_texttypes, get_svg_classes, library.py
    476-549.  Sets are lists.  [strict]: a reference by name raises
    AttributeError (a string has no such method); get_svg_classes skips it. *)
Definition classes_step {Y : Type} (strict : bool) (own : stuff P -> list Y) (h : heap)
    (rec : nat -> option (list Y)) (c : nat) : option (list Y) :=
  match collect (fun r => match rtarget h r with
                          | ToName _ => if strict then None else Some []
                          | ToCell e => rec e
                          end) (crefs h c) with
  | Some l => Some (own (stuff_of h c) ++ l)
  | None => None
  end.
Definition classes_fuel {Y : Type} strict (own : stuff P -> list Y) h fuel := iter_fuel (classes_step strict own h) fuel.
Definition own_layers (s : stuff P) : list Z :=
  flat_map (fun ps => map g_layer (ps_list ps)) (s_polys s)
  ++ flat_map (fun p => map fst (po_specs ops p)) (s_paths s) ++ map l_layer (s_labels s).
Definition own_datatypes (s : stuff P) : list Z :=
  flat_map (fun ps => map g_dt (ps_list ps)) (s_polys s)
  ++ flat_map (fun p => map snd (po_specs ops p)) (s_paths s).
Definition own_specs (s : stuff P) : list spec :=
  flat_map (fun ps => map g_spec (ps_list ps)) (s_polys s) ++ flat_map (po_specs ops) (s_paths s).
Definition own_texts (s : stuff P) : list (Z * option Z) := map (fun l => (l_layer l, l_tt l)) (s_labels s).
Definition get_layers h fuel := classes_fuel true own_layers h fuel.
Definition get_datatypes h fuel := classes_fuel true own_datatypes h fuel.
(** The two sets of get_svg_classes. *)
Definition svg_specs h fuel := classes_fuel false own_specs h fuel.
Definition svg_texts h fuel := classes_fuel false own_texts h fuel.
(** The recursive call is misspelled ([get_textypes]), library.py 520: any
    reference raises AttributeError. *)
Definition get_texttypes (h : heap) (c : nat) : option (list (option Z)) :=
  match crefs h c with
  | [] => Some (map l_tt (s_labels (stuff_of h c)))
  | _ :: _ => None
  end.

End Hier.
