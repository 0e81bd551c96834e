(** The bounding box cache of Cell (gdspy/library.py 104-117, 296-336, 551-589)
    and histories of additions and queries. *)

From Coq Require Import Reals List ZArith Bool Lia.
From Verif Require Import Graph SpecGraph Plane Hier SpecHier.
Import ListNotations.
Open Scope R_scope.

Section Cache.
Context {P : Type} (ops : pathops P).
Notation heap := (heap place (stuff P)).

(** [self._bounding_box = b; self._bb_valid = True], library.py 580-583 *)
Definition set_bb (h : heap) (c : nat) (b : option bbox) : heap :=
  let s := stuff_of h c in set_data h c (crefs h c) (Stuff (s_polys s) (s_paths s) (s_labels s) b true).
Definition valid (h : heap) (c : nat) : bool := s_valid (stuff_of h c).

(** The loop over references, library.py 570-573, with the references'
    get_bounding_box (1496-1528, 2130-2160): the box of the referenced cell is
    asked for only when the rotation is a multiple of 90 degrees. *)
Fixpoint box_loop (rec : heap -> nat -> option (heap * option bbox)) (pf : nat) (h : heap) (rs : list nat)
    : option (heap * list pt) :=
  match rs with
  | [] => Some (h, [])
  | r :: rest =>
      match rtarget h r with
      | ToName _ => box_loop rec pf h rest
      | ToCell e =>
          let pl := place_of h r in
          let one :=
            if cardinal (p_rot pl)
            then match rec h e with
                 | Some (h1, bb) => option_map (pair h1) (ref_box pl (Some bb) None)
                 | None => None
                 end
            else option_map (pair h) (ref_box pl None (polys_fuel ops h pf e)) in
          match one with
          | Some (h1, b) =>
              match box_loop rec pf h1 rest with
              | Some (h2, pts) => Some (h2, box_pts b ++ pts)
              | None => None
              end
          | None => None
          end
      end
  end.

(** Cell.get_bounding_box, library.py 551-589, with its effect on the caches. *)
Fixpoint measure_fuel (pf fuel : nat) (h : heap) (c : nat) : option (heap * option bbox) :=
  match fuel with
  | O => None
  | S f =>
      match get_dependencies h c true with
      | None => None
      | Some ds =>
          if valid h c && forallb (valid h) ds then Some (h, s_bb (stuff_of h c))
          else
            match own_points ops (stuff_of h c), box_loop (measure_fuel pf f) pf h (crefs h c) with
            | Some own, Some (h1, pts) =>
                let b := option_map clamp_box (box_of (own ++ pts)) in Some (set_bb h1 c b, b)
            | _, _ => None
            end
      end
  end.
Definition measure (h : heap) (c : nat) := measure_fuel (S (h_ncell h)) (S (h_ncell h)) h c.
(** Cell.get_polygons() *)
Definition get_polygons (h : heap) (c : nat) : option (list poly) := polys_fuel ops h (S (h_ncell h)) c.

(** ** Cell.add of one element, library.py 296-336 *)
Inductive elem := EPoly (ps : pset) | EPath (p : P) | ELabel (l : lbl) | ERef (t : target) (pl : place).
Definition put (h : heap) (c : nat) (e : elem) : heap :=
  let s := stuff_of h c in
  match e with
  | EPoly ps => set_data h c (crefs h c) (Stuff (s_polys s ++ [ps]) (s_paths s) (s_labels s) (s_bb s) false)
  | EPath p => set_data h c (crefs h c) (Stuff (s_polys s) (s_paths s ++ [p]) (s_labels s) (s_bb s) false)
  | ELabel l => set_data h c (crefs h c) (Stuff (s_polys s) (s_paths s) (s_labels s ++ [l]) (s_bb s) false)
  | ERef t pl =>
      let h1 := add_ref h c t pl in
      set_data h1 c (crefs h1 c) (Stuff (s_polys s) (s_paths s) (s_labels s) (s_bb s) false)
  end.
(** [Cell(name)], library.py 104-117 *)
Definition new_cell (h : heap) (n : name) : heap := fst (alloc_cell h n [] (Stuff [] [] [] None false)).

(** ** Histories

    [M] collects the cells measured so far: a query measures the cell and
    everything below it. *)
Inductive deed := Make (n : name) | Add (c : nat) (e : elem) | Measure (c : nat).
(** Coordinates lie within the range of the code's initial box. *)
Definition in_range (h : heap) (c : nat) : Prop :=
  forall d, under h c d -> forall m l p, polys_fuel ops h m d = Some l -> In p (concat l) ->
    Rabs (fst p) <= huge /\ Rabs (snd p) <= huge.
Definition elem_ok (h : heap) (e : elem) : Prop := match e with ERef t _ => target_ok h t | _ => True end.

(** [careful h M l h' M']: from [h], doing [l] leads to [h'], and nothing was
    added to a cell below one already measured. *)
Inductive careful : heap -> (nat -> Prop) -> list deed -> heap -> (nat -> Prop) -> Prop :=
| do_nothing : forall h (M : nat -> Prop), careful h M [] h M
| do_make : forall h (M : nat -> Prop) n l h' M', careful (new_cell h n) M l h' M' -> careful h M (Make n :: l) h' M'
| do_add : forall h (M : nat -> Prop) c e l h' M', (c < h_ncell h)%nat -> elem_ok h e -> (forall a, M a -> ~ reach h a c) ->
    careful (put h c e) M l h' M' -> careful h M (Add c e :: l) h' M'
| do_measure : forall h (M : nat -> Prop) c h1 b l h' M', (c < h_ncell h)%nat -> in_range h c -> measure h c = Some (h1, b) ->
    careful h1 (fun x => M x \/ under h c x) l h' M' -> careful h M (Measure c :: l) h' M'.

(** Any additions and queries. *)
Inductive doing : heap -> list deed -> heap -> Prop :=
| doing_nothing : forall h, doing h [] h
| doing_make : forall h n l h', doing (new_cell h n) l h' -> doing h (Make n :: l) h'
| doing_add : forall h c e l h', (c < h_ncell h)%nat -> elem_ok h e ->
    doing (put h c e) l h' -> doing h (Add c e :: l) h'
| doing_measure : forall h c h1 b l h', (c < h_ncell h)%nat -> measure h c = Some (h1, b) ->
    doing h1 l h' -> doing h (Measure c :: l) h'.

(** Nothing exists yet. *)
Definition nothing : heap :=
  Heap (fun _ => GCell [] [] (Stuff [] [] [] None false)) (fun _ => GRef (ToName []) (Place None None None false None)) 0 0.

End Cache.
Arguments EPoly {P}. Arguments EPath {P}. Arguments ELabel {P}. Arguments ERef {P}.
Arguments Make {P}. Arguments Add {P}. Arguments Measure {P}.
