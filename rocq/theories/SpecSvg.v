(** What an SVG document of groups, polygons, texts and uses shows. *)

From Coq Require Import Reals List ZArith Bool String.
From Verif Require Import Graph SpecGraph Plane Hier SpecHier SpecText Svg.
Import ListNotations.
Open Scope R_scope.

(** ** Transforms (SVG 1.1, section 7): x to the right, y down on the screen; rotate(a) is
    [x cos a - y sin a, x sin a + y cos a] with [a] in degrees; in a list, the last entry
    acts first. *)
Definition tf_map (t : tf) (p : pt) : pt :=
  match t with
  | Translate x y => (fst p + x, snd p + y)
  | Rotate d => turn (d * PI / 180) p
  | ScaleXY x y => (x * fst p, y * snd p)
  | ScaleBy k => (k * fst p, k * snd p)
  end.
Definition tfs_map (l : list tf) (p : pt) : pt := fold_right tf_map p l.

(** ** Pictures

    What is seen: polygons with their class, and texts with their class, alignment and
    characters.  A text is given by three points: where it is anchored, one unit to its
    right, and one unit up. *)
Inductive look := Area (cls : spec) | Words (cls : Z * option Z) (ha : halign) (va : valign) (text : list Z).
Definition mark := (look * list pt)%type.
Definition moved (f : pt -> pt) (m : mark) : mark := (fst m, map f (snd m)).

(** The element with an id: the first one. *)
Definition by_id (gs : list group) (n : name) : option group := find (fun g => name_eqb (grp_id g) n) gs.

(** [shows gs nodes m]: in a document with the groups [gs], [nodes] show the marks [m], in
    order.  A use shows the group with its id, within the transforms of both; nothing, if
    there is none. *)
Inductive shows (gs : list group) : list node -> list mark -> Prop :=
| sh_nil : shows gs [] []
| sh_poly : forall k pts r m, shows gs r m -> shows gs (NPoly k pts :: r) ((Area k, pts) :: m)
| sh_text : forall k ha va t data text r m, character_data data = Some text -> shows gs r m ->
    shows gs (NText k ha va t data :: r)
      ((Words k ha va text, map (tfs_map t) [(0, 0); (1, 0); (0, -1)]) :: m)
| sh_use : forall t n g r m1 m2, by_id gs n = Some g -> shows gs (grp_nodes g) m1 -> shows gs r m2 ->
    shows gs (NUse t n :: r) (map (moved (fun p => tfs_map t (tfs_map (grp_tf g) p))) m1 ++ m2)
| sh_dangling : forall t n r m, by_id gs n = None -> shows gs r m -> shows gs (NUse t n :: r) m.
(** What the document shows: its last group, the others being definitions. *)
Definition picture {V B : Type} (d : doc V B) (m : list mark) : Prop :=
  exists m0, shows (doc_defs d ++ [doc_top d]) (grp_nodes (doc_top d)) m0 /\
    m = map (moved (tfs_map (grp_tf (doc_top d)))) m0.

(** ** What it should show *)

(** The layout on the screen: [s] pixels per unit, y upwards. *)
Definition screen (s : R) (p : pt) : pt := (s * fst p, - (s * snd p)).
Section SpecSvg.
Context {P : Type} (ops : pathops P) (anchor : lbl -> Z).
Notation heap := (heap place (stuff P)).

(** Where a label's text is, with letters of a pixel's size: reflected, scaled, turned and
    moved to its position. *)
Definition writing (s : R) (l : lbl) (p : pt) : pt :=
  similar (l_pos l) (match l_rot l with Some d => d * PI / 180 | None => 0 end)
    (match l_mag l with Some m => m | None => 1 end) (l_refl l) (smul (/ s) p).
(** The marks of a cell itself, in the layout. *)
Definition own_marks (s : R) (h : heap) (c : nat) (m : list mark) : Prop :=
  exists texts, m = map (fun sp => (Area (fst sp), snd sp)) (contents ops h c) ++ texts /\
  Forall2 (fun l t => exists ha va, aligned (anchor l) = Some (ha, va) /\
      t = (Words (l_layer l, l_tt l) ha va (l_text l), map (writing s l) [(0, 0); (1, 0); (0, 1)]))
    (s_labels (stuff_of h c)) texts.
(** The marks of all the cells of an expansion, in their places. *)
Inductive all_marks (s : R) (h : heap) : list (nat * chain) -> list mark -> Prop :=
| am_nil : all_marks s h [] []
| am_cons : forall c ch L m1 m2, own_marks s h c m1 -> all_marks s h L m2 ->
    all_marks s h ((c, ch) :: L) (map (moved (chain_map ch)) m1 ++ m2).

(** Conditions: the ids of the cells differ, references by name find no cell of the
    document, origins and anchors are given. *)
Definition ids_differ (h : heap) (c : nat) : Prop :=
  forall d e, under h c d -> under h c e -> plain (cname h d) = plain (cname h e) -> d = e.
Definition names_outside (h : heap) (c : nat) : Prop :=
  forall d e r n, under h c d -> under h c e -> In r (crefs h d) -> rtarget h r = ToName n ->
    plain n <> plain (cname h e).
Definition origins_given (h : heap) (c : nat) : Prop :=
  forall d r, under h c d -> In r (crefs h d) -> p_org (place_of h r) <> None.
Definition anchors_given (h : heap) (c : nat) : Prop :=
  forall d l, under h c d -> In l (s_labels (stuff_of h d)) -> exists n, anchor_code n = Some (anchor l).
End SpecSvg.

(** ** Anchors: the name of a corner, an edge or the middle *)
Definition anchors : list (list string * (halign * valign)) :=
  [(["nw"; "top left"; "upper left"], (Start, BeforeEdge));
   (["n"; "top center"; "upper center"], (Middle, BeforeEdge));
   (["ne"; "top right"; "upper right"], (End_, BeforeEdge));
   (["w"; "middle left"], (Start, Central));
   (["o"; "middle center"], (Middle, Central));
   (["e"; "middle right"], (End_, Central));
   (["sw"; "bottom left"; "lower left"], (Start, AfterEdge));
   (["s"; "bottom center"; "lower center"], (Middle, AfterEdge));
   (["se"; "bottom right"; "lower right"], (End_, AfterEdge))]%string.
Definition anchor_of (n : string) : option (halign * valign) :=
  option_map snd (find (fun e => existsb (String.eqb n) (fst e)) anchors).

(** ** The visible part *)
Definition inside_view (v : R * R * R * R) (p : pt) : Prop :=
  let '(x, y, w, h) := v in x <= fst p <= x + w /\ y <= snd p <= y + h.

(** Red, green and blue of a hue (1 is the whole circle), a saturation and a value: with
    n = 5, 3 and 1, v - v s max(0, min(k, 4 - k, 1)) where k is n + 6 h modulo 6. *)
Definition mod6 (x : R) : R := x - 6 * IZR (Int_part (x / 6)).
Definition channel (n h s v : R) : R :=
  let k := mod6 (n + 6 * h) in v - v * s * Rmax 0 (Rmin (Rmin k (4 - k)) 1).
