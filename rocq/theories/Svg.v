(** SVG output: Cell.write_svg, Cell.to_svg (gdspy/library.py 856-1044) and the to_svg
    methods of references (1209-1252), arrays (1785-1846), polygon sets (polygon.py
    254-284), paths (path.py 1123-1153, 2358-2388) and labels (label.py 270-320).

    The document is a tree; the text of the file is in SvgText.v, that of labels is [svg_text].  Numbers are
    exact reals, [precision] is not modelled. *)

From Coq Require Import Reals Lra List ZArith Bool String.
From Verif Require Import Graph Plane Hier Cache Text.
Import ListNotations.
Open Scope R_scope.

(** The entries of a transform attribute: translate(x y), rotate(a), scale(x y),
    scale(k). *)
Inductive tf := Translate (x y : R) | Rotate (deg : R) | ScaleXY (x y : R) | ScaleBy (k : R).
(** text-anchor and dominant-baseline *)
Inductive halign := Start | Middle | End_.
Inductive valign := BeforeEdge | Central | AfterEdge.
(** polygon (class, points), text (class, text-anchor, dominant-baseline, transform,
    character data), use (transform, xlink:href without '#') *)
Inductive node :=
| NPoly (cls : spec) (pts : list pt)
| NText (cls : Z * option Z) (ha : halign) (va : valign) (t : list tf) (data : list Z)
| NUse (t : list tf) (href : name).
(** g (id, transform, contents) *)
Record group := Group { grp_id : name; grp_tf : list tf; grp_nodes : list node }.

(** Label._anchor, label.py 95-120 *)
Definition anchor_table : list (string * Z) :=
  [("nw", 0); ("top left", 0); ("upper left", 0); ("n", 1); ("top center", 1); ("upper center", 1);
   ("ne", 2); ("top right", 2); ("upper right", 2); ("w", 4); ("middle left", 4); ("o", 5);
   ("middle center", 5); ("e", 6); ("middle right", 6); ("sw", 8); ("bottom left", 8);
   ("lower left", 8); ("s", 9); ("bottom center", 9); ("lower center", 9); ("se", 10);
   ("bottom right", 10); ("lower right", 10)]%Z%string.
(** Label.__init__, 149-155: None is a ValueError.  (The name is lower case here.) *)
Definition anchor_code (s : string) : option Z :=
  option_map snd (find (fun e => String.eqb (fst e) s) anchor_table).
(** label.py 303-304; None is an IndexError. *)
Definition aligned (anchor : Z) : option (halign * valign) :=
  match nth_error [Start; Middle; End_] (Z.to_nat (anchor mod 4)),
        nth_error [BeforeEdge; Central; AfterEdge] (Z.to_nat (anchor / 4)) with
  | Some a, Some b => Some (a, b)
  | _, _ => None
  end.

(** [name.replace("#", "_")] *)
Definition plain (n : name) : name := map (fun c => if (c =? 35)%Z then 95%Z else c) n.

(** The parts of the transforms common to labels, references and arrays: [if self.rotation is
    not None], [if self.x_reflection], [if self.magnification is not None]. *)
Definition rot_tf (a : option R) : list tf := match a with Some d => [Rotate d] | None => [] end.
Definition refl_tf (b : bool) : list tf := if b then [ScaleXY 1 (-1)] else [].
Definition mag_tf (m : option R) : list tf := match m with Some k => [ScaleBy k] | None => [] end.

Section Svg.
Context {P : Type} (ops : pathops P).
Notation heap := (heap place (stuff P)).
(** The anchor of a label, which [lbl] does not hold. *)
Variable anchor : lbl -> Z.
Variable scaling : R.

(** PolygonSet.to_svg, polygon.py 254-284 *)
Definition set_svg (ps : pset) : list node :=
  map (fun g => NPoly (g_layer g, g_dt g) (map (smul scaling) (g_pts g))) (ps_list ps).
(** FlexPath.to_svg and RobustPath.to_svg, path.py 1123-1153 and 2358-2388 *)
Definition path_svg (p : P) : list node :=
  flat_map (fun kv => map (fun q => NPoly (fst kv) (map (smul scaling) q)) (snd kv)) (po_polys ops p).
(** Label.to_svg, label.py 270-320 *)
Definition label_svg (l : lbl) : option node :=
  match aligned (anchor l) with
  | Some (ha, va) =>
      Some (NText (l_layer l, l_tt l) ha va
        ([ScaleXY 1 (-1); Translate (scaling * fst (l_pos l)) (- scaling * snd (l_pos l))]
         ++ rot_tf (option_map Ropp (l_rot l)) ++ refl_tf (l_refl l) ++ mag_tf (l_mag l))
        (svg_text (l_text l)))
  | None => None
  end.

(** CellReference.to_svg and CellArray.to_svg, library.py 1209-1252 and 1785-1846.  An origin
    of None is not subscriptable. *)
Definition use_svg (h : heap) (r : nat) : option (list node) :=
  let pl := place_of h r in
  let href := plain (tname h (rtarget h r)) in
  match p_org pl with
  | None => None
  | Some o =>
      let t := Translate (scaling * fst o) (scaling * snd o) :: rot_tf (p_rot pl) ++ refl_tf (p_refl pl) in
      Some match p_arr pl with
           | None => [NUse (t ++ mag_tf (p_mag pl)) href]
           | Some (cols, rows, sp) =>
               flat_map (fun ii =>
                 map (fun jj => NUse (t ++ [Translate (scaling * fst sp * INR ii) (scaling * snd sp * INR jj)]
                                        ++ mag_tf (p_mag pl)) href) (seq 0 rows)) (seq 0 cols)
           end
  end.

(** Cell.to_svg, library.py 856-884 *)
Fixpoint each {X Y : Type} (f : X -> option Y) (l : list X) : option (list Y) :=
  match l with
  | [] => Some []
  | x :: r => match f x, each f r with Some a, Some b => Some (a :: b) | _, _ => None end
  end.
Definition cell_svg (h : heap) (c : nat) (t : list tf) : option group :=
  let s := stuff_of h c in
  match each label_svg (s_labels s), collect (use_svg h) (crefs h c) with
  | Some ls, Some us =>
      Some (Group (plain (cname h c)) t
              (flat_map set_svg (s_polys s) ++ flat_map path_svg (s_paths s) ++ ls ++ us))
  | _, _ => None
  end.

(** ** Cell.write_svg, library.py 886-1044 *)

(** pad="5%" is [Percent 5]; pad=3 and pad="3" are [Exactly 3]. *)
Inductive padding := Exactly (a : R) | Percent (a : R).
(** viewBox, style rules (a class and the user's entry, or None for the default style),
    defs, background rectangle with its colour, the group of the cell. *)
Record doc (V B : Type) := Doc {
  doc_view : R * R * R * R;
  doc_rules : list (spec * option V);
  doc_fonts : list ((Z * option Z) * option V);
  doc_defs : list group;
  doc_back : option (R * R * R * R * B);
  doc_top : group }.
Arguments Doc {V B}.

Definition padded (pad : padding) (w h : R) : R :=
  match pad with Exactly a => a | Percent a => Rmax w h * a / 100 end.
(** Lines 953-969 *)
Definition view (b : bbox) (back : bool) (pad : padding) : R * R * R * R :=
  let x := fst (fst b) * scaling in
  let y := - (snd (snd b) * scaling) in
  let w := fst (snd b) * scaling - fst (fst b) * scaling in
  let h := snd (snd b) * scaling - snd (fst b) * scaling in
  if back then let p := padded pad w h in (x - p, y - p, w + 2 * p, h + 2 * p)
  else (x, y, w, h).

(** [style] and [fontstyle] are the user's dictionaries; the three [any_*] are the orders in
    which Python goes through its sets (without repetitions).  The first None is an exception;
    the second one means that nothing is written. *)
Definition write_svg {V B : Type} (style : spec -> option V) (fontstyle : Z * option Z -> option V)
    (background : option B) (pad : padding)
    (any_specs : list spec -> list spec) (any_texts : list (Z * option Z) -> list (Z * option Z))
    (any_cells : list nat -> list nat) (h : heap) (c : nat) : option (heap * option (doc V B)) :=
  match measure ops h c with
  | None => None
  | Some (h1, None) => Some (h1, None)
  | Some (h1, Some b) =>
      let v := view b (match background with Some _ => true | None => false end) pad in
      match svg_specs ops h1 (S (h_ncell h1)) c, svg_texts h1 (S (h_ncell h1)) c, get_dependencies h1 c true with
      | Some ld, Some lt, Some ds =>
          match each (fun d => cell_svg h1 d []) (any_cells ds), cell_svg h1 c [ScaleXY 1 (-1)] with
          | Some defs, Some top =>
              Some (h1, Some (Doc v (map (fun k => (k, style k)) (any_specs ld))
                                    (map (fun k => (k, fontstyle k)) (any_texts lt))
                                    defs (option_map (pair v) background) top))
          | _, _ => None
          end
      | _, _, _ => None
      end
  end.
End Svg.
Arguments Doc {V B}. Arguments doc_view {V B}. Arguments doc_rules {V B}. Arguments doc_fonts {V B}.
Arguments doc_defs {V B}. Arguments doc_back {V B}. Arguments doc_top {V B}.

(** ** Default colours, library.py 992-1003 and 1011-1022

    [hsv_to_rgb] is colorsys.hsv_to_rgb of the standard library. *)
Definition int_of (x : R) : Z := if Rle_dec 0 x then Int_part x else (- Int_part (- x))%Z.
Definition hsv_to_rgb (h s v : R) : R * R * R :=
  if Req_EM_T s 0 then (v, v, v)
  else
    let i := int_of (h * 6) in
    let f := h * 6 - IZR i in
    let p := v * (1 - s) in
    let q := v * (1 - s * f) in
    let t := v * (1 - s * (1 - f)) in
    match (i mod 6)%Z with
    | 0%Z => (v, t, p)
    | 1%Z => (q, v, p)
    | 2%Z => (p, v, t)
    | 3%Z => (p, q, v)
    | 4%Z => (t, p, v)
    | _ => (v, p, q)
    end.
Definition colour (l d : Z) : Z * Z * Z :=
  let '(r, g, b) := hsv_to_rgb (IZR (l mod 3) / 3 + IZR (l mod 6 / 3) / 6 + IZR (l / 6) / 11)
                               (1 - IZR ((l + d) mod 8) / 12) (1 - IZR (d mod 3) / 4) in
  (int_of (255 * r + 1 / 2), int_of (255 * g + 1 / 2), int_of (255 * b + 1 / 2)).
