(** The text of SVG files: what Cell.write_svg and the to_svg methods write
    (gdspy/library.py 856-1044, 1209-1252, 1785-1846, polygon.py 254-284, path.py 1123-1153,
    2358-2388, label.py 270-320).

    The document of Svg.v is turned into the characters written.  [fmt] is
    [numpy.format_float_positional] with [trim="0"] and the [precision] of the call.  Strings
    are lists of character codes; the encoding of the file (that of [open(..., "w")]) is not
    modelled.  A dictionary of CSS entries is a list of pairs of strings in its order. *)

From Coq Require Import Reals List ZArith NArith Bool String Ascii DecimalString.
From Verif Require Import Graph Plane Hier Svg.
Import ListNotations.

Definition str := list Z.
Definition lit (s : string) : str := map (fun a => Z.of_N (N_of_ascii a)) (list_ascii_of_string s).
(** A line feed. *)
Definition nl : str := [10%Z].
(** [str(z)] for an integer *)
Definition dec (z : Z) : str := lit (NilZero.string_of_int (Z.to_int z)).
(** [sep.join(l)] *)
Fixpoint join (sep : str) (l : list str) : str :=
  match l with
  | [] => []
  | x :: r => match r with [] => x | _ => x ++ sep ++ join sep r end
  end.

(** "l{}d{}" and "l{}t{}"; a texttype may be None. *)
Definition spec_class (k : spec) : str := lit "l" ++ dec (fst k) ++ lit "d" ++ dec (snd k).
Definition text_class (k : Z * option Z) : str :=
  lit "l" ++ dec (fst k) ++ lit "t" ++ match snd k with Some t => dec t | None => lit "None" end.
(** label.py 303-304 *)
Definition ha_text (a : halign) : str :=
  match a with Start => lit "start" | Middle => lit "middle" | End_ => lit "end" end.
Definition va_text (a : valign) : str :=
  match a with BeforeEdge => lit "text-before-edge" | Central => lit "central" | AfterEdge => lit "text-after-edge" end.

Definition css := list (str * str).
(** library.py 990-1003 and 1009-1022: the default styles.  A texttype of None cannot be added
    to the layer: TypeError. *)
Definition rgb (l d : Z) : str :=
  let '(r, g, b) := colour l d in lit "rgb(" ++ dec r ++ lit ", " ++ dec g ++ lit ", " ++ dec b ++ lit ")".
Definition shape_style (k : spec) : css :=
  let c := rgb (fst k) (snd k) in [(lit "stroke", c); (lit "fill", c); (lit "fill-opacity", lit "0.5")].
Definition font_style (k : Z * option Z) : option css :=
  match snd k with Some t => Some [(lit "stroke", lit "none"); (lit "fill", rgb (fst k) t)] | None => None end.
(** library.py 1004-1006 and 1023-1025 *)
Definition rule_text (cls : str) (style : css) : str :=
  lit "." ++ cls ++ lit " {" ++ join (lit " ") (map (fun kv => fst kv ++ lit ": " ++ snd kv ++ lit ";") style) ++ lit "}" ++ nl.
Definition shape_rule (r : spec * option css) : str :=
  rule_text (spec_class (fst r)) (match snd r with Some v => v | None => shape_style (fst r) end).
Definition font_rule (r : (Z * option Z) * option css) : option str :=
  option_map (rule_text (text_class (fst r))) (match snd r with Some v => Some v | None => font_style (fst r) end).

Section SvgText.
Variable fmt : R -> str.

(** The entries of a transform; the only scale by two numbers is "scale(1 -1)". *)
Definition tf_text (t : tf) : str :=
  match t with
  | Translate x y => lit "translate(" ++ fmt x ++ lit " " ++ fmt y ++ lit ")"
  | Rotate d => lit "rotate(" ++ fmt d ++ lit ")"
  | ScaleXY _ _ => lit "scale(1 -1)"
  | ScaleBy k => lit "scale(" ++ fmt k ++ lit ")"
  end.
Definition tfs_text (l : list tf) : str := join (lit " ") (map tf_text l).
Definition pt_text (p : pt) : str := join (lit ",") [fmt (fst p); fmt (snd p)].
(** polygon.py 268-284 and path.py 1137-1153; label.py 314-319; library.py 1246-1250 and
    1831-1846 *)
Definition node_text (n : node) : str :=
  match n with
  | NPoly k pts => lit "<polygon class=""" ++ spec_class k ++ lit """ points=""" ++ join (lit " ") (map pt_text pts) ++ lit """/>" ++ nl
  | NText k ha va t data =>
      lit "<text class=""" ++ text_class k ++ lit """ text-anchor=""" ++ ha_text ha ++ lit """ dominant-baseline=""" ++ va_text va
      ++ lit """ transform=""" ++ tfs_text t ++ lit """>" ++ data ++ lit "</text>" ++ nl
  | NUse t n => lit "<use transform=""" ++ tfs_text t ++ lit """ xlink:href=""#" ++ n ++ lit """/>" ++ nl
  end.
(** Cell.to_svg, library.py 871-884; [attributes] is empty or 'transform="scale(1 -1)"'. *)
Definition group_text (g : group) : str :=
  lit "<g id=""" ++ grp_id g ++ lit """ "
  ++ (match grp_tf g with [] => [] | t => lit "transform=""" ++ tfs_text t ++ lit """" end) ++ lit ">" ++ nl
  ++ flat_map node_text (grp_nodes g) ++ lit "</g>" ++ nl.

(** Cell.write_svg, library.py 970-1041.  None is an exception. *)
Definition head_text (v : R * R * R * R) : str :=
  let '(x, y, w, h) := v in
  lit "<?xml version=""1.0"" encoding=""UTF-8""?>" ++ nl
  ++ lit "<svg xmlns=""http://www.w3.org/2000/svg"" xmlns:xlink=""http://www.w3.org/1999/xlink""" ++ nl
  ++ lit "     width=""" ++ fmt w ++ lit """ height=""" ++ fmt h ++ lit """ viewBox=""" ++ fmt x ++ lit " " ++ fmt y
  ++ lit " " ++ fmt w ++ lit " " ++ fmt h ++ lit """>" ++ nl
  ++ lit "<defs>" ++ nl ++ lit "<style type=""text/css"">" ++ nl.
Definition back_text (b : R * R * R * R * str) : str :=
  let '(x, y, w, h, colour) := b in
  lit "<rect x=""" ++ fmt x ++ lit """ y=""" ++ fmt y ++ lit """ width=""" ++ fmt w ++ lit """ height=""" ++ fmt h
  ++ lit """ fill=""" ++ colour ++ lit """ stroke=""none""/>" ++ nl.
Definition svg_file (d : doc css str) : option str :=
  match each font_rule (doc_fonts d) with
  | None => None
  | Some fonts =>
      Some (head_text (doc_view d) ++ flat_map shape_rule (doc_rules d) ++ List.concat fonts ++ lit "</style>" ++ nl
            ++ flat_map group_text (doc_defs d) ++ lit "</defs>" ++ nl
            ++ match doc_back d with Some b => back_text b | None => [] end
            ++ group_text (doc_top d) ++ lit "</svg>")
  end.
End SvgText.
