(** Text (gdspy/polygon.py 968-1011) and the text of labels in SVG (label.py 302-320). *)

From Coq Require Import Reals List ZArith Bool.
From Verif Require Import Plane Font.
Import ListNotations.
Open Scope R_scope.

(** ** Text *)

(** Strings are lists of character codes. *)
Definition lookup (c : Z) : option (list (list (Z * Z))) :=
  option_map snd (find (fun e => (fst e =? c)%Z) font).
Section Text.
Variables (size ca sa : R) (position : pt).
(** polygon.py 996-1003 *)
Definition vertex (posX posY : Z) (g : Z * Z) : pt :=
  let xp := size / 9 * IZR (posX + fst g) in
  let yp := size / 9 * IZR (posY + snd g) in
  (fst position + xp * ca - yp * sa, snd position + xp * sa + yp * ca).
(** The loop, 979-1008 *)
Fixpoint letters (horizontal : bool) (posX posY : Z) (text : list Z) : list poly :=
  match text with
  | [] => []
  | c :: r =>
      if (c =? 10)%Z then
        if horizontal then letters horizontal 0 (posY - 11) r else letters horizontal (posX + 8) 0 r
      else if (c =? 9)%Z then
        if horizontal then letters horizontal (posX + 32 - (posX + 8) mod 32) posY r
        else letters horizontal posX (posY - 11 - (posY - 22) mod 44) r
      else
        match lookup c with Some g => map (map (vertex posX posY)) g | None => [] end ++
        (if horizontal then letters horizontal (posX + 8) posY r else letters horizontal posX (posY - 11) r)
  end.
End Text.
(** Text.__init__, 968-1011; layer and datatype are the same for all polygons. *)
Definition text_polygons (text : list Z) (size : R) (position : pt) (horizontal : bool) (angle : R) : list poly :=
  let '(ca, sa) := if Req_EM_T angle 0 then (1, 0) else (cos angle, sin angle) in
  letters size ca sa position horizontal 0 0 text.

(** ** Labels in SVG *)

(** [self.text.translate({38: "&amp;", 60: "&lt;", 62: "&gt;"})], label.py 311; Unicode
    code points *)
Definition svg_char (c : Z) : list Z :=
  if (c =? 38)%Z then [38; 97; 109; 112; 59]%Z
  else if (c =? 60)%Z then [38; 108; 116; 59]%Z
  else if (c =? 62)%Z then [38; 103; 116; 59]%Z
  else [c].
Definition svg_text (text : list Z) : list Z := flat_map svg_char text.
