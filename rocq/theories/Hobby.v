(** _hobby for two points with both angles given, gdspy/hobby.py 148-247: the case
    used by smooth ends and smooth corners of paths.  Tensions are 1 there. *)

From Coq Require Import Reals Lra List.
From Verif Require Import Plane PlaneProofs Flex PropFlexEnds.
Import ListNotations.
Open Scope R_scope.

(** [alpha], hobby.py 224-234 *)
Definition hob_alpha (th ph : R) : R :=
  sqrt 2 * (sin th - / 16 * sin ph) * (sin ph - / 16 * sin th) * (cos th - cos ph).
(** [(2 + alpha) / (1 + (1 - c) * costheta + c * cosphi) / 3], hobby.py 235-240 *)
Definition hob_c : R := (3 - sqrt 5) / 2.
Definition hob_out (th ph : R) : R := (2 + hob_alpha th ph) / (1 + (1 - hob_c) * cos th + hob_c * cos ph) / 3.
Definition hob_in (th ph : R) : R := (2 - hob_alpha th ph) / (1 + (1 - hob_c) * cos ph + hob_c * cos th) / 3.
(** Both control points; [theta = angles[0] - delta], [phi = delta - angles[1]]
    (hobby.py 157-166); no equation is solved since nn = 1. *)
Definition hobby2 (pq : pt * pt) (ang : R * R) : pt * pt :=
  let v := psub (snd pq) (fst pq) in
  let d := len v in
  let delta := along v in
  let th := fst ang - delta in
  let ph := delta - snd ang in
  (padd (fst pq) (smul (d * hob_out th ph) (cos (delta + th), sin (delta + th))),
   psub (snd pq) (smul (d * hob_in th ph) (cos (delta - ph), sin (delta - ph)))).
