(** The polygons that Round should draw (C80). *)

From Coq Require Import Reals List ZArith Bool.
From Verif Require Import Plane Curve Circles PropArc.
Import ListNotations.
Open Scope R_scope.

(** The two half axes of a circle or an ellipse, and the longer one. *)
Definition semi (r : radii) : R * R := match r with Circle x => (x, x) | Ellipse x y => (x, y) end.
Definition larger (r : radii) : R := Rmax (fst (semi r)) (snd (semi r)).
Definition positive (r : radii) : Prop := 0 < fst (semi r) /\ 0 < snd (semi r).
(** A point of the ellipse about [c]. *)
Definition ellipse_at (c : pt) (r : radii) (t : R) : pt := (fst c + fst (semi r) * cos t, snd c + snd (semi r) * sin t).
(** The point of parameter [t] is the one that is seen from the centre in the direction
    of the angle [a], with as many full turns. *)
Definition seen (r : radii) (a t : R) : Prop :=
  (exists q, 0 < q /\ fst (semi r) * cos t = q * cos a /\ snd (semi r) * sin t = q * sin a) /\ Rabs (t - a) < PI / 2.
(** Angles at which an ellipse may be cut: among the odd multiples of pi only pi. *)
Definition regular (r : radii) (a : R) : Prop := match r with Circle _ => True | Ellipse _ _ => cos a = -1 -> a = PI end.
(** Equal angles mean the whole turn. *)
Definition sweep (a0 a1 e : R) : Prop := (a1 <> a0 /\ e = a1) \/ (a1 = a0 /\ e = a0 + 2 * PI).
(** The border of a polygon, as a closed line. *)
Definition outline (q : poly) : list pt := q ++ [hd (0, 0) q].
(** The arc from the parameter [a] to [b]; s from 0 to 1. *)
Definition arc_on (c : pt) (r : radii) (a b s : R) : pt := ellipse_at c r (a + s * (b - a)).
