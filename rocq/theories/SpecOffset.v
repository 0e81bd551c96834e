(** What offsetting a polygon means: winding numbers around outlines with real vertices,
    distances from the edges, the rectangles next to them. *)

From Coq Require Import Reals List ZArith Bool.
From Verif Require Import Plane SpecEngine LinkHoles SpecLink Offset.
Import ListNotations.
Open Scope R_scope.

Definition real (v : zpt) : pt := (IZR (fst v), IZR (snd v)).

(** As in SpecLink.v, for real vertices: positive when [q] is on the left of [e]; the edge
    passes on the right of [q], upwards (1) or downwards (-1); the number of times an outline
    goes around [q]. *)
Definition rside (e : pt * pt) (q : pt) : R :=
  (fst (snd e) - fst (fst e)) * (snd q - snd (fst e)) - (snd (snd e) - snd (fst e)) * (fst q - fst (fst e)).
Definition rpasses (q : pt) (e : pt * pt) : Z :=
  if Rle_dec (snd (fst e)) (snd q) then
    if Rlt_dec (snd q) (snd (snd e)) then if Rlt_dec 0 (rside e q) then 1%Z else 0%Z else 0%Z
  else if Rle_dec (snd (snd e)) (snd q) then if Rlt_dec (rside e q) 0 then (-1)%Z else 0%Z else 0%Z.
Definition around (q : pt) (l : list pt) : Z := sum_over (rpasses q) (edges l).

(** Squared distances; the point at parameter [t] of a segment. *)
Definition dist2 (p q : pt) : R := (fst p - fst q) * (fst p - fst q) + (snd p - snd q) * (snd p - snd q).
Definition mid (a b : pt) (t : R) : pt := (fst a + t * (fst b - fst a), snd a + t * (snd b - snd a)).
(** More than the square root of [k] away from every edge of the outline. *)
Definition away (k : R) (q : pt) (l : list pt) : Prop :=
  forall e t, In e (edges l) -> 0 <= t <= 1 -> k < dist2 q (mid (fst e) (snd e) t).
(** At most [d] away from an edge. *)
Definition close_to (d : R) (q : pt) (e : zpt * zpt) : Prop :=
  exists t, 0 <= t <= 1 /\ dist2 q (mid (real (fst e)) (real (snd e)) t) <= d * d.

(** The rectangle next to an edge: its side is the edge, its width is [d], and it lies on the
    right if [d] is positive (outside of a polygon that goes counter-clockwise) and on the
    left if [d] is negative.  All its points are in it that are more than [m] away from
    the other three sides. *)
Definition long (e : zpt * zpt) : R := sqrt (dist2 (real (snd e)) (real (fst e))).
Definition next_to (m d : R) (q : pt) (e : zpt * zpt) : Prop :=
  let a := real (fst e) in
  let b := real (snd e) in
  exists x y, m < x < long e - m /\ 0 < y < Rabs d - m /\
    let z := if Rlt_dec d 0 then - y else y in
    q = (fst a + x * (fst b - fst a) / long e + z * (snd b - snd a) / long e,
         snd a + x * (snd b - snd a) / long e - z * (fst b - fst a) / long e).

(** An outline in which no vertex is followed by itself. *)
Definition proper (l : zpath) : Prop := (3 <= length l)%nat /\ forall e, In e (edges l) -> fst e <> snd e.

(** How far from a corner its new vertices may be, in multiples of the distance. *)
Definition reach (jt : join) (tolerance : R) : R :=
  match jt with Miter => Rmax 2 tolerance | Bevel => sqrt 2 | RoundJoin => 1 end.

(** Edges with two different ends. *)
Definition apart (e : zpt * zpt) : bool := negb ((fst (fst e) =? fst (snd e))%Z && (snd (fst e) =? snd (snd e))%Z).
(** No edge turns back almost onto the one before: the angle between them is at least a
    right angle, or its sine at least one unit over [d]. *)
Definition no_needles (d : R) (l : zpath) : Prop :=
  forall e e', In (e, e') (edges (filter apart (edges l))) ->
  let ux := fst (real (snd e)) - fst (real (fst e)) in let uy := snd (real (snd e)) - snd (real (fst e)) in
  let wx := fst (real (snd e')) - fst (real (fst e')) in let wy := snd (real (snd e')) - snd (real (fst e')) in
  0 <= ux * wx + uy * wy \/ long e * long e' <= Rabs (d * (ux * wy - uy * wx)).

(** How many more times an outline goes around a point when [d] is positive, how many less
    when it is negative. *)
Definition gained (d : R) (before after : Z) : Z := if Rlt_dec d 0 then (before - after)%Z else (after - before)%Z.

(** The outline of [src] moved by [d]: it never goes fewer times around a point (more times
    if [d] is negative), it does go once more around the points in the rectangle next to
    any edge, and it differs only at points that are at most [k] times the distance from an
    edge.  The points less than a grid unit from the new outline are left out, and
    as many more as [k] says at the borders of the rectangle. *)
Definition moved_outline (k d : R) (src new : zpath) : Prop :=
  forall q, away (/ 2) q (map real new) ->
  (0 <= gained d (winding q src) (winding q new))%Z /\
  (forall e, In e (edges src) -> next_to (k + 1) d q e -> (1 <= gained d (winding q src) (winding q new))%Z) /\
  (winding q new <> winding q src -> exists e, In e (edges src) /\ close_to (k * Rabs d) q e).
