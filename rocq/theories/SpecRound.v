(** The shapes that the ends and corners of a FlexPath ask for. *)

From Coq Require Import Reals List ZArith Bool.
From Verif Require Import Plane Curve Flex SpecFlex PropArc.
Import ListNotations.
Open Scope R_scope.

(** [t] is the direction (angle) of the way from [p] to [q]. *)
Definition heads (p q : pt) (t : R) : Prop := psub q p = smul (apart p q) (cos t, sin t).
(** The point [a] ahead of [e] and [b] to the left of it, looking in the direction [t]. *)
Definition spot (e : pt) (t a b : R) : pt := padd e (a * cos t - b * sin t, a * sin t + b * cos t).
(** The arc of a circle from the angle [a] to the angle [b]; s from 0 to 1. *)
Definition arc_at (c : pt) (r a b s : R) : pt := padd c (r * cos (a + s * (b - a)), r * sin (a + s * (b - a))).
(** The polygonal line [l] follows the curve [g] from its start to its end: its
    vertices are on the curve and the curve is nowhere further than [err] from it. *)
Definition traces (g : R -> pt) (err : R) (l : list pt) : Prop :=
  hd (0, 0) l = g 0 /\ last l (0, 0) = g 1 /\
  (forall x, In x l -> exists s, 0 <= s <= 1 /\ x = g s) /\
  (forall s, 0 <= s <= 1 -> near l err (g s)).

(** An end at [e] of a path of width [w] that goes in the direction [t]; [s] is 1
    where the path ends and -1 where it starts.  The points are listed from the right
    of the path to its left.  Smooth ends and functions are not described. *)
Definition end_shape (en : cap) (tol w : R) (e : pt) (t s : R) (l : list pt) : Prop :=
  let square d := l = [spot e t 0 (- (w / 2)); spot e t (s * d) (- (w / 2)); spot e t (s * d) (w / 2); spot e t 0 (w / 2)] in
  match en with
  | Flush => l = [spot e t 0 (- (w / 2)); spot e t 0 (w / 2)]
  | Extended => square (w / 2)
  | Lengths a b => square (if Rlt_dec 0 s then b else a)
  | RoundCap => traces (arc_at e (w / 2) (t - PI / 2) (t - PI / 2 + s * PI)) (81 / 64 * tol) l
  | _ => True
  end.

(** Where the lines at the distance [h] to the left of the sections before and after
    a corner at [b] meet, if the direction goes from [t0] to [t1]. *)
Definition crossing (b : pt) (t0 t1 h : R) : pt := spot b t0 (- h * tan ((t1 - t0) / 2)) h.
(** A corner at [b] seen on the line [h] to the left (to the right if negative).  On
    the inner side of the bend, all corners but circular ones are where the lines cross.
    Smooth corners and functions are not described. *)
Definition corner_shape (c : corner) (bend : option R) (tol : R) (b : pt) (t0 t1 h : R) (l : list pt) : Prop :=
  let inner := 0 <= h * (t1 - t0) in
  match c with
  | Miter => l = [crossing b t0 t1 h]
  | Bevel => (inner -> l = [crossing b t0 t1 h]) /\ (~ inner -> l = [spot b t0 0 h; spot b t1 0 h])
  | RoundCorner => (inner -> l = [crossing b t0 t1 h]) /\
      (~ inner -> traces (arc_at b h (t0 + PI / 2) (t1 + PI / 2)) (49 / 36 * tol) l)
  | Natural =>
      (inner \/ Rabs (t1 - t0) <= PI / 2 -> l = [crossing b t0 t1 h]) /\
      (~ (inner \/ Rabs (t1 - t0) <= PI / 2) -> l = [spot b t0 (Rabs h) h; spot b t1 (- Rabs h) h])
  | Circular =>
      (t0 = t1 -> l = [spot b t0 0 h]) /\
      (t0 <> t1 -> exists br, bend = Some br /\
        let s := if Rlt_dec t0 t1 then 1 else -1 in
        (2 * tol <= br - Rabs h ->
         traces (arc_at (spot b t0 (- (br * tan (Rabs (t1 - t0) / 2))) (s * br)) (br - s * h) (t0 - s * (PI / 2)) (t1 - s * (PI / 2))) (9 / 4 * tol) l))
  | _ => True
  end.
(** The points at the corners of [ctr], on the line [h] to the left. *)
Definition corners_shape (c : corner) (bend : option R) (tol : R) (ctr : list pt) (h : R) (l : list pt) : Prop :=
  let p i := nth i ctr (0, 0) in
  exists pieces, l = concat pieces /\ length pieces = (length ctr - 2)%nat /\
    forall i, (i < length pieces)%nat -> exists t0 t1,
      heads (p i) (p (S i)) t0 /\ heads (p (S i)) (p (S (S i))) t1 /\ Rabs (t1 - t0) < PI /\
      corner_shape c bend tol (p (S i)) t0 t1 h (nth i pieces []).
