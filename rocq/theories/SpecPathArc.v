(** The polygons that an arc or a turn of Path should add (C79). *)

From Coq Require Import Reals List ZArith Bool.
From Verif Require Import Plane Curve Flex Path SpecPath SpecRound.
Import ListNotations.
Open Scope R_scope.

(** [m] parts are enough for at most [mx] of [np] points in each, and no less are; zero
    means that there is no limit. *)
Definition parts (np mx m : nat) : Prop := match mx with O => m = 1%nat | _ => (np <= m * mx < np + mx)%nat end.
(** An arc about [c] from the angle [a0] to [a1], in [m] parts of [k] points for each
    parallel path.  At the fraction t of the arc the width and the distance are between
    the old and the new ones.  Half of the points of a polygon go forward along the side
    that is far from the centre, the others go back along the other side. *)
Definition arc_drawn (c : pt) (radius a0 a1 : R) (k m : nat) (s s' : path) (ps : list poly) : Prop :=
  length ps = (m * p_n s)%nat /\
  forall i j, (i < p_n s)%nat -> (j < m)%nat ->
    let side sg x :=
      let t := (INR j + x) / INR m in
      let w := p_w s + t * (p_w s' - p_w s) in
      let d := p_dist s + t * (p_dist s' - p_dist s) in
      let a := a0 + t * (a1 - a0) in
      padd c (smul (radius + place (p_n s) i d + sg * w) (cos a, sin a)) in
    nth (j * p_n s + i) ps [] = map (side 1) (linspace 0 1 (k - k / 2)) ++ map (side (-1)) (linspace 1 0 (k / 2)).
(** The same for constant width and distance: the sides are arcs of circles, and the
    side of radius r is within [err r] of its circle. *)
Definition arc_traced (c : pt) (radius a0 a1 : R) (err : R -> R) (m : nat) (s : path) (ps : list poly) : Prop :=
  length ps = (m * p_n s)%nat /\
  forall i j, (i < p_n s)%nat -> (j < m)%nat ->
    let r := radius + place (p_n s) i (p_dist s) in
    let th x := a0 + x / INR m * (a1 - a0) in
    exists A B, nth (j * p_n s + i) ps [] = A ++ rev B /\
      traces (arc_at c (r + p_w s) (th (INR j)) (th (INR j + 1))) (err (r + p_w s)) A /\
      traces (arc_at c (r - p_w s) (th (INR j)) (th (INR j + 1))) (err (r - p_w s)) B.
(** Every side has its centre on the same side. *)
Definition no_overlap (radius : R) (s : path) : Prop := forall i, (i < p_n s)%nat -> p_w s <= radius + place (p_n s) i (p_dist s).
(** The radius of the outermost side. *)
Definition outermost (radius : R) (s : path) : R := radius + p_dist s * (INR (p_n s) - 1) / 2 + p_w s.
