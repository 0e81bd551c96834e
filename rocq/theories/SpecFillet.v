(** Rounded corners. *)

From Coq Require Import Reals List ZArith Bool.
From Verif Require Import Plane SpecFlex PropArc SpecRound.
Import ListNotations.
Open Scope R_scope.

(** How far from the corner [b], between the vertices [a] and [c], the rounding begins
    and ends: so that its radius is [r], but on neither side more than 49% of the edge.
    [th] is the angle of the corner. *)
Definition setback (a b c : pt) (r th : R) : R := Rmin (r * tan (th / 2)) (Rmin (49 / 100 * apart a b) (49 / 100 * apart b c)).
(** [l] rounds the corner [b] between [a] and [c]: vertices on the arc of the circle that
    touches the edge from [a] at the setback before [b] and the edge to [c] at the setback
    after it; at least as many as the fraction of the full circle asks for; and no point
    of the arc is further from the polygonal line than the sagitta of that many steps.
    Corners of up to 1e-6 (radians) are left as they are. *)
Definition rounded (points_per_2pi : Z) (a b c : pt) (r : R) (l : list pt) : Prop :=
  forall t0 t1, heads a b t0 -> heads b c t1 -> Rabs (t1 - t0) < PI ->
  let th := Rabs (t1 - t0) in
  (th <= 1 / 1000000 -> l = [b]) /\
  (1 / 1000000 < th ->
   let d := setback a b c r th in
   let rho := d / tan (th / 2) in
   let s := if Rlt_dec t0 t1 then 1 else -1 in
   (2 <= length l)%nat /\ th / (2 * PI) * IZR points_per_2pi <= INR (length l) /\
   (INR (length l) < th / (2 * PI) * IZR points_per_2pi + 1 \/ length l = 2%nat) /\
   hd (0, 0) l = spot b t0 (- d) 0 /\ last l (0, 0) = spot b t1 d 0 /\
   traces (arc_at (spot b t0 (- d) (s * rho)) rho (t0 - s * (PI / 2)) (t1 - s * (PI / 2)))
          (rho * (1 - cos (th / (2 * INR (length l - 1))))) l).

(** The vertex before and after the vertex [i] of [n]. *)
Definition before (n i : nat) : nat := match i with O => n - 1 | S j => j end.
Definition after (n i : nat) : nat := if (S i =? n)%nat then 0%nat else S i.
(** The directions from [a] to [b] and from [b] to [c] are opposite. *)
Definition reverses (a b c : pt) : Prop := exists t, heads a b t /\ heads b c (t + PI).
