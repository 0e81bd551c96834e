(** Round: gdspy/polygon.py 650-832.  Coordinates and angles are exact reals; [None] is
    an exception. *)

From Coq Require Import Reals List ZArith Bool.
From Verif Require Import Plane Curve Flex Path.
Import ListNotations.
Open Scope R_scope.

(** The arguments [radius] and [inner_radius]: a number or two *)
Inductive radii := Circle (r : R) | Ellipse (rx ry : R).
Definition rad_x (r : radii) : R := match r with Circle x => x | Ellipse x _ => x end.
Definition rad_y (r : radii) : R := match r with Circle x => x | Ellipse _ y => y end.
(** [max(radius)] *)
Definition rad_max (r : radii) : R := match r with Circle x => x | Ellipse x y => Rmax x y end.
(** [x % y] for positive y *)
Definition pymod (x y : R) : R := x - y * IZR (Int_part (x / y)).
(** [outer_transform] and [inner_transform], 719-749.  Here the sine of pi is zero: for
    other odd multiples of pi the result may differ from the code by a full turn. *)
Definition as_param (r : radii) (a : R) : R :=
  match r with
  | Circle _ => a
  | Ellipse rx ry =>
      let back := a - (pymod (a + PI) (2 * PI) - PI) in
      if Req_EM_T a PI then PI else atan2 (rx * sin a) (ry * cos a) + back
  end.
(** [number_of_points], 761-772: the exceptions are those of [arc_count] *)
Definition round_points (rad inn : radii) (a0 a1 tol : R) (np : option nat) : option nat :=
  match np with
  | Some n => Some n
  | None =>
      let full := if Req_EM_T a1 a0 then 2 * PI else Rabs (a1 - a0) in
      match arc_count 3 (/ 2 * full) tol (rad_max rad) with
      | None => None
      | Some n => Some (if Rlt_dec 0 (rad_max inn) then (n * 2)%nat else n)
      end
  end.
Definition on_ellipse_c (c : pt) (r : radii) (t : R) : pt := (cos t * rad_x r + fst c, sin t * rad_y r + snd c).
(** One polygon, 789-823; [np] is the number of points of each one.  A ring with a
    single point on one side has not-a-number coordinates (0 / 0): also [None]. *)
Definition round_piece (c : pt) (rad inn : radii) (np : nat) (o0 o1 i0 i1 : R) : option poly :=
  let n2 := (np / 2)%nat in
  let n1 := (np - n2)%nat in
  if Req_EM_T o1 o0 then
    if Rle_dec (rad_max inn) 0 then Some (map (fun k => on_ellipse_c c rad (INR k * 2 * PI / INR np)) (seq 0 np))
    else if (n2 <=? 1)%nat then None
    else Some (map (fun k => on_ellipse_c c rad (INR k * 2 * PI / (INR n1 - 1))) (seq 0 n1) ++
               map (fun k => on_ellipse_c c inn (INR k * (-2) * PI / (INR n2 - 1))) (seq 0 n2))
  else
    if Rle_dec (rad_max inn) 0 then
      if (np =? 0)%nat then None else Some (c :: map (on_ellipse_c c rad) (linspace o0 o1 (np - 1)))
    else Some (map (on_ellipse_c c rad) (linspace o0 o1 n1) ++ map (on_ellipse_c c inn) (linspace i1 i0 n2)).
(** The constructor, 706-823: polygons, layers and datatypes.  (With no points at all
    the division by the number of pieces raises.) *)
Definition round (c : pt) (rad inn : radii) (a0 a1 tol : R) (np : option nat) (mx : nat) (la dt : Z) : option (list poly * list Z * list Z) :=
  match round_points rad inn a0 a1 tol np with
  | None => None
  | Some np =>
      let pieces := piece_count np mx in
      if (pieces =? 0)%nat then None
      else
        let k := (np / pieces)%nat in
        let a1 := if Req_EM_T a1 a0 then (if (1 <? pieces)%nat then a1 + 2 * PI else a1) else a1 in
        let angles := linspace a0 a1 (pieces + 1) in
        let oang := map (as_param rad) angles in
        let iang := map (as_param inn) angles in
        match all_some (map (fun j => round_piece c rad inn k (at_ oang j) (at_ oang (j + 1)) (at_ iang j) (at_ iang (j + 1))) (seq 0 pieces)) with
        | None => None
        | Some ps => Some (ps, repeat la pieces, repeat dt pieces)
        end
  end.
