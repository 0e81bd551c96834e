(** Plane geometry: points, polygons and PolygonSet (gdspy/polygon.py 38-555).

    Coordinates are real numbers and arithmetic is exact; floating-point
    rounding is not modelled in this layer. *)

From Coq Require Import Reals Lra List ZArith Bool.
Import ListNotations.
Open Scope R_scope.

Definition pt := (R * R)%type.
Definition padd (p q : pt) : pt := (fst p + fst q, snd p + snd q).
Definition psub (p q : pt) : pt := (fst p - fst q, snd p - snd q).
Definition pmul (p q : pt) : pt := (fst p * fst q, snd p * snd q).   (* numpy's elementwise product *)
Definition smul (k : R) (p : pt) : pt := (k * fst p, k * snd p).
Definition dot (p q : pt) : R := fst p * fst q + snd p * snd q.
Definition cross (p q : pt) : R := fst p * snd q - fst q * snd p.
Definition dist2 (p q : pt) : R := dot (psub p q) (psub p q).

(** [points * ct + points[:, ::-1] * st] with [st] already multiplied by
    [_mpone] = (-1, 1) (polygon.py 33 and 141-147, library.py 1307-1308, 1327). *)
Definition rot_cs (ct st : R) (p : pt) : pt :=
  (fst p * ct + snd p * (st * -1), snd p * ct + fst p * (st * 1)).

Definition poly := list pt.

(** A PolygonSet: each polygon with its layer and datatype (the three parallel
    lists of the code, zipped).  [properties] play no role here. *)
Record gpoly := GPoly { g_pts : poly; g_layer : Z; g_dt : Z }.
Definition gset := list gpoly.

Definition on_pts (f : poly -> poly) (g : gpoly) : gpoly := GPoly (f (g_pts g)) (g_layer g) (g_dt g).
Definition map_pts (f : pt -> pt) (s : gset) : gset := map (on_pts (map f)) s.

(** PolygonSet.rotate, polygon.py 124-148 *)
Definition rotate_pt (angle : R) (c : pt) (p : pt) : pt :=
  padd (rot_cs (cos angle) (sin angle) (psub p c)) c.
Definition ps_rotate (angle : R) (c : pt) : gset -> gset := map_pts (rotate_pt angle c).

(** PolygonSet.scale, polygon.py 150-172 *)
Definition scale_pt (sx : R) (sy : option R) (c : pt) (p : pt) : pt :=
  padd (pmul (psub p c) (sx, match sy with Some s => s | None => sx end)) c.
Definition ps_scale (sx : R) (sy : option R) (c : pt) : gset -> gset := map_pts (scale_pt sx sy c).

(** PolygonSet.translate, polygon.py 511-529 *)
Definition ps_translate (v : pt) : gset -> gset := map_pts (fun p => padd p v).

(** PolygonSet.mirror, polygon.py 531-555:
    [outer(inner(points - origin, vec_r), vec) - points + 2 * origin] *)
Definition mirror_pt (p1 p2 : pt) (p : pt) : pt :=
  let vec := psub p2 p1 in
  let vec_r := smul (2 / dot vec vec) vec in
  padd (psub (smul (dot (psub p p1) vec_r) vec) p) (smul 2 p1).
Definition ps_mirror (p1 p2 : pt) : gset -> gset := map_pts (mirror_pt p1 p2).

(** PolygonSet.area, polygon.py 286-324.  The loop over [ii] visits the pairs of
    consecutive vertices after the first. *)
Fixpoint fan (p0 : pt) (l : list pt) : R :=
  match l with
  | a :: r =>
      match r with
      | b :: _ => ((fst p0 - fst b) * (snd a - snd p0) - (snd p0 - snd b) * (fst a - fst p0)) + fan p0 r
      | [] => 0
      end
  | [] => 0
  end.
Definition poly_area (pts : poly) : R :=
  match pts with [] => 0 | p0 :: r => / 2 * Rabs (fan p0 r) end.
Definition ps_area (s : gset) : R := fold_right Rplus 0 (map (fun g => poly_area (g_pts g)) s).

(** Dictionaries {(layer, datatype): value} in insertion order. *)
Definition spec := (Z * Z)%type.
Definition spec_eqb (a b : spec) : bool := Z.eqb (fst a) (fst b) && Z.eqb (snd a) (snd b).
Definition g_spec (g : gpoly) : spec := (g_layer g, g_dt g).
(** [if key in d: d[key] += v else: d[key] = v] *)
Fixpoint acc_add (d : list (spec * R)) (k : spec) (v : R) : list (spec * R) :=
  match d with
  | [] => [(k, v)]
  | (k', w) :: r => if spec_eqb k' k then (k', w + v) :: r else (k', w) :: acc_add r k v
  end.
Definition ps_area_spec (s : gset) : list (spec * R) :=
  fold_left (fun d g => acc_add d (g_spec g) (poly_area (g_pts g))) s [].

(** Rectangle, polygon.py 599-647: the four corners of two opposite ones. *)
Definition rectangle (p1 p2 : pt) : poly :=
  [(fst p1, snd p1); (fst p1, snd p2); (fst p2, snd p2); (fst p2, snd p1)].

(** numpy's min and max of a non-empty array. *)
Fixpoint rmin (x : R) (l : list R) : R := match l with [] => x | y :: r => Rmin x (rmin y r) end.
Fixpoint rmax (x : R) (l : list R) : R := match l with [] => x | y :: r => Rmax x (rmax y r) end.
Definition bbox := (pt * pt)%type.
(** The box of a list of points; [None] for no points. *)
Definition box_of (pts : list pt) : option bbox :=
  match pts with
  | [] => None
  | p :: r => Some ((rmin (fst p) (map fst r), rmin (snd p) (map snd r)),
                    (rmax (fst p) (map fst r), rmax (snd p) (map snd r)))
  end.
(** PolygonSet.get_bounding_box, polygon.py 99-122: the minimum of the minima is
    the minimum over all vertices.  (A polygon without vertices raises in numpy;
    here it is ignored.) *)
Definition ps_bbox (s : gset) : option bbox := box_of (flat_map g_pts s).
