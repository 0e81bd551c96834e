(** The placing of polygons by references and arrays, and the transformations of polygon
    sets, as they are computed: with rounded operations.

    [arith] holds the operations of the machine: products, sums and quotients of two numbers,
    the cosine and sine of numpy, and [numpy.pi].  What is known of them is in SpecMachine.v.
    Numbers are reals, those that doubles stand for; results too large for doubles (infinities)
    are not modelled. *)

From Coq Require Import Reals List ZArith.
From Verif Require Import Graph Plane Hier.
Import ListNotations.
Open Scope R_scope.

Record arith := Arith { mul : R -> R -> R; add : R -> R -> R; div : R -> R -> R;
                        cosm : R -> R; sinm : R -> R; pim : R }.

Section Machine.
Variable a : arith.

(** Elementwise products and sums of points *)
Definition mmul (p q : pt) : pt := (mul a (fst p) (fst q), mul a (snd p) (snd q)).
Definition madd (p q : pt) : pt := (add a (fst p) (fst q), add a (snd p) (snd q)).
(** [pts * ct + pts[:, ::-1] * st] with [st = sin * _mpone], _mpone = (-1, 1) *)
Definition mturn (ct sn : R) (p : pt) : pt :=
  let st := mmul (sn, sn) (-1, 1) in madd (mmul p (ct, ct)) (mmul (snd p, fst p) st).

(** *** References and arrays: library.py 1300-1333 and 1888-1943 *)
(** [rotation * numpy.pi / 180.0] *)
Definition radians (d : R) : R := div a (mul a d (pim a)) 180.
Definition m_refl (b : bool) (p : pt) : pt := if b then mmul p (1, -1) else p.
Definition m_mag (m : option R) (p : pt) : pt := match m with Some k => mmul p (k, k) | None => p end.
Definition m_rot (d : option R) (p : pt) : pt :=
  match d with Some d => mturn (cosm a (radians d)) (sinm a (radians d)) p | None => p end.
Definition m_org (o : option pt) (p : pt) : pt := match o with Some v => madd p v | None => p end.
Definition m_ref (pl : place) (p : pt) : pt := m_org (p_org pl) (m_rot (p_rot pl) (m_mag (p_mag pl) (m_refl (p_refl pl) p))).
Definition m_arr (pl : place) (spc : pt) (p : pt) : pt :=
  m_org (p_org pl) (m_rot (p_rot pl) (m_refl (p_refl pl) (madd (m_mag (p_mag pl) p) spc))).
(** [spc = numpy.array([self.spacing[0] * ii, self.spacing[1] * jj])] *)
Definition m_grid (n m : nat) (sp : pt) : list pt :=
  flat_map (fun i => map (fun j => mmul sp (INR i, INR j)) (seq 0 m)) (seq 0 n).
Definition m_place (pl : place) (l : list poly) : list poly :=
  match p_arr pl with
  | None => map (map (m_ref pl)) l
  | Some (n, m, sp) => flat_map (fun spc => map (map (m_arr pl spc)) l) (m_grid n m sp)
  end.

(** Cell.get_polygons() with by_spec=False and depth=None, library.py 664-699, 1336-1368 and
    1946-1976.  The polygons of the paths are given. *)
Section Cells.
Context {P : Type} (ops : pathops P).
Definition m_step (h : heap place (stuff P)) (rec : option Z * nat -> option (list poly)) (dc : option Z * nat)
    : option (list poly) :=
  match expand h rec (fun pl l => Some (m_place pl l)) None (crefs h (snd dc)) with
  | Some l => Some (own_polys (stuff_of h (snd dc)) ++ flat_map (path_flat ops) (s_paths (stuff_of h (snd dc))) ++ l)
  | None => None
  end.
Definition m_polys (h : heap place (stuff P)) (fuel c : nat) : option (list poly) := iter_fuel (m_step h) fuel (None, c).
End Cells.

(** *** PolygonSet.translate, scale and rotate: polygon.py 124-172 and 511-529; Rectangle, Round
    and the other shapes inherit them.  [points - c0] is the sum with the opposite numbers. *)
Definition m_neg (p : pt) : pt := (- fst p, - snd p).
Definition m_translate (v p : pt) : pt := madd p v.
Definition m_scale (sx : R) (sy : option R) (c p : pt) : pt :=
  madd (mmul (madd p (m_neg c)) (sx, match sy with Some y => y | None => sx end)) c.
Definition m_rotate (angle : R) (c p : pt) : pt :=
  madd (mturn (cosm a angle) (sinm a angle) (madd p (m_neg c))) c.
End Machine.
