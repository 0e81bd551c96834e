(** What RobustPath calls are and what the plane maps are that moving a path should
    amount to. *)

From Coq Require Import Reals List ZArith Bool.
From Verif Require Import Plane Curve Engine Flex Robust.
Import ListNotations.
Open Scope R_scope.

(** One width, offset, end, layer, datatype and list of components for each
    parallel path; the same number of components in each. *)
Definition r_aligned (r : robust) : Prop :=
  length (r_w r) = r_n r /\ length (r_o r) = r_n r /\ length (r_ends r) = r_n r /\ length (r_layers r) = r_n r /\
  length (r_dts r) = r_n r /\ length (r_paths r) = r_n r /\
  forall p q, In p (r_paths r) -> In q (r_paths r) -> length p = length q.

(** A call of a method of RobustPath, or the assignment of layers made by flatten. *)
Inductive rcall :=
| RSegment (p : pt) (w o : rdim) (rel : bool)
| RArc (radius a0 a1 : R) (w o : rdim)
| RTurn (radius angle : R) (w o : rdim)
| RParametric (c : R -> pt) (dc : option (R -> pt)) (w o : rdim) (rel : bool)
| RBezier (l : list pt) (w o : rdim) (rel : bool)
| RSmooth (hs : list pt -> list (pt * pt)) (cycle : bool) (l : list pt) (w o : rdim) (rel : bool)
| RTranslate (v : pt) | RRotate (a : R) (c : pt) | RScale (k : R) (c : pt)
| RTransform (org : option pt) (rot mag : option R) (refl : bool) (arr : option pt)
| RGetPolygons
| RSetSpecs (sl sd : option Z).

Section Calls.
Variable fuel : nat.
Variable hob : pt * pt -> R * R -> pt * pt.
Variable eng : op -> list zpath -> list zpath -> list zpath.

Definition do_rcall (c : rcall) (r : robust) : option robust :=
  match c with
  | RSegment p w o rel => r_segment p w o rel r
  | RArc ra a b w o => r_arc ra a b w o r
  | RTurn ra a w o => r_turn ra a w o r
  | RParametric g dg w o rel => r_parametric g dg w o rel r
  | RBezier l w o rel => r_bezier l w o rel r
  | RSmooth hs cyc l w o rel => r_smooth hs cyc l w o rel r
  | RTranslate v => Some (r_translate v r)
  | RRotate a c => Some (r_rotate a c r)
  | RScale k c => Some (r_scale k c r)
  | RTransform org rot mag refl arr => Some (r_transform org rot mag refl arr r)
  | RGetPolygons => Some (fst (r_get fuel hob eng r))
  | RSetSpecs sl sd => Some (r_set_specs sl sd r)
  end.
Fixpoint do_rcalls (cs : list rcall) (r : robust) : option robust :=
  match cs with
  | [] => Some r
  | c :: rest => match do_rcall c r with None => None | Some q => do_rcalls rest q end
  end.
End Calls.

(** The calls that draw one section, with their width and offset arguments. *)
Definition one_section (c : rcall) : option (rdim * rdim) :=
  match c with
  | RSegment _ w o _ | RArc _ _ _ w o | RTurn _ _ w o | RParametric _ _ w o _ | RBezier _ w o _ => Some (w, o)
  | _ => None
  end.
Definition draws (c : rcall) : bool :=
  match c with RSmooth _ _ _ _ _ _ => true | _ => match one_section c with Some _ => true | None => false end end.

(** ** Plane maps *)

(** A rotation by [t], a magnification by [k] and a displacement, after a
    reflection at the x axis if [b]. *)
Definition rigid (b : bool) (k t : R) (d p : pt) : pt :=
  let y := if b then - snd p else snd p in
  (fst d + k * (cos t * fst p - sin t * y), snd d + k * (sin t * fst p + cos t * y)).
Definition opt {X} (d : X) (o : option X) : X := match o with Some x => x | None => d end.
(** The map for each call that moves the path; others leave points where they are.
    The displacement of an array element is reflected and rotated, but not scaled
    (as in CellArray). *)
Definition moves (c : rcall) (p : pt) : pt :=
  match c with
  | RTranslate v => (fst p + fst v, snd p + snd v)
  | RRotate a c => rigid false 1 a c (fst p - fst c, snd p - snd c)
  | RScale k c => (fst c + k * (fst p - fst c), snd c + k * (snd p - snd c))
  | RTransform org rot mag refl arr =>
      let d := rigid refl 1 (opt 0 rot) (opt (0, 0) org) (opt (0, 0) arr) in
      rigid refl (opt 1 mag) (opt 0 rot) d p
  | _ => p
  end.
(** The part of the map that acts on directions, and its scale factor. *)
Definition turns (c : rcall) (v : pt) : pt := psub (moves c v) (moves c (0, 0)).
Definition grows (c : rcall) : R :=
  match c with RScale k _ => Rabs k | RTransform _ _ mag _ _ => Rabs (opt 1 mag) | _ => 1 end.
(** Transformations of array elements that are also magnified are excluded. *)
Definition plain_move (c : rcall) : Prop :=
  match c with
  | RTransform _ _ mag _ arr => opt 1 mag = 1 \/ opt (0, 0) arr = (0, 0)
  | _ => draws c = false
  end.

(** ** Joins between sections *)

(** Where the spine of a component is, the direction of travel there, and the
    (non-transformed) points between which the direction of the sides is taken. *)
Definition spine (s : sub) (u : R) : pt := apply (s_tr s) (s_x s u).
Definition heading (s : sub) (u : R) : pt := psub (apply (s_tr s) (s_dx s u (s_h s))) (apply (s_tr s) (0, 0)).
(** Two directions that are the same (not zero). *)
Definition same_way (v w : pt) : Prop := v <> (0, 0) /\ exists a, 0 < a /\ w = smul a v.
(** The direction of the sides is defined. *)
Definition regular (s : sub) (u : R) : Prop := s_centre s (Rmin 1 (u + s_h s)) <> s_centre s (Rmax 0 (u - s_h s)).
(** Arguments that start from the present width or offset. *)
Definition is_const (i : item) : Prop := match i with Const _ => True | Fun_ _ => False end.
Definition from_here (increment : bool) (d : rdim) : Prop :=
  match d with
  | RKeep | RNum _ => True
  | RFun f => if increment then f 0 = 0 else False
  | RList l => Forall is_const l
  end.
(** Sections that start where the path ends; scale factors are positive. *)
Definition steady (c : rcall) : Prop :=
  match c with
  | RParametric c _ w o rel => rel = true /\ c 0 = (0, 0) /\ from_here false w /\ from_here true o
  | RSegment _ w o _ | RArc _ _ _ w o | RTurn _ _ w o | RBezier _ w o _ | RSmooth _ _ _ w o _ => from_here false w /\ from_here true o
  | RScale k _ => 0 < k
  | RTransform _ _ mag _ _ => 0 < opt 1 mag
  | _ => True
  end.
(** Consecutive components: the spines meet, and where the direction does not
    change the centre lines meet and the widths agree. *)
Definition meets (s t : sub) : Prop :=
  spine t 0 = spine s 1 /\
  (same_way (heading s 1) (heading t 0) -> s_at t 0 0 = s_at s 1 0) /\
  (regular s 1 -> regular t 0 -> s_width t 0 = s_width s 1).

(** ** Sections *)

(** Where the path should be after a call that draws; for [turn] the spine must be
    straight at its end, with direction [d]. *)
Definition r_place (rel : bool) (r : robust) (p : pt) : pt := if rel then padd (r_x r) p else p.
Definition r_turn_centre (radius angle : R) (d x : pt) : pt :=
  let n := smul (/ sqrt (dot d d)) (- snd d, fst d) in
  if Rlt_dec angle 0 then psub x (smul radius n) else padd x (smul radius n).
Definition r_target (c : rcall) (d : pt) (r : robust) : pt :=
  match c with
  | RSegment p _ _ rel => r_place rel r p
  | RArc ra a b _ _ => padd (r_x r) (ra * cos b - ra * cos a, ra * sin b - ra * sin a)
  | RTurn ra a _ _ => rotate_pt a (r_turn_centre ra a d (r_x r)) (r_x r)
  | RParametric c _ _ _ rel => r_place rel r (c 1)
  | RBezier l _ _ rel => r_place rel r (last l (0, 0))
  | RSmooth _ cyc l _ _ rel => if cyc then r_x r else match l with [] => r_x r | _ => r_place rel r (last l (0, 0)) end
  | _ => r_x r
  end.
(** A straight component that has not been moved, with constant offset. *)
Definition straight_sub (d : pt) (s : sub) : Prop :=
  s_tr s = aff_id /\ 0 < s_h s <= 1 /\ exists a o, (forall u, s_x s u = padd a (smul u d)) /\ (forall u h, s_dx s u h = d) /\ forall u, s_off s u = o.
(** All parallel paths end with such a component, with direction [d]. *)
Definition straight_end (d : pt) (r : robust) : Prop :=
  d <> (0, 0) /\ forall p, In p (r_paths r) -> exists s p', p = p' ++ [s] /\ straight_sub d s.
Definition r_given (c : rcall) (d : pt) (r : robust) : Prop :=
  match c with
  | RTurn _ _ _ _ => straight_end d r
  | RSmooth hs cyc l _ _ rel => (length (hs (r_x r :: map (r_place rel r) l)) >= length l)%nat
  | _ => True
  end.
(** The width and the offset of parallel path [k] along a new section: from the
    present value to the one asked for, or as the function says; an offset function
    or number is an increment. *)
Definition wanted (now : R) (increment : bool) (a : rdim) (k : nat) (u : R) : R :=
  match a with
  | RKeep => now
  | RNum x => now + u * ((if increment then now + x else x) - now)
  | RFun f => if increment then now + f u else f u
  | RList l => match nth_error l k with Some (Const x) => now + u * (x - now) | Some (Fun_ f) => f u | None => 0 end
  end.

(** ** Polygons *)

Definition r_no_limit (r : robust) : robust :=
  Rob (r_n r) (r_ends r) (r_x r) (r_o r) (r_w r) (r_paths r) (r_layers r) (r_dts r) (r_tol r) (r_prec r) 0
      (r_evals r) (r_gds r) (r_wt r) None.
Section Polygons.
Variable fuel : nat.
Variable hob : pt * pt -> R * R -> pt * pt.
Variable eng : op -> list zpath -> list zpath -> list zpath.
(** What get_polygons computes when nothing is remembered. *)
Definition r_now (r : robust) : option (list (spec * list poly)) := snd (r_get fuel hob eng (r_remember r None)).
(** What is remembered is what would be computed. *)
Definition r_coherent (r : robust) : Prop := forall d, r_cache r = Some d -> r_now r = Some d.
(** No outline has more than [max_points] vertices, or there is no such limit. *)
Definition r_uncut (r : robust) : Prop :=
  (r_max r <= 4)%nat \/
  forall d s l p, r_now (r_no_limit r) = Some d -> In (s, l) d -> In p l -> (length p <= r_max r)%nat.
End Polygons.
(** Calls that move the path by a rotation or translation ([similarity] without
    reflection and scaling), by a reflection and so on. *)
Definition reflects (c : rcall) : bool := match c with RTransform _ _ _ refl _ => refl | _ => false end.
(** One side of a component (or, for arm 0, its centre line) is a straight line. *)
Definition straight_side (s : sub) (arm : Z) : Prop :=
  0 < s_h s /\ 0 <= s_err s /\
  exists p v, v <> (0, 0) /\ forall u, 0 <= u <= 1 -> s_at s u arm = padd p (smul u v).
(** Two consecutive components on that side: the lines meet at their ends, or are
    parallel there, or their distance there exceeds the tolerance also after scaling
    by [k], and their crossing point comes neither before the first nor after the
    second. *)
Definition fair_joint (k tol : R) (arm : Z) (s t : sub) : Prop :=
  let p0 := s_at s 1 arm in let v0 := psub (s_at s 1 arm) (s_at s 0 arm) in
  let p1 := s_at t 0 arm in let v1 := psub (s_at t 1 arm) (s_at t 0 arm) in
  p0 = p1 \/ (cross v0 v1) ^ 2 < tiny * len2 v0 * len2 v1 \/
  (tol ^ 2 < len2 (psub p1 p0) /\ tol ^ 2 < k ^ 2 * len2 (psub p1 p0) /\
   forall a c, padd p0 (smul a v0) = padd p1 (smul c v1) -> -1 <= a /\ c <= 1).
Fixpoint fair_joints (k tol : R) (arm : Z) (path : list sub) : Prop :=
  match path with
  | s :: ((t :: _) as rest) => fair_joint k tol arm s t /\ fair_joints k tol arm rest
  | _ => True
  end.
Definition straight_robust (k tol : R) (path : list sub) : Prop :=
  forall arm, arm = (-1)%Z \/ arm = 1%Z -> (forall s, In s path -> straight_side s arm) /\ fair_joints k tol arm path.
(** Ends that follow: round, smooth and extended ends are not drawn properly on
    reflected paths; lengths, round and smooth ends do not follow a scaling.  The
    direction of the path must be defined at round and smooth ends, and, for
    reflections, wherever sections join. *)
Definition moving (s : sub) (u : R) : Prop := forall arm, arm = (-1)%Z \/ arm = 0%Z \/ arm = 1%Z -> s_grad s u arm <> (0, 0).
Definition cap_follows (b : bool) (k : R) (en : cap) (path : list sub) : Prop :=
  match en with
  | Flush | CustomCap _ => True
  | Extended => b = false
  | Lengths _ _ => b = false /\ k = 1
  | RoundCap | SmoothCap =>
      b = false /\ k = 1 /\ match path with [] => True | s0 :: _ => moving s0 0 /\ moving (last path s0) 1 end
  end.
(** Moving the path with this call moves its polygons. *)
Definition carries (c : rcall) (r : robust) : Prop :=
  plain_move c /\ 0 < grows c /\
  forall en path, In (path, en) (combine (r_paths r) (r_ends r)) ->
    cap_follows (reflects c) (grows c) en path /\
    (reflects c = true -> forall s, In s path -> moving s 0 /\ moving s 1) /\ (grows c = 1 \/ straight_robust (grows c) (r_tol r) path).
(** Control points of smooth ends that follow rotations and translations. *)
Definition smooth_follows (hob : pt * pt -> R * R -> pt * pt) : Prop :=
  forall t d a b v w, v <> (0, 0) -> w <> (0, 0) ->
    let m := rigid false 1 t d in let l := rigid false 1 t (0, 0) in
    hob (m a, m b) (along (l v), along (l w)) =
    (m (fst (hob (a, b) (along v, along w))), m (snd (hob (a, b) (along v, along w)))).
