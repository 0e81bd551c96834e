(** What FlexPath calls are and what a well-formed FlexPath is. *)

From Coq Require Import Reals List ZArith Bool.
From Verif Require Import Plane Curve Engine Flex.
Import ListNotations.
Open Scope R_scope.

(** One width and one offset for each point and each parallel path; one end,
    corner, bend radius, layer and datatype for each parallel path. *)
Definition aligned (f : flex) : Prop :=
  length (f_w f) = length (f_pts f) /\ length (f_o f) = length (f_pts f) /\
  (forall r, In r (f_w f) -> length r = f_n f) /\ (forall r, In r (f_o f) -> length r = f_n f) /\
  length (f_ends f) = f_n f /\ length (f_corners f) = f_n f /\ length (f_bend f) = f_n f /\
  length (f_layers f) = f_n f /\ length (f_dts f) = f_n f.

(** A call of a method of FlexPath, or the assignment of layers made by flatten. *)
Inductive call :=
| Segment (p : pt) (w o : dim) (rel : bool)
| Arc (radius a0 a1 : R) (w o : dim)
| Turn (radius angle : R) (w o : dim)
| Parametric (c : R -> pt) (w o : dim) (rel : bool)
| Bezier (l : list pt) (w o : dim) (rel : bool)
| Smooth (hs : list pt -> list (pt * pt)) (cycle : bool) (l : list pt) (w o : dim) (rel : bool)
| Translate (v : pt) | Rotate (a : R) (c : pt) | Scale (k : R) (c : pt)
| Transform (org : option pt) (rot mag : option R) (refl : bool) (arr : option pt)
| GetPolygons
| SetSpecs (sl sd : option Z).

Section Calls.
Variable fuel : nat.
Variable hob : pt * pt -> R * R -> pt * pt.
Variable eng : op -> list zpath -> list zpath -> list zpath.

Definition do_call (c : call) (f : flex) : option flex :=
  match c with
  | Segment p w o rel => f_segment p w o rel f
  | Arc r a b w o => f_arc r a b w o f
  | Turn r a w o => f_turn r a w o f
  | Parametric g w o rel => f_parametric fuel g w o rel f
  | Bezier l w o rel => f_bezier fuel l w o rel f
  | Smooth hs cyc l w o rel => f_smooth fuel hs cyc l w o rel f
  | Translate v => Some (f_translate v f)
  | Rotate a c => Some (f_rotate a c f)
  | Scale k c => Some (f_scale k c f)
  | Transform org rot mag refl arr => Some (f_transform org rot mag refl arr f)
  | GetPolygons => Some (fst (f_get fuel hob eng f))
  | SetSpecs sl sd => Some (set_specs sl sd f)
  end.
Fixpoint do_calls (cs : list call) (f : flex) : option flex :=
  match cs with
  | [] => Some f
  | c :: r => match do_call c f with None => None | Some g => do_calls r g end
  end.
End Calls.

(** Calls that add to the path. *)
Definition builds (c : call) : bool :=
  match c with Segment _ _ _ _ | Arc _ _ _ _ _ | Turn _ _ _ _ | Parametric _ _ _ _ | Bezier _ _ _ _ | Smooth _ _ _ _ _ _ => true | _ => false end.

(** ** Sections *)

(** The values at the end of the path before the call, and those asked for: with
    [gdsii_path] widths do not change; a number is the new width of every parallel
    path, but an increment of every offset; a list gives one value per path (a list
    of one value counts for all). *)
Definition previous (rows : list (list R)) (k : nat) : R := nth k (last rows []) 0.
Definition listed (l : list R) (k : nat) : R := match l with [x] => x | _ => nth k l 0 end.
Definition asked_width (f : flex) (a : dim) (k : nat) : R :=
  if f_gds f then previous (f_w f) k
  else match a with Keep => previous (f_w f) k | Num_ x => x | Row l => listed l k end.
Definition asked_offset (f : flex) (a : dim) (k : nat) : R :=
  match a with Keep => previous (f_o f) k | Num_ x => previous (f_o f) k + x | Row l => listed l k end.
(** [m] new rows going linearly from [a] to [b], for the parallel paths below [n]. *)
Definition tapers (n m : nat) (a b : nat -> R) (rows : list (list R)) : Prop :=
  length rows = m /\
  forall j k, (j < m)%nat -> (k < n)%nat ->
    nth k (nth j rows []) 0 = a k + INR (S j) / INR m * (b k - a k).
(** The width and offset arguments of the calls that draw one section. *)
Definition section_args (c : call) : option (dim * dim) :=
  match c with
  | Segment _ w o _ | Arc _ _ _ w o | Turn _ _ w o | Parametric _ w o _ | Bezier _ w o _ => Some (w, o)
  | _ => None
  end.
(** The end of the path and its direction. *)
Definition end_of (f : flex) : pt := last (f_pts f) (0, 0).
Definition direction (f : flex) : pt := psub (end_of f) (last (removelast (f_pts f)) (0, 0)).
Definition at_end (rel : bool) (f : flex) (p : pt) : pt := if rel then padd (end_of f) p else p.
(** The centre of a turn: at the distance [radius] on the left for a positive
    angle, on the right for a negative one. *)
Definition turn_centre (radius angle : R) (f : flex) : pt :=
  let d := direction f in
  let n := smul (/ sqrt (dot d d)) (- snd d, fst d) in
  if Rlt_dec angle 0 then psub (end_of f) (smul radius n) else padd (end_of f) (smul radius n).
(** Where the path should be after the call. *)
Definition target (c : call) (f : flex) : pt :=
  match c with
  | Segment p _ _ rel => at_end rel f p
  | Arc r a b _ _ => padd (end_of f) (r * cos b - r * cos a, r * sin b - r * sin a)
  | Turn r a _ _ => rotate_pt a (turn_centre r a f) (end_of f)
  | Parametric c _ _ rel => at_end rel f (c 1)
  | Bezier l _ _ rel => match l with [] => end_of f | _ => at_end rel f (last l (0, 0)) end
  | Smooth _ cyc l _ _ rel => if cyc then end_of f else match l with [] => end_of f | _ => at_end rel f (last l (0, 0)) end
  | _ => end_of f
  end.
(** The chord between the parameters u and v is within the tolerance (squared) of
    the curve at one fifth, one half and four fifths of the way. *)
Definition flat3 (c : R -> pt) (tol u v : R) : Prop :=
  forall t, t = / 5 \/ t = / 2 \/ t = 4 / 5 ->
    dist2 (padd (smul (1 - t) (c u)) (smul t (c v))) (c ((1 - t) * u + t * v)) <= tol.

(** ** Polygons of a path *)

(** The same path without a limit to the number of points of a polygon, and with
    nothing remembered. *)
Definition no_limit (f : flex) : flex :=
  Flex (f_n f) (f_pts f) (f_w f) (f_o f) (f_ends f) (f_corners f) (f_bend f) (f_layers f) (f_dts f) (f_tol f)
       (f_prec f) 0 (f_gds f) (f_wt f) None.
(** The polygons are small enough not to be cut up. *)
Definition uncut fuel hob eng (f : flex) : Prop :=
  (f_max f <= 4)%nat \/
  forall d s l p, snd (f_get fuel hob eng (no_limit f)) = Some d -> In (s, l) d -> In p l -> (length p <= f_max f)%nat.

Section Polygons.
Variable fuel : nat.
Variable hob : pt * pt -> R * R -> pt * pt.
Variable eng : op -> list zpath -> list zpath -> list zpath.
(** What get_polygons computes when nothing is remembered. *)
Definition now (f : flex) : option (list (spec * list poly)) := snd (f_get fuel hob eng (set_cache f None)).
(** What is remembered is what would be computed. *)
Definition coherent (f : flex) : Prop := forall d, f_cache f = Some d -> now f = Some d.
End Polygons.
(** Every point of every polygon mapped. *)
Definition dict_map (g : pt -> pt) (d : list (spec * list poly)) : list (spec * list poly) :=
  map (fun kv => (fst kv, map (map g) (snd kv))) d.
(** Paths whose outline is made of straight lines and whose dimensions follow a
    scaling by [k]: extensions given as lengths, and widths declared absolute,
    only do so if k is 1. *)
Definition straight_path (f : flex) : Prop :=
  (forall c, In c (f_corners f) -> c = Natural \/ c = Miter \/ c = Bevel) /\
  (forall e, In e (f_ends f) -> match e with Flush | Extended | Lengths _ _ => True | _ => False end).
Definition no_lengths (f : flex) : Prop := forall e, In e (f_ends f) -> match e with Lengths _ _ => False | _ => True end.
Definition scaled_widths (f : flex) : Prop := f_wt f = true \/ f_gds f = false.
(** The same closed outline, possibly started at another vertex, run through
    in the opposite direction. *)
Definition reversed_outline (p q : poly) : Prop := exists x y, p = x ++ y /\ q = rev (y ++ x).

(** ** Shapes *)

(** The coordinates of a point in the frame of a directed segment: how far along
    it from its start, and how far to the left of it. *)
Definition ahead (p q x : pt) : R :=
  ((fst q - fst p) * (fst x - fst p) + (snd q - snd p) * (snd x - snd p)) / sqrt ((fst q - fst p) ^ 2 + (snd q - snd p) ^ 2).
Definition aside (p q x : pt) : R :=
  ((fst q - fst p) * (snd x - snd p) - (snd q - snd p) * (fst x - fst p)) / sqrt ((fst q - fst p) ^ 2 + (snd q - snd p) ^ 2).
Definition at_xy (p q : pt) (a b : R) (v : pt) : Prop := ahead p q v = a /\ aside p q v = b.
Definition apart (p q : pt) : R := sqrt ((fst q - fst p) ^ 2 + (snd q - snd p) ^ 2).
(** The line [xs] runs at the distance [h] to the left of the line [pts]: one point
    for each, every section [h] beside that of [pts], both ends square. *)
Definition beside (h : R) (pts xs : list pt) : Prop :=
  let p i := nth i pts (0, 0) in
  let x i := nth i xs (0, 0) in
  let n := length pts in
  length xs = n /\
  (forall i, (S i < n)%nat -> aside (p i) (p (S i)) (x i) = h /\ aside (p i) (p (S i)) (x (S i)) = h) /\
  ahead (p 0%nat) (p 1%nat) (x 0%nat) = 0 /\
  ahead (p (n - 2)%nat) (p (n - 1)%nat) (x (n - 1)%nat) = apart (p (n - 2)%nat) (p (n - 1)%nat).
(** No repeated points, and at each corner the line goes straight on or turns
    noticeably: the sine of the angle is at least 10^-6. *)
Definition corner_ok (a b c : pt) : Prop :=
  let k := (fst b - fst a) * (snd c - snd b) - (snd b - snd a) * (fst c - fst b) in
  let d := (fst b - fst a) * (fst c - fst b) + (snd b - snd a) * (snd c - snd b) in
  (apart a b * apart b c) ^ 2 <= 10 ^ 12 * k ^ 2 \/ (k = 0 /\ 0 < d).
Definition bends (pts : list pt) : Prop :=
  let p i := nth i pts (0, 0) in
  (forall i, (S i < length pts)%nat -> p i <> p (S i)) /\
  (forall i, (S (S i) < length pts)%nat -> corner_ok (p i) (p (S i)) (p (S (S i)))).
