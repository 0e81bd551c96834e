(** What a polygon with holes is, and when a single outline stands for it: winding
    numbers and areas of outlines with integer vertices. *)

From Coq Require Import Reals List ZArith Bool Permutation Sorted.
From Verif Require Import SpecEngine LinkHoles.
Import ListNotations.
Open Scope Z_scope.

(** Positive when [q] is on the left of the line from [a] to [b], with the distance as
    a factor. *)
Definition side (e : zpt * zpt) (q : R * R) : R :=
  ((IZR (fst (snd e)) - IZR (fst (fst e))) * (snd q - IZR (snd (fst e)))
   - (IZR (snd (snd e)) - IZR (snd (fst e))) * (fst q - IZR (fst (fst e))))%R.
(** The edge passes on the right of [q], upwards (1) or downwards (-1). *)
Definition passes (q : R * R) (e : zpt * zpt) : Z :=
  if Rle_dec (IZR (snd (fst e))) (snd q) then
    if Rlt_dec (snd q) (IZR (snd (snd e))) then if Rlt_dec 0 (side e q) then 1 else 0 else 0
  else if Rle_dec (IZR (snd (snd e))) (snd q) then if Rlt_dec (side e q) 0 then -1 else 0 else 0.
(** How many times an outline goes around [q]. *)
Definition sum_over {A} (f : A -> Z) (l : list A) : Z := fold_right (fun x s => f x + s) 0 l.
Definition winding (q : R * R) (l : zpath) : Z := sum_over (passes q) (edges l).

(** A point of the edge is as high as [q], less than [k] to its left or to its right. *)
Definition near (k : Z) (q : R * R) (e : zpt * zpt) : Prop :=
  exists t, (0 <= t <= 1)%R /\ snd (along (fst e) (snd e) t) = snd q /\
            (Rabs (fst (along (fst e) (snd e) t) - fst q) < IZR k)%R.

(** [one] stands for [outer] and [holes]: it has the same winding number around every
    point that is not nearer than [k] to an edge ... *)
Definition stands_for (k : Z) (outer : zpath) (holes : list zpath) (one : zpath) : Prop :=
  forall q, (forall l e, In l (outer :: holes) -> In e (edges l) -> ~ near k q e) ->
  winding q one = winding q outer + sum_over (winding q) holes.
(** ... or around every point whatever, and the same area. *)
Definition stands_exactly (outer : zpath) (holes : list zpath) (one : zpath) : Prop :=
  (forall q, winding q one = winding q outer + sum_over (winding q) holes) /\
  shoelace one = shoelace outer + sum_over shoelace holes.

(** Vertical, at 45 degrees, and generally with a whole number of steps in x for each
    step in y; or horizontal. *)
Definition whole_slope (e : zpt * zpt) : Prop :=
  snd (fst e) = snd (snd e) \/ (snd (snd e) - snd (fst e) | fst (snd e) - fst (fst e)).

(** [p] is the first of the leftmost vertices. *)
Definition leftmost (p : zpt) (h : zpath) : Prop :=
  exists u v, h = u ++ p :: v /\ (forall q, In q u -> fst p < fst q) /\ (forall q, In q v -> fst p <= fst q).

(** The edge reaches the height of [p], at [x], without starting there. *)
Definition reaches (p : zpt) (e : zpt * zpt) (x : R) : Prop :=
  snd (fst e) <> snd p /\
  exists t, (0 <= t <= 1)%R /\ along (fst e) (snd e) t = (x, IZR (snd p)).

(** The hole [h] is joined to the outline [o] by a horizontal bridge, gone through in both
    directions, between its leftmost vertex [p] and a point [n] on its left, on
    the edge from [a] to [b] or less than one unit away from it.  Nothing
    crosses the bridge, except less than one unit after its start. *)
Definition bridged (o h r : zpath) : Prop :=
  exists u b v s p t x,
    o = u ++ b :: v /\ h = s ++ p :: t /\
    (forall q, In q s -> fst p < fst q) /\ (forall q, In q t -> fst p <= fst q) /\
    let a := last (v ++ u) b in
    let n := (x, snd p) in
    r = u ++ [n; p] ++ t ++ s ++ [p] ++ (if (fst n =? fst b) && (snd n =? snd b) then [] else [n]) ++ b :: v /\
    (exists x0, reaches p (a, b) x0 /\ (Rabs (IZR x - x0) < 1)%R) /\
    x <= fst p /\
    (forall e x0, In e (edges o) -> reaches p e x0 -> (x0 < IZR x + 1)%R \/ (IZR (fst p) < x0)%R).
Inductive joined : zpath -> list zpath -> zpath -> Prop :=
| joined_none : forall o, joined o [] o
| joined_more : forall o h o' hs r, bridged o h o' -> joined o' hs r -> joined o (h :: hs) r.

(** No vertex of the second is on the left of the first. *)
Definition left_to_right (a b : zpath) : Prop := forall p, leftmost p a -> forall q, In q b -> fst p <= fst q.

(** The order in which the holes are linked. *)
Definition sorts (psort : list zpath -> list zpath) : Prop :=
  forall l, Forall (fun h => h <> []) l ->
  Permutation (psort l) l /\
  StronglySorted left_to_right (psort l).

(** The outlines of a tree with the holes in each, in the order of the tree: those at
    the top, those in the holes of those, and so on. *)
Fixpoint families (t : ptree) : list (zpath * list zpath) :=
  match t with
  | Node c l => (c, map contour l) :: flat_map (fun h => match h with Node _ m => flat_map families m end) l
  end.
Fixpoint all_contours (t : ptree) : list zpath :=
  match t with Node c l => c :: flat_map all_contours l end.
