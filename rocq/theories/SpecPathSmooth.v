(** What a curved section of a Path should be, for a curve with a derivative. *)

From Coq Require Import Reals List ZArith Bool.
From Verif Require Import Plane Curve SpecCurve Flex Path SpecPath SpecSpine.
Import ListNotations.
Open Scope R_scope.

(** The polygons [ps] were drawn along the curve [f] from [s] to [s']: there are
    parameters from 0 to 1, among them the [ev] that were asked for, where the middle of
    each chord is within the tolerance of the curve; they are split into overlapping
    parts.  For each part there is a polygon for each parallel path, whose vertices are
    at half the width to both sides of the path's place beside the curve. *)
Definition drawn_along (f : R -> pt) (fw fd : final) (tol : R) (ev : nat) (s s' : path) (ps : list poly) : Prop :=
  exists us g, (forall u, velocity f u (g u)) /\
  let width := along_section fw (2 * p_w s) in let dist := along_section fd (p_dist s) in
  links Rlt 0 us /\ last us 0 = 1 /\ links (flat f (tol ^ 2)) 0 us /\
  (exists vs, linspace 0 1 ev = 0 :: vs /\ sub vs us) /\
  (forall u, In u (0 :: us) -> g u <> (0, 0)) /\
  p_at s' = f 1 /\ p_w s' = width 1 / 2 /\ p_dist s' = dist 1 /\ toward (p_dir s') = unit_vec (g 1) /\
  exists cs, overlapping (0 :: us) cs /\ length ps = (length cs * p_n s)%nat /\
    forall i j, (i < p_n s)%nat -> (j < length cs)%nat ->
      nth (j * p_n s + reversed (p_n s) i) ps [] =
      map (flank f g (fun u => place (p_n s) i (dist u) - width u / 2)) (nth j cs []) ++
      rev (map (flank f g (fun u => place (p_n s) i (dist u) + width u / 2)) (nth j cs [])).
(** The section, if the width is never zero. *)
Definition section_along (f : R -> pt) (fw fd : final) (tol : R) (ev : nat) (s s' : path) : Prop :=
  (forall u, 0 <= u <= 1 -> along_section fw (2 * p_w s) u <> 0) ->
  exists ps, p_polys s' = p_polys s ++ ps /\ drawn_along f fw fd tol ev s s' ps.
(** Points given relative to the end of the path or not. *)
Definition p_place (rel : bool) (s : path) (p : pt) : pt := if rel then padd p (p_at s) else p.
(** The width or distance for section [i]: nothing given means that it stays the same. *)
Definition given (l : option (list final)) (i : nat) : final := match l with None => Same | Some l => nth i l Same end.
Definition as_many (l : option (list final)) (n : nat) : Prop := match l with None => True | Some l => length l = n end.
