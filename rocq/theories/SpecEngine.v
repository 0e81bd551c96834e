(** What the operations in Engine.v are about, independently of how they work:
    signed area, outline and ray-crossing rule of a polygon with integer vertices. *)

From Coq Require Import Reals List ZArith Bool.
Import ListNotations.
Open Scope Z_scope.

(** The edges of a closed outline. *)
Definition edges {X} (l : list X) : list (X * X) :=
  match l with [] => [] | p :: r => combine l (r ++ [p]) end.

(** Twice the signed area (the shoelace formula). *)
Definition shoelace (l : list (Z * Z)) : Z :=
  fold_right (fun e s => fst (fst e) * snd (snd e) - fst (snd e) * snd (fst e) + s) 0 (edges l).

(** The point at parameter [t] of the segment from [a] to [b]. *)
Definition along (a b : Z * Z) (t : R) : R * R :=
  (IZR (fst a) + t * (IZR (fst b) - IZR (fst a)), IZR (snd a) + t * (IZR (snd b) - IZR (snd a)))%R.

(** [p] lies on the closed segment. *)
Definition on_edge (p : Z * Z) (e : (Z * Z) * (Z * Z)) : Prop :=
  exists t, (0 <= t <= 1)%R /\ along (fst e) (snd e) t = (IZR (fst p), IZR (snd p)).
Definition on_outline (p : Z * Z) (l : list (Z * Z)) : Prop := Exists (on_edge p) (edges l).

(** The edge goes from one side of the horizontal line through [p] to the other
    (the line itself counts as above) and meets it to the right of [p]. *)
Definition crosses (p : Z * Z) (e : (Z * Z) * (Z * Z)) : Prop :=
  (snd (fst e) < snd p <= snd (snd e) \/ snd (snd e) < snd p <= snd (fst e)) /\
  exists t, (0 <= t <= 1)%R /\ snd (along (fst e) (snd e) t) = IZR (snd p) /\
            (IZR (fst p) < fst (along (fst e) (snd e) t))%R.
(** The number of edges that satisfy [P] is odd. *)
Definition odd_number {X} (P : X -> Prop) (l : list X) : Prop :=
  exists flags, Forall2 (fun e b => b = true <-> P e) l flags /\
                Nat.odd (count_occ bool_dec flags true) = true.
(** Even-odd rule. *)
Definition enclosed (p : Z * Z) (l : list (Z * Z)) : Prop := odd_number (crosses p) (edges l).

(** A polygon contains a point inside it or on its outline; with fewer than three
    vertices it is not a polygon and contains nothing. *)
Definition contains (l : list (Z * Z)) (p : Z * Z) : Prop :=
  (3 <= length l)%nat /\ (on_outline p l \/ enclosed p l).

(** The integer nearest to a real, halves away from zero. *)
Definition nearest (x : R) (k : Z) : Prop :=
  (Rabs (x - IZR k) <= / 2 /\ (Rabs (x - IZR k) = / 2 -> Rabs x < Rabs (IZR k)))%R.

(** A point is in a list of polygons if one of them contains it, on the grid. *)
Definition in_some (grid : R * R -> Z * Z) (polys : list (list (R * R))) (p : R * R) : Prop :=
  exists q, In q polys /\ contains (map grid q) (grid p).
