(** Textbook notions used to state the geometric properties. *)

From Coq Require Import Reals List ZArith.
From Verif Require Import Plane.
Import ListNotations.
Open Scope R_scope.

(** Twice the signed area of the closed polygon through the given points, by the
    shoelace formula: the cross products of consecutive vertices, with the last
    one connected to the first. *)
Fixpoint open_cross (l : list pt) : R :=
  match l with
  | a :: r => match r with b :: _ => cross a b + open_cross r | [] => 0 end
  | [] => 0
  end.
Definition shoelace (l : list pt) : R :=
  match l with [] => 0 | p :: _ => open_cross (l ++ [p]) end.

Definition isometry (f : pt -> pt) := forall p q, dist2 (f p) (f q) = dist2 p q.
(** All distances multiplied by |k|. *)
Definition similarity (k : R) (f : pt -> pt) := forall p q, dist2 (f p) (f q) = k * k * dist2 p q.
(** On the line through two points. *)
Definition on_line (p1 p2 p : pt) := cross (psub p2 p1) (psub p p1) = 0.

(** The smallest axis-parallel box: it contains every point, and every side is
    touched by some point. *)
Definition is_box (b : bbox) (pts : list pt) :=
  (forall p, In p pts -> fst (fst b) <= fst p <= fst (snd b) /\ snd (fst b) <= snd p <= snd (snd b)) /\
  (exists p, In p pts /\ fst p = fst (fst b)) /\ (exists p, In p pts /\ snd p = snd (fst b)) /\
  (exists p, In p pts /\ fst p = fst (snd b)) /\ (exists p, In p pts /\ snd p = snd (snd b)).
(** The right answer for a list of points: their box, or [None] without points. *)
Definition right_box (b : option bbox) (pts : list pt) :=
  match b with Some b => is_box b pts | None => pts = [] end.
