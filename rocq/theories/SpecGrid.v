(** Roundings and accurate arithmetic. *)

From Coq Require Import Reals List ZArith Bool.
From Verif Require Import Plane.
Open Scope R_scope.

(** [z] is the integer nearest to [x], the even one if there are two. *)
Definition nearest_even (x : R) (z : Z) : Prop := Rabs (x - IZR z) <= / 2 /\ (Rabs (x - IZR z) = / 2 -> Z.even z = true).
(** An operation with relative errors of at most 2^-53, as IEEE double precision has (when
    results neither overflow nor underflow). *)
Definition accurate (op exact : R -> R -> R) : Prop := forall x y, Rabs (op x y - exact x y) <= / 2 ^ 53 * Rabs (exact x y).
(** [q] is at most [e] from [p] in both coordinates. *)
Definition within (e : R) (p q : pt) : Prop := Rabs (fst q - fst p) <= e /\ Rabs (snd q - snd p) <= e.
