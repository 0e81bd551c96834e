(** Specification for the clean-up of outlines (C90). *)
From Coq Require Import Reals List ZArith.
From Verif Require Import SpecEngine LinkHoles SpecLink.
Import ListNotations.
Open Scope Z_scope.

(** Twice the area of the triangle: zero when the points are in line or not distinct. *)
Definition turn (a b c : Z * Z) : Z := (fst b - fst a) * (snd c - snd b) - (fst c - fst b) * (snd b - snd a).
(** Every vertex of the closed outline makes a corner with its two neighbours. *)
Definition cornered (l : list (Z * Z)) : Prop :=
  forall u v w, l = u ++ v :: w -> turn (last (w ++ u) v) v (hd v (w ++ u)) <> 0.
(** The second outline encloses what the first one does. *)
Definition same_region (l m : list (Z * Z)) : Prop := (forall q, winding q m = winding q l) /\ shoelace m = shoelace l.
Definition no_region (l : list (Z * Z)) : Prop := (forall q, winding q l = 0) /\ shoelace l = 0.

