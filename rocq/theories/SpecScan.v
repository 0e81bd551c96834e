(** What C93 speaks about, apart from the program. *)

From Coq Require Import List ZArith.
From Verif Require Import Scan.
Import ListNotations.
Open Scope Z_scope.

(** Some vertex of the polygons has ordinate [y]. *)
Definition vertex_at (minima : list lmin) (y : Z) : Prop :=
  exists m, In m minima /\ (y = ly m \/ In y (left m) \/ In y (right m)).

(** From ordinate [y] on, a bound never turns back. *)
Fixpoint runs (y : Z) (b : list Z) : Prop :=
  match b with [] => True | t :: r => t <= y /\ runs t r end.
(** The bounds as AddPath makes them (clipper.cpp 1187-1225): they begin at the local minimum; the
    left one does not begin with a horizontal edge, the right one not with two (collinear edges
    are merged, 1108-1121). *)
Definition bounds_ok (m : lmin) : Prop :=
  runs (ly m) (left m) /\ runs (ly m) (right m) /\
  (exists t r, left m = t :: r /\ t < ly m) /\
  (exists t r, right m = t :: r /\ (t = ly m -> match r with u :: _ => u < ly m | [] => True end)).

(** Sorting by ordinate, in any order where ordinates agree. *)
Fixpoint falling (l : list lmin) : Prop :=
  match l with [] => True | m :: r => (forall n, In n r -> ly n <= ly m) /\ falling r end.

(** A number of rounds that is enough. *)
Definition work (minima : list lmin) : nat :=
  fold_right (fun m n => (4 + length (left m) + length (right m) + n)%nat) O minima.
