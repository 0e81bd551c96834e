(** What the intersections of a scanbeam should be. *)

From Coq Require Import List ZArith Bool.
From Verif Require Import Sweep.
Import ListNotations.
Open Scope Z_scope.

(** [a] is left of [b]. *)
Definition before (l : list nat) (a b : nat) : Prop := exists l1 l2 l3, l = l1 ++ a :: l2 ++ b :: l3.
(** Edges in increasing order of abscissa. *)
Fixpoint increasing (x : nat -> Z) (l : list nat) : Prop :=
  match l with [] => True | e :: l => (forall f, In f l -> x e <= x f) /\ increasing x l end.
(** Crossings of neighbours, one after the other: the list before, the pairs (the left edge
    first), the list after. *)
Inductive neighbours : list nat -> list (nat * nat) -> list nat -> Prop :=
| NoMore l : neighbours l [] l
| Cross l1 a b l2 ns l' : neighbours (l1 ++ b :: a :: l2) ns l' -> neighbours (l1 ++ a :: b :: l2) ((a, b) :: ns) l'.
(** The active edges of a state of the sweep are the bounds in the list [l]; [what] tells the
    polygon type and the direction of each. *)
Definition carries (what : nat -> kind * Z) (l : list nat) (st : state) : Prop :=
  map (fun e => (poly e, delta e)) (ael st) = map what l.
(** The winding number of the polygons of type [k] at the abscissa [t] of a scanline, by a ray to
    the left: the sum of the directions of the edges that the ray meets, in any order. *)
Definition ray (what : nat -> kind * Z) (x : nat -> Z) (k : kind) (t : Z) (l : list nat) : Z :=
  fold_right Z.add 0 (map (fun e => if same_kind (fst (what e)) k && (x e <? t) then snd (what e) else 0) l).
(** How many edges of the list are left of [t]. *)
Definition count_left (x : nat -> Z) (t : Z) (l : list nat) : nat := length (filter (fun e => x e <? t) l).
