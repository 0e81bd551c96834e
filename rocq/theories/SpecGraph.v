(** Specification vocabulary for the object-graph properties. *)

From Coq Require Import List ZArith Lia Bool Arith.
From Verif Require Import Graph.
Import ListNotations.

Section SpecGraph.
Context {A B : Type}.
Notation heap := (heap A B).
Notation world := (world A B).

(** Cell [c] holds a reference (or array) to the cell object [d]. *)
Definition direct (h : heap) (c d : nat) : Prop :=
  exists r, In r (crefs h c) /\ rtarget h r = ToCell d.

(** One or more such steps. *)
Inductive reach (h : heap) : nat -> nat -> Prop :=
| reach_one : forall c d, direct h c d -> reach h c d
| reach_more : forall c d e, direct h c d -> reach h d e -> reach h c e.

(** Nothing at or below [c] contains itself. *)
Definition acyclic (h : heap) (c : nat) : Prop :=
  forall d, d = c \/ reach h c d -> ~ reach h d d.

(** Only created objects are in use. *)
Definition heap_wf (h : heap) : Prop :=
  (forall c r, c < h_ncell h -> In r (crefs h c) -> r < h_nref h) /\
  (forall r d, r < h_nref h -> rtarget h r = ToCell d -> d < h_ncell h).
Definition dict_wf (h : heap) (d : dict) : Prop := Forall (fun kv => snd kv < h_ncell h) d.
Definition world_wf (w : world) : Prop :=
  heap_wf (w_heap w) /\ forall l, dict_wf (w_heap w) (w_libs w l).

(** Keys are unique and equal to the names of the cells. *)
Definition keyed (h : heap) (d : dict) : Prop :=
  NoDup (map fst d) /\ forall n c, In (n, c) d -> cname h c = n.

(** [r] is a reference held by some cell of the library. *)
Definition lib_ref (h : heap) (d : dict) (r : nat) : Prop :=
  exists c, In c (dcells d) /\ In r (crefs h c).

(** Exactly [n] identifiers satisfy [P]. *)
Definition how_many (n : nat) (P : nat -> Prop) : Prop :=
  exists l, NoDup l /\ (forall r, In r l <-> P r) /\ length l = n.

(** Two heaps differ at most in the targets of references. *)
Definition same_but_targets (h h' : heap) : Prop :=
  (forall c, h_cell h' c = h_cell h c) /\ (forall r, r_data (h_ref h' r) = r_data (h_ref h r)) /\
  h_ncell h' = h_ncell h /\ h_nref h' = h_nref h.

(** The cell meant by the first argument of rename_cell. *)
Definition renames (h : heap) (d : dict) (cell : target) (c : nat) : Prop :=
  match cell with ToCell e => e = c | ToName n => In (n, c) d end.

(** No rename goes through a library other than [i] for a cell that [i] holds. *)
Definition harmless (i : nat) (w : world) (o : op A B) : Prop :=
  match o with
  | OpRename l cell _ _ =>
      l <> i -> forall c, renames (w_heap w) (w_libs w l) cell c -> ~ In c (dcells (w_libs w i))
  | _ => True
  end.
Inductive harmless_steps (i : nat) (w : world) : list (op A B) -> world -> Prop :=
| hs_nil : harmless_steps i w [] w
| hs_cons : forall o os w1 w2, harmless i w o -> step w o w1 -> harmless_steps i w1 os w2 ->
    harmless_steps i w (o :: os) w2.

End SpecGraph.
