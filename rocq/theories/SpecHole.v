(** What the ends of the outlines drawn by the sweep line look like: each active edge that draws
    an outline is one of its two ends. *)

From Coq Require Import List.
From Verif Require Import Sweep.

(** The active edge in place [n] draws the outline [i]. *)
Definition draws (st : state) (n i : nat) : Prop := exists e, nth_error (ael st) n = Some e /\ out e = Some i.
(** It is the leftmost edge that does. *)
Definition first_end (st : state) (n i : nat) : Prop := draws st n i /\ forall m, m < n -> ~ draws st m i.
(** The outline has ends on both sides of the gap before place [n]. *)
Definition straddles (st : state) (n i : nat) : Prop := exists x y, x < n /\ n <= y /\ draws st x i /\ draws st y i.
(** The ends of [k] lie between those of [i]. *)
Definition between_ends (st : state) (i k : nat) : Prop :=
  exists x y z w, x < y /\ y < z /\ z < w /\ draws st x i /\ draws st y k /\ draws st z k /\ draws st w i.
