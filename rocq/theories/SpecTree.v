(** The outlines around an outline, by its FirstLeft and those of the others. *)

From Coq Require Import List.
From Verif Require Import Sweep Hole.

(** Following FirstLeft at least once leads from [i] to [q]. *)
Inductive leads (rs : list outrec) : nat -> nat -> Prop :=
| leads_once : forall i q, first_left (rec_at rs i) = Some q -> leads rs i q
| leads_on : forall i f q, first_left (rec_at rs i) = Some f -> leads rs f q -> leads rs i q.
