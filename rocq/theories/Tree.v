(** The tree of outlines that a boolean operation hands over (gdspy/clipper.cpp): FixHoleLinkage
    (1553-1565) and BuildResult2 (3228-3283), from the records of Hole.v and the outlines as they
    are after the clean-up.  [rings] holds the points of each output polygon, none for a null
    Pts.  Open paths are not used by gdspy. *)

From Coq Require Import List ZArith Bool Arith.
From Verif Require Import Sweep Hole.
Import ListNotations.

Section Tree.
Variable rings : list (list pt).
Definition ring (x : nat) : list pt := nth x rings [].
Definition has_pts (x : nat) : bool := match ring x with [] => false | _ => true end.
(** PointCount (3192-3204) of a closed path is large enough (3237). *)
Definition is_node (x : nat) : bool := Nat.leb 3 (length (ring x)).

(** The loop of FixHoleLinkage (1561-1563). *)
Fixpoint climb (steps : nat) (rs : list outrec) (hole : bool) (c : option nat) : option nat :=
  match c with
  | None => None
  | Some x =>
      if eqb (is_hole (rec_at rs x)) hole || negb (has_pts x) then
        match steps with O => None | S steps => climb steps rs hole (first_left (rec_at rs x)) end
      else Some x
  end.
(** FixHoleLinkage *)
Definition fix_linkage (rs : list outrec) (i : nat) : list outrec :=
  let r := rec_at rs i in
  match first_left r with
  | None => rs
  | Some f =>
      if negb (eqb (is_hole r) (is_hole (rec_at rs f))) && has_pts f then rs
      else set_rec rs i (OutRec (is_hole r) (climb (length rs) rs (is_hole r) (Some f)))
  end.
(** The first loop of BuildResult2 (3233-3255). *)
Definition linked (rs : list outrec) : list outrec :=
  fold_left (fun rs i => if is_node i then fix_linkage rs i else rs) (seq 0 (length rs)) rs.
(** The second loop (3259-3274): the node that the outline [i] becomes a child of; none is
    the tree itself. *)
Definition parent (rs : list outrec) (i : nat) : option nat :=
  match first_left (rec_at (linked rs) i) with
  | Some f => if is_node f then Some f else None
  | None => None
  end.
(** Childs, in the order of AddChild (201-207); a node is the child of one node or of the tree. *)
Definition childs (rs : list outrec) (p : option nat) : list nat :=
  filter (fun i => is_node i && match parent rs i, p with
                                | None, None => true
                                | Some a, Some b => Nat.eqb a b
                                | _, _ => false
                                end) (seq 0 (length rs)).
(** PolyNode::IsHole (230-240): once around the loop for each node above, the tree included. *)
Fixpoint node_hole (steps : nat) (rs : list outrec) (i : nat) (result : bool) : bool :=
  match parent rs i, steps with
  | Some p, S steps => node_hole steps rs p (negb result)
  | _, _ => negb result
  end.
(** The nodes below a node, and the node: in the order of GetNext (210-227). *)
Fixpoint nodes (steps : nat) (rs : list outrec) (i : nat) : list nat :=
  match steps with O => [] | S steps => i :: flat_map (nodes steps rs) (childs rs (Some i)) end.
Definition all_nodes (rs : list outrec) : list nat := flat_map (nodes (length rs) rs) (childs rs None).
End Tree.
