(** The intersections of one scanbeam (gdspy/clipper.cpp, Clipper::ProcessIntersections): which
    pairs of active edges cross between two scanlines, and in which order they are made to cross.
    An edge is a number; [x e] is its abscissa at the top of the scanbeam, TopX( *e, topY).  The
    doubly linked lists (AEL and SEL) are lists.  The points of intersection play no role here
    but for the order that std::sort gives (any order is allowed below). *)

From Coq Require Import List ZArith Bool Arith.
From Verif Require Import Sweep.
Import ListNotations.
Open Scope Z_scope.

(** IntersectNode (clipper.cpp 94-98) without its point: Edge1, Edge2. *)
Definition node : Type := (nat * nat)%type.

(** The inner loop of BuildIntersectList (2884-2904): [e] and the edges right of it.  Result: the
    list without its last edge (which 2905 cuts off) and the intersections recorded. *)
Fixpoint pass (x : nat -> Z) (e : nat) (l : list nat) : list nat * list node :=
  match l with
  | [] => ([], [])
  | f :: l =>
      if x f <? x e then let '(r, ns) := pass x e l in (f :: r, (e, f) :: ns)
      else let '(r, ns) := pass x f l in (e :: r, ns)
  end.
(** The bubble sort (2881-2908).  Each round shortens the list, so that its length bounds the
    number of rounds. *)
Fixpoint bubble (x : nat -> Z) (rounds : nat) (l : list nat) : list node :=
  match rounds, l with
  | S rounds, e :: l =>
      let '(r, ns) := pass x e l in
      match r, ns with
      | [], _ => ns          (* break, 2906 *)
      | _, [] => ns          (* not modified *)
      | _, _ => ns ++ bubble x rounds r
      end
  | _, _ => []
  end.
(** BuildIntersectList (2864-2910). *)
Definition build (x : nat -> Z) (ael : list nat) : list node := bubble x (length ael) ael.

(** SwapPositionsInAEL (1403-1447), SwapPositionsInSEL (2566-2609): two edges of the list change
    places. *)
Definition exchange (a b : nat) (l : list nat) : list nat :=
  map (fun e => if Nat.eqb e a then b else if Nat.eqb e b then a else e) l.
(** NextInSEL. *)
Fixpoint next_in (a : nat) (l : list nat) : option nat :=
  match l with
  | e :: l => if Nat.eqb e a then hd_error l else next_in a l
  | [] => None
  end.
Definition is_some (o : option nat) (b : nat) : bool := match o with Some e => Nat.eqb e b | None => false end.
(** EdgesAdjacent (2935-2939); PrevInSEL by way of NextInSEL. *)
Definition adjacent (l : list nat) (n : node) : bool :=
  is_some (next_in (fst n) l) (snd n) || is_some (next_in (snd n) l) (fst n).
(** The search of FixupIntersectionOrder and the swap (2954-2957): [v] is in place i, [r] follows.
    Result: the node now in place i, and what follows. *)
Fixpoint swap_first (sel : list nat) (v : node) (r : list node) : option (node * list node) :=
  match r with
  | [] => None
  | w :: r =>
      if adjacent sel w then Some (w, v :: r)
      else match swap_first sel v r with Some (u, t) => Some (u, w :: t) | None => None end
  end.
(** The loop of FixupIntersectionOrder (2949-2961); [None] is [return false]. *)
Fixpoint fix_loop (n : nat) (sel : list nat) (nodes : list node) : option (list node) :=
  match n, nodes with
  | S n, v :: r =>
      match (if adjacent sel v then Some (v, r) else swap_first sel v r) with
      | Some (u, t) =>
          match fix_loop n (exchange (fst u) (snd u) sel) t with Some ns => Some (u :: ns) | None => None end
      | None => None
      end
  | _, _ => Some []
  end.
(** FixupIntersectionOrder (2942-2962) after std::sort. *)
Definition fixup (ael : list nat) (sorted : list node) : option (list node) :=
  fix_loop (length sorted) ael sorted.
(** ProcessIntersections (2835-2853), up to the order in which the intersections are made; [sort]
    is std::sort. *)
Definition ordered (sort : list node -> list node) (x : nat -> Z) (ael : list nat) : option (list node) :=
  match build x ael with
  | [] => Some []
  | [n] => Some [n]
  | ns => fixup ael (sort ns)
  end.
(** ProcessIntersectList (2914-2926), as it changes the list of active edges. *)
Definition process (ael : list nat) (nodes : list node) : list nat :=
  fold_left (fun l n => exchange (fst n) (snd n) l) nodes ael.
(** The events of the sweep (Sweep.v) that this gives: the place of Edge1 in the list, [p] and [b]
    for each intersection. *)
Fixpoint place (a : nat) (l : list nat) : nat :=
  match l with [] => O | e :: l => if Nat.eqb e a then O else S (place a l) end.
Fixpoint crossings (at_ : node -> pt) (b : node -> bool) (ael : list nat) (nodes : list node) : list event :=
  match nodes with
  | [] => []
  | n :: r => Crossing (place (fst n) ael) (at_ n) (b n) :: crossings at_ b (exchange (fst n) (snd n) ael) r
  end.
