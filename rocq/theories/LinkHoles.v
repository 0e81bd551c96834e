(** From the engine's tree of outlines to plain polygons: link_holes and tree2paths,
    gdspy/clipper.cpp 4730-4833, and the tree they walk through, 160-240.

    Integers are unbounded here: [C83_range] says when the machine's are enough.
    [None] is a use of an iterator or of an element that does not exist. *)

From Coq Require Import List ZArith Bool.
Import ListNotations.
Open Scope Z_scope.

Notation zpt := (Z * Z)%type.
Notation zpath := (list (Z * Z)).

(** [min_element(.., point_compare)], 4730-4733: the index of the first vertex with the
    smallest x. *)
Fixpoint min_from (best : zpt) (ibest i : nat) (l : zpath) : nat :=
  match l with
  | [] => ibest
  | q :: r => if fst q <? fst best then min_from q i (S i) r else min_from best ibest (S i) r
  end.
Definition min_element (h : zpath) : option nat :=
  match h with [] => None | p :: r => Some (min_from p 0 1 r) end.

(** Line 4778 *)
Definition meets (p pprev pnext : zpt) : bool :=
  ((snd pnext <=? snd p) && (snd p <? snd pprev)) || ((snd pprev <? snd p) && (snd p <=? snd pnext)).
(** Line 4780; the division of C++ drops the fraction. *)
Definition edge_x (p pprev pnext : zpt) : Z :=
  fst pnext + Z.quot ((fst pprev - fst pnext) * (snd p - snd pnext)) (snd pprev - snd pnext).
(** The loop 4776-4791: [p1] and [xnew], [p1 == result.end()] being None. *)
Fixpoint search (p : zpt) (i : nat) (pprev : zpt) (l : zpath) (found : option (nat * Z)) : option (nat * Z) :=
  match l with
  | [] => found
  | pnext :: r =>
      if meets p pprev pnext then
        let x := edge_x p pprev pnext in
        if (match found with None => true | Some (_, xnew) => xnew <? x end) && (x <=? fst p)
        then search p (S i) pnext r (Some (i, x))
        else if ((snd pnext =? snd p) && (snd pprev =? snd p)) &&
                (((fst pnext <=? fst p) && (fst p <=? fst pprev)) || ((fst pprev <=? fst p) && (fst p <=? fst pnext)))
        then Some (i, fst p)
        else search p (S i) pnext r found
      else search p (S i) pnext r found
  end.

(** [result.insert(p1, first, last)].  There is enough room ([C83_room]), so nothing is
    reallocated and [p1] stays at its place in the vector, where it points to the first
    element inserted. *)
Definition insert (i : nat) (xs l : zpath) : zpath := firstn i l ++ xs ++ skipn i l.

(** One turn of the loop 4768-4798 *)
Definition attach (result h : zpath) : option zpath :=
  match min_element h, result with
  | None, _ | _, [] => None
  | Some k, _ =>
      let p := nth k h (0, 0) in
      match search p 0 (last result (0, 0)) result None with
      | None => None
      | Some (i, xnew) =>
          let pnew := (xnew, snd p) in
          let p1 := nth i result (0, 0) in
          let r1 := if negb (fst pnew =? fst p1) || negb (snd pnew =? snd p1) then insert i [pnew] result else result in
          let r2 := insert i (firstn (S k) h) r1 in
          let r3 := insert i (skipn k h) r2 in
          Some (insert i [pnew] r3)
      end
  end.

Fixpoint attach_all (result : zpath) (holes : list zpath) : option zpath :=
  match holes with
  | [] => Some result
  | h :: r => match attach result h with None => None | Some res => attach_all res r end
  end.

(** PolyNode: Contour, Childs.  Open paths are not used by gdspy. *)
Inductive ptree := Node (contour : zpath) (children : list ptree).
Definition contour (t : ptree) : zpath := let (c, _) := t in c.
Definition children (t : ptree) : list ptree := let (_, l) := t in l.

(** A node in its tree: the node, its later siblings, those of its parent, and so on. *)
Notation cursor := (ptree * list (list ptree))%type.
(** GetFirst, 169-175 *)
Definition get_first (roots : list ptree) : option cursor :=
  match roots with [] => None | x :: r => Some (x, [r]) end.
(** GetNextSiblingUp, 219-227 *)
Fixpoint sibling_up (later : list (list ptree)) : option cursor :=
  match later with
  | [] => None
  | [] :: up => sibling_up up
  | (y :: r) :: up => Some (y, r :: up)
  end.
(** GetNext, 210-216 *)
Definition get_next (c : cursor) : option cursor :=
  match children (fst c) with
  | x :: r => Some (x, r :: snd c)
  | [] => sibling_up (snd c)
  end.
(** IsHole, 230-240 *)
Definition is_hole (c : cursor) : bool := fold_left (fun result _ => negb result) (snd c) true.

Section Sort.
(** [partial_sort_copy(.., path_compare)], 4737-4742 and 4765: any order by smallest x. *)
Variable psort : list zpath -> list zpath.

(** link_holes, 4747-4801 *)
Definition link_holes (node : ptree) : option zpath :=
  attach_all (contour node) (psort (map contour (children node))).

(** tree2paths, 4805-4833 *)
Fixpoint walk (fuel : nat) (node : option cursor) (out : list zpath) : option (list zpath) :=
  match node, fuel with
  | None, _ => Some out
  | Some _, O => None
  | Some c, S n =>
      if is_hole c then walk n (get_next c) out
      else match children (fst c) with
           | [] => walk n (get_next c) (out ++ [contour (fst c)])
           | _ => match link_holes (fst c) with
                  | None => None
                  | Some r => walk n (get_next c) (out ++ [r])
                  end
           end
  end.
Fixpoint size (t : ptree) : nat := S (list_sum (map size (children t))).
Definition tree2paths (roots : list ptree) : option (list zpath) :=
  walk (S (list_sum (map size roots))) (get_first roots) [].
End Sort.
