(** Clean-up of outlines in the boolean engine (gdspy/clipper.cpp): AddPath for the outlines given
    (1052-1151, closed paths, up to the local minima), the orientation and FixupOutPolygon for
    the outlines found (1601-1621, 3151-3189), and the contours of BuildResult2 (3246-3251).

    The circular doubly linked lists of edges or of points are lists that start at the current
    element and go on with Next; Prev of the current one is the last of the list.  A vertex has a
    number, since the code compares pointers.  Integers are unbounded (the code multiplies
    with 128 bits when coordinates are large, RangeTest 904-916) and the area is exact (a double
    in the code).  m_PreserveCollinear and m_StrictSimple are false: gdspy never sets them. *)

From Coq Require Import List ZArith Bool.
Import ListNotations.
Open Scope Z_scope.

Notation zpt := (Z * Z)%type.
Definition vertex : Type := (nat * zpt)%type.
(** IntPoint::operator==. *)
Definition same (p q : zpt) : bool := (fst p =? fst q) && (snd p =? snd q).
(** SlopesEqual (562-571). *)
Definition slopes_equal (p1 p2 p3 : zpt) : bool :=
  (snd p1 - snd p2) * (fst p2 - fst p3) =? (fst p1 - fst p2) * (snd p2 - snd p3).
(** The vertices of an outline, numbered. *)
Definition numbered (l : list zpt) : list vertex := combine (seq 0 (length l)) l.

(** What the loops end with; [Endless] stands for running out of the steps allowed. *)
Inductive result := Endless | Nothing | Outline (l : list zpt).

(** ** AddPath *)
(** The vertices at the end that repeat the first one (1063), or the one before (1064); the list
    is reversed. *)
Fixpoint drop_first (p0 : zpt) (rl : list zpt) : list zpt :=
  match rl with p :: r => if same p p0 then drop_first p0 r else rl | [] => [] end.
Fixpoint drop_repeated (p0 : zpt) (rl : list zpt) : list zpt :=
  match rl with
  | p :: r => if same p (match r with p' :: _ => p' | [] => p0 end) then drop_repeated p0 r else rl
  | [] => []
  end.
(** The loop 1094-1126: [e] and the edges after it; [stop] is eLoopStop.  RemoveEdge (753-761). *)
Fixpoint prune (steps : nat) (stop : nat) (e : vertex) (rest : list vertex) : option (list vertex) :=
  match steps with
  | O => None
  | S steps =>
      match rest with
      | [] => Some [e]                                                  (* E == E->Next *)
      | n :: t =>
          if same (snd e) (snd n) then prune steps (fst n) n t
          else match t with
               | [] => Some [e; n]                                      (* E->Prev == E->Next *)
               | _ :: _ =>
                   let p := last t e in
                   if slopes_equal (snd p) (snd e) (snd n) then prune steps (fst p) p (n :: removelast t)
                   else if Nat.eqb (fst n) stop then Some (n :: t ++ [e])
                   else prune steps stop n (t ++ [e])
               end
      end
  end.
(** The number of steps allowed. *)
Definition enough (n : nat) : nat := S (n * n + n + 1).
(** IsFlat (1144, 1152-1157). *)
Definition flat (l : list vertex) : bool :=
  match l with [] => true | v :: r => forallb (fun w => snd (snd w) =? snd (snd v)) r end.
(** AddPath for a closed path: [Nothing] is [return false]; the outline is the one left, from
    where the loop ended. *)
Definition add_path (pg : list zpt) : result :=
  match pg with
  | [] => Nothing
  | p0 :: t =>
      let l := numbered (p0 :: rev (drop_repeated p0 (drop_first p0 (rev t)))) in
      match l with
      | e :: (_ :: _ :: _) as rest =>
          match prune (enough (length l)) (fst e) e rest with
          | None => Endless
          | Some r => match r with
                      | [] | [_] | [_; _] => Nothing                    (* 1128-1132 *)
                      | _ => if flat r then Nothing else Outline (map snd r)
                      end
          end
      | _ => Nothing                                                    (* 1065 *)
      end
  end.

(** ** FixupOutPolygon *)
(** The loop 3160-3187: [pp] and the points after it; [ok] is lastOK. *)
Fixpoint tidy (steps : nat) (ok : option nat) (pp : vertex) (rest : list vertex) : option (list vertex) :=
  match steps with
  | O => None
  | S steps =>
      match rest with
      | [] | [_] => Some []                                             (* 3162-3167 *)
      | n :: t =>
          let p := last t pp in
          if same (snd pp) (snd n) || same (snd pp) (snd p) || slopes_equal (snd p) (snd pp) (snd n)
          then tidy steps None p (n :: removelast t)
          else match ok with
               | Some k => if Nat.eqb (fst pp) k then Some (pp :: rest) else tidy steps ok n (t ++ [pp])
               | None => tidy steps (Some (fst pp)) n (t ++ [pp])
               end
      end
  end.
(** FixupOutPolygon on a polygon with points. *)
Definition fixup_polygon (ring : list zpt) : result :=
  match numbered ring with
  | [] => Nothing
  | pp :: rest =>
      match tidy (enough (length ring)) None pp rest with
      | None => Endless
      | Some [] => Nothing
      | Some r => Outline (map snd r)
      end
  end.

(** ** Orientation and contour *)
(** Area of an OutRec (414-424), twice: the first term is that of the first point. *)
Fixpoint area_terms (prev : zpt) (l : list zpt) : Z :=
  match l with [] => 0 | p :: r => (fst prev + fst p) * (snd prev - snd p) + area_terms p r end.
Definition ring_area2 (l : list zpt) : Z := area_terms (last l (0, 0)) l.
(** ReversePolyPtLinks (700-711). *)
Definition reverse_links (l : list zpt) : list zpt := match l with [] => [] | p :: r => p :: rev r end.
(** 1606-1607; [hole] is IsHole, [reverse] is m_ReverseOutput. *)
Definition orient (hole reverse : bool) (l : list zpt) : list zpt :=
  if eqb (xorb hole reverse) (0 <? ring_area2 l) then reverse_links l else l.
(** The contour that BuildResult2 makes (3236-3251): from Pts->Prev on, backwards. *)
Definition contour_of (l : list zpt) : option (list zpt) :=
  match l with [] | [_] | [_; _] => None | _ => Some (rev l) end.
(** What becomes of an output polygon that is not joined with others: 1601-1621 and BuildResult2. *)
Definition finish (hole reverse : bool) (l : list zpt) : option (list zpt) :=
  match fixup_polygon (orient hole reverse l) with Outline r => contour_of r | _ => None end.
