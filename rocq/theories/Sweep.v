(** The sweep line of the boolean engine (gdspy/clipper.cpp, class Clipper): the winding counts
    of the active edges, which of them contribute to the result, and the output polygons that
    they draw.  The sweep is a list of events, each at a place of the list of active edges; which
    events happen, and in which order, is decided by the coordinates and is left open here.

    Modelled: SetWindingCount, IsEvenOddFillType, IsEvenOddAltFillType, IsContributing,
    AddLocalMinPoly, AddLocalMaxPoly, IntersectEdges, AppendPolygon, AddOutPt, DoMaxima.
    All paths are closed (gdspy never passes [false] to AddPath), so that WindDelta is 1 or -1
    and the branches for open paths (WindDelta == 0) are left out.  Also left out: joins, ghost
    joins, the hole state and the owner of an output polygon. *)

From Coq Require Import List ZArith Bool.
Import ListNotations.
Open Scope Z_scope.

Definition pt : Type := (Z * Z)%type.
(** For the end of an empty list, which does not occur. *)
Definition nowhere : pt := (0, 0).
(** IntPoint::operator== (clipper.hpp). *)
Definition pt_eqb (p q : pt) : bool := (fst p =? fst q) && (snd p =? snd q).

(** PolyType, PolyFillType, ClipType (clipper.hpp) and EdgeSide (clipper.cpp 63). *)
Inductive kind := Subject | Clip.
Inductive fill := EvenOdd | NonZero | Positive | Negative.
Inductive oper := Intersection | Union | Difference | Xor.
Inductive side := LeftSide | RightSide.
(** m_ClipType, m_SubjFillType, m_ClipFillType. *)
Record job := Job { op : oper; subj_fill : fill; clip_fill : fill }.

(** TEdge (clipper.cpp 73-95): PolyTyp, WindDelta, WindCnt, WindCnt2, Side and OutIdx ([None] is
    Unassigned).  UpdateEdgeIntoAEL (1450-1472) copies all of them to the next edge of the same
    bound, so that one record stands for a whole bound. *)
Record edge := Edge { poly : kind; delta : Z; cnt : Z; cnt2 : Z; hand : side; out : option nat }.
Definition set_cnt (e : edge) (c : Z) := Edge (poly e) (delta e) c (cnt2 e) (hand e) (out e).
Definition set_cnt2 (e : edge) (c : Z) := Edge (poly e) (delta e) (cnt e) c (hand e) (out e).
Definition set_out (e : edge) (o : option nat) := Edge (poly e) (delta e) (cnt e) (cnt2 e) (hand e) o.
Definition set_hand (e : edge) (s : side) := Edge (poly e) (delta e) (cnt e) (cnt2 e) s (out e).

Definition same_kind (a b : kind) : bool :=
  match a, b with Subject, Subject | Clip, Clip => true | _, _ => false end.
Definition is_evenodd (f : fill) : bool := match f with EvenOdd => true | _ => false end.
Definition is_xor (o : oper) : bool := match o with Xor => true | _ => false end.
(** The fill types of an edge's own and of the opposite polygons (1752-1760). *)
Definition own_fill (j : job) (k : kind) : fill := match k with Subject => subj_fill j | Clip => clip_fill j end.
Definition alt_fill (j : job) (k : kind) : fill := match k with Subject => clip_fill j | Clip => subj_fill j end.

(** ** Winding counts *)
(** The walk to the left of SetWindingCount (1634-1636): the closest edge of the same polygon
    type, and the edges passed on the way, left to right. *)
Fixpoint prev_same (k : kind) (left : list edge) (passed : list edge) : option (edge * list edge) :=
  match left with
  | [] => None
  | e :: l => if same_kind (poly e) k then Some (e, passed) else prev_same k l (e :: passed)
  end.
(** WindCnt from the closest edge of the same type, nonZero, Positive or Negative (1680-1706). *)
Definition next_cnt (e : edge) (d : Z) : Z :=
  if cnt e * delta e <? 0 then
    (if 1 <? Z.abs (cnt e) then (if delta e * d <? 0 then cnt e else cnt e + d) else d)
  else (if delta e * d <? 0 then cnt e else cnt e + d).
(** The update of WindCnt2 (1711-1730). *)
Definition count2 (evenodd : bool) (start : Z) (l : list edge) : Z :=
  fold_left (fun c e => if evenodd then (if c =? 0 then 1 else 0) else c + delta e) l start.
(** SetWindingCount (1632-1731): WindCnt and WindCnt2 of an edge right of the edges [left]. *)
Definition set_winding (j : job) (left : list edge) (k : kind) (d : Z) : Z * Z :=
  match prev_same k (rev left) [] with
  | None => (d, count2 (is_evenodd (alt_fill j k)) 0 left)
  | Some (e, passed) =>
      (if is_evenodd (own_fill j k) then d else next_cnt e d,
       count2 (is_evenodd (alt_fill j k)) (cnt2 e) passed)
  end.

(** The tests of WindCnt2 in IsContributing (1783-1789 and 1795-1801). *)
Definition filled2 (f : fill) (c : Z) : bool :=
  match f with EvenOdd | NonZero => negb (c =? 0) | Positive => 0 <? c | Negative => c <? 0 end.
Definition empty2 (f : fill) (c : Z) : bool :=
  match f with EvenOdd | NonZero => c =? 0 | Positive => c <=? 0 | Negative => 0 <=? c end.
(** IsContributing (1749-1847). *)
Definition contributing (j : job) (e : edge) : bool :=
  match own_fill j (poly e) with
  | EvenOdd => true
  | NonZero => Z.abs (cnt e) =? 1
  | Positive => cnt e =? 1
  | Negative => cnt e =? -1
  end &&
  let f2 := alt_fill j (poly e) in
  match op j with
  | Intersection => filled2 f2 (cnt2 e)
  | Union => empty2 f2 (cnt2 e)
  | Difference => match poly e with Subject => empty2 f2 (cnt2 e) | Clip => filled2 f2 (cnt2 e) end
  | Xor => true
  end.

(** ** Output polygons *)
(** m_PolyOuts: the points of each output polygon from OutRec.Pts on ([None] when Pts is null,
    after AppendPolygon). *)
Definition outs : Type := list (option (list pt)).
Fixpoint put (o : outs) (i : nat) (r : option (list pt)) : outs :=
  match o, i with
  | [], _ => []
  | _ :: o, O => r :: o
  | x :: o, S i => x :: put o i r
  end.

(** AddOutPt (2471-2509).  [None] for a polygon without points cannot be reached. *)
Definition add_out (o : outs) (e : edge) (p : pt) : outs * edge :=
  match out e with
  | None => (o ++ [Some [p]], set_out e (Some (length o)))
  | Some i =>
      match nth i o None with
      | None => (o, e)
      | Some r =>
          (match hand e with
           | LeftSide => if pt_eqb p (hd nowhere r) then o else put o i (Some (p :: r))
           | RightSide => if pt_eqb p (last r nowhere) then o else put o i (Some (r ++ [p]))
           end, e)
      end
  end.

(** AddLocalMinPoly (1849-1889); [b] is [IsHorizontal(e2) || e1->Dx > e2->Dx].  The join with
    the edge on the left is left out; the point that it adds to that edge is a [Vertex] event. *)
Definition local_min (o : outs) (e1 e2 : edge) (p : pt) (b : bool) : outs * edge * edge :=
  if b then
    let '(o, e1) := add_out o e1 p in
    (o, set_hand e1 LeftSide, set_hand (set_out e2 (out e1)) RightSide)
  else
    let '(o, e2) := add_out o e2 p in
    (o, set_hand (set_out e1 (out e2)) RightSide, set_hand e2 LeftSide).

(** AppendPolygon (2375-2468): the points of polygon [i] (edge [e1]) and polygon [k] (edge
    [e2]) are joined; the other edge of [k] is to be given to [i]. *)
Definition joined (s1 s2 : side) (r1 r2 : list pt) : list pt :=
  match s1, s2 with
  | LeftSide, LeftSide => rev r2 ++ r1
  | LeftSide, RightSide => r2 ++ r1
  | RightSide, RightSide => r1 ++ rev r2
  | RightSide, LeftSide => r1 ++ r2
  end.
Definition points (o : outs) (i : nat) : list pt := match nth i o None with Some r => r | None => [] end.
Record handover := Handover { obsolete : nat; ok : nat; new_side : side }.
Definition append (o : outs) (e1 e2 : edge) (i k : nat) : outs * handover :=
  (put (put o i (Some (joined (hand e1) (hand e2) (points o i) (points o k)))) k None,
   Handover k i (hand e1)).
(** The loop over the active edges at the end of AppendPolygon (2455-2465). *)
Fixpoint relabel (h : handover) (l : list edge) : list edge :=
  match l with
  | [] => []
  | e :: l =>
      match out e with
      | Some i => if Nat.eqb i (obsolete h) then set_hand (set_out e (Some (ok h))) (new_side h) :: l
                  else e :: relabel h l
      | None => e :: relabel h l
      end
  end.
Definition handing (h : option handover) (l : list edge) : list edge :=
  match h with Some h => relabel h l | None => l end.

(** AddLocalMaxPoly (1892-1906). *)
Definition local_max (o : outs) (e1 e2 : edge) (p : pt) : outs * edge * edge * option handover :=
  let '(o, e1) := add_out o e1 p in
  match out e1, out e2 with
  | Some i, Some k =>
      if Nat.eqb i k then (o, set_out e1 None, set_out e2 None, None)
      else if Nat.ltb i k then
        let '(o, h) := append o e1 e2 i k in (o, set_out e1 None, set_out e2 None, Some h)
      else
        let '(o, h) := append o e2 e1 k i in (o, set_out e1 None, set_out e2 None, Some h)
  | _, _ => (o, e1, e2, None)
  end.

(** ** Crossings *)
(** The winding counts after a crossing (2170-2192); [e1] is on the left before and on the right
    after it. *)
Definition cross_counts (j : job) (e1 e2 : edge) : edge * edge :=
  if same_kind (poly e1) (poly e2) then
    if is_evenodd (own_fill j (poly e1)) then (set_cnt e1 (cnt e2), set_cnt e2 (cnt e1))
    else
      (set_cnt e1 (if cnt e1 + delta e2 =? 0 then - cnt e1 else cnt e1 + delta e2),
       set_cnt e2 (if cnt e2 - delta e1 =? 0 then - cnt e2 else cnt e2 - delta e1))
  else
    (set_cnt2 e1 (if is_evenodd (own_fill j (poly e2)) then (if cnt2 e1 =? 0 then 1 else 0)
                  else cnt2 e1 + delta e2),
     set_cnt2 e2 (if is_evenodd (own_fill j (poly e1)) then (if cnt2 e2 =? 0 then 1 else 0)
                  else cnt2 e2 - delta e1)).
(** e1Wc, e2Wc, e1Wc2, e2Wc2 (2215-2226, 2268-2280). *)
Definition reading (f : fill) (c : Z) : Z :=
  match f with Positive => c | Negative => - c | _ => Z.abs c end.
Definition zero_one (c : Z) : bool := (c =? 0) || (c =? 1).
Definition drawn (e : edge) : bool := match out e with Some _ => true | None => false end.
(** SwapSides and SwapPolyIndexes (607-621). *)
Definition swap_sides (e1 e2 : edge) : edge * edge := (set_hand e1 (hand e2), set_hand e2 (hand e1)).
Definition swap_outs (e1 e2 : edge) : edge * edge := (set_out e1 (out e2), set_out e2 (out e1)).
Definition swap_both (e1 e2 : edge) : edge * edge :=
  let '(e1, e2) := swap_sides e1 e2 in swap_outs e1 e2.

(** IntersectEdges (2114-2306): output polygons, the two edges, and the edge to relabel. *)
Definition intersect (j : job) (o : outs) (e1 e2 : edge) (p : pt) (b : bool)
  : outs * edge * edge * option handover :=
  let c1 := drawn e1 in
  let c2 := drawn e2 in
  let '(e1, e2) := cross_counts j e1 e2 in
  let w1 := reading (own_fill j (poly e1)) (cnt e1) in
  let w2 := reading (own_fill j (poly e2)) (cnt e2) in
  if c1 && c2 then
    if negb (zero_one w1) || negb (zero_one w2) ||
       (negb (same_kind (poly e1) (poly e2)) && negb (is_xor (op j)))
    then local_max o e1 e2 p
    else
      let '(o, e1) := add_out o e1 p in
      let '(o, e2) := add_out o e2 p in
      let '(e1, e2) := swap_both e1 e2 in (o, e1, e2, None)
  else if c1 then
    if zero_one w2 then
      let '(o, e1) := add_out o e1 p in
      let '(e1, e2) := swap_both e1 e2 in (o, e1, e2, None)
    else (o, e1, e2, None)
  else if c2 then
    if zero_one w1 then
      let '(o, e2) := add_out o e2 p in
      let '(e1, e2) := swap_both e1 e2 in (o, e1, e2, None)
    else (o, e1, e2, None)
  else if zero_one w1 && zero_one w2 then
    let v1 := reading (alt_fill j (poly e1)) (cnt2 e1) in
    let v2 := reading (alt_fill j (poly e2)) (cnt2 e2) in
    if negb (same_kind (poly e1) (poly e2)) then
      let '(o, e1, e2) := local_min o e1 e2 p b in (o, e1, e2, None)
    else if (w1 =? 1) && (w2 =? 1) then
      if match op j with
         | Intersection => (0 <? v1) && (0 <? v2)
         | Union => (v1 <=? 0) && (v2 <=? 0)
         | Difference =>
             match poly e1 with
             | Clip => (0 <? v1) && (0 <? v2)
             | Subject => (v1 <=? 0) && (v2 <=? 0)
             end
         | Xor => true
         end
      then let '(o, e1, e2) := local_min o e1 e2 p b in (o, e1, e2, None)
      else (o, e1, e2, None)
    else let '(e1, e2) := swap_sides e1 e2 in (o, e1, e2, None)
  else (o, e1, e2, None).

(** ** Events *)
Record state := State { ael : list edge; polys : outs }.
(** [Minimum n k d p b]: the two bounds of a local minimum at [p] enter the list at [n], next to
    each other (InsertLocalMinimaIntoAEL 1986-2087; when there are edges between them, the
    crossings of the right bound with those edges follow, 2071-2085).
    [Crossing n p b]: the edges [n] and [n+1] change places (ProcessIntersectList 2914-2927,
    ProcessHorizontal 2754-2766, DoMaxima 2976-2982).
    [Vertex n p]: a point is added to the edge [n] if it contributes (2733, 2775, 2800, 2829,
    3046, 3094 and the points added for joins).
    [Maximum n p b]: the bounds [n] and [n+1] end at a local maximum (DoMaxima 2984-3010,
    ProcessHorizontal 2746-2752); [b] tells which of them is the first argument. *)
Inductive event :=
| Minimum (n : nat) (k : kind) (d : Z) (p : pt) (b : bool)
| Crossing (n : nat) (p : pt) (b : bool)
| Vertex (n : nat) (p : pt)
| Maximum (n : nat) (p : pt) (b : bool).
(** [Unfit]: there is no such edge, or the two bounds of a maximum are not of the same polygon
    type with opposite WindDelta.  [Throws]: clipperException("DoMaxima error") (3012). *)
Inductive outcome := Done (s : state) | Unfit | Throws.

(** InsertLocalMinimaIntoAEL for both bounds (2010-2020). *)
Definition insert_min (j : job) (s : state) (n : nat) (k : kind) (d : Z) (p : pt) (b : bool) : state :=
  let left := firstn n (ael s) in
  let '(c, c2) := set_winding j left k d in
  let lb := Edge k d c c2 LeftSide None in
  let rb := Edge k (- d) c c2 RightSide None in
  if contributing j lb then
    let '(o, lb, rb) := local_min (polys s) lb rb p b in
    State (left ++ lb :: rb :: skipn n (ael s)) o
  else State (left ++ lb :: rb :: skipn n (ael s)) (polys s).
(** One event. *)
Definition step (j : job) (s : state) (ev : event) : outcome :=
  match ev with
  | Minimum n k d p b =>
      if Nat.leb n (length (ael s)) && ((d =? 1) || (d =? -1)) then Done (insert_min j s n k d p b)
      else Unfit
  | Crossing n p b =>
      match skipn n (ael s) with
      | e1 :: e2 :: rest =>
          let '(o, e1, e2, h) := intersect j (polys s) e1 e2 p b in
          Done (State (handing h (firstn n (ael s) ++ e2 :: e1 :: rest)) o)
      | _ => Unfit
      end
  | Vertex n p =>
      match skipn n (ael s) with
      | e :: rest =>
          if drawn e then
            let '(o, e) := add_out (polys s) e p in Done (State (firstn n (ael s) ++ e :: rest) o)
          else Done s
      | _ => Unfit
      end
  | Maximum n p b =>
      match skipn n (ael s) with
      | e1 :: e2 :: rest =>
          if same_kind (poly e1) (poly e2) && (delta e1 + delta e2 =? 0) then
            match out e1, out e2 with
            | None, None => Done (State (firstn n (ael s) ++ rest) (polys s))
            | Some _, Some _ =>
                let '(o, _, _, h) := if b then local_max (polys s) e1 e2 p else local_max (polys s) e2 e1 p in
                Done (State (handing h (firstn n (ael s) ++ rest)) o)
            | _, _ => Throws
            end
          else Unfit
      | _ => Unfit
      end
  end.
(** A whole sweep (ExecuteInternal 1568-1592), from no active edge and no output. *)
Fixpoint sweep (j : job) (s : state) (evs : list event) : outcome :=
  match evs with
  | [] => Done s
  | ev :: evs => match step j s ev with Done s => sweep j s evs | x => x end
  end.
Definition start : state := State [] [].

(** The events of a local minimum with [m] edges between its bounds (1986-2087), and of a local
    maximum with [m] edges between its bounds (DoMaxima 2965-2995). *)
Definition minimum_events (n m : nat) (k : kind) (d : Z) (p : pt) (b : bool) : list event :=
  Minimum n k d p b :: map (fun i => Crossing (n + 1 + i) p b) (seq 0 m).
Definition maximum_events (n m : nat) (p : pt) (b : bool) : list event :=
  map (fun i => Crossing (n + i) p b) (seq 0 m) ++ [Maximum (n + m) p b].
