(** The scanlines of the sweep (gdspy/clipper.cpp, Clipper::ExecuteInternal): at which ordinates
    the sweep stops, and where it starts each local minimum.  The sweep runs from the largest
    ordinate to the smallest.  A bound is the list of the ordinates Top.Y of its edges, from its
    local minimum on (NextInLML); an edge is horizontal when its Top.Y is that of the edge before
    it.  Abscissas, windings and the output play no role here; closed paths only (gdspy adds no
    others), so that both bounds of a local minimum exist; ProcessIntersections does not fail
    (C89). *)

From Coq Require Import List ZArith Bool.
Import ListNotations.
Open Scope Z_scope.

(** LocalMinimum (clipper.cpp 100-104). *)
Record lmin : Type := Lmin { ly : Z; left : list Z; right : list Z }.

(** InsertScanbeam (1343-1346): the priority queue is kept with the largest ordinate first. *)
Fixpoint push (y : Z) (q : list Z) : list Z :=
  match q with
  | [] => [y]
  | x :: r => if x <? y then y :: q else x :: push y r
  end.
Definition push_all (ys q : list Z) : list Z := fold_left (fun q y => push y q) ys q.
(** PopScanbeam (1349-1356). *)
Fixpoint drop_same (y : Z) (q : list Z) : list Z :=
  match q with
  | [] => []
  | x :: r => if y =? x then drop_same y r else q
  end.
Definition pop (q : list Z) : option (Z * list Z) :=
  match q with [] => None | y :: r => Some (y, drop_same y r) end.

(** An active edge that ends at [y] is followed by the next one of its bound, and so on past the
    horizontal edges: UpdateEdgeIntoAEL (1450-1470) as called from ProcessHorizontal (2773, 2802,
    2825) and ProcessEdgesAtTopOfScanbeam (3045, 3095).  The last edge of a bound leaves the list
    of active edges (DoMaxima 2965-3014, 2750-2751, 2830).  Result: what is left of the bound, and the
    ordinates pushed. *)
Fixpoint advance (y : Z) (b : list Z) : list Z * list Z :=
  match b with
  | [] => ([], [])
  | t :: r =>
      if t =? y then
        let '(r', ps) := advance y r in
        (r', match r with u :: _ => if u =? y then [] else [u] | [] => [] end ++ ps)
      else (b, [])
  end.
Fixpoint advance_all (y : Z) (bs : list (list Z)) : list (list Z) * list Z :=
  match bs with
  | [] => ([], [])
  | b :: bs =>
      let '(b', ps) := advance y b in
      let '(bs', qs) := advance_all y bs in
      (match b' with [] => bs' | _ => b' :: bs' end, ps ++ qs)
  end.

(** The ordinates that InsertLocalMinimaIntoAEL pushes for one local minimum (2020, 2023-2032). *)
Definition starts (m : lmin) : list Z :=
  match left m with t :: _ => [t] | [] => [] end ++
  match right m with
  | t :: r => if t =? ly m then match r with u :: _ => [u] | [] => [] end else [t]
  | [] => []
  end.
(** InsertLocalMinimaIntoAEL (1986-2086) with PopLocalMinima (1294-1300).  Result: the local
    minima started, the new active bounds, the ordinates pushed, the local minima left. *)
Fixpoint begin_at (y : Z) (lms : list lmin) : list lmin * list (list Z) * list Z * list lmin :=
  match lms with
  | m :: r =>
      if ly m =? y then
        let '(ms, bs, ps, r') := begin_at y r in (m :: ms, left m :: right m :: bs, starts m ++ ps, r')
      else ([], [], [], lms)
  | [] => ([], [], [], [])
  end.

(** The body of the loop of ExecuteInternal (1582-1591): the horizontals at [bot] that are still
    waiting, the top of the scanbeam, the local minima at [top]. *)
Definition beam (bot top : Z) (q : list Z) (bs : list (list Z)) (lms : list lmin)
  : list lmin * list Z * list (list Z) * list lmin :=
  let '(bs1, p1) := advance_all bot bs in
  let '(bs2, p2) := advance_all top bs1 in
  let '(ms, nb, p3, lms') := begin_at top lms in
  (ms, push_all (p1 ++ p2 ++ p3) q, nb ++ bs2, lms').
(** The loop (1580-1592).  [PopScanbeam(topY) || LocalMinimaPending()]: when the queue is empty,
    topY keeps its value.  Result: the scanlines in the order in which the sweep stops at them,
    each with the local minima started there; [None]: not ended after [fuel] rounds. *)
Fixpoint loop (fuel : nat) (bot : Z) (q : list Z) (bs : list (list Z)) (lms : list lmin) : option (list (Z * list lmin)) :=
  match fuel with
  | O => None
  | S fuel =>
      match (match pop q with Some p => Some p | None => match lms with [] => None | _ => Some (bot, q) end end) with
      | None => Some []
      | Some (top, q) =>
          let '(ms, q', bs', lms') := beam bot top q bs lms in
          match loop fuel top q' bs' lms' with Some tr => Some ((top, ms) :: tr) | None => None end
      end
  end.
(** ExecuteInternal (1569-1592) with Reset (1255-1284); [order] is std::sort with LocMinSorter
    (133-139).  Nothing to do: no scanline (1578 returns false and the result stays empty). *)
Definition scan_lines (order : list lmin -> list lmin) (fuel : nat) (minima : list lmin) : option (list (Z * list lmin)) :=
  let lms := order minima in
  match pop (push_all (map ly lms) []) with
  | None => Some []
  | Some (bot, q) =>
      let '(ms, bs, ps, lms') := begin_at bot lms in
      match loop fuel bot (push_all ps q) bs lms' with Some tr => Some ((bot, ms) :: tr) | None => None end
  end.
