(** Hole state of the output polygons (gdspy/clipper.cpp): OutRec.IsHole and OutRec.FirstLeft,
    as SetHoleState (2309-2334) sets them for a new output polygon and AppendPolygon (2381-2389,
    2445-2452) when two of them are joined, along the sweep of Sweep.v.  Joins of touching polygons
    (JoinCommonEdges), which change them again after the sweep, are not modelled. *)

From Coq Require Import List ZArith Bool Arith.
From Verif Require Import Sweep.
Import ListNotations.

(** OutRec (100-110): IsHole and FirstLeft; a pointer is an index of m_PolyOuts. *)
Record outrec := OutRec { is_hole : bool; first_left : option nat }.
Definition rec_at (rs : list outrec) (i : nat) : outrec := nth i rs (OutRec false None).
Fixpoint set_rec (rs : list outrec) (i : nat) (r : outrec) : list outrec :=
  match rs, i with
  | [], _ => []
  | _ :: rs, O => r :: rs
  | x :: rs, S i => x :: set_rec rs i r
  end.

(** The loop of SetHoleState (2311-2322); the list holds OutIdx of the edges on the left, the
    nearest first; WindDelta is not zero since all paths are closed. *)
Fixpoint hole_loop (tmp : option nat) (l : list (option nat)) : option nat :=
  match l with
  | [] => tmp
  | None :: l => hole_loop tmp l
  | Some i :: l =>
      match tmp with
      | None => hole_loop (Some i) l
      | Some t => if Nat.eqb t i then hole_loop None l else hole_loop tmp l
      end
  end.
(** SetHoleState: what it stores in the new output polygon. *)
Definition hole_state (rs : list outrec) (left : list edge) : outrec :=
  match hole_loop None (rev (map out left)) with
  | None => OutRec false None
  | Some i => OutRec (negb (is_hole (rec_at rs i))) (Some i)
  end.

(** OutRec1RightOfOutRec2 (2357-2365); [steps] bounds the loop. *)
Fixpoint right_of (steps : nat) (rs : list outrec) (a b : nat) : bool :=
  match steps with
  | O => false
  | S steps =>
      match first_left (rec_at rs a) with
      | None => false
      | Some c => if Nat.eqb c b then true else right_of steps rs c b
      end
  end.
Definition option_eqb (a : option nat) (b : nat) : bool := match a with Some c => Nat.eqb c b | None => false end.
(** The hole state in AppendPolygon for outRec1 = [i] and outRec2 = [k]; [lower] stands for
    GetLowermostRec (2337-2354): whether it returns outRec2. *)
Definition takes_second (rs : list outrec) (i k : nat) (lower : bool) : bool :=
  if right_of (length rs) rs i k then true else if right_of (length rs) rs k i then false else lower.
Definition append_holes (rs : list outrec) (i k : nat) (lower : bool) : list outrec :=
  let r1 := rec_at rs i in
  let r2 := rec_at rs k in
  let r := if takes_second rs i k lower
           then OutRec (is_hole r2) (if option_eqb (first_left r2) i then first_left r1 else first_left r2)
           else r1 in
  set_rec (set_rec rs i r) k (OutRec (is_hole r2) (Some i)).

(** What an event of the sweep does: a new output polygon (AddOutPt 2473-2481), made between
    or next to edges with nothing drawn, so that the edges on its left are the first [n]; or two
    output polygons appended. *)
Definition created (s : state) (n : nat) (o : outs) (rs : list outrec) : list outrec :=
  if Nat.ltb (length (polys s)) (length o) then rs ++ [hole_state rs (firstn n (ael s))] else rs.
Definition handed (h : option handover) (lower : bool) (rs : list outrec) : list outrec :=
  match h with Some h => append_holes rs (ok h) (obsolete h) lower | None => rs end.
Definition hole_step (j : job) (s : state) (ev : event) (lower : bool) (rs : list outrec) : list outrec :=
  match ev with
  | Minimum n k d p b => created s n (polys (insert_min j s n k d p b)) rs
  | Crossing n p b =>
      match skipn n (ael s) with
      | e1 :: e2 :: _ =>
          let '(o, _, _, h) := intersect j (polys s) e1 e2 p b in handed h lower (created s n o rs)
      | _ => rs
      end
  | Vertex _ _ => rs
  | Maximum n p b =>
      match skipn n (ael s) with
      | e1 :: e2 :: _ =>
          match out e1, out e2 with
          | Some _, Some _ =>
              let '(_, _, _, h) := if b then local_max (polys s) e1 e2 p else local_max (polys s) e2 e1 p in
              handed h lower rs
          | _, _ => rs
          end
      | _ => rs
      end
  end.
(** A whole sweep; each event comes with an answer of GetLowermostRec, should it be asked. *)
Fixpoint sweep_holes (j : job) (s : state) (rs : list outrec) (evs : list (event * bool)) : option (state * list outrec) :=
  match evs with
  | [] => Some (s, rs)
  | (ev, lower) :: evs =>
      match step j s ev with Done s' => sweep_holes j s' (hole_step j s ev lower rs) evs | _ => None end
  end.
