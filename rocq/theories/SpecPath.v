(** What calls of Path are, and what they should draw. *)

From Coq Require Import Reals List ZArith Bool.
From Verif Require Import Plane Curve Flex Path.
Import ListNotations.
Open Scope R_scope.

(** A call of a method of Path. *)
Inductive pcall :=
| PSegment (l : R) (dir : option heading) (fw fd : option R) (axis : R) (la dt : tags)
| PArc (radius a0 a1 tol : R) (np : option nat) (mx : nat) (fw fd : option R) (la dt : tags)
| PTurn (radius : R) (t : turning) (tol : R) (np : option nat) (mx : nat) (fw fd : option R) (la dt : tags)
| PParametric (f : R -> pt) (df : option (R -> pt)) (tol : R) (evals mx : nat) (fw fd : final) (rel : bool) (la dt : tags)
| PBezier (l : list pt) (tol : R) (evals mx : nat) (fw fd : final) (rel : bool) (la dt : tags)
| PSmooth (hs : list pt -> list (pt * pt)) (cycle : bool) (l : list pt) (tol : R) (evals mx : nat)
    (fws fds : option (list final)) (rel : bool) (la dt : tags)
| PTranslate (v : pt) | PRotate (a : R) (c : pt) | PScale (sx : R) (sy : option R) (c : pt) | PMirror (p1 p2 : pt).
Definition do_pcall (fuel : nat) (k : pcall) (s : path) : option path :=
  match k with
  | PSegment l dir fw fd axis la dt => p_segment l dir fw fd axis la dt s
  | PArc r a0 a1 tol np mx fw fd la dt => p_arc r a0 a1 tol np mx fw fd la dt s
  | PTurn r t tol np mx fw fd la dt => p_turn r t tol np mx fw fd la dt s
  | PParametric f df tol ev mx fw fd rel la dt => p_parametric fuel f df tol ev mx fw fd rel la dt s
  | PBezier l tol ev mx fw fd rel la dt => p_bezier fuel l tol ev mx fw fd rel la dt s
  | PSmooth hs cyc l tol ev mx fws fds rel la dt => p_smooth fuel hs cyc l tol ev mx fws fds rel la dt s
  | PTranslate v => Some (p_translate v s)
  | PRotate a c => Some (p_rotate a c s)
  | PScale sx sy c => Some (p_scale sx sy c s)
  | PMirror p1 p2 => Some (p_mirror p1 p2 s)
  end.
Fixpoint do_pcalls (fuel : nat) (ks : list pcall) (s : path) : option path :=
  match ks with
  | [] => Some s
  | k :: r => match do_pcall fuel k s with None => None | Some s' => do_pcalls fuel r s' end
  end.
(** Calls that draw, with the layers and datatypes asked for. *)
Definition asked (k : pcall) : option (tags * tags) :=
  match k with
  | PSegment _ _ _ _ _ la dt | PArc _ _ _ _ _ _ _ _ la dt | PTurn _ _ _ _ _ _ _ la dt
  | PParametric _ _ _ _ _ _ _ _ la dt | PBezier _ _ _ _ _ _ _ la dt | PSmooth _ _ _ _ _ _ _ _ _ la dt => Some (la, dt)
  | _ => None
  end.

(** One layer and one datatype for each polygon. *)
Definition in_step (s : path) : Prop :=
  length (p_layers s) = length (p_polys s) /\ length (p_dts s) = length (p_polys s).
(** The number meant for parallel path [i]: lists are repeated. *)
Definition tag_of (t : tags) (i : nat) : Z :=
  match t with Tag z => z | Tags l => nth (i mod length l) l 0%Z end.
(** What was drawn from [s] to [s']: whole groups of one polygon for each parallel
    path, each with the layer and datatype of its path. *)
Definition draws (la dt : tags) (s s' : path) : Prop :=
  exists m ps, length ps = (m * p_n s)%nat /\ p_polys s' = p_polys s ++ ps /\
    p_layers s' = p_layers s ++ map (fun k => tag_of la (k mod p_n s)) (seq 0 (length ps)) /\
    p_dts s' = p_dts s ++ map (fun k => tag_of dt (k mod p_n s)) (seq 0 (length ps)).

(** ** Straight sections *)

(** The unit vector of a heading, and the one to the right of it. *)
Definition toward (h : heading) : pt :=
  match h with Px => (1, 0) | Nx => (-1, 0) | Py => (0, 1) | Ny => (0, -1) | Toward a => (cos a, sin a) end.
Definition rightward (v : pt) : pt := (snd v, - fst v).
(** The arguments of a segment: its length, direction, final width and distance,
    offset to the right, layer and datatype. *)
Record leg := Leg { l_len : R; l_dir : option heading; l_fw : option R; l_fd : option R; l_axis : R; l_la : tags; l_dt : tags }.
Definition leg_call (g : leg) : pcall := PSegment (l_len g) (l_dir g) (l_fw g) (l_fd g) (l_axis g) (l_la g) (l_dt g).
Definition leg_heading (h : heading) (g : leg) : heading := match l_dir g with Some k => k | None => h end.
(** The sum of the displacements of the legs, the first of which starts with heading [h]. *)
Fixpoint journey (h : heading) (gs : list leg) : pt :=
  match gs with
  | [] => (0, 0)
  | g :: r => let k := leg_heading h g in
              padd (padd (smul (l_len g) (toward k)) (smul (l_axis g) (rightward (toward k)))) (journey k r)
  end.
Fixpoint last_heading (h : heading) (gs : list leg) : heading :=
  match gs with [] => h | g :: r => last_heading (leg_heading h g) r end.
Fixpoint total (l : list R) : R := match l with [] => 0 | x :: r => x + total r end.
(** The area of all polygons of a path. *)
Definition all_area (s : path) : R := total (map poly_area (p_polys s)).

(** ** Turns *)

(** The signed angle of a turn. *)
Definition turn_by (t : turning) : R :=
  match t with Right => - (PI / 2) | Left => PI / 2 | RightBack => - PI | LeftBack => PI | By a => a end.
(** Quarter and half turns of the four named directions. *)
Definition quarter_left (h : heading) : heading :=
  match h with Px => Py | Py => Nx | Nx => Ny | Ny => Px | Toward a => Toward (a + PI / 2) end.
Definition turned (t : turning) (h : heading) : heading :=
  match t with
  | Left => quarter_left h
  | LeftBack | RightBack => quarter_left (quarter_left h)
  | Right => quarter_left (quarter_left (quarter_left h))
  | By a => Toward (turn_angle h + a)
  end.
(** Rotation of a vector. *)
Definition spin (a : R) (v : pt) : pt := (fst v * cos a - snd v * sin a, fst v * sin a + snd v * cos a).
(** The centre of a turn: beside the end of the path, on the side of the turn. *)
Definition pivot (radius : R) (t : turning) (s : path) : pt :=
  let right := rightward (toward (p_dir s)) in
  padd (p_at s) (if Rlt_dec (turn_by t) 0 then smul radius right else smul (- radius) right).

(** Usable layers or datatypes: not an empty list. *)
Definition usable (t : tags) : Prop := t <> Tags [].

(** ** Sections join up *)

(** The place of path [i] of [n] paths: they are numbered from left to right,
    [distance] apart, and the middle is at 0. *)
Definition place (n i : nat) (distance : R) : R := (INR i - (INR n - 1) / 2) * distance.
(** The end of parallel path [i]: its left and right corners. *)
Definition mouth (s : path) (i : nat) : pt * pt :=
  let right := rightward (toward (p_dir s)) in
  let d := place (p_n s) i (p_dist s) in
  (padd (p_at s) (smul (d - p_w s) right), padd (p_at s) (smul (d + p_w s) right)).
Definition from_to (l : list pt) (a b : pt) : Prop := l <> [] /\ hd (0, 0) l = a /\ last l (0, 0) = b.
(** [p] is bounded by a line on the left and a line on the right, from the corners of
    [e] to the corners of [e'], and by [e] and [e'] themselves. *)
Definition joins (e e' : pt * pt) (p : poly) : Prop :=
  exists A B, from_to A (fst e) (fst e') /\ from_to B (snd e) (snd e') /\
    exists a b, p = a ++ b /\ (b ++ a = A ++ rev B \/ b ++ a = B ++ rev A).
(** The polygons [ps], in groups of one for each parallel path, lead from the end of
    path [s] to the end of path [s']: those at place [order i] of the groups lead from
    mouth [i] to mouth [i], one joining on to the other. *)
Definition continues (order : nat -> nat) (s s' : path) (ps : list poly) : Prop :=
  forall i, (i < p_n s)%nat -> exists m (E : nat -> pt * pt), length ps = (m * p_n s)%nat /\
    E 0%nat = mouth s i /\ E m = mouth s' i /\
    forall j, (j < m)%nat -> joins (E j) (E (S j)) (nth (j * p_n s + order i) ps []).
Definition in_order (i : nat) : nat := i.
Definition reversed (n i : nat) : nat := (n - 1 - i)%nat.
(** The number of points of an arc from [s] to [s']: as asked, or from the tolerance. *)
Definition points_used (radius a0 a1 tol : R) (np : option nat) (s s' : path) : option nat :=
  match np with
  | Some k => Some k
  | None => auto_points tol (radius + Rmax (p_dist s) (p_dist s') * (INR (p_n s) - 1) * / 2 + Rmax (p_w s) (p_w s')) a0 a1
  end.
(** Enough points for both corners at both ends of each piece of a turn. *)
Definition enough_points (np mx : nat) : Prop := (4 <= np / piece_count np mx)%nat.

(** ** Curved sections *)

(** A vector scaled to length 1. *)
Definition unit_vec (v : pt) : pt := smul (/ sqrt (fst v ^ 2 + snd v ^ 2)) v.
(** The derivative used for the direction: the one given, or differences of the function
    over a distance [h] to both sides, where there is one. *)
Definition direction_at (f : R -> pt) (df : option (R -> pt)) (h : R) (u : R) : pt :=
  match df with
  | Some g => g u
  | None => if Req_EM_T u 0 then psub (f h) (f 0) else if Req_EM_T u 1 then psub (f 1) (f (1 - h)) else psub (f (u + h)) (f (u - h))
  end.
(** The value of the width (or the distance) along a section, when it was [old] before. *)
Definition along_section (x : final) (old u : R) : R :=
  match x with Same => old | To new => old * (1 - u) + new * u | Along g => g u end.
(** The point at [k] to the right of the curve [f] with direction [g]. *)
Definition flank (f g : R -> pt) (k : R -> R) (u : R) : pt := padd (f u) (smul (k u) (rightward (unit_vec (g u)))).
(** [l] in overlapping parts: each begins with the last element of the one before. *)
Inductive overlapping {X} : list X -> list (list X) -> Prop :=
| ov_last : forall l, (2 <= length l)%nat -> overlapping l [l]
| ov_more : forall a x b rest, a <> [] -> overlapping (x :: b) rest -> overlapping (a ++ x :: b) ((a ++ [x]) :: rest).

(** ** The number of vertices *)
Definition small (M : nat) (s : path) : Prop := forall p, In p (p_polys s) -> (length p <= M)%nat.
(** Calls whose [max_points] is at most [M] (and takes effect). *)
Definition limited (M : nat) (k : pcall) : Prop :=
  match k with
  | PArc _ _ _ _ _ mx _ _ _ _ | PTurn _ _ _ _ mx _ _ _ _ => (1 <= mx <= M)%nat
  | PParametric _ _ _ _ mx _ _ _ _ _ | PBezier _ _ _ mx _ _ _ _ _ | PSmooth _ _ _ _ _ mx _ _ _ _ _ => (4 <= mx <= M)%nat
  | _ => True
  end.
