(** PolyPath: gdspy/polygon.py 2308-2617.  Coordinates are exact reals; [None] is an
    exception.  Points that follow each other at the same place, for which the code
    divides zero by zero, are also [None]. *)

From Coq Require Import Reals List ZArith Bool.
From Verif Require Import Plane Curve Flex Path Circles.
Import ListNotations.
Open Scope R_scope.

(** The arguments [corners] and [ends]: names, numbers (deprecated), or anything else *)
Inductive corners_arg := CMiter | CBevel | CNumber (n : nat) | COther.
Inductive ends_arg := EFlush | ERound | EExtended | ENumber (n : nat) | EOther.
(** 2443-2455; [true] for bevels *)
Definition corners_of (c : corners_arg) : option bool :=
  match c with CMiter | CNumber 0 => Some false | CBevel | CNumber 1 => Some true | _ => None end.
(** 2456-2469 *)
Definition ends_of (e : ends_arg) : option ends_arg :=
  match e with
  | EFlush | ENumber 0 => Some EFlush
  | ERound | ENumber 1 => Some ERound
  | EExtended | ENumber 2 => Some EExtended
  | _ => None
  end.
(** [l[j % len(l)]] *)
Definition cyc {X} (d : X) (l : list X) (j : nat) : X := nth (j mod length l) l d.
Definition ahead_of (p q : pt) : pt := smul (/ sqrt ((fst q - fst p) ^ 2 + (snd q - snd p) ^ 2)) (psub q p).
(** [numpy.array((-v[1], v[0])) / (v[0] ** 2 + v[1] ** 2) ** 0.5] *)
Definition left_of (p q : pt) : pt := (- snd (ahead_of p q), fst (ahead_of p q)).
Fixpoint no_repeat (l : list pt) : bool :=
  match l with
  | p :: ((q :: _) as r) => (if Req_EM_T (fst p) (fst q) then if Req_EM_T (snd p) (snd q) then false else true else true) && no_repeat r
  | _ => true
  end.
(** [Round(c, w, initial_angle=a, final_angle=a + pi, number_of_points=33).polygons[0]] *)
Definition half_disc (c : pt) (w a b : R) : option poly :=
  match round c (Circle w) (Circle 0) a b (1 / 100) (Some 33%nat) 199 0 0 with Some (p :: _, _, _) => Some p | _ => None end.

(** A single path of two points, 2390-2442.  ([corners] is not looked at, and [ends] is
    compared with two names only.) *)
Definition two_points (p0 p1 : pt) (w0 w1 : R) (ends : ends_arg) (la dt : Z) : option (list poly * list Z * list Z) :=
  let v := ahead_of p0 p1 in
  let a := atan2 (snd v) (fst v) + PI / 2 in
  let discs :=
    match ends with
    | ERound =>
        match half_disc p0 w0 a (a + PI), half_disc p1 w1 (a - PI) a with Some x, Some y => Some [x; y] | _, _ => None end
    | _ => Some []
    end in
  let (p0, p1) := match ends with EExtended => (psub p0 (smul w0 v), padd p1 (smul w1 v)) | _ => (p0, p1) end in
  let u := (- snd v, fst v) in
  let body :=
    if Req_EM_T w0 0 then [p0; psub p1 (smul w1 u); padd p1 (smul w1 u)]
    else if Req_EM_T w1 0 then [padd p0 (smul w0 u); psub p0 (smul w0 u); p1]
    else [padd p0 (smul w0 u); psub p0 (smul w0 u); psub p1 (smul w1 u); padd p1 (smul w1 u)] in
  match discs with
  | None => None
  | Some ds => Some (ds ++ [body], map (fun _ => la) ds ++ [la], map (fun _ => dt) ds ++ [dt])
  end.

Section Paths.
Variables (pts : list pt) (width distance : list R) (n : nat).
Definition point (j : nat) : pt := nth j pts (0, 0).
(** [ii * distance[j] - d - width[j]] for the right side, with plus for the left side *)
Definition side_offset (j i : nat) (left : bool) : R :=
  INR i * cyc 0 distance j - / 2 * (INR n - 1) * cyc 0 distance j + (if left then cyc 0 width j else - cyc 0 width j).
(** Where the side of the section from point j to the next one starts and ends: [pp]
    and [p1] (which is [p0] in the next turn of the loop), 2525-2533, 2550-2561 *)
Definition edge_start (j i : nat) (left : bool) : pt := padd (point j) (smul (side_offset j i left) (left_of (point j) (point (S j)))).
Definition edge_end (j i : nat) (left : bool) : pt := padd (point (S j)) (smul (side_offset (S j) i left) (left_of (point j) (point (S j)))).
(** The points added to a side at a corner, 2563-2582 *)
Definition add_corner (bevel : bool) (last p0 pp p1 : pt) : list pt :=
  let m := psub last p0 in
  let s := psub pp p1 in
  let vec := fst m * snd s - fst s * snd m in
  if Rlt_dec (/ 10 ^ 30) (Rabs vec) then
    let p := ((fst m * snd s * fst p1 - fst s * snd m * fst p0 + fst m * fst s * (snd p0 - snd p1)) / vec,
              - (snd m * fst s * snd p1 - snd s * fst m * snd p0 + snd m * snd s * (fst p0 - fst p1)) / vec) in
    let l0 := dot (psub p pp) s in
    let l1 := dot (psub p p0) m in
    if (bevel && (if Rlt_dec 0 l0 then true else false) && (if Rlt_dec l1 0 then true else false))%bool then [p0; pp] else [p]
  else [].
Definition sides := (list pt * list pt)%type.
(** One side at point j *)
Definition grow (bevel : bool) (j i : nat) (left : bool) (side : list pt) : list pt :=
  side ++ add_corner bevel (last side (0, 0)) (edge_end (j - 1) i left) (edge_start j i left) (edge_end j i left).
Definition same (p q : pt) : bool := if Req_EM_T (fst p) (fst q) then if Req_EM_T (snd p) (snd q) then true else false else false.
(** A polygon that is cut off, 2587-2598; the left side may be left without points
    (IndexError) *)
Definition cut_off (s : sides) : option poly :=
  let (r, l) := s in
  let l := if same (hd (0, 0) r) (hd (0, 0) l) then tl l else l in
  match l with
  | [] => None
  | _ => Some (r ++ rev (if same (last r (0, 0)) (last l (0, 0)) then removelast l else l))
  end.
(** One path at point j, 2562-2602: its sides, and the polygon cut off *)
Definition path_step (bevel : bool) (mx j i : nat) (s : sides) : option (sides * list poly) :=
  let s := (grow bevel j i false (fst s), grow bevel j i true (snd s)) in
  if ((0 <? mx) && (mx <? length (fst s) + length (snd s) + 3))%nat%bool then
    match cut_off s with
    | None => None
    | Some q => Some (([last (fst s) (0, 0)], [last (snd s) (0, 0)]), [q])
    end
  else Some (s, []).
(** All paths at point j, 2549-2602; the polygons come with the number of the path *)
Definition paths_step (bevel : bool) (mx j : nat) (paths : list sides) : option (list sides * list (nat * poly)) :=
  match all_some (map (fun ip => path_step bevel mx j (fst ip) (snd ip)) (combine (seq 0 n) paths)) with
  | None => None
  | Some l => Some (map fst l, concat (map (fun ip => map (pair (fst ip)) (snd (snd ip))) (combine (seq 0 n) l)))
  end.
(** The loop over the points, 2537-2602 *)
Fixpoint paths_loop (bevel : bool) (mx : nat) (js : list nat) (paths : list sides) : option (list sides * list (nat * poly)) :=
  match js with
  | [] => Some (paths, [])
  | j :: js =>
      match paths_step bevel mx j paths with
      | None => None
      | Some (paths, cut) =>
          match paths_loop bevel mx js paths with None => None | Some (paths, more) => Some (paths, cut ++ more) end
      end
  end.
(** The last polygon of a path, 2603-2611 *)
Definition finish (i : nat) (s : sides) : poly :=
  let (r, l) := s in
  let l := if same (hd (0, 0) r) (hd (0, 0) l) then tl l else l in
  let e0 := edge_end (length pts - 2) i false in
  let e1 := edge_end (length pts - 2) i true in
  (if same e0 e1 then r else r ++ [e0]) ++ rev (l ++ [e1]).
(** 2519-2611 *)
Definition paths_body (bevel : bool) (mx : nat) : option (list (nat * poly)) :=
  let start := map (fun i => ([edge_start 0 i false], [edge_start 0 i true])) (seq 0 n) in
  match paths_loop bevel mx (seq 1 (length pts - 2)) start with
  | None => None
  | Some (paths, cut) => Some (cut ++ map (fun ip => (fst ip, finish (fst ip) (snd ip))) (combine (seq 0 n) paths))
  end.
(** The round ends, 2477-2511 *)
Definition round_ends : option (list (nat * poly)) :=
  let e := (length pts - 1)%nat in
  let d j i := INR i * cyc 0 distance j - / 2 * (INR n - 1) * cyc 0 distance j in
  let v0 := psub (point 1) (point 0) in
  let v1 := psub (point e) (point (e - 1)) in
  let a0 := atan2 (snd v0) (fst v0) + PI / 2 in
  let a1 := atan2 (snd v1) (fst v1) - PI / 2 in
  let first i := half_disc (padd (point 0) (smul (d 0%nat i) (left_of (point 0) (point 1)))) (cyc 0 width 0) a0 (a0 + PI) in
  let final i := half_disc (padd (point e) (smul (d e i) (left_of (point (e - 1)) (point e)))) (cyc 0 width e) a1 (a1 + PI) in
  match all_some (map first (seq 0 n)), all_some (map final (seq 0 n)) with
  | Some a, Some b => Some (combine (seq 0 n) a ++ combine (seq 0 n) b)
  | _, _ => None
  end.
End Paths.
(** The constructor, 2353-2617.  [width] holds half of the widths given. *)
Definition poly_path (pts : list pt) (width : list R) (n : nat) (distance : list R) (corners : corners_arg) (ends : ends_arg)
    (mx : nat) (layer datatype : list Z) : option (list poly * list Z * list Z) :=
  match pts, width, distance, layer, datatype with
  | p0 :: p1 :: rest, w0 :: _, _ :: _, la :: _, dt :: _ =>
      if negb (no_repeat pts) then None
      else if ((length pts =? 2) && (n =? 1))%nat%bool then two_points p0 p1 w0 (cyc 0 width 1) ends la dt
      else
        match corners_of corners, ends_of ends with
        | Some bevel, Some ends =>
            let e := (length pts - 1)%nat in
            let v0 := ahead_of p1 p0 in
            let first := padd p0 (smul w0 v0) in
            let longer := first :: p1 :: rest in
            let v1 := ahead_of (nth (e - 1) longer (0, 0)) (nth e longer (0, 0)) in
            let pts' := match ends with EExtended => removelast longer ++ [padd (last longer (0, 0)) (smul (cyc 0 width e) v1)] | _ => pts end in
            if negb (no_repeat pts') then None
            else match (match ends with ERound => round_ends pts' width distance n | _ => Some [] end), paths_body pts' width distance n bevel mx with
            | Some caps, Some body =>
                let all := caps ++ body in
                Some (map snd all, map (fun ip => cyc 0%Z layer (fst ip)) all, map (fun ip => cyc 0%Z datatype (fst ip)) all)
            | _, _ => None
            end
        | _, _ => None
        end
  | _, _, _, _, _ => None
  end.
