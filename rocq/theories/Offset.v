(** Offsetting: gdspy/operation.py 148-210, [offset] in gdspy/clipper.cpp 4945-5003 and
    the class ClipperOffset, 3777-4223, for closed polygons, which is all gdspy uses.

    The sweep line (Clipper.Execute) and the box it reports (GetBounds) are parameters.
    Exact reals; integers are unbounded.  [None] is a NaN or what [tree2paths] gives. *)

From Coq Require Import Reals Lra List ZArith Bool.
From Verif Require Import Plane Engine Flex LinkHoles.
Import ListNotations.
Open Scope R_scope.

Definition zsame (a b : zpt) : bool := (fst a =? fst b)%Z && (snd a =? snd b)%Z.

(** GetUnitNormal, 3777-3788 *)
Definition normal (a b : zpt) : pt :=
  if zsame b a then (0, 0)
  else
    let dx := IZR (fst b - fst a) in
    let dy := IZR (snd b - snd a) in
    let f := 1 / sqrt (dx * dx + dy * dy) in
    (dy * f, - (dx * f)).

(** Area and Orientation, 393-411: twice the area *)
Fixpoint area_sum (j : zpt) (l : zpath) : Z :=
  match l with [] => 0%Z | i :: r => ((fst j + fst i) * (snd j - snd i) + area_sum i r)%Z end.
Definition area2 (l : zpath) : Z :=
  match l with
  | _ :: _ :: _ :: _ => (- area_sum (last l (0, 0)%Z) l)%Z
  | _ => 0%Z
  end.
Definition oriented (l : zpath) : bool := (0 <=? area2 l)%Z.

(** ** AddPath, 3817-3859 *)
Fixpoint high (path : zpath) (n : nat) : nat :=
  match n with
  | O => O
  | S m => if zsame (nth 0 path (0, 0)%Z) (nth n path (0, 0)%Z) then high path m else n
  end.
Fixpoint distinct (prev : zpt) (l : zpath) : zpath :=
  match l with [] => [] | x :: r => if zsame prev x then distinct prev r else x :: distinct x r end.
Definition contour_of (path : zpath) : zpath :=
  match path with
  | [] => []
  | p :: r => p :: distinct p (firstn (high path (length path - 1)) r)
  end.
Definition lower (a b : zpt) : bool :=
  (snd b <? snd a)%Z || ((snd a =? snd b)%Z && (fst a <? fst b)%Z).
Definition lowest (c : zpath) : zpt :=
  match c with [] => (0, 0)%Z | p :: r => fold_left (fun k x => if lower x k then x else k) r p end.
(** m_polyNodes and m_lowest, the outline with the lowest vertex and the vertex itself
    instead of their indices. *)
Record nodes := Nodes { n_list : list zpath; n_low : option (zpath * zpt) }.
Definition add_path (s : nodes) (path : zpath) : nodes :=
  let c := contour_of path in
  if (length c <? 3)%nat then s
  else Nodes (n_list s ++ [c])
         (match n_low s with
          | None => Some (c, lowest c)
          | Some (_, ip) => if lower (lowest c) ip then Some (c, lowest c) else n_low s
          end).
Definition add_paths (l : list zpath) : nodes := fold_left add_path l (Nodes [] None).
(** FixOrientations, 3869-3892 *)
Definition fix_orientations (s : nodes) : list zpath :=
  match n_low s with
  | Some (c, _) => if oriented c then n_list s else map (@rev zpt) (n_list s)
  | None => n_list s
  end.

(** ** DoOffset, 3966-4136 *)
Inductive join := Bevel | Miter | RoundJoin.
(** 3985-3986 *)
Definition miter_lim (limit : R) : R := if Rlt_dec 2 limit then 2 / (limit * limit) else / 2.
(** 3988-3996; [acos] of a number below -1 is NaN *)
Definition arc_y (arc delta : R) : R :=
  if Rle_dec arc 0 then / 4
  else if Rlt_dec (Rabs delta * / 4) arc then Rabs delta * / 4 else arc.
Definition arc_steps (arc delta : R) : option R :=
  let x := 1 - arc_y arc delta / Rabs delta in
  if Rlt_dec x (-1) then None
  else let steps := PI / acos x in
       Some (if Rlt_dec (Rabs delta * PI) steps then Rabs delta * PI else steps).

Section Outline.
Variable jt : join.
Variables (delta lim steps : R).
(** 3997-4000 *)
Definition m_sin : R := if Rlt_dec delta 0 then - sin (2 * PI / steps) else sin (2 * PI / steps).
Definition m_cos : R := cos (2 * PI / steps).
Definition per_rad : R := steps / (2 * PI).

(** The points pushed to m_destPoly, before they are rounded ([rounded] below).  The
    vertices pushed as they are, line 4162, are whole, so rounding keeps them. *)
Definition at_vertex (v : zpt) (d : pt) : pt := (IZR (fst v) + fst d, IZR (snd v) + snd d).
Definition times (x : pt) (k : R) : pt := (fst x * k, snd x * k).
(** DoSquare, 4183-4193 *)
Definition do_square (v : zpt) (nk nj : pt) (sinA : R) : list pt :=
  let dx := tan (atan2 sinA (fst nk * fst nj + snd nk * snd nj) / 4) in
  [at_vertex v (delta * (fst nk - snd nk * dx), delta * (snd nk + fst nk * dx));
   at_vertex v (delta * (fst nj + snd nj * dx), delta * (snd nj - fst nj * dx))].
(** DoMiter, 4196-4201 *)
Definition do_miter (v : zpt) (nk nj : pt) (r : R) : list pt :=
  let q := delta / r in
  [at_vertex v ((fst nk + fst nj) * q, (snd nk + snd nj) * q)].
(** DoRound, 4204-4223 *)
Fixpoint spin (n : nat) (x : pt) : list pt :=
  match n with
  | O => []
  | S m => x :: spin m (fst x * m_cos - m_sin * snd x, fst x * m_sin + snd x * m_cos)
  end.
Definition round_steps (a : R) : nat := Z.to_nat (Z.max (cround (per_rad * Rabs a)) 1).
Definition do_round (v : zpt) (nk nj : pt) (sinA : R) : list pt :=
  let a := atan2 sinA (fst nk * fst nj + snd nk * snd nj) in
  map (fun x => at_vertex v (times x delta)) (spin (round_steps a) nk) ++ [at_vertex v (times nj delta)].

(** OffsetPoint, 4139-4180, and whether [k] becomes [j] *)
Definition offset_point (v : zpt) (nk nj : pt) : list pt * bool :=
  let sinA := fst nk * snd nj - fst nj * snd nk in
  let cosA := fst nk * fst nj + snd nj * snd nk in
  let small := if Rlt_dec (Rabs (sinA * delta)) 1 then true else false in
  if small && (if Rlt_dec 0 cosA then true else false) then ([at_vertex v (times nk delta)], false)
  else
    let sinA := if small then sinA else if Rlt_dec 1 sinA then 1 else if Rlt_dec sinA (-1) then -1 else sinA in
    (if Rlt_dec (sinA * delta) 0 then
       [at_vertex v (times nk delta); at_vertex v (0, 0); at_vertex v (times nj delta)]
     else
       match jt with
       | Miter => let r := 1 + (fst nj * fst nk + snd nj * snd nk) in
                  if Rle_dec lim r then do_miter v nk nj r else do_square v nk nj sinA
       | Bevel => do_square v nk nj sinA
       | RoundJoin => do_round v nk nj sinA
       end, true).
(** 4044-4050 *)
Definition normals (src : zpath) : list pt :=
  map (fun j => normal (nth j src (0, 0)%Z) (nth (S j) src (0, 0)%Z)) (seq 0 (length src - 1))
  ++ [normal (nth (length src - 1) src (0, 0)%Z) (nth 0 src (0, 0)%Z)].
(** 4054-4060 *)
Fixpoint offset_loop (src : zpath) (ns : list pt) (js : list nat) (k : nat) : list pt :=
  match js with
  | [] => []
  | j :: r =>
      let (new, moved) := offset_point (nth j src (0, 0)%Z) (nth k ns (0, 0)) (nth j ns (0, 0)) in
      new ++ offset_loop src ns r (if moved then j else k)
  end.
Definition outline (src : zpath) : list pt :=
  offset_loop src (normals src) (seq 0 (length src)) (length src - 1).
End Outline.

(** IntPoint(Round(..), Round(..)) *)
Definition rounded (p : pt) : zpt := (cround (fst p), cround (snd p)).
(** Every outline has at least three vertices (AddPath): [len == 0] and [len == 1], line
    4009 to 4043, do not happen. *)
Definition near_zero (delta : R) : bool :=
  if Rlt_dec (- / 10 ^ 20) delta then if Rlt_dec delta (/ 10 ^ 20) then true else false else false.
Definition do_offset (jt : join) (limit arc delta : R) (contours : list zpath) : option (list zpath) :=
  if near_zero delta then Some contours
  else option_map (fun steps => map (fun src => map rounded (outline jt delta (miter_lim limit) steps src)) contours)
                  (arc_steps arc delta).

Section Execute.
(** Clipper.Execute with ctUnion: those parts around which the outlines go a positive
    (true) or negative (false) number of times; the latter with ReverseSolution. *)
Variable eng : bool -> list zpath -> list ptree.
Variable eng_paths : bool -> list zpath -> list zpath.
(** GetBounds: left, top, right, bottom *)
Variable bounds : list zpath -> Z * Z * Z * Z.
Variable psort : list zpath -> list zpath.

Definition frame (polys : list zpath) : zpath :=
  let '(x0, y0, x1, y1) := bounds polys in
  [(x0 - 10, y1 + 10); (x1 + 10, y1 + 10); (x1 + 10, y0 - 10); (x0 - 10, y0 - 10)]%Z.
(** Execute, 3895-3922 and 3925-3963 *)
Definition execute_paths (dest : list zpath) (delta : R) : list zpath :=
  if Rlt_dec 0 delta then eng_paths true dest else tl (eng_paths false (dest ++ [frame dest])).
Definition execute (dest : list zpath) (delta : R) : list ptree :=
  if Rlt_dec 0 delta then eng true dest
  else match eng false (dest ++ [frame dest]) with
       | [Node _ (x :: r)] => x :: r
       | _ => []
       end.

(** offset, 4945-5003 *)
Definition clipper_offset (polys : list poly) (distance : R) (jt : join) (tolerance scaling : R) (join_first : bool)
  : option (list zpath) :=
  let limit := match jt with Miter => tolerance | _ => 2 end in
  let arc := match jt with RoundJoin => distance * scaling * (1 - cos (PI / tolerance)) | _ => / 4 end in
  let subj := map (parse_polygon scaling true) polys in
  let given :=
    if join_first then
      option_map (fun dest => execute_paths dest 0) (do_offset Bevel 2 (/ 4) 0 (fix_orientations (add_paths subj)))
    else Some subj in
  match given with
  | None => None
  | Some paths =>
      match do_offset jt limit arc (distance * scaling) (fix_orientations (add_paths paths)) with
      | None => None
      | Some dest => tree2paths psort (execute dest (distance * scaling))
      end
  end.

(** operation.py 198-210 *)
Variable chop_eng : op -> list zpath -> list zpath -> list zpath.
Definition py_offset (fuel : nat) (o : operand) (distance : R) (jt : join) (tolerance precision : R) (join_first : bool)
    (max_points : nat) (layer dt : Z) : option (option (list poly * list Z * list Z)) :=
  match gather_polys o with
  | None => None
  | Some polys =>
      match clipper_offset polys distance jt tolerance (1 / precision) join_first with
      | None => None
      | Some [] => Some None
      | Some result =>
          let l := map (map (unsnap (1 / precision))) result in
          option_map Some (fracture chop_eng fuel precision max_points l (repeat layer (length l)) (repeat dt (length l)))
      end
  end.
End Execute.
