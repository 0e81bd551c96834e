(** FlexPath: gdspy/path.py 195-1709.

    Coordinates are exact reals.  [None] is an exception.  Where numpy would give
    nan (a vector of length zero divided by its length) the model has the arbitrary
    value that division by zero has in Coq.  Parameters: [eng] the clipping engine
    (Engine.v), [hob] the control points of _hobby (hobby.py 37-247) for two points
    with both angles given; [fuel] bounds the sampling and fracturing loops, and
    running out of it is [None].  Warnings and [properties] are not modelled. *)

From Coq Require Import Reals Lra List ZArith Bool.
From Verif Require Import Plane Curve Engine.
Import ListNotations.
Open Scope R_scope.

(** ** The path *)

(** [corners]: a name or a function (p0, v0, p1, v1, center, width) -> points. *)
Inductive corner := Natural | Miter | Bevel | RoundCorner | SmoothCorner | Circular
  | CustomCorner (f : pt -> pt -> pt -> pt -> pt -> R -> list pt).
(** [ends]: a name, a pair of lengths, or a function (p0, v0, p1, v1) -> points. *)
Inductive cap := Flush | Extended | Lengths (a b : R) | RoundCap | SmoothCap
  | CustomCap (f : pt -> pt -> pt -> pt -> list pt).
(** The attributes, path.py 272-292.  [f_w] and [f_o] are the arrays [widths] and
    [offsets] as lists of rows. *)
Record flex := Flex {
  f_n : nat; f_pts : list pt; f_w : list (list R); f_o : list (list R);
  f_ends : list cap; f_corners : list corner; f_bend : list (option R);
  f_layers : list Z; f_dts : list Z; f_tol : R; f_prec : R; f_max : nat;
  f_gds : bool; f_wt : bool; f_cache : option (list (spec * list poly)) }.

(** An argument that may be given once or as a list. *)
Inductive many (X : Type) := One (x : X) | Many (l : list X).
Arguments One {X}. Arguments Many {X}.
(** [[x[i % len(x)] for i in range(n)]] or [[x for _ in range(n)]]; an empty list
    raises ZeroDivisionError. *)
Definition cyclic {X} (n : nat) (a : many X) : option (list X) :=
  match a with
  | One x => Some (repeat x n)
  | Many [] => match n with O => Some [] | S _ => None end
  | Many (x :: l) => Some (map (fun i => nth (i mod length (x :: l)) (x :: l) x) (seq 0 n))
  end.
(** __init__, path.py 313-329: [n], the first row of [widths] and of [offsets]. *)
Definition start_rows (width offset : many R) : nat * list R * list R :=
  match width with
  | Many ws =>
      (length ws, ws,
       match offset with
       | Many os => os
       | One o => map (fun i => (INR i - / 2 * (INR (length ws) - 1)) * o) (seq 0 (length ws))
       end)
  | One w =>
      match offset with
      | Many os => (length os, repeat w (length os), os)
      | One o => (1%nat, [w], [o])
      end
  end.
(** The argument [points]: a list of points, or one pair of coordinates. *)
Inductive spine_arg := Spine (l : list pt) | Pair (p : pt).
(** __init__, path.py 296-378.  [len(points)] is 2 for one pair of coordinates. *)
Definition flex_init (points : spine_arg) (width offset : many R) (corners : many corner) (ends : many cap)
    (bend : many (option R)) (tol prec : R) (max : nat) (gds wt : bool) (layer dt : many Z) : option flex :=
  let '(n, w, o) := start_rows width offset in
  let pts := match points with Spine l => l | Pair p => [p] end in
  let len := match points with Spine l => length l | Pair _ => 2%nat end in
  match cyclic n ends, cyclic n corners, cyclic n bend, cyclic n layer, cyclic n dt with
  | Some e, Some c, Some b, Some l, Some d =>
      Some (Flex n pts (repeat w len) (repeat o len) e c b l d tol prec max gds wt None)
  | _, _, _, _, _ => None
  end.

Definition set_spine (f : flex) (pts : list pt) (w o : list (list R)) : flex :=
  Flex (f_n f) pts w o (f_ends f) (f_corners f) (f_bend f) (f_layers f) (f_dts f) (f_tol f) (f_prec f)
       (f_max f) (f_gds f) (f_wt f) None.
Definition set_cache (f : flex) (d : option (list (spec * list poly))) : flex :=
  Flex (f_n f) (f_pts f) (f_w f) (f_o f) (f_ends f) (f_corners f) (f_bend f) (f_layers f) (f_dts f) (f_tol f)
       (f_prec f) (f_max f) (f_gds f) (f_wt f) d.
Definition set_ends (f : flex) (e : list cap) : flex :=
  Flex (f_n f) (f_pts f) (f_w f) (f_o f) e (f_corners f) (f_bend f) (f_layers f) (f_dts f) (f_tol f)
       (f_prec f) (f_max f) (f_gds f) (f_wt f) (f_cache f).
(** [path.layers = [layer] * path.n], as in Cell.flatten (library.py 836-843): an
    assignment from outside, which does not touch the cache. *)
Definition set_specs (sl sd : option Z) (f : flex) : flex :=
  Flex (f_n f) (f_pts f) (f_w f) (f_o f) (f_ends f) (f_corners f) (f_bend f)
       (match sl with Some l => repeat l (f_n f) | None => f_layers f end)
       (match sd with Some d => repeat d (f_n f) | None => f_dts f end)
       (f_tol f) (f_prec f) (f_max f) (f_gds f) (f_wt f) (f_cache f).

(** ** Transformations *)

(** translate, path.py 1177-1195 *)
Definition f_translate (v : pt) (f : flex) : flex :=
  set_spine f (map (fun p => padd p v) (f_pts f)) (f_w f) (f_o f).
(** rotate, path.py 1197-1219 *)
Definition f_rotate (angle : R) (c : pt) (f : flex) : flex :=
  set_spine f (map (rotate_pt angle c) (f_pts f)) (f_w f) (f_o f).
Definition scale_cap (k : R) (e : cap) : cap := match e with Lengths a b => Lengths (a * k) (b * k) | _ => e end.
Definition scale_rows (k : R) (rows : list (list R)) : list (list R) := map (map (fun x => x * k)) rows.
(** scale, path.py 1221-1251: [points * scale + center * (1 - scale)] *)
Definition f_scale (k : R) (c : pt) (f : flex) : flex :=
  set_ends
    (set_spine f (map (fun p => padd (smul k p) (smul (1 - k) c)) (f_pts f))
       (if f_wt f || negb (f_gds f) then scale_rows k (f_w f) else f_w f) (scale_rows k (f_o f)))
    (map (scale_cap k) (f_ends f)).
(** transform, path.py 1253-1304; [cos] and [sin] are the two arrays. *)
Definition f_transform (org : option pt) (rot mag : option R) (refl : bool) (arr : option pt) (f : flex) : flex :=
  let translation := match org with Some v => v | None => (0, 0) end in
  let array_trans := match arr with Some v => v | None => (0, 0) end in
  let cs := match rot with Some a => (cos a, cos a) | None => (1, 1) end in
  let sn := match rot with Some a => (sin a * -1, sin a * 1) | None => (0, 0) end in
  let '(cs, sn, array_trans, w, o) :=
    match mag with
    | Some k => (smul k cs, smul k sn, smul (/ k) array_trans,
                 (if f_wt f || negb (f_gds f) then scale_rows k (f_w f) else f_w f), scale_rows k (f_o f))
    | None => (cs, sn, array_trans, f_w f, f_o f)
    end in
  let cs := if refl then (fst cs, - snd cs) else cs in
  let sn := if refl then (- fst sn, snd sn) else sn in
  set_spine f
    (map (fun p => let q := padd p array_trans in padd (padd (pmul q cs) (pmul (snd q, fst q) sn)) translation) (f_pts f))
    w o.

(** ** Construction *)

(** The [width] and [offset] arguments: None, a number or a list. *)
Inductive dim := Keep | Num_ (x : R) | Row (l : list R).
Definition lastrow (rows : list (list R)) : list R := last rows [].
Definition f_last (f : flex) : pt := last (f_pts f) (0, 0).
Definition add_each (l : list R) (x : R) : list R := map (fun y => y + x) l.
(** The final widths [wid] and offsets [off] of a section, path.py 1345-1356,
    1392-1403, 1521-1532.  numpy refuses a list of the wrong length, except that the
    sum of outer products (arc and parametric, [wide]) repeats a single element. *)
Definition fit (wide : bool) (n : nat) (l : list R) : option (list R) :=
  if (length l =? n)%nat then Some l
  else match wide, l with true, [x] => Some (repeat x n) | _, _ => None end.
Definition final_w (wide : bool) (f : flex) (a : dim) : option (list R) :=
  match a with
  | Keep => Some (lastrow (f_w f))
  | Num_ x => Some (repeat x (f_n f))
  | Row l => fit wide (f_n f) l
  end.
Definition final_o (wide : bool) (f : flex) (a : dim) : option (list R) :=
  match a with
  | Keep => Some (lastrow (f_o f))
  | Num_ x => Some (add_each (lastrow (f_o f)) x)
  | Row l => fit wide (f_n f) l
  end.
Definition width_arg (f : flex) (a : dim) : dim := if f_gds f then Keep else a.
(** segment, path.py 1306-1357: the path after the call and whether it returned.
    The points are extended first, then the widths, then the offsets. *)
Definition segment_step (end_ : pt) (width offset : dim) (rel : bool) (f : flex) : flex * bool :=
  let pts := f_pts f ++ [if rel then padd (f_last f) end_ else end_] in
  match f_pts f, final_w false f (width_arg f width) with
  | [], _ => (set_cache f None, false)
  | _, None => (set_spine f pts (f_w f) (f_o f), false)
  | _, Some w =>
      match final_o false f offset with
      | None => (set_spine f pts (f_w f ++ [w]) (f_o f), false)
      | Some o => (set_spine f pts (f_w f ++ [w]) (f_o f ++ [o]), true)
      end
  end.
Definition f_segment (end_ : pt) (width offset : dim) (rel : bool) (f : flex) : option flex :=
  let (g, ok) := segment_step end_ width offset rel f in if ok then Some g else None.
(** [numpy.outer(1 - u, last) + numpy.outer(u, final)] or [tile(final)] for the
    [m] new points; [u = linspace(0, 1, m + 1)[1:]]. *)
Definition blend (u : R) (a b : list R) : list R := map (fun xy => (1 - u) * fst xy + u * snd xy) (combine a b).
Definition new_rows (arg : dim) (from to : list R) (m : nat) : list (list R) :=
  match arg with
  | Keep => repeat to m
  | _ => map (fun u => blend u from to) (tl (linspace 0 1 (S m)))
  end.
Definition extend (f : flex) (pts : list pt) (width offset : dim) (w o : list R) : flex :=
  set_spine f (f_pts f ++ pts)
    (f_w f ++ new_rows width (lastrow (f_w f)) w (length pts))
    (f_o f ++ new_rows offset (lastrow (f_o f)) o (length pts)).
(** [max(base, 1 + int(half / arccos(1 - tolerance / r) + 0.5))]; the result of
    arccos outside [-1, 1] is nan, which int refuses, as it does the infinity
    from a division by zero. *)
Definition arc_count (base : nat) (half tol r : R) : option nat :=
  let c := 1 - tol / r in
  if Req_EM_T r 0 then None else if Rlt_dec c (-1) then None else if Rlt_dec c 1 then
    Some (Nat.max base (1 + Z.to_nat (Int_part (half / acos c + / 2))))
  else None.
Definition on_circle (r a : R) : pt := (r * cos a, r * sin a).
Definition lmax (l : list R) : R := match l with [] => 0 | x :: r => fold_left Rmax r x end.
Definition sum2 (a b : list R) : list R := map (fun xy => fst xy + snd xy) (combine a b).
(** arc, path.py 1359-1437 *)
Definition f_arc (radius a0 a1 : R) (width offset : dim) (f : flex) : option flex :=
  let width := width_arg f width in
  match f_pts f, final_w true f width, final_o true f offset with
  | _ :: _, Some w, Some o =>
      let rmax := radius + Rmax (lmax (sum2 (lastrow (f_o f)) (lastrow (f_w f)))) (lmax (sum2 o w)) in
      match arc_count 3 (/ 2 * Rabs (a1 - a0)) (f_tol f) rmax with
      | None => None
      | Some np =>
          match map (on_circle radius) (linspace a0 a1 np) with
          | [] => None
          | p0 :: r => Some (extend f (map (fun p => padd p (psub (f_last f) p0)) r) width offset w o)
          end
      end
  | _, _, _ => None
  end.
(** numpy.arctan2 (zeros without sign) *)
Definition atan2 (y x : R) : R :=
  let r := sqrt (x ^ 2 + y ^ 2) in
  if Req_EM_T r 0 then 0 else if Rle_dec 0 y then acos (x / r) else - acos (x / r).
Definition beforelast (l : list pt) : pt := last (removelast l) (0, 0).
(** turn, path.py 1439-1483; the angle after the lookup in [_angle_dict] *)
Definition f_turn (radius angle : R) (width offset : dim) (f : flex) : option flex :=
  if (length (f_pts f) <? 2)%nat then None
  else
    let v := psub (f_last f) (beforelast (f_pts f)) in
    let initial := atan2 (snd v) (fst v) + (if Rlt_dec angle 0 then PI / 2 else - (PI / 2)) in
    f_arc radius initial (initial + angle) width offset f.
(** parametric, path.py 1533-1551: three tests in each interval; [prev] is the
    point before [i], [rest] the points from [i]. *)
Fixpoint first_bad (c : R -> pt) (tol : R) (prev next : R * pt) (fs : list R) : option (R * pt) :=
  match fs with
  | [] => None
  | t :: r =>
      let test_u := fst prev * (1 - t) + fst next * t in
      let test_pt := c test_u in
      let err := psub (padd (smul (1 - t) (snd prev)) (smul t (snd next))) test_pt in
      if Rlt_dec tol (fst err ^ 2 + snd err ^ 2) then Some (test_u, test_pt) else first_bad c tol prev next r
  end.
Definition thirds : list R := [/ 5; / 2; 4 / 5].
Fixpoint refine3 (fuel : nat) (c : R -> pt) (tol : R) (prev : R * pt) (rest : list (R * pt)) : option (list (R * pt)) :=
  match fuel, rest with
  | _, [] => Some []
  | O, _ => None
  | S n, next :: more =>
      match first_bad c tol prev next thirds with
      | Some bad => refine3 n c tol prev (bad :: next :: more)
      | None => option_map (cons next) (refine3 n c tol next more)
      end
  end.
(** parametric, path.py 1485-1573 *)
Definition f_parametric (fuel : nat) (c : R -> pt) (width offset : dim) (rel : bool) (f : flex) : option flex :=
  let width := width_arg f width in
  match f_pts f, final_w true f width, final_o true f offset with
  | _ :: _, Some w, Some o =>
      match refine3 fuel c (f_tol f ^ 2) (0, c 0) [(1, c 1)] with
      | None => None
      | Some l => Some (extend f (map (fun up => if rel then padd (snd up) (f_last f) else snd up) l) width offset w o)
      end
  | _, _, _ => None
  end.
(** bezier, path.py 1575-1616 *)
Definition f_bezier (fuel : nat) (points : list pt) (width offset : dim) (rel : bool) (f : flex) : option flex :=
  let ctrl := f_last f :: (if rel then map (padd (f_last f)) points else points) in
  f_parametric fuel (bezier ctrl) width offset false f.
(** smooth, path.py 1618-1709; [hs]: the control points from _hobby, one pair for
    each section *)
Fixpoint f_sections (fuel : nat) (secs : list (pt * pt * pt)) (width offset : dim) (f : flex) : option flex :=
  match secs with
  | [] => Some f
  | (a, b, e) :: r => match f_bezier fuel [a; b; e] width offset false f with
                      | None => None
                      | Some g => f_sections fuel r width offset g
                      end
  end.
Definition f_smooth (fuel : nat) (hs : list pt -> list (pt * pt)) (cycle : bool) (points : list pt)
    (width offset : dim) (rel : bool) (f : flex) : option flex :=
  let points := f_last f :: (if rel then map (padd (f_last f)) points else points) in
  let ks := hs points in
  f_sections fuel
    (map (fun kp => (fst (fst kp), snd (fst kp), snd kp)) (combine ks (tl points)) ++
     (if cycle then let k := last ks ((0, 0), (0, 0)) in [(fst k, snd k, hd (0, 0) points)] else []))
    width offset f.

(** ** Outlines: get_polygons, path.py 390-916 *)

Definition len2 (v : pt) : R := fst v ^ 2 + snd v ^ 2.
Definition len (v : pt) : R := sqrt (len2 v).
(** [v[::-1] * _mpone / len] for v = q - p *)
Definition normal (p q : pt) : pt := let v := psub q p in (- snd v / len v, fst v / len v).
Definition mid (p q : pt) : pt := smul (/ 2) (padd p q).
(** [pts[:-1] + vn * h[:-1]] and [pts[1:] + vn * h[1:]], zipped *)
Fixpoint shifted (pts : list pt) (hs : list R) : list (pt * pt) :=
  match pts, hs with
  | p :: (q :: _) as t, a :: (b :: _) as hs' =>
      (padd p (smul a (normal p q)), padd q (smul b (normal p q))) :: shifted t hs'
  | _, _ => []
  end.
Definition tiny : R := / 10 ^ 12.
(** The common point of two consecutive shifted segments, path.py 602-622 *)
Definition meet (s t : pt * pt) : pt :=
  let v := psub (snd s) (fst s) in
  let v' := psub (snd t) (fst t) in
  let den := fst v' * snd v - snd v' * fst v in
  if Rlt_dec (den ^ 2) (tiny * len2 v' * len2 v) then mid (fst t) (snd s)
  else
    let ds := psub (snd s) (fst t) in
    let u0 := (snd v' * fst ds - fst v' * snd ds) / den in
    padd (snd s) (smul u0 v).
Fixpoint pairwise {X Y} (f : X -> X -> Y) (l : list X) : list Y :=
  match l with
  | x :: (y :: _) as t => f x y :: pairwise f t
  | _ => []
  end.
Definition all_zero (l : list R) : bool := forallb (fun x => if Req_EM_T x 0 then true else false) l.
(** The centre line of one parallel path, path.py 598-626 *)
Definition centre (pts : list pt) (os : list R) : list pt :=
  if all_zero os then pts
  else match shifted pts os with
       | [] => []
       | (s :: _) as ss => fst s :: pairwise meet ss ++ [snd (last ss s)]
       end.

Section Outline.
Variable fuel : nat.
Variable hob : pt * pt -> R * R -> pt * pt.

(** A sampled cubic from p0 to p1 leaving and arriving at the given angles,
    path.py 444-461, 777-801, 818-839 *)
Definition smooth_arc (tol : R) (p0 p1 : pt) (a0 a1 : R) : option (list pt) :=
  let k := hob (p0, p1) (a0, a1) in
  let f := bezier [p0; fst k; snd k; p1] in
  option_map (fun l => f 0 :: map snd l) (sample fuel f (tol ^ 2) [0; 1]).
Definition along (v : pt) : R := atan2 (snd v) (fst v).
(** The angles of the normals to [v0] and [v1] on the outer side and the
    adjustment by a full turn, path.py 681-691 and 747-757 *)
Definition corner_angles (left : bool) (v0 v1 : pt) : R * R :=
  let a0 := if left then atan2 (- fst v0) (snd v0) else atan2 (fst v0) (- snd v0) in
  let a1 := if left then atan2 (- fst v1) (snd v1) else atan2 (fst v1) (- snd v1) in
  if Rlt_dec PI (Rabs (a1 - a0)) then
    if Rlt_dec a0 a1 then (a0 + 2 * PI, a1) else (a0, a1 + 2 * PI)
  else (a0, a1).
(** One corner on one side, path.py 646-801: the sides before and after it, the
    point of the centre line, the width there. *)
Definition join (c : corner) (bend : option R) (tol : R) (s t : pt * pt) (ctr : pt) (w : R) : option (list pt) :=
  let p0 := snd s in let v0 := psub (snd s) (fst s) in
  let p1 := fst t in let v1 := psub (snd t) (fst t) in
  let half_w := / 2 * w in
  match c with
  | Natural =>
      let v0 := smul (half_w / len v0) v0 in
      let v1 := smul (half_w / len v1) v1 in
      let den := snd v1 * fst v0 - fst v1 * snd v0 in
      let d := psub p1 p0 in
      let '(u0, u1, p) :=
        if Rlt_dec (den ^ 2) (tiny * half_w ^ 4) then (0, 0, mid p0 p1)
        else
          let u0 := (snd v1 * fst d - fst v1 * snd d) / den in
          let u1 := (snd v0 * fst d - fst v0 * snd d) / den in
          (u0, u1, smul (/ 2) (padd (padd p0 (smul u0 v0)) (padd p1 (smul u1 v1)))) in
      let q0 := padd p0 (smul (Rmin 1 u0) v0) in
      let q1 := padd p1 (smul (Rmax (-1) u1) v1) in
      Some (if Rlt_dec u0 0 then
              if Rlt_dec 0 u1 then [p] else if Rle_dec (-1) u1 then [mid q0 q1] else [q0; q1]
            else if Rle_dec u0 1 then if Rle_dec (-1) u1 then [mid q0 q1] else [q0; q1]
            else [q0; q1])
  | Circular =>
      let direction := fst v0 * snd v1 - snd v0 * fst v1 in
      if Req_EM_T direction 0 then Some [mid p0 p1]
      else
        match bend with
        | None => None
        | Some br =>
            let '(a0, a1) := corner_angles (if Rlt_dec 0 direction then true else false) v0 v1 in
            let v2 := psub p0 ctr in
            let side := direction * (fst v0 * snd v2 - snd v0 * fst v2) in
            let r := if Rlt_dec 0 side then br - half_w else br + half_w in
            let da := / 2 * Rabs (a1 - a0) in
            let d := br * tan da / len v0 in
            match arc_count 2 da tol r with
            | None => None
            | Some np =>
                let ps := map (on_circle r) (linspace a0 a1 np) in
                Some (map (fun p => psub (padd (psub p (hd (0, 0) ps)) p0) (smul d v0)) ps)
            end
        end
  | CustomCorner f => Some (f p0 v0 p1 v1 ctr w)
  | _ =>
      let den := snd v1 * fst v0 - fst v1 * snd v0 in
      let d := psub p1 p0 in
      let '(u0, u1, p) :=
        if Rlt_dec (den ^ 2) (tiny * len2 v0 * len2 v1) then (0, 0, mid p0 p1)
        else
          let u0 := (snd v1 * fst d - fst v1 * snd d) / den in
          let u1 := (snd v0 * fst d - fst v0 * snd d) / den in
          (u0, u1, smul (/ 2) (padd (padd p0 (smul u0 v0)) (padd p1 (smul u1 v1)))) in
      match c with
      | Miter => Some [p]
      | _ =>
          if (if Rle_dec u0 0 then if Rle_dec 0 u1 then true else false else false) then Some [p]
          else
            match c with
            | Bevel => Some [p0; p1]
            | RoundCorner =>
                let '(a0, a1) :=
                  corner_angles (if Rlt_dec (snd v0 * fst v1 - fst v0 * snd v1) 0 then true else false) v0 v1 in
                match arc_count 4 (/ 2 * Rabs (a1 - a0)) tol half_w with
                | None => None
                | Some np => Some (map (fun a => padd ctr (on_circle half_w a)) (linspace a0 a1 np))
                end
            | _ => smooth_arc tol p0 p1 (along v0) (along v1)
            end
      end
  end.
(** [arms[ii]]: all corners of one side; [cs] and [ws] from the second point on *)
Fixpoint arm (c : corner) (bend : option R) (tol : R) (ss : list (pt * pt)) (cs : list pt) (ws : list R) : option (list pt) :=
  match ss, cs, ws with
  | s :: (t :: _) as r, p :: cs', w :: ws' =>
      match join c bend tol s t p w, arm c bend tol r cs' ws' with
      | Some l, Some m => Some (l ++ m)
      | _, _ => None
      end
  | _, _, _ => Some []
  end.
(** One end of the general case, path.py 802-870: [v] the outward direction at
    [e], the end of the centre line, [w] the width there, [lo] and [hi] the corners
    on the two sides, [blo] and [bhi] the nearest points of the arms (or None: the
    arms are empty, IndexError), [front] for ii = 1. *)
Definition cap_points (en : cap) (tol : R) (front : bool) (e v : pt) (w : R) (lo hi : pt) (blo bhi : option pt)
  : option (list pt) :=
  let sg := if front then 1 else -1 in
  let r := / 2 * w in
  let ext d0 :=
    let v := smul (/ len v) v in
    let n := smul sg (snd v, - fst v) in
    let d := match d0 with Some d => d | None => r end in
    Some [padd e (smul r n); padd (padd e (smul r n)) (smul d v);
          padd (psub e (smul r n)) (smul d v); psub e (smul r n)] in
  match en with
  | Flush => Some [lo; hi]
  | CustomCap f => match blo, bhi with
                   | Some a, Some b => Some (f lo (psub lo a) hi (psub b hi))
                   | _, _ => None
                   end
  | SmoothCap => match blo, bhi with
                 | Some a, Some b => smooth_arc tol lo hi (along (psub lo a)) (along (psub b hi))
                 | _, _ => None
                 end
  | RoundCap =>
      match arc_count 5 (PI / 2) tol r with
      | None => None
      | Some np => Some (map (fun x => padd e (on_circle r (sg * x + along v))) (linspace (- (PI / 2)) (PI / 2) np))
      end
  | Extended => ext None
  | Lengths a b => ext (Some (if front then b else a))
  end.
(** One parallel path with three or more points (or two, after coincident points
    have been removed), path.py 595-875 *)
Definition outline (c : corner) (en : cap) (bend : option R) (tol : R) (pts : list pt) (ws os : list R) : option poly :=
  match centre pts os with
  | (p0 :: p1 :: _) as ctr =>
      let side sg := shifted ctr (map (fun w => sg * (/ 2) * w) ws) in
      let lo := side (-1) in
      let hi := side 1 in
      let s0 := ((0, 0), (0, 0)) in
      match arm c bend tol lo (tl ctr) (tl ws), arm c bend tol hi (tl ctr) (tl ws) with
      | Some arm0, Some arm1 =>
          let pn := last ctr (0, 0) in
          let pm := beforelast ctr in
          match
            cap_points en tol false p0 (psub p0 p1) (hd 0 ws) (fst (hd s0 lo)) (fst (hd s0 hi)) (hd_error arm0) (hd_error arm1),
            cap_points en tol true pn (psub pn pm) (last ws 0) (snd (last lo s0)) (snd (last hi s0))
              (hd_error (rev arm0)) (hd_error (rev arm1))
          with
          | Some cap0, Some cap1 => Some (rev cap0 ++ arm0 ++ cap1 ++ rev arm1)
          | _, _ => None
          end
      | _, _ => None
      end
  | _ => None
  end.
(** The case of two points, path.py 416-543 *)
Definition outline2 (en : cap) (tol : R) (p q : pt) (w0 w1 o0 o1 : R) : option poly :=
  let un := normal p q in
  let a := padd p (smul o0 un) in
  let b := padd q (smul o1 un) in
  let vn := normal a b in
  let v0 := smul (/ 2 * w0) vn in
  let v1 := smul (/ 2 * w1) vn in
  let c0 := psub a v0 in let c1 := padd a v0 in let c2 := padd b v1 in let c3 := psub b v1 in
  let e0 := psub c3 c0 in
  let e1 := psub c2 c1 in
  let v := psub b a in
  let ext l0 l1 :=
    let v := smul (/ len v) v in
    let x0 := smul l0 v in
    let x1 := smul l1 v in
    if Req_EM_T w0 w1 then Some [psub c0 x0; psub c1 x0; padd c2 x1; padd c3 x1]
    else Some [c0; psub c0 x0; psub c1 x0; c1; c2; padd c2 x1; padd c3 x1; c3] in
  match en with
  | Flush => Some [c0; c1; c2; c3]
  | CustomCap f => Some (rev (f c0 (smul (-1) e0) c1 e1) ++ f c3 e0 c2 (smul (-1) e1))
  | SmoothCap =>
      match smooth_arc tol c0 c1 (along (smul (-1) e0)) (along e1),
            smooth_arc tol c2 c3 (along e1) (along (smul (-1) e0)) with
      | Some x, Some y => Some (x ++ y)
      | _, _ => None
      end
  | RoundCap =>
      match arc_count 5 (PI / 2) tol (/ 2 * w0), arc_count 5 (PI / 2) tol (/ 2 * w1) with
      | Some n0, Some n1 =>
          Some (map (fun x => padd a (on_circle (/ 2 * w0) (x + along (smul (-1) v)))) (linspace (PI / 2) (- (PI / 2)) n0)
             ++ map (fun x => padd b (on_circle (/ 2 * w1) (x + along v))) (linspace (PI / 2) (- (PI / 2)) n1))
      | _, _ => None
      end
  | Extended => ext (/ 2 * w0) (/ 2 * w1)
  | Lengths l0 l1 => ext l0 l1
  end.

Variable eng : op -> list zpath -> list zpath -> list zpath.

Definition col (k : nat) (rows : list (list R)) : list R := map (fun r => nth k r 0) rows.
(** Removal of repeated points, path.py 584-593 and 967-976: [keep] marks the
    first point and those that differ from their predecessor. *)
Definition same_pt (p q : pt) : bool := if Req_EM_T (len2 (psub q p)) 0 then true else false.
Definition keep (pts : list pt) : list bool :=
  match pts with [] => [] | _ => true :: pairwise (fun p q => negb (same_pt p q)) pts end.
Definition select {X} (ks : list bool) (l : list X) : list X := map snd (filter fst (combine ks l)).
Definition tidy (f : flex) : flex :=
  if forallb (fun b => b) (keep (f_pts f)) then f
  else Flex (f_n f) (select (keep (f_pts f)) (f_pts f)) (select (keep (f_pts f)) (f_w f)) (select (keep (f_pts f)) (f_o f))
         (f_ends f) (f_corners f) (f_bend f) (f_layers f) (f_dts f) (f_tol f) (f_prec f) (f_max f) (f_gds f) (f_wt f)
         (f_cache f).
(** The outline of parallel path [k] of a path with two points; the rows must
    exist (else IndexError). *)
Definition two_outline (f : flex) (p q : pt) (k : nat) : option poly :=
  match nth_error (f_w f) 0, nth_error (f_w f) 1, nth_error (f_o f) 0, nth_error (f_o f) 1 with
  | Some w0, Some w1, Some o0, Some o1 =>
      outline2 (nth k (f_ends f) Flush) (f_tol f) p q (nth k w0 0) (nth k w1 0) (nth k o0 0) (nth k o1 0)
  | _, _, _, _ => None
  end.
(** The general case; the numbers of rows must agree (else ValueError). *)
Definition general_outline (f : flex) (k : nat) : option poly :=
  if ((length (f_w f) =? length (f_pts f)) && (length (f_o f) =? length (f_pts f)))%nat then
    outline (nth k (f_corners f) Natural) (nth k (f_ends f) Flush) (nth k (f_bend f) None) (f_tol f)
      (f_pts f) (col k (f_w f)) (col k (f_o f))
  else None.
(** The fracture loop, path.py 544-576 and 875-907, is that of PolygonSet.fracture
    (polygon.py 342-380) without the layers. *)
Definition cut_up (f : flex) (p : poly) : option (list poly) :=
  option_map (fun r => fst (fst r)) (fracture eng fuel (f_prec f) (f_max f) [p] [0%Z] [0%Z]).
(** [if key in d: d[key].extend(v) else: d[key] = v] *)
Fixpoint sext (d : list (spec * list poly)) (k : spec) (v : list poly) : list (spec * list poly) :=
  match d with
  | [] => [(k, v)]
  | (k', w) :: r => if spec_eqb k' k then (k', w ++ v) :: r else (k', w) :: sext r k v
  end.
(** The loop over the parallel paths: the dictionary so far, and whether the end
    was reached without an exception. *)
Fixpoint fill (f : flex) (out : nat -> option poly) (ks : list nat) (d : list (spec * list poly))
  : list (spec * list poly) * bool :=
  match ks with
  | [] => (d, true)
  | k :: r =>
      match out k with
      | None => (d, false)
      | Some p =>
          match cut_up f p with
          | None => (d, false)
          | Some ps => fill f out r (sext d (nth k (f_layers f) 0%Z, nth k (f_dts f) 0%Z) ps)
          end
      end
  end.
(** get_polygons(True): the path after the call and the result.  The cache is the
    dictionary under construction, so an exception leaves what was there. *)
Definition f_get (f : flex) : flex * option (list (spec * list poly)) :=
  match f_cache f with
  | Some d => (f, Some d)
  | None =>
      match f_pts f with
      | [p; q] =>
          if same_pt p q then (set_cache f (Some []), Some [])
          else
            let '(d, ok) := fill f (two_outline f p q) (seq 0 (f_n f)) [] in
            (set_cache f (Some d), if ok then Some d else None)
      | _ =>
          let g := tidy f in
          let '(d, ok) := fill g (general_outline g) (seq 0 (f_n f)) [] in
          (set_cache g (Some d), if ok then Some d else None)
      end
  end.
End Outline.
