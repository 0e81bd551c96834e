(** RobustPath: gdspy/path.py 52-192 and 1712-2977.

    Coordinates are exact reals.  [None] is an exception; the state that a failing
    construction call leaves behind is not modelled.  Where numpy would give nan (a
    vector of length zero divided by its length) the model has the arbitrary value
    that division by zero has in Coq.  [eng] is the clipping engine (Engine.v), [hob]
    the control points of _hobby (hobby.py 37-247) for two points with both angles
    given, [fuel] bounds the fracturing loop.  Warnings and [properties] are not
    modelled, nor is the sharing of the caller's lists [width] and [offset] (1827-1840)
    here. *)

From Coq Require Import Reals Lra List ZArith Bool.
From Verif Require Import Plane Curve Engine Flex.
Import ListNotations.
Open Scope R_scope.

(** ** Components *)

(** The matrix [transform], without its last row, which is always (0, 0, 1). *)
Record aff := Aff { axx : R; axy : R; ax : R; ayx : R; ayy : R; ay : R }.
Definition aff_id : aff := Aff 1 0 0 0 1 0.
(** numpy.matmul(a, b) *)
Definition matmul (a b : aff) : aff :=
  Aff (axx a * axx b + axy a * ayx b) (axx a * axy b + axy a * ayy b) (axx a * ax b + axy a * ay b + ax a)
      (ayx a * axx b + ayy a * ayx b) (ayx a * axy b + ayy a * ayy b) (ayx a * ax b + ayy a * ay b + ay a).
(** _SubPath.__call__, path.py 128-135 *)
Definition apply (m : aff) (p : pt) : pt :=
  (axx m * fst p + axy m * snd p + ax m, ayx m * fst p + ayy m * snd p + ay m).
(** _SubPath, path.py 88-103 *)
Record sub := Sub {
  s_x : R -> pt; s_dx : R -> R -> pt; s_off : R -> R; s_wid : R -> R;
  s_err : R; s_h : R; s_evals : nat; s_tr : aff }.
Definition new_sub (x : R -> pt) (dx : R -> R -> pt) (off wid : R -> R) (tol : R) (evals : nat) : sub :=
  Sub x dx off wid (tol ^ 2) (/ 2 / INR evals) evals aff_id.
Definition with_tr (s : sub) (m : aff) : sub :=
  Sub (s_x s) (s_dx s) (s_off s) (s_wid s) (s_err s) (s_h s) (s_evals s) m.
(** translate, scale and rotate, path.py 167-192 *)
Definition s_translate (v : pt) (s : sub) : sub := with_tr s (matmul (Aff 1 0 (fst v) 0 1 (snd v)) (s_tr s)).
Definition s_scale (sx sy : R) (s : sub) : sub := with_tr s (matmul (Aff sx 0 0 0 sy 0) (s_tr s)).
Definition s_rotate (a : R) (s : sub) : sub := with_tr s (matmul (Aff (cos a) (- sin a) 0 (sin a) (cos a) 0) (s_tr s)).

(** [v = d[::-1] * _pmone; v /= (v[0] ** 2 + v[1] ** 2) ** 0.5] *)
Definition right_of (d : pt) : pt := let v := (snd d, - fst d) in smul (/ len v) v.
(** [self.x(u) + self.off(u) * v], path.py 109-111 *)
Definition s_centre (s : sub) (u : R) : pt := padd (s_x s u) (smul (s_off s u) (right_of (s_dx s u (s_h s)))).
(** __call__ with [transform=False], path.py 108-127 and 136; [arm] is -1, 0 or 1 *)
Definition s_raw (s : sub) (u : R) (arm : Z) : pt :=
  if (arm =? 0)%Z then s_centre s u
  else
    let w := right_of (psub (s_centre s (Rmin 1 (u + s_h s))) (s_centre s (Rmax 0 (u - s_h s)))) in
    if (arm <? 0)%Z then psub (s_centre s u) (smul (/ 2 * s_wid s u) w)
    else padd (s_centre s u) (smul (/ 2 * s_wid s u) w).
(** __call__, path.py 108-136 *)
Definition s_at (s : sub) (u : R) (arm : Z) : pt := apply (s_tr s) (s_raw s u arm).
(** grad, path.py 138-141 *)
Definition slope (f : R -> pt) (h u : R) : pt :=
  let u0 := Rmax 0 (u - h) in
  let u1 := Rmin 1 (u + h) in
  smul (/ (u1 - u0)) (psub (f u1) (f u0)).
Definition s_grad (s : sub) (u : R) (arm : Z) : pt := slope (fun t => s_at s t arm) (s_h s) u.
Definition s_grad_raw (s : sub) (u : R) (arm : Z) : pt := slope (fun t => s_raw s t arm) (s_h s) u.
(** width, path.py 143-145 *)
Definition s_width (s : sub) (u : R) : R := len (psub (s_at s u (-1)) (s_at s u 1)).
(** points, path.py 147-165: at most [room] insertions; the loop stops when there
    are [max_evals] points. *)
Fixpoint refine_to (room : nat) (c : R -> pt) (tol : R) (prev : R * pt) (rest : list (R * pt)) : list (R * pt) :=
  match room with
  | O => rest
  | S n =>
      (fix scan (prev : R * pt) (rest : list (R * pt)) : list (R * pt) :=
         match rest with
         | [] => []
         | next :: more =>
             match first_bad c tol prev next thirds with
             | Some bad => refine_to n c tol prev (bad :: next :: more)
             | None => next :: scan next more
             end
         end) prev rest
  end.
Definition s_points (s : sub) (u0 u1 : R) (arm : Z) : list pt :=
  let c t := s_at s t arm in
  c u0 :: map snd (refine_to (s_evals s - 2) c (s_err s) (u0, c u0) [(u1, c u1)]).

(** ** The path *)

(** The attributes, path.py 1787-1803.  [cap] is that of FlexPath, without
    functions: they raise here. *)
Record robust := Rob {
  r_n : nat; r_ends : list cap; r_x : pt; r_o : list R; r_w : list R; r_paths : list (list sub);
  r_layers : list Z; r_dts : list Z; r_tol : R; r_prec : R; r_max : nat; r_evals : nat;
  r_gds : bool; r_wt : bool; r_cache : option (list (spec * list poly)) }.
(** __init__, path.py 1809-1874 *)
Definition robust_init (p : pt) (width offset : many R) (ends : many cap) (tol prec : R) (max evals : nat)
    (gds wt : bool) (layer dt : many Z) : option robust :=
  let '(n, w, o) := start_rows width offset in
  match cyclic n ends, cyclic n layer, cyclic n dt with
  | Some e, Some l, Some d => Some (Rob n e p o w (repeat [] n) l d tol prec max evals gds wt None)
  | _, _, _ => None
  end.
Definition r_with (r : robust) (x : pt) (o w : list R) (paths : list (list sub)) : robust :=
  Rob (r_n r) (r_ends r) x o w paths (r_layers r) (r_dts r) (r_tol r) (r_prec r) (r_max r) (r_evals r) (r_gds r) (r_wt r) None.
Definition r_remember (r : robust) (d : option (list (spec * list poly))) : robust :=
  Rob (r_n r) (r_ends r) (r_x r) (r_o r) (r_w r) (r_paths r) (r_layers r) (r_dts r) (r_tol r) (r_prec r) (r_max r)
      (r_evals r) (r_gds r) (r_wt r) d.
(** [path.layers = [layer] * path.n], as in Cell.flatten (library.py 836-843) *)
Definition r_set_specs (sl sd : option Z) (r : robust) : robust :=
  Rob (r_n r) (r_ends r) (r_x r) (r_o r) (r_w r) (r_paths r)
      (match sl with Some l => repeat l (r_n r) | None => r_layers r end)
      (match sd with Some d => repeat d (r_n r) | None => r_dts r end)
      (r_tol r) (r_prec r) (r_max r) (r_evals r) (r_gds r) (r_wt r) (r_cache r).

(** ** Transformations *)

Definition each_sub (g : sub -> sub) (paths : list (list sub)) : list (list sub) := map (map g) paths.
(** translate, path.py 2412-2434 *)
Definition r_translate (v : pt) (r : robust) : robust :=
  r_with r (padd (r_x r) v) (r_o r) (r_w r) (each_sub (s_translate v) (r_paths r)).
(** rotate, path.py 2436-2463 *)
Definition r_rotate (a : R) (c : pt) (r : robust) : robust :=
  r_with r (rotate_pt a c (r_x r)) (r_o r) (r_w r)
    (each_sub (fun s => s_translate c (s_rotate a (s_translate (smul (-1) c) s))) (r_paths r)).
(** [if self.width_transform or not self.gdsii_path] *)
Definition widths_scale (r : robust) : bool := r_wt r || negb (r_gds r).
Definition times (k : R) (l : list R) : list R := map (fun x => x * k) l.
(** scale, path.py 2465-2495 *)
Definition r_scale (k : R) (c : pt) (r : robust) : robust :=
  let c0 := smul (1 - k) c in
  r_with r (padd (smul k (r_x r)) c0) (times k (r_o r)) (if widths_scale r then times k (r_w r) else r_w r)
    (each_sub (fun s => s_translate c0 (s_scale k k s)) (r_paths r)).
(** transform, path.py 2497-2558: five steps, each optional *)
Definition t_array (arr : option pt) (r : robust) : robust :=
  match arr with
  | Some v => r_with r (padd (r_x r) v) (r_o r) (r_w r) (each_sub (s_translate v) (r_paths r))
  | None => r
  end.
Definition t_reflect (refl : bool) (r : robust) : robust :=
  if refl then r_with r (fst (r_x r), - snd (r_x r)) (times (-1) (r_o r)) (times (-1) (r_w r)) (each_sub (s_scale 1 (-1)) (r_paths r))
  else r.
Definition t_scale (mag : option R) (r : robust) : robust :=
  match mag with
  | Some k => r_with r (smul k (r_x r)) (times k (r_o r)) (if widths_scale r then times k (r_w r) else r_w r) (each_sub (s_scale k k) (r_paths r))
  | None => r
  end.
Definition t_rotate (rot : option R) (r : robust) : robust :=
  match rot with
  | Some a => r_with r (rot_cs (cos a) (sin a) (r_x r)) (r_o r) (r_w r) (each_sub (s_rotate a) (r_paths r))
  | None => r
  end.
Definition r_transform (org : option pt) (rot mag : option R) (refl : bool) (arr : option pt) (r : robust) : robust :=
  t_array org (t_rotate rot (t_scale mag (t_reflect refl (t_array arr (r_remember r None))))).

(** ** Construction *)

(** The arguments [width] and [offset]: None, a number, a function, or a list of
    numbers and functions. *)
Inductive item := Const (x : R) | Fun_ (f : R -> R).
Inductive rdim := RKeep | RNum (x : R) | RFun (f : R -> R) | RList (l : list item).
(** _func_linear, path.py 60-61 *)
Definition linear (a b u : R) : R := a * (1 - u) + b * u.
Definition item_from (a : R) (i : item) : R -> R := match i with Const b => linear a b | Fun_ f => f end.
(** _parse_offset, path.py 2560-2569 *)
Definition parse_offset (r : robust) (a : rdim) (i : nat) : option (R -> R) :=
  match nth_error (r_o r) i with
  | None => None
  | Some o =>
      match a with
      | RKeep => Some (fun _ => o)
      | RList l => option_map (item_from o) (nth_error l i)
      | RFun f => Some (fun u => f u + o)
      | RNum x => Some (linear o (o + x))
      end
  end.
(** _parse_width, path.py 2571-2586 *)
Definition parse_width (r : robust) (a : rdim) (i : nat) : option (R -> R) :=
  match nth_error (r_w r) i with
  | None => None
  | Some w =>
      if r_gds r then Some (fun _ => w)
      else match a with
           | RKeep => Some (fun _ => w)
           | RList l => option_map (item_from w) (nth_error l i)
           | RFun f => Some f
           | RNum x => Some (linear w x)
           end
  end.
Fixpoint set_nth {X} (i : nat) (x : X) (l : list X) : list X :=
  match l, i with
  | [], _ => []
  | _ :: r, O => x :: r
  | y :: r, S j => y :: set_nth j x r
  end.
(** The loop of every construction method, path.py 2629-2636 etc. *)
Fixpoint each_path (f : R -> pt) (df : R -> R -> pt) (width offset : rdim) (is : list nat) (r : robust) : option robust :=
  match is with
  | [] => Some r
  | i :: rest =>
      match parse_offset r offset i, parse_width r width i, nth_error (r_paths r) i with
      | Some off, Some wid, Some path =>
          each_path f df width offset rest
            (r_with r (r_x r) (set_nth i (off 1) (r_o r)) (set_nth i (wid 1) (r_w r))
               (set_nth i (path ++ [new_sub f df off wid (r_tol r) (r_evals r)]) (r_paths r)))
      | _, _, _ => None
      end
  end.
Definition add_section (f : R -> pt) (df : R -> R -> pt) (x : pt) (width offset : rdim) (r : robust) : option robust :=
  each_path f df width offset (seq 0 (r_n r)) (r_with r x (r_o r) (r_w r) (r_paths r)).
(** segment, path.py 2588-2636 *)
Definition line_to (a b : pt) (u : R) : pt := padd (smul (1 - u) a) (smul u b).
Definition r_segment (end_ : pt) (width offset : rdim) (rel : bool) (r : robust) : option robust :=
  let x := if rel then padd end_ (r_x r) else end_ in
  add_section (line_to (r_x r) x) (fun _ _ => psub x (r_x r)) x width offset r.
(** arc, path.py 2638-2696 *)
Definition r_arc (radius a0 a1 : R) (width offset : rdim) (r : robust) : option robust :=
  let c := psub (r_x r) (on_circle radius a0) in
  let angle u := a0 * (1 - u) + a1 * u in
  let f u := padd c (on_circle radius (angle u)) in
  let df (u h : R) := let k := radius * (a1 - a0) in (- k * sin (angle u), k * cos (angle u)) in
  add_section f df (f 1) width offset r.
(** turn, path.py 2698-2751; the angle after the lookup in [_angle_dict].  The last
    components, without transform, give the direction. *)
Fixpoint last_dirs (paths : list (list sub)) : option (list R) :=
  match paths with
  | [] => Some []
  | p :: ps =>
      match rev p, last_dirs ps with
      | s :: _, Some l => Some (atan2 (snd (s_grad_raw s 1 0)) (fst (s_grad_raw s 1 0)) :: l)
      | _, _ => None
      end
  end.
Definition rsum (l : list R) : R := fold_right Rplus 0 l.
Definition r_turn (radius angle : R) (width offset : rdim) (r : robust) : option robust :=
  match r_paths r, last_dirs (r_paths r) with
  | _ :: _, Some ds =>
      let a0 := rsum ds / INR (length (r_paths r)) + (if Rlt_dec angle 0 then PI / 2 else - (PI / 2)) in
      r_arc radius a0 (a0 + angle) width offset r
  | _, _ => None
  end.
(** parametric, path.py 2753-2824 *)
Definition r_parametric (c : R -> pt) (dc : option (R -> pt)) (width offset : rdim) (rel : bool) (r : robust) : option robust :=
  let f u := if rel then padd (c u) (r_x r) else c u in
  let df u h := match dc with Some d => d u | None => slope c h u end in
  add_section f df (f 1) width offset r.
(** bezier, path.py 2826-2881 *)
Definition hodograph (ctrl : list pt) : list pt :=
  map (smul (INR (length ctrl - 1))) (pairwise (fun a b => psub b a) ctrl).
Definition r_bezier (points : list pt) (width offset : rdim) (rel : bool) (r : robust) : option robust :=
  let ctrl := r_x r :: (if rel then map (padd (r_x r)) points else points) in
  match points with
  | [] => None   (* the derivative has no control points: IndexError when it is used *)
  | _ => add_section (bezier ctrl) (fun u _ => bezier (hodograph ctrl) u) (last ctrl (0, 0)) width offset r
  end.
(** smooth, path.py 2883-2977; [hs]: the control points from _hobby *)
Fixpoint r_sections (secs : list (pt * pt * pt)) (width offset : rdim) (r : robust) : option robust :=
  match secs with
  | [] => Some r
  | (a, b, e) :: rest => match r_bezier [a; b; e] width offset false r with
                         | None => None
                         | Some q => r_sections rest width offset q
                         end
  end.
Definition r_smooth (hs : list pt -> list (pt * pt)) (cycle : bool) (points : list pt) (width offset : rdim) (rel : bool)
    (r : robust) : option robust :=
  let points := r_x r :: (if rel then map (padd (r_x r)) points else points) in
  let ks := hs points in
  r_sections
    (map (fun kp => (fst (fst kp), snd (fst kp), snd kp)) (combine ks (tl points)) ++
     (if cycle then let k := last ks ((0, 0), (0, 0)) in [(fst k, snd k, hd (0, 0) points)] else []))
    width offset r.

(** ** Evaluation: __call__, grad and width, path.py 1888-1982 *)

Definition whole (u : R) : nat := Z.to_nat (Int_part u).
Fixpoint all_some {X} (l : list (option X)) : option (list X) :=
  match l with
  | [] => Some []
  | Some x :: r => option_map (cons x) (all_some r)
  | None :: _ => None
  end.
Definition r_len (r : robust) : nat := length (hd [] (r_paths r)).
Definition on_all {X} (r : robust) (i : nat) (g : sub -> X) : option (list X) :=
  all_some (map (fun p => option_map g (nth_error p i)) (r_paths r)).
(** __call__ for 0 <= u <= len(self) *)
Definition r_at (r : robust) (u : R) (arm : Z) : option (list pt) :=
  let i := whole u in
  if (i =? r_len r)%nat then
    match i with O => None | S j => on_all r j (fun s => s_at s 1 arm) end
  else on_all r i (fun s => s_at s (u - INR i) arm).
Definition r_grad (r : robust) (u : R) (arm : Z) (before : bool) : option (list pt) :=
  let i := whole u in
  if (if Req_EM_T (u - INR i) 0 then (((0 <? i) && before) || (i =? r_len r))%nat else false) then
    match i with O => None | S j => on_all r j (fun s => s_grad s 1 arm) end
  else on_all r i (fun s => s_grad s (u - INR i) arm).
Definition r_width (r : robust) (u : R) : option (list R) :=
  let i := whole u in
  if (if Req_EM_T (u - INR i) 0 then (i =? r_len r)%nat else false) then
    match i with O => None | S j => on_all r j (fun s => s_width s 1) end
  else on_all r i (fun s => s_width s (u - INR i)).

(** ** Outlines: get_polygons, path.py 1984-2166 *)

Section RobustOutline.
Variable fuel : nat.
Variable hob : pt * pt -> R * R -> pt * pt.

(** The sampling of a smooth end, path.py 2014-2029 *)
Fixpoint halve_to (room : nat) (c : R -> pt) (tol : R) (prev : R * pt) (rest : list (R * pt)) : list (R * pt) :=
  match room with
  | O => rest
  | S n =>
      (fix scan (prev : R * pt) (rest : list (R * pt)) : list (R * pt) :=
         match rest with
         | [] => []
         | next :: more =>
             let u := / 2 * (fst prev + fst next) in
             let err := psub (smul (/ 2) (padd (snd prev) (snd next))) (c u) in
             if Rlt_dec tol (fst err ^ 2 + snd err ^ 2) then halve_to n c tol prev ((u, c u) :: next :: more)
             else next :: scan next more
         end) prev rest
  end.
(** The end cap drawn before one side: at the end of the path for arm = -1, at
    its beginning for arm = 1; path.py 2001-2053.  [s] and [u]: component and
    parameter there. *)
Definition sgn (arm : Z) : R := IZR arm.
Definition end_cap (en : cap) (tol : R) (evals : nat) (s : sub) (u : R) (arm : Z) : option (list pt) :=
  let p := s_at s u 0 in
  let v := smul (- sgn arm) (s_grad s u 0) in
  let r := / 2 * s_width s u in
  let ext d :=
    let v := smul (/ len v) v in
    let w := (snd v, - fst v) in
    Some [padd (padd p (smul d v)) (smul r w); psub (padd p (smul d v)) (smul r w)] in
  match en with
  | Flush => Some []
  | SmoothCap =>
      let v1 := smul (- sgn arm) (s_grad s u (- arm)) in
      let v2 := smul (sgn arm) (s_grad s u arm) in
      let a := s_at s u (- arm) in
      let b := s_at s u arm in
      let k := hob (a, b) (along v1, along v2) in
      let f := bezier [a; fst k; snd k; b] in
      Some (map snd (removelast (halve_to (evals - 2) f (tol ^ 2) (0, f 0) [(1, f 1)])))
  | RoundCap =>
      match arc_count 5 (PI / 2) tol r with
      | None => None
      | Some np =>
          Some (map (fun x => padd p (on_circle r (x + along v))) (removelast (tl (linspace (- (PI / 2)) (PI / 2) np))))
      end
  | Extended => ext r
  | Lengths a b => ext (if Req_EM_T u 0 then a else b)
  | CustomCap _ => None
  end.
(** The search for an intersection, path.py 2082-2101; [n] iterations left *)
Definition clamp (u : R) : R := Rmin 1 (Rmax 0 u).
Fixpoint search (n : nat) (tol : R) (s t : sub) (arm : Z) (step u0 u1 : R) (delta : pt) : R * R :=
  if Rlt_dec tol (len2 delta) then
    match n with
    | O => (u0, u1)
    | S m =>
        let v0 := clamp (u0 - step * dot delta (s_grad s u0 arm)) in
        let v1 := clamp (u1 + step * dot delta (s_grad t u1 arm)) in
        let delta' := psub (s_at s v0 arm) (s_at t v1 arm) in
        if Rle_dec (len2 delta) (len2 delta') then search m tol s t arm (step / 2) u0 u1 delta
        else search m tol s t arm step v0 v1 delta'
    end
  else (u0, u1).
(** The parameters where two consecutive components meet, and the point, path.py
    2057-2102 *)
Definition crossing (tol : R) (evals : nat) (s t : sub) (arm : Z) : R * R * pt :=
  let p0 := s_at s 1 arm in let v0 := s_grad s 1 arm in
  let p1 := s_at t 0 arm in let v1 := s_grad t 0 arm in
  let den := snd v1 * fst v0 - fst v1 * snd v0 in
  let d := psub p1 p0 in
  let '(u0, u1, px) :=
    if (if Rlt_dec (den ^ 2) (tiny * len2 v0 * len2 v1) then true else if Rle_dec (len2 d) tol then true else false)
    then (0, 0, mid p0 p1)
    else
      let u0 := (snd v1 * fst d - fst v1 * snd d) / den in
      let u1 := (snd v0 * fst d - fst v0 * snd d) / den in
      (u0, u1, smul (/ 2) (padd (padd p0 (smul u0 v0)) (padd p1 (smul u1 v1)))) in
  let u0 := 1 + u0 in
  if (if Rlt_dec u0 1 then if Rlt_dec 0 u1 then true else false else false) then
    let '(w0, w1) := search evals tol s t arm (/ 2) u0 u1 (psub (s_at s u0 arm) (s_at t u1 arm)) in
    (w0, w1, mid (s_at s w0 arm) (s_at t w1 arm))
  else (u0, u1, px).
(** One side: path_arm, path.py 2054-2133 *)
Fixpoint side (tol : R) (evals : nat) (arm : Z) (start : R) (path : list sub) : option (list pt) :=
  match path with
  | [] => None
  | s :: rest =>
      match rest with
      | [] => Some (s_points s start 1 arm)
      | t :: _ =>
          let '(u0, u1, px) := crossing tol evals s t arm in
          let '(piece, start') :=
            if Rle_dec 0 u1 then
              (if Rle_dec u0 1 then removelast (s_points s start u0 arm) else s_points s start 1 arm, u1)
            else
              (if Rle_dec u0 1 then s_points s start u0 arm else s_points s start 1 arm ++ [px], 0) in
          option_map (app piece) (side tol evals arm start' rest)
      end
  end.
(** The outline of one parallel path *)
Definition r_outline (en : cap) (tol : R) (evals : nat) (path : list sub) : option poly :=
  match path with
  | [] => None
  | s0 :: _ =>
      match end_cap en tol evals (last path s0) 1 (-1), side (tol ^ 2) evals (-1) 0 path,
            end_cap en tol evals s0 0 1, side (tol ^ 2) evals 1 0 path with
      | Some c1, Some a0, Some c0, Some a1 => Some (c1 ++ rev a0 ++ c0 ++ a1)
      | _, _, _, _ => None
      end
  end.

Variable eng : op -> list zpath -> list zpath -> list zpath.

(** The fracture loop, path.py 2135-2160, is that of PolygonSet.fracture without
    the layers. *)
Definition r_cut_up (r : robust) (p : poly) : option (list poly) :=
  option_map (fun x => fst (fst x)) (fracture eng fuel (r_prec r) (r_max r) [p] [0%Z] [0%Z]).
(** The loop over [zip(self.paths, self.ends, self.layers, self.datatypes)]: the
    dictionary so far, and whether the end was reached without an exception. *)
Fixpoint r_fill (r : robust) (items : list (list sub * cap * Z * Z)) (d : list (spec * list poly))
  : list (spec * list poly) * bool :=
  match items with
  | [] => (d, true)
  | (path, en, l, dt) :: rest =>
      match r_outline en (r_tol r) (r_evals r) path with
      | None => (d, false)
      | Some p =>
          match r_cut_up r p with
          | None => (d, false)
          | Some ps => r_fill r rest (sext d (l, dt) ps)
          end
      end
  end.
Definition zipped (r : robust) : list (list sub * cap * Z * Z) :=
  combine (combine (combine (r_paths r) (r_ends r)) (r_layers r)) (r_dts r).
(** get_polygons(True): the path after the call and the result.  The cache is the
    dictionary under construction, so an exception leaves what was there. *)
Definition r_get (r : robust) : robust * option (list (spec * list poly)) :=
  match r_cache r with
  | Some d => (r, Some d)
  | None => let '(d, ok) := r_fill r (zipped r) [] in (r_remember r (Some d), if ok then Some d else None)
  end.
End RobustOutline.
