(** Curves: gdspy/curve.py 38-960 and _func_bezier, gdspy/path.py 68-85.

    Coordinates are exact reals.  [None] is an exception, or running out of
    [fuel] in the refinement loop.  The Hobby algorithm (hobby.py) is a parameter. *)

From Coq Require Import Reals Lra List ZArith Bool.
From Verif Require Import Plane.
Import ListNotations.
Open Scope R_scope.

(** ** Bezier evaluation, path.py 68-85 *)

(** [p[1:] * u + p[:-1] * (1 - u)] *)
Fixpoint bez_step (u : R) (l : list pt) : list pt :=
  match l with
  | a :: r => match r with b :: _ => padd (smul u b) (smul (1 - u) a) :: bez_step u r | [] => [] end
  | [] => []
  end.
Definition bezier (ctrl : list pt) (u : R) : pt := hd (0, 0) (Nat.iter (length ctrl - 1) (bez_step u) ctrl).

(** ** Adaptive sampling

    curve.py 321-335: [uu] and [fu] are kept zipped; the elements before [iu] have
    been output, the element [iu - 1] is [prev]. *)
Fixpoint refine (fuel : nat) (f : R -> pt) (tol : R) (prev : R * pt) (rest : list (R * pt)) : option (list (R * pt)) :=
  match fuel, rest with
  | _, [] => Some []
  | O, _ => None
  | S n, next :: more =>
      let test_u := / 2 * (fst prev + fst next) in
      let test_pt := f test_u in
      let test_err := psub (smul (/ 2) (padd (snd prev) (snd next))) test_pt in
      if Rlt_dec tol (fst test_err ^ 2 + snd test_err ^ 2)
      then refine n f tol prev ((test_u, test_pt) :: next :: more)
      else option_map (cons next) (refine n f tol next more)
  end.
(** [fu = [f(u) for u in uu]], refine, and [fu[1:]] *)
Definition sample (fuel : nat) (f : R -> pt) (tol : R) (uu : list R) : option (list (R * pt)) :=
  match map (fun u => (u, f u)) uu with [] => Some [] | x :: r => refine fuel f tol x r end.
(** [uu = [0, 0.2, 0.5, 0.8, 1]] *)
Definition five : list R := [0; / 5; / 2; 4 / 5; 1].
(** curve.py 726-727: [0.5 * (1 + sign(x) * abs(x) ** 0.8)] for x in
    [linspace(-1, 1, n + 1)], where n is the number of control points *)
Definition linspace (a b : R) (n : nat) : list R :=
  map (fun i => a + INR i * ((b - a) / INR (n - 1))) (seq 0 n).
Definition warp (x : R) : R :=
  / 2 * (1 + (if Rlt_dec 0 x then Rpower x (4 / 5) else if Rlt_dec x 0 then - Rpower (- x) (4 / 5) else 0)).
Definition spread (n : nat) : list R := map warp (linspace (-1) 1 (n + 1)).

(** ** The commands *)

(** curve.py 96-101; [cv_tol] is the square of the tolerance. *)
Record curve := Curve { cv_pts : list pt; cv_tol : R; cv_c : option pt; cv_q : option pt }.
Definition new_curve (p : pt) (tolerance : R) : curve := Curve [p] (tolerance ^ 2) None None.
Definition cv_end (c : curve) : pt := last (cv_pts c) (0, 0).

(** Arguments are real or complex numbers; a complex number is a point. *)
Inductive arg := Num (x : R) | Cpx (x y : R).
(** The loops [while i < len(xy)]; a missing coordinate raises IndexError.  (A
    real number followed by a complex one raises in most commands; here always.) *)
Fixpoint pairs (l : list arg) : option (list pt) :=
  match l with
  | [] => Some []
  | Cpx x y :: r => option_map (cons (x, y)) (pairs r)
  | Num x :: Num y :: r => option_map (cons (x, y)) (pairs r)
  | _ => None
  end.
(** [x0 + x, y0 + y] in the lower-case commands: the end point when the command
    was called, even if the command adds several sections. *)
Definition places (rel : bool) (c : curve) (args : list arg) : option (list pt) :=
  option_map (fun ps => if rel then map (padd (cv_end c)) ps else ps) (pairs args).
Fixpoint by3 (l : list pt) : option (list (pt * pt * pt)) :=
  match l with
  | [] => Some []
  | a :: b :: e :: r => option_map (cons (a, b, e)) (by3 r)
  | _ => None
  end.
Fixpoint by2 (l : list pt) : option (list (pt * pt)) :=
  match l with
  | [] => Some []
  | a :: e :: r => option_map (cons (a, e)) (by2 r)
  | _ => None
  end.

(** L, l: curve.py 117-166 *)
Definition curve_L (rel : bool) (c : curve) (args : list arg) : option curve :=
  option_map (fun ps => Curve (cv_pts c ++ ps) (cv_tol c) None None) (places rel c args).
(** H, h, V, v: curve.py 168-245 *)
Definition curve_H (rel : bool) (c : curve) (xs : list R) : curve :=
  let (x0, y0) := cv_end c in
  Curve (cv_pts c ++ map (fun x => (if rel then x0 + x else x, y0)) xs) (cv_tol c) None None.
Definition curve_V (rel : bool) (c : curve) (ys : list R) : curve :=
  let (x0, y0) := cv_end c in
  Curve (cv_pts c ++ map (fun y => (x0, if rel then y0 + y else y)) ys) (cv_tol c) None None.

(** arc: curve.py 247-294.  [int] truncates a positive number.  A scalar radius
    is [rx] = [ry]. *)
Definition arc_points (tol rx ry a0 a1 : R) : nat :=
  let full := Rabs (a1 - a0) in
  Nat.max 3 (1 + Z.to_nat (Int_part (/ 2 * full / acos (1 - sqrt tol / Rmax rx ry) + / 2))).
Definition on_ellipse (rx ry rot a : R) : pt :=
  let p := (rx * cos a, ry * sin a) in
  if Req_EM_T rot 0 then p
  else (fst p * cos rot - snd p * sin rot, fst p * sin rot + snd p * cos rot).
Definition curve_arc (c : curve) (rx ry a0 a1 rot : R) : curve :=
  match map (on_ellipse rx ry rot) (linspace (a0 - rot) (a1 - rot) (arc_points (cv_tol c) rx ry a0 a1)) with
  | [] => c
  | p0 :: r => Curve (cv_pts c ++ map (fun p => padd (psub p p0) (cv_end c)) r) (cv_tol c) None None
  end.

(** One Bezier section from the end of the curve. *)
Definition section (fuel : nat) (tol : R) (pts : list pt) (ctrl : list pt) : option (list pt) :=
  option_map (fun l => pts ++ map snd l) (sample fuel (bezier (last pts (0, 0) :: ctrl)) tol five).

(** C, c: curve.py 296-390.  Without arguments, [ctrl] is undefined (NameError). *)
Fixpoint cubics (fuel : nat) (tol : R) (pts : list pt) (gs : list (pt * pt * pt)) : option (list pt) :=
  match gs with
  | [] => Some pts
  | (a, b, e) :: r => match section fuel tol pts [a; b; e] with Some q => cubics fuel tol q r | None => None end
  end.
Definition curve_C (fuel : nat) (rel : bool) (c : curve) (args : list arg) : option curve :=
  match places rel c args with
  | None => None
  | Some ps =>
      match by3 ps with
      | None | Some [] => None
      | Some gs => option_map (fun q => Curve q (cv_tol c) (Some (snd (fst (last gs ((0, 0), (0, 0), (0, 0)))))) None)
                              (cubics fuel (cv_tol c) (cv_pts c) gs)
      end
  end.

(** S, s: curve.py 392-500 *)
Fixpoint smooth_cubics (fuel : nat) (tol : R) (pts : list pt) (lc : pt) (gs : list (pt * pt)) : option (list pt * pt) :=
  match gs with
  | [] => Some (pts, lc)
  | (b, e) :: r =>
      match section fuel tol pts [psub (smul 2 (last pts (0, 0))) lc; b; e] with
      | Some q => smooth_cubics fuel tol q b r
      | None => None
      end
  end.
Definition or_end (o : option pt) (c : curve) : pt := match o with Some p => p | None => cv_end c end.
Definition curve_S (fuel : nat) (rel : bool) (c : curve) (args : list arg) : option curve :=
  match places rel c args with
  | None => None
  | Some ps =>
      match by2 ps with
      | None => None
      | Some gs => option_map (fun r => Curve (fst r) (cv_tol c) (Some (snd r)) None)
                              (smooth_cubics fuel (cv_tol c) (cv_pts c) (or_end (cv_c c) c) gs)
      end
  end.

(** Q, q: curve.py 502-594 *)
Fixpoint quads (fuel : nat) (tol : R) (pts : list pt) (gs : list (pt * pt)) : option (list pt) :=
  match gs with
  | [] => Some pts
  | (a, e) :: r => match section fuel tol pts [a; e] with Some q => quads fuel tol q r | None => None end
  end.
Definition curve_Q (fuel : nat) (rel : bool) (c : curve) (args : list arg) : option curve :=
  match places rel c args with
  | None => None
  | Some ps =>
      match by2 ps with
      | None | Some [] => None
      | Some gs => option_map (fun q => Curve q (cv_tol c) None (Some (fst (last gs ((0, 0), (0, 0))))))
                              (quads fuel (cv_tol c) (cv_pts c) gs)
      end
  end.

(** T, t: curve.py 596-698 *)
Fixpoint smooth_quads (fuel : nat) (tol : R) (pts : list pt) (lq : pt) (es : list pt) : option (list pt * pt) :=
  match es with
  | [] => Some (pts, lq)
  | e :: r =>
      let k := psub (smul 2 (last pts (0, 0))) lq in
      match section fuel tol pts [k; e] with
      | Some q => smooth_quads fuel tol q k r
      | None => None
      end
  end.
Definition curve_T (fuel : nat) (rel : bool) (c : curve) (args : list arg) : option curve :=
  match places rel c args with
  | None => None
  | Some es => option_map (fun r => Curve (fst r) (cv_tol c) None (Some (snd r)))
                          (smooth_quads fuel (cv_tol c) (cv_pts c) (or_end (cv_q c) c) es)
  end.

(** B, b: curve.py 700-786 *)
Definition curve_B (fuel : nat) (rel : bool) (c : curve) (args : list arg) : option curve :=
  match places rel c args with
  | None => None
  | Some ps =>
      let ctrl := cv_end c :: ps in
      option_map (fun l => Curve (cv_pts c ++ map snd l) (cv_tol c) None None)
                 (sample fuel (bezier ctrl) (cv_tol c) (spread (length ctrl)))
  end.

(** I, i: curve.py 788-957.  [hob] stands for [_hobby] with the angles, curls and
    tensions of the call: it gives the two control points of each section of the curve
    through the points, or raises (Smooth has the model). *)
Definition hobby_args (ks : list (pt * pt)) (cycle : bool) (pts : list pt) : list arg :=
  let sec (k : pt * pt) (e : pt) := [Num (fst (fst k)); Num (snd (fst k)); Num (fst (snd k)); Num (snd (snd k)); Num (fst e); Num (snd e)] in
  flat_map (fun ke => sec (fst ke) (snd ke)) (combine ks (tl pts))
  ++ (if cycle then sec (last ks ((0, 0), (0, 0))) (hd (0, 0) pts) else []).
Definition curve_I (fuel : nat) (hob : list pt -> option (list (pt * pt))) (rel cycle : bool) (c : curve) (points : list pt) : option curve :=
  let pts := cv_end c :: (if rel then map (fun p => padd p (cv_end c)) points else points) in
  match hob pts with Some ks => curve_C fuel false c (hobby_args ks cycle pts) | None => None end.

(** get_points: curve.py 103-115 *)
Definition get_points (c : curve) : list pt :=
  let d := psub (cv_end c) (hd (0, 0) (cv_pts c)) in
  if Rlt_dec (fst d ^ 2 + snd d ^ 2) (cv_tol c) then removelast (cv_pts c) else cv_pts c.

(** Any sequence of commands. *)
Inductive cmd :=
| DoL (rel : bool) (args : list arg) | DoH (rel : bool) (xs : list R) | DoV (rel : bool) (ys : list R)
| DoArc (rx ry a0 a1 rot : R)
| DoC (rel : bool) (args : list arg) | DoS (rel : bool) (args : list arg)
| DoQ (rel : bool) (args : list arg) | DoT (rel : bool) (args : list arg) | DoB (rel : bool) (args : list arg)
| DoI (hob : list pt -> option (list (pt * pt))) (rel cycle : bool) (points : list pt).
Definition run (fuel : nat) (c : curve) (k : cmd) : option curve :=
  match k with
  | DoL rel args => curve_L rel c args
  | DoH rel xs => Some (curve_H rel c xs)
  | DoV rel ys => Some (curve_V rel c ys)
  | DoArc rx ry a0 a1 rot => Some (curve_arc c rx ry a0 a1 rot)
  | DoC rel args => curve_C fuel rel c args
  | DoS rel args => curve_S fuel rel c args
  | DoQ rel args => curve_Q fuel rel c args
  | DoT rel args => curve_T fuel rel c args
  | DoB rel args => curve_B fuel rel c args
  | DoI hob rel cycle points => curve_I fuel hob rel cycle c points
  end.
Fixpoint run_all (fuel : nat) (c : curve) (ks : list cmd) : option curve :=
  match ks with
  | [] => Some c
  | k :: r => match run fuel c k with Some c' => run_all fuel c' r | None => None end
  end.
