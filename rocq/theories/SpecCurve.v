(** Textbook notions for curves. *)

From Coq Require Import Reals List ZArith.
From Verif Require Import Plane Curve.
Import ListNotations.
Open Scope R_scope.

(** The Bernstein form of degree n - 1 with coefficients l = [a_0; ...; a_{n-1}]. *)
Definition bernstein (l : list R) (u : R) : R :=
  let n := (length l - 1)%nat in
  sum_f_R0 (fun i => C n i * u ^ i * (1 - u) ^ (n - i) * nth i l 0) n.

(** x' = a x + b y + e, y' = c x + d y + f *)
Record affine := Affine { aa : R; ab : R; ac : R; ad : R; ae : R; af : R }.
Definition affine_map (m : affine) (p : pt) : pt :=
  (aa m * fst p + ab m * snd p + ae m, ac m * fst p + ad m * snd p + af m).

(** The chord between the parameters u and v passes the test: its middle is
    within the tolerance (squared) of the curve at the middle parameter. *)
Definition flat (f : R -> pt) (tol u v : R) : Prop :=
  dist2 (smul (/ 2) (padd (f u) (f v))) (f (/ 2 * (u + v))) <= tol.
(** [links R a [b; c; d]]: R a b, R b c, R c d. *)
Fixpoint links {X} (r : X -> X -> Prop) (a : X) (l : list X) : Prop :=
  match l with [] => True | b :: m => r a b /\ links r b m end.
(** [l] occurs in [m], in order, with other elements in between. *)
Inductive sub {X} : list X -> list X -> Prop :=
| sub_nil : forall m, sub [] m
| sub_take : forall x l m, sub l m -> sub (x :: l) (x :: m)
| sub_skip : forall x l m, sub l m -> sub l (x :: m).

(** The arguments of a relative command, made absolute. *)
Fixpoint absolute (o : pt) (l : list arg) : list arg :=
  match l with
  | Cpx x y :: r => Cpx (fst o + x) (snd o + y) :: absolute o r
  | Num x :: Num y :: r => Num (fst o + x) :: Num (snd o + y) :: absolute o r
  | l => l
  end.
Definition is_relative (k : cmd) : Prop :=
  match k with
  | DoL rel _ | DoH rel _ | DoV rel _ | DoC rel _ | DoS rel _ | DoQ rel _ | DoT rel _ | DoB rel _ | DoI _ rel _ _ => rel = true
  | DoArc _ _ _ _ _ => True
  end.
(** There is one pair of control points for each section: as many as points if the
    curve is closed, one less if not. *)
Definition sized (cycle : bool) (hob : list pt -> option (list (pt * pt))) : Prop :=
  forall l ks, hob l = Some ks -> length ks = (length l - if cycle then 0 else 1)%nat.
(** The control points for [n] points move with the points. *)
Definition equivariant (n : nat) (hob : list pt -> option (list (pt * pt))) : Prop :=
  forall v l, length l = n -> hob (map (padd v) l) = option_map (map (fun k => (padd v (fst k), padd v (snd k)))) (hob l).
(** For [DoI]. *)
Definition hob_ok (k : cmd) : Prop :=
  match k with DoI hob _ cycle points => sized cycle hob /\ equivariant (S (length points)) hob | _ => True end.
Definition moved_curve (v : pt) (c : curve) : curve :=
  Curve (map (padd v) (cv_pts c)) (cv_tol c) (option_map (padd v) (cv_c c)) (option_map (padd v) (cv_q c)).
