(** The curve that each call of a RobustPath should draw. *)

From Coq Require Import Reals List ZArith Bool.
From Verif Require Import Plane Curve SpecCurve Flex Robust SpecRobust.
Import ListNotations.
Open Scope R_scope.

(** [v] is the derivative of the curve [f] at [u]. *)
Definition velocity (f : R -> pt) (u : R) (v : pt) : Prop :=
  derivable_pt_lim (fun x => fst (f x)) u (fst v) /\ derivable_pt_lim (fun x => snd (f x)) u (snd v).
(** The curve, for u from 0 to 1.  Before a turn the path must be straight, with
    direction [d]. *)
Definition curve_of (c : rcall) (d : pt) (r : robust) (u : R) : pt :=
  match c with
  | RSegment p _ _ rel => let e := r_place rel r p in (fst (r_x r) + u * (fst e - fst (r_x r)), snd (r_x r) + u * (snd e - snd (r_x r)))
  | RArc ra a b _ _ =>
      let t := a + u * (b - a) in
      padd (psub (r_x r) (ra * cos a, ra * sin a)) (ra * cos t, ra * sin t)
  | RTurn ra a _ _ => rotate_pt (u * a) (r_turn_centre ra a d (r_x r)) (r_x r)
  | RParametric g _ _ _ rel => r_place rel r (g u)
  | RBezier l _ _ rel =>
      let ctrl := r_x r :: map (r_place rel r) l in
      (bernstein (map fst ctrl) u, bernstein (map snd ctrl) u)
  | _ => (0, 0)
  end.
(** The derivative given for a parametric curve is right. *)
Definition true_derivative (c : rcall) : Prop :=
  match c with
  | RParametric g (Some dg) _ _ _ => forall u, velocity g u (dg u)
  | RParametric _ None _ _ _ => False
  | _ => True
  end.
(** The point at the distance [o] to the right of [p] for someone who looks in the
    direction [v]. *)
Definition to_right (p v : pt) (o : R) : pt :=
  let l := sqrt (fst v ^ 2 + snd v ^ 2) in (fst p + o * (snd v / l), snd p - o * (fst v / l)).
(** The cubic Bezier curve. *)
Definition cubic (p a b e : pt) (u : R) : pt :=
  padd (smul ((1 - u) ^ 3) p) (padd (smul (3 * u * (1 - u) ^ 2) a) (padd (smul (3 * u ^ 2 * (1 - u)) b) (smul (u ^ 3) e))).
(** The offset of parallel path [k] after [i] sections with the argument [o]. *)
Definition offset_after (o : rdim) (k : nat) (now : R) (i : nat) : R := Nat.iter i (fun x => wanted x true o k 1) now.
