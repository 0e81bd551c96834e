(** What a smooth curve through given points should be: Hobby's splines, as in The
    METAFONTbook (D. E. Knuth, 1986), page 131 and chapter 14. *)

From Coq Require Import Reals List Arith.
From Verif Require Import Plane Flex SpecFlex SpecRound.
Import ListNotations.
Open Scope R_scope.

(** Angles of the same direction. *)
Definition same_dir (a b : R) : Prop := cos a = cos b /\ sin a = sin b.
(** Hobby's function f(theta, phi). *)
Definition hobby_f (th ph : R) : R :=
  (2 + sqrt 2 * (sin th - sin ph / 16) * (sin ph - sin th / 16) * (cos th - cos ph)) /
  (3 * (1 + (sqrt 5 - 1) / 2 * cos th + (3 - sqrt 5) / 2 * cos ph)).
(** The control points of the arc from [p] to [q] that leaves [p] in the direction [a]
    with tension [to] and arrives at [q] in the direction [b] with tension [ti]: theta
    and phi are the angles between these directions and the chord, whose direction is t. *)
Definition hobby_arc (p q : pt) (a b to ti : R) (c : pt * pt) : Prop :=
  forall t, heads p q t ->
    fst c = padd p (smul (apart p q * hobby_f (a - t) (t - b) / to) (cos a, sin a)) /\
    snd c = psub q (smul (apart p q * hobby_f (t - b) (a - t) / ti) (cos b, sin b)).
(** The direction [a] is [x] to the left of the chord from [p] to [q]. *)
Definition turned (p q : pt) (a x : R) : Prop := forall t, heads p q t -> same_dir a (t + x).
(** Mock curvature at both ends of an arc with a chord of length [d], tensions [to] and
    [ti] and angles theta and phi: the curvature there of the cubic curve whose control
    points are at d / (3 to) and d / (3 ti) from the ends, with angles in place of
    their sines. *)
Definition mock_start (d to ti th ph : R) : R := 2 * to ^ 2 / d * ((th + ph) / ti - 3 * th).
Definition mock_end (d to ti th ph : R) : R := 2 * ti ^ 2 / d * ((th + ph) / to - 3 * ph).

(** ** Linear equations *)

Definition total (n : nat) (f : nat -> R) : R := fold_right Rplus 0 (map f (seq 0 n)).
(** [x] solves the equations. *)
Definition solves (n : nat) (m : nat -> nat -> R) (b x : nat -> R) : Prop :=
  forall r, (r < n)%nat -> total n (fun c => m r c * x c) = b r.
Definition regular_matrix (n : nat) (m : nat -> nat -> R) : Prop :=
  forall x, solves n m (fun _ => 0) x -> forall c, (c < n)%nat -> x c = 0.
(** numpy.linalg.solve: what it returns is a solution; it raises for singular matrices
    and for no others. *)
Definition solver := nat -> (nat -> nat -> R) -> (nat -> R) -> option (nat -> R).
Definition sound (s : solver) : Prop := forall n m b x, s n m b = Some x -> solves n m b x.
Definition strict (s : solver) : Prop := forall n m b, ~ regular_matrix n m -> s n m b = None.
Definition complete (s : solver) : Prop := forall n m b, regular_matrix n m -> s n m b <> None.
(** It depends on nothing but the n x n elements. *)
Definition looks_inside (s : solver) : Prop :=
  forall n m m' b b', (forall r c, (r < n)%nat -> (c < n)%nat -> m r c = m' r c) -> (forall r, (r < n)%nat -> b r = b' r) -> s n m b = s n m' b'.

(** ** The whole curve *)

(** The points and tensions of a curve with [n] arcs; [a k] is the direction at point
    k; theta and phi of arc k are [th k] and [ph k]. *)
Record spline (n : nat) (p : nat -> pt) (to ti : nat -> R) (ctrl : nat -> pt * pt) (a th ph : nat -> R) : Prop := {
  sp_arc : forall k, (k < n)%nat -> hobby_arc (p k) (p (S k)) (a k) (a (S k)) (to k) (ti (S k)) (ctrl k);
  sp_out : forall k, (k < n)%nat -> turned (p k) (p (S k)) (a k) (th k);
  sp_in : forall k, (k < n)%nat -> turned (p k) (p (S k)) (a (S k)) (- ph k) }.
(** At a point without a given angle, the mock curvature is the same on both sides, and
    the curve turns by at most half a turn there (theta and phi are not multiples of a
    full turn away from what they should be). *)
Definition joined (p : nat -> pt) (to ti th ph : nat -> R) (k : nat) : Prop :=
  let d k := apart (p k) (p (S k)) in
  - PI <= th (S k) + ph k <= PI /\
  mock_end (d k) (to k) (ti (S k)) (th k) (ph k) = mock_start (d (S k)) (to (S k)) (ti (S (S k))) (th (S k)) (ph (S k)).
(** No two consecutive points are the same. *)
Definition distinct_points (cycle : bool) (z : list pt) : Prop :=
  forall k, (k < length z)%nat -> cycle = true \/ (S k < length z)%nat -> nth k z (0, 0) <> nth (S k mod length z) z (0, 0).
(** Scaling by [k], rotation by [r] and translation by [t]. *)
Definition similar (k r : R) (t p : pt) : pt :=
  (fst t + k * (cos r * fst p - sin r * snd p), snd t + k * (sin r * fst p + cos r * snd p)).
