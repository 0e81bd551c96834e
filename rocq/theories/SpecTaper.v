(** What a FlexPath whose widths and offsets change from point to point looks like. *)

From Coq Require Import Reals List ZArith Bool.
From Verif Require Import Plane Curve Flex SpecFlex SpecRound.
Import ListNotations.
Open Scope R_scope.

(** No point is repeated. *)
Definition steps (pts : list pt) : Prop :=
  forall i, (S i < length pts)%nat -> nth i pts (0, 0) <> nth (S i) pts (0, 0).

(** A leg is a directed segment.  [s] runs beside the segment from [p] to [q]: it starts
    [h0] to the left of p and ends [h1] to the left of q. *)
Definition runs (p q : pt) (h0 h1 : R) (s : pt * pt) : Prop :=
  at_xy p q 0 h0 (fst s) /\ at_xy p q (apart p q) h1 (snd s).
(** One leg for each segment of [pts], at the distances [hs] beside its points. *)
Definition legs (pts : list pt) (hs : list R) (ss : list (pt * pt)) : Prop :=
  length ss = (length pts - 1)%nat /\
  forall i, (S i < length pts)%nat ->
    runs (nth i pts (0, 0)) (nth (S i) pts (0, 0)) (nth i hs 0) (nth (S i) hs 0) (nth i ss ((0, 0), (0, 0))).

(** [x] is on the line of the leg [s]; how far it is beyond its end; how far after
    its start. *)
Definition upon (s : pt * pt) (x : pt) : Prop := aside (fst s) (snd s) x = 0.
Definition over (s : pt * pt) (x : pt) : R := ahead (fst s) (snd s) x - apart (fst s) (snd s).
Definition into (s : pt * pt) (x : pt) : R := ahead (fst s) (snd s) x.
(** The lines of two legs are not (nearly) parallel: the sine of the angle between
    them is at least 10^-6. *)
Definition angled (s t : pt * pt) : Prop :=
  let v := psub (snd s) (fst s) in let v' := psub (snd t) (fst t) in
  (apart (fst s) (snd s) * apart (fst t) (snd t)) ^ 2 <= 10 ^ 12 * (fst v * snd v' - snd v * fst v') ^ 2.
(** Where consecutive legs meet: where their lines cross, or if these are nearly
    parallel, half way between the end of one and the start of the other. *)
Definition meeting (s t : pt * pt) (x : pt) : Prop :=
  (angled s t -> upon s x /\ upon t x) /\
  (~ angled s t -> x = ((fst (snd s) + fst (fst t)) / 2, (snd (snd s) + snd (fst t)) / 2)).
(** The line through consecutive legs. *)
Definition through (ss : list (pt * pt)) (xs : list pt) : Prop :=
  let s i := nth i ss ((0, 0), (0, 0)) in let x i := nth i xs (0, 0) in
  length xs = S (length ss) /\ x 0%nat = fst (s 0%nat) /\ x (length ss) = snd (s (length ss - 1)%nat) /\
  forall i, (S i < length ss)%nat -> meeting (s i) (s (S i)) (x (S i)).
(** The line that runs beside [pts] at the distances [hs]. *)
Definition tapered (pts : list pt) (hs : list R) (xs : list pt) : Prop :=
  exists ss, legs pts hs ss /\ through ss xs.

(** A corner between the legs [s] and [t] of the side [h] to the left of the point [b]
    (to the right if negative).  The legs leave a gap if they cross (at [x]) beyond the
    end of the first or before the start of the second: only then the corners differ.
    Smooth corners and functions are not described. *)
Definition corner_taper (c : corner) (bend : option R) (tol : R) (b : pt) (h : R) (s t : pt * pt) (l : list pt) : Prop :=
  exists x t0 t1, meeting s t x /\ heads (fst s) (snd s) t0 /\ heads (fst t) (snd t) t1 /\ Rabs (t1 - t0) <= PI /\
  let r := Rabs h in
  let gap := angled s t /\ ~ (over s x <= 0 /\ 0 <= into t x) in
  let far := angled s t /\ ~ (over s x < 0 /\ 0 < into t x) /\ ~ (over s x <= r /\ - r <= into t x) in
  let k := if Rlt_dec t0 t1 then 1 else -1 in
  match c with
  | Miter => l = [x]
  | Bevel => (~ gap -> l = [x]) /\ (gap -> l = [snd s; fst t])
  | Natural => (~ far -> l = [x]) /\
      (far -> l = [spot (snd s) t0 (Rmin r (over s x)) 0; spot (fst t) t1 (Rmax (- r) (into t x)) 0])
  | RoundCorner => (~ gap -> l = [x]) /\
      (gap -> traces (arc_at b r (t0 - k * (PI / 2)) (t1 - k * (PI / 2))) (49 / 36 * tol) l)
  | Circular =>
      (sin (t1 - t0) = 0 -> l = [((fst (snd s) + fst (fst t)) / 2, (snd (snd s) + snd (fst t)) / 2)]) /\
      (sin (t1 - t0) <> 0 -> exists br, bend = Some br /\
         (2 * tol <= br - r ->
          traces (arc_at (spot (snd s) t0 (- (br * tan (Rabs (t1 - t0) / 2))) (k * (br - k * h)))
                         (br - k * h) (t0 - k * (PI / 2)) (t1 - k * (PI / 2))) (9 / 4 * tol) l))
  | _ => True
  end.
(** All corners of the side whose legs are [ss], at the distances [hs] from [ctr]. *)
Definition corners_taper (c : corner) (bend : option R) (tol : R) (ctr : list pt) (hs : list R) (ss : list (pt * pt)) (l : list pt) : Prop :=
  exists pieces, l = concat pieces /\ length pieces = (length ctr - 2)%nat /\
    forall i, (i < length pieces)%nat ->
      corner_taper c bend tol (nth (S i) ctr (0, 0)) (nth (S i) hs 0)
        (nth i ss ((0, 0), (0, 0))) (nth (S i) ss ((0, 0), (0, 0))) (nth i pieces []).
