(** The polygons that PolyPath should draw (C81). *)

From Coq Require Import Reals List ZArith Bool.
From Verif Require Import Plane SpecFlex SpecRound Poly.
Import ListNotations.
Open Scope R_scope.

(** The entry of a list that is repeated as often as needed. *)
Definition given {X} (d : X) (l : list X) (j : nat) : X := nth (j mod length l) l d.
(** How far to the left of the spine the middle and the sides of path [i] of [n] are at
    point [j]: the paths are numbered from right to left around the spine; [width] has
    half widths. *)
Definition mid (distance : list R) (n i : nat) (j : nat) : R := (INR i - (INR n - 1) / 2) * given 0 distance j.
Definition off (width distance : list R) (n i : nat) (left : bool) (j : nat) : R := mid distance n i j + (if left then 1 else -1) * given 0 width j.
(** Where a side starts and ends along the section from point [j] to the next one, when
    it is [o] to the left of the spine: square to the section. *)
Definition starts (pts : list pt) (o : nat -> R) (j : nat) (x : pt) : Prop := at_xy (nth j pts (0, 0)) (nth (S j) pts (0, 0)) 0 (o j) x.
Definition stops (pts : list pt) (o : nat -> R) (j : nat) (x : pt) : Prop :=
  at_xy (nth j pts (0, 0)) (nth (S j) pts (0, 0)) (apart (nth j pts (0, 0)) (nth (S j) pts (0, 0))) (o (S j)) x.
(** [x] is on the line through [a] and [b]. *)
Definition on_line (a b x : pt) : Prop := cross (psub b a) (psub x a) = 0.
(** What a side has at the corner between two sections: it comes from [a] and would end
    at [b]; the next section has it from [c] to [d].
    - The crossing of the two lines;
    - with bevels, if the crossing lies beyond [b] and before [c], these two points;
    - nothing if the lines are parallel (as far as the code can tell). *)
Inductive joint (bevel : bool) (a b c d : pt) : list pt -> Prop :=
| joint_miter : forall x, / 10 ^ 30 < Rabs (cross (psub b a) (psub d c)) -> on_line a b x -> on_line c d x ->
    (bevel = true -> ~ (0 < dot (psub x b) (psub b a) /\ dot (psub x c) (psub d c) < 0)) -> joint bevel a b c d [x]
| joint_bevel : forall x, / 10 ^ 30 < Rabs (cross (psub b a) (psub d c)) -> on_line a b x -> on_line c d x ->
    bevel = true -> 0 < dot (psub x b) (psub b a) -> dot (psub x c) (psub d c) < 0 -> joint bevel a b c d [b; c]
| joint_none : Rabs (cross (psub b a) (psub d c)) <= / 10 ^ 30 -> joint bevel a b c d [].
(** A whole side along the spine [pts]: the start, the points of each corner, where the
    side comes from its last point, and the end. *)
Definition side_drawn (bevel : bool) (pts : list pt) (o : nat -> R) (side : list pt) : Prop :=
  let m := (length pts - 2)%nat in
  exists (S E : nat -> pt) (cs : list (list pt)),
    (forall j, (j <= m)%nat -> starts pts o j (S j) /\ stops pts o j (E j)) /\
    length cs = m /\ side = S 0%nat :: concat cs ++ [E m] /\
    forall j, (j < m)%nat -> joint bevel (last (S 0%nat :: concat (firstn j cs)) (0, 0)) (E j) (S (j + 1)%nat) (E (j + 1)%nat) (nth j cs []).
(** The polygon between two sides, without the left point where they meet at an end. *)
Definition between_sides (s : list pt * list pt) (q : poly) : Prop :=
  let (r, l) := s in
  exists l', ((hd (0, 0) r <> hd (0, 0) l /\ l' = l) \/ (hd (0, 0) r = hd (0, 0) l /\ l' = tl l)) /\
    ((last r (0, 0) <> last l (0, 0) /\ q = r ++ rev l') \/ (last r (0, 0) = last l (0, 0) /\ q = r ++ rev (removelast l'))).
(** Two sides cut into pieces, from a corner to a corner: each piece starts where the
    one before it ends. *)
Inductive glue : list (list pt * list pt) -> list pt -> list pt -> Prop :=
| glue_one : forall r l, glue [(r, l)] r l
| glue_more : forall a b x y r l ps, glue ps (x :: r) (y :: l) -> glue ((a ++ [x], b ++ [y]) :: ps) (a ++ x :: r) (b ++ y :: l).
(** The polygons of path [i], when [idx] tells the path of each polygon. *)
Definition of_path (i : nat) (idx : list nat) (polys : list poly) : list poly := map snd (filter (fun ip => (fst ip =? i)%nat) (combine idx polys)).

(** The spine of the path: extended ends lengthen its first and its last section by the
    half width there. *)
Definition spine (ends : ends_arg) (pts : list pt) (width : list R) (pts' : list pt) : Prop :=
  match ends with
  | EExtended =>
      let e := (length pts - 1)%nat in
      length pts' = length pts /\ (forall j, (0 < j < e)%nat -> nth j pts' (0, 0) = nth j pts (0, 0)) /\
      at_xy (nth 0 pts (0, 0)) (nth 1 pts (0, 0)) (- given 0 width 0) 0 (nth 0 pts' (0, 0)) /\
      at_xy (nth (e - 1) pts (0, 0)) (nth e pts (0, 0)) (apart (nth (e - 1) pts (0, 0)) (nth e pts (0, 0)) + given 0 width e) 0 (nth e pts' (0, 0))
  | _ => pts' = pts
  end.
(** Half a disc: the centre and 32 points along the half circle from the angle [a]. *)
Definition half_round (c : pt) (w a : R) (q : poly) : Prop :=
  exists A, q = c :: A /\ length A = 32%nat /\ traces (arc_at c w a (a + PI)) (w * (1 - cos (PI / 62))) A.
(** The round ends of path [i], on the far side of the first and the last point. *)
Definition start_cap (pts : list pt) (width distance : list R) (n i : nat) (q : poly) : Prop :=
  exists c t, at_xy (nth 0 pts (0, 0)) (nth 1 pts (0, 0)) 0 (mid distance n i 0) c /\ heads (nth 0 pts (0, 0)) (nth 1 pts (0, 0)) t /\
    half_round c (given 0 width 0) (t + PI / 2) q.
Definition end_cap (pts : list pt) (width distance : list R) (n i : nat) (q : poly) : Prop :=
  let e := (length pts - 1)%nat in
  let a := nth (e - 1) pts (0, 0) in
  let b := nth e pts (0, 0) in
  exists c t, at_xy a b (apart a b) (mid distance n i e) c /\ heads a b t /\ half_round c (given 0 width e) (t - PI / 2) q.

(** The polygon of a single path of two points: from the left of the start around the
    right side; a width of zero leaves a triangle. *)
Definition straight (p q : pt) (w0 w1 : R) (b : poly) : Prop :=
  exists a0 b0 b1 a1, at_xy p q 0 w0 a0 /\ at_xy p q 0 (- w0) b0 /\ at_xy p q (apart p q) (- w1) b1 /\ at_xy p q (apart p q) w1 a1 /\
    ((w0 <> 0 /\ w1 <> 0 /\ b = [a0; b0; b1; a1]) \/ (w0 = 0 /\ b = [p; b1; a1]) \/ (w0 <> 0 /\ w1 = 0 /\ b = [a0; b0; q])).
