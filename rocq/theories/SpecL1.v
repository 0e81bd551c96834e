(** What an L1Path is: sections along the axes, with a turn between them. *)

From Coq Require Import Reals List ZArith Bool.
From Verif Require Import Plane Path SpecPath.
Import ListNotations.
Open Scope R_scope.

Definition quarter_right (h : heading) : heading := quarter_left (quarter_left (quarter_left h)).
(** Positive turns are to the left. *)
Definition after_turn (h : heading) (t : R) : heading := if Rlt_dec 0 t then quarter_left h else quarter_right h.
(** Where the path ends, and its heading there. *)
Fixpoint l1_end (p : pt) (h : heading) (lens turns : list R) : pt :=
  match lens with
  | [] => p
  | l :: lens' =>
      let q := padd p (smul l (toward h)) in
      match turns with [] => q | t :: turns' => l1_end q (after_turn h t) lens' turns' end
  end.
Definition l1_heading (h : heading) (turns : list R) : heading := fold_left after_turn turns h.
(** The line at [a] to the left of the path: a section after a turn [t] has it at
    [a * |t|]; at the corners the lines along the two sections cross.  [k] is the factor
    of the present section, [before] the displacement of the line along the section before. *)
Fixpoint l1_line (a k : R) (before p : pt) (h : heading) (lens turns : list R) : list pt :=
  let aside := smul (a * k) (toward (quarter_left h)) in
  padd (padd p before) aside ::
  match lens with
  | [] => []
  | l :: lens' =>
      let q := padd p (smul l (toward h)) in
      match turns with
      | [] => [padd q aside]
      | t :: turns' => l1_line a (Rabs t) aside q (after_turn h t) lens' turns'
      end
  end.
(** The right and left sides of parallel path [i] of [n]: numbered from right to left. *)
Definition l1_side (start : pt) (h : heading) (lens turns : list R) (a : R) : list pt := l1_line a 1 (0, 0) start h lens turns.

(** Coordinates along and across a heading. *)
Definition along (h : heading) (p : pt) : R := dot p (toward h).
Definition across (h : heading) (p : pt) : R := dot p (toward (quarter_left h)).
(** Two sides cut into pieces, straight across sections: each cut adds a point to both
    sides, in line with the points before and after it. *)
Inductive cut_into : list pt -> list pt -> list (list pt * list pt) -> Prop :=
| cut_end : forall r l, cut_into r l [(r, l)]
| cut_more : forall h a x c y r a' x' c' y' l rest,
    along h c = along h c' -> across h x = across h c -> across h c = across h y -> across h x' = across h c' -> across h c' = across h y' ->
    cut_into (c :: y :: r) (c' :: y' :: l) rest ->
    cut_into (a ++ x :: y :: r) (a' ++ x' :: y' :: l) ((a ++ [x; c], a' ++ [x'; c']) :: rest).

(** A point turned about [c]. *)
Definition turned_about (a : R) (c p : pt) : pt := padd c (spin a (psub p c)).
