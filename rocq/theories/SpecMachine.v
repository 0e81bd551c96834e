(** What is known of the arithmetic of the machine, and the sizes that its errors are measured
    by. *)

From Coq Require Import Reals List ZArith.
From Verif Require Import Plane Hier SpecHier Grid Machine.
Import ListNotations.
Open Scope R_scope.

(** The smallest normal double. *)
Definition tiny : R := / 2 ^ 1022.
(** [y] is [x] rounded to a double: the error is at most half a unit in the last of 53 digits,
    or half the smallest double. *)
Definition rounds (x y : R) : Prop := Rabs (y - x) <= / 2 ^ 53 * Rmax (Rabs x) tiny.
(** Correctly rounded products, sums and quotients, and a cosine, a sine and pi with an absolute
    error of at most 2^-52. *)
Definition machine (a : arith) : Prop :=
  (forall x y, rounds (x * y) (mul a x y)) /\ (forall x y, rounds (x + y) (add a x y)) /\
  (forall x y, y <> 0 -> rounds (x / y) (div a x y)) /\
  (forall t, Rabs (cosm a t - cos t) <= / 2 ^ 52) /\ (forall t, Rabs (sinm a t - sin t) <= / 2 ^ 52) /\
  Rabs (pim a - PI) <= / 2 ^ 52.

(** Distance from the origin. *)
Definition norm (p : pt) : R := sqrt (fst p * fst p + snd p * snd p).

(** How far from the origin a point at the distance [s] can be after an instance: its distance
    is magnified, and the displacement in the array and the origin are added.  Nothing is
    smaller than the smallest normal double. *)
Definition shift (x : inst) : R :=
  match p_arr (fst x) with
  | Some (_, _, sp) => norm (INR (fst (snd x)) * fst sp, INR (snd (snd x)) * snd sp)
  | None => 0
  end.
Definition grown (x : inst) (s : R) : R := Rmax tiny (Rabs (factor (fst x)) * s + shift x + norm (origin (fst x))).
Definition size (ch : chain) (p : pt) : R := fold_right grown (Rmax tiny (norm p)) ch.
(** At most a full turn. *)
Definition one_turn (x : inst) : Prop := match p_rot (fst x) with Some d => Rabs d <= 360 | None => True end.

(** ** Moves of polygon sets, exactly *)
Inductive move := Translate (v : pt) | Scale (sx : R) (sy : option R) (c : pt) | Rotate (t : R) (c : pt).
Definition other (sx : R) (sy : option R) : R := match sy with Some y => y | None => sx end.
Definition exact_move (m : move) (p : pt) : pt :=
  match m with
  | Translate v => padd p v
  | Scale sx sy c => padd c (sx * (fst p - fst c), other sx sy * (snd p - snd c))
  | Rotate t c => padd c (turn t (psub p c))
  end.
Definition machine_move (a : arith) (m : move) : pt -> pt :=
  match m with Translate v => m_translate a v | Scale sx sy c => m_scale a sx sy c | Rotate t c => m_rotate a t c end.
Definition after_move (m : move) (s : R) : R :=
  Rmax tiny (match m with
             | Translate v => s + norm v
             | Scale sx sy c => Rmax 1 (Rmax (Rabs sx) (Rabs (other sx sy))) * (s + norm c) + norm c
             | Rotate t c => s + norm c + norm c
             end).
(** A history, the first move first. *)
Definition exact_moves (l : list move) (p : pt) : pt := fold_left (fun p m => exact_move m p) l p.
Definition machine_moves (a : arith) (l : list move) (p : pt) : pt := fold_left (fun p m => machine_move a m p) l p.
Definition size_moves (l : list move) (p : pt) : R := fold_left (fun s m => after_move m s) l (Rmax tiny (norm p)).

(** ** Doubles: rounding to the nearest of the numbers n 2^e with 53 binary digits and e at least
    -1074, ties to even, without a largest number. *)
Definition expo (x : R) : Z := Z.max (Int_part (ln (Rabs x) / ln 2) - 52) (-1074).
Definition double (x : R) : R := IZR (rint (x / powerRZ 2 (expo x))) * powerRZ 2 (expo x).
Definition doubles : arith :=
  Arith (fun x y => double (x * y)) (fun x y => double (x + y)) (fun x y => double (x / y))
        (fun t => double (cos t)) (fun t => double (sin t)) (double PI).
