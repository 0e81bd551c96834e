(** Coordinates on the database grid: the rounding of the writers, the scaling of the
    reader, and the three points of an array. *)

From Coq Require Import Reals List ZArith Bool.
From Verif Require Import Plane Hier.
Import ListNotations.
Open Scope R_scope.

(** [round] of Python 3 and [numpy.round]: to the nearest integer, ties to the even one.
    Used as [int(round(x * multiplier))] (library.py 1186, label.py 244) and
    [numpy.round(points * multiplier).astype(">i4")] (polygon.py 208, 232, path.py 1087). *)
Definition rint (x : R) : Z :=
  let f := Int_part x in
  let d := x - IZR f in
  if Rlt_dec d (/ 2) then f else if Rlt_dec (/ 2) d then (f + 1)%Z else if Z.even f then f else (f + 1)%Z.
(** A point as written, with arithmetic [mul]; the range of [>i4] is left to Writer.v. *)
Definition put (mul : R -> R -> R) (multiplier : R) (p : pt) : Z * Z := (rint (mul (fst p) multiplier), rint (mul (snd p) multiplier)).
(** [factor * record[1]], library.py 2593-2595 *)
Definition get (mul : R -> R -> R) (factor : R) (k : Z * Z) : pt := (mul factor (IZR (fst k)), mul factor (IZR (snd k))).

(** The library's [unit] and [precision]. *)
Record units := Units { unit : R; precision : R }.
(** The two numbers of the UNITS record, library.py 2493-2494 *)
Definition stored (div : R -> R -> R) (u : units) : R * R := (div (precision u) (unit u), precision u).
(** [multiplier], library.py 2503 *)
Definition multiplier (div : R -> R -> R) (u : units) : R := div (unit u) (precision u).
Inductive mode := Skip | Import | Convert.
(** The factor and the library's units after reading, library.py 2680-2688 *)
Definition read_units (div : R -> R -> R) (m : mode) (rec : R * R) (u : units) : R * units :=
  match m with
  | Skip => (fst rec, u)
  | Import => (fst rec, Units (div (snd rec) (fst rec)) (snd rec))
  | Convert => (div (snd rec) (unit u), u)
  end.

(** ** Arrays *)

(** The three points of CellArray.to_gds, library.py 1696-1749, before rounding *)
Definition about (o : pt) (c s : R) (p : pt) : pt :=
  ((fst p - fst o) * c - (snd p - snd o) * s + fst o, (fst p - fst o) * s + (snd p - snd o) * c + snd o).
Definition array_points (o : pt) (rot : option R) (refl : bool) (columns rows : nat) (sp : pt) : pt * pt * pt :=
  let p2 := (fst o + INR columns * fst sp, snd o) in
  let p3 := (fst o, snd o + INR rows * snd sp) in
  let p3 := if refl then (fst p3, 2 * snd o - snd p3) else p3 in
  match rot with
  | None => (o, p2, p3)
  | Some d => let s := sin (d * PI / 180) in let c := cos (d * PI / 180) in (o, about o c s p2, about o c s p3)
  end.
(** The origin and spacing from _create_array, library.py 2760-2787.  [strans]: there was
    a STRANS record; without one there is no rotation nor reflection (the writer always
    writes one before an ANGLE). *)
Definition array_back (strans : bool) (rot : option R) (refl : bool) (columns rows : nat) (xy : pt * pt * pt) : pt * pt :=
  let '(p1, p2, p3) := xy in
  let '(x2, y3) :=
    if strans then
      let '(x2, y3) := match rot with
                       | Some d => let s := - sin (d * PI / 180) in let c := cos (d * PI / 180) in
                                   ((fst p2 - fst p1) * c - (snd p2 - snd p1) * s + fst p1, (fst p3 - fst p1) * s + (snd p3 - snd p1) * c + snd p1)
                       | None => (fst p2, snd p3)
                       end in
      (x2, if refl then 2 * snd p1 - y3 else y3)
    else (fst p2, snd p3) in
  (p1, ((x2 - fst p1) / INR columns, (y3 - snd p1) / INR rows)).
(** [(rotation is not None) or (magnification is not None) or x_reflection], 1700-1704 *)
Definition has_strans (rot mag : option R) (refl : bool) : bool :=
  match rot, mag, refl with None, None, false => false | _, _, _ => true end.
