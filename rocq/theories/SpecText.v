(** Lines and columns of a text; XML character data. *)

From Coq Require Import Reals List ZArith Bool.
From Verif Require Import Plane.
Import ListNotations.
Open Scope Z_scope.

(** The next tab stop after column [c]: the columns 3, 7, 11, ... *)
Definition next_stop (c : Z) : Z := 4 * ((c + 1) / 4) + 3.
(** The line and column after a character: a newline (10), a tab (9), or another. *)
Definition step (lc : Z * Z) (ch : Z) : Z * Z :=
  let (l, c) := lc in if ch =? 10 then (l + 1, 0) else if ch =? 9 then (l, next_stop c) else (l, c + 1).
(** The line and column of the character number [i]. *)
Definition where_is (text : list Z) (i : nat) : Z * Z := fold_left step (firstn i text) (0, 0).
Definition prints (ch : Z) : bool := negb (ch =? 10) && negb (ch =? 9).

(** A point of a glyph (in ninths of the size) in the upright text that begins at the
    origin: columns go right and lines down, or columns down and lines right. *)
Definition upright (horizontal : bool) (size : R) (lc g : Z * Z) : pt :=
  let (l, c) := lc in
  if horizontal then (size / 9 * IZR (8 * c + fst g), size / 9 * IZR (snd g - 11 * l))%R
  else (size / 9 * IZR (8 * l + fst g), size / 9 * IZR (snd g - 11 * c))%R.

(** How often the closed line [q], which goes by unit steps along the axes, winds around
    the unit square with the lower left corner (x, y): the steps up at its right less the
    steps down. *)
Fixpoint crossings (x y : Z) (p : Z * Z) (q : list (Z * Z)) : Z :=
  match q with
  | [] => 0
  | a :: r => (if x <? fst a then if (snd p =? y) && (snd a =? y + 1) then 1 else if (snd p =? y + 1) && (snd a =? y) then -1 else 0 else 0)
              + crossings x y a r
  end.
Definition winding (x y : Z) (q : list (Z * Z)) : Z := crossings x y (last q (0, 0)) q.
(** Unit steps along the axes. *)
Fixpoint steps (p : Z * Z) (q : list (Z * Z)) : Prop :=
  match q with [] => True | a :: r => Z.abs (fst a - fst p) + Z.abs (snd a - snd p) = 1 /\ steps a r end.

(** ** XML *)

(** The character data of XML: '<' and '>' do not occur (the format forbids '<' and, after
    two brackets, '>'), and '&' begins one of these entities. *)
Fixpoint character_data (l : list Z) : option (list Z) :=
  match l with
  | [] => Some []
  | 38 :: 97 :: 109 :: 112 :: 59 :: r => option_map (cons 38) (character_data r)
  | 38 :: 108 :: 116 :: 59 :: r => option_map (cons 60) (character_data r)
  | 38 :: 103 :: 116 :: 59 :: r => option_map (cons 62) (character_data r)
  | 38 :: _ | 60 :: _ | 62 :: _ => None
  | c :: r => option_map (cons c) (character_data r)
  end.
