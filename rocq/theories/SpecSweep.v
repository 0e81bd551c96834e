(** What the sweep line should find: strands that cross a horizontal line from left to right,
    the winding numbers between them, and the pieces of strands that border the result. *)

From Coq Require Import List ZArith Bool.
From Verif Require Import Sweep.
Import ListNotations.
Open Scope Z_scope.

(** ** Membership *)
(** Whether the fill rule counts a winding number as inside. *)
Definition inside (f : fill) (w : Z) : bool :=
  match f with EvenOdd => Z.odd w | NonZero => negb (w =? 0) | Positive => 0 <? w | Negative => w <? 0 end.
Definition combine (o : oper) (a b : bool) : bool :=
  match o with Intersection => a && b | Union => a || b | Difference => a && negb b | Xor => xorb a b end.

(** A strand: the polygon type, by how much it changes the winding number from left to right,
    and the point where its current piece begins. *)
Record strand := Strand { of_kind : kind; turns : Z; since : pt }.
(** The winding number of one polygon type right of some strands. *)
Definition winding (k : kind) (l : list strand) : Z :=
  fold_right Z.add 0 (map turns (filter (fun s => same_kind (of_kind s) k) l)).
(** Whether the result of the operation contains the points right of some strands and left of
    all others. *)
Definition within (j : job) (l : list strand) : bool :=
  combine (op j) (inside (subj_fill j) (winding Subject l)) (inside (clip_fill j) (winding Clip l)).
(** The strand in place [n] borders the result: just one of its two sides is in it. *)
Definition borders (j : job) (l : list strand) (n : nat) : bool :=
  xorb (within j (firstn n l)) (within j (firstn (S n) l)).

(** ** Pieces of the border *)
(** The strands, and the pieces found so far. *)
Record survey := Survey { strands : list strand; pieces : list (pt * pt) }.
Definition restart (p : pt) (s : strand) : strand := Strand (of_kind s) (turns s) p.
Definition piece (lit : bool) (s : strand) (p : pt) : list (pt * pt) := if lit then [(since s, p)] else [].
(** Two strands that cross make a corner of the border when both border the result, or when the
    crossing changes which of them does. *)
Definition corner (before1 before2 after1 after2 : bool) : bool :=
  (before1 && before2) || negb (eqb before1 after1 && eqb before2 after2).
Definition advance (j : job) (v : survey) (ev : event) : survey :=
  let l := strands v in
  match ev with
  | Minimum n k d p _ =>
      Survey (firstn n l ++ Strand k d p :: Strand k (- d) p :: skipn n l) (pieces v)
  | Crossing n p _ =>
      match skipn n l with
      | s1 :: s2 :: rest =>
          let plain := firstn n l ++ s2 :: s1 :: rest in
          if corner (borders j l n) (borders j l (S n)) (borders j plain (S n)) (borders j plain n) then
            Survey (firstn n l ++ restart p s2 :: restart p s1 :: rest)
                   (piece (borders j l n) s1 p ++ piece (borders j l (S n)) s2 p ++ pieces v)
          else Survey plain (pieces v)
      | _ => v
      end
  | Vertex n p =>
      match skipn n l with
      | s :: rest =>
          if borders j l n then
            Survey (firstn n l ++ restart p s :: rest) ((since s, p) :: pieces v)
          else v
      | _ => v
      end
  | Maximum n p _ =>
      match skipn n l with
      | s1 :: s2 :: rest =>
          Survey (firstn n l ++ rest) (piece (borders j l n) s1 p ++ piece (borders j l (S n)) s2 p ++ pieces v)
      | _ => v
      end
  end.
Definition surveyed (j : job) (evs : list event) : survey := fold_left (advance j) evs (Survey [] []).

(** ** Polygons *)
(** The sides of a closed polygon, and of an open line. *)
Fixpoint line_sides (r : list pt) : list (pt * pt) :=
  match r with a :: ((b :: _) as t) => (a, b) :: line_sides t | _ => [] end.
Definition sides (r : list pt) : list (pt * pt) :=
  match r with [] => [] | a :: _ => line_sides r ++ [(last r a, a)] end.
(** How often the segment between two points occurs, in either direction. *)
Definition times (p q : pt) (l : list (pt * pt)) : nat :=
  length (filter (fun s => (pt_eqb (fst s) p && pt_eqb (snd s) q) || (pt_eqb (fst s) q && pt_eqb (snd s) p)) l).
(** The polygons that are left. *)
Definition rings (o : outs) : list (list pt) := flat_map (fun r => match r with Some r => [r] | None => [] end) o.
(** The larger in magnitude. *)
Definition larger (a b : Z) : Z := if Z.abs a <? Z.abs b then b else a.
(** The strands of the active edges. *)
Definition strand_of (e : edge) : strand := Strand (poly e) (delta e) nowhere.
Definition other (k : kind) : kind := match k with Subject => Clip | Clip => Subject end.
