(** PolygonSet.fillet (gdspy/polygon.py 383-509), in exact reals. *)

From Coq Require Import Reals List ZArith Bool.
From Verif Require Import Plane Curve Engine Flex.
Import ListNotations.
Open Scope R_scope.

(** ** The radii *)

(** [radius]: a number, or an array of numbers and arrays. *)
Inductive item := Num (r : R) | Arr (l : list R).
Inductive radius := Scalar (r : R) | Array (l : list item).
(** polygon.py 423-434; wrong lengths raise (TypeError, as the message itself is wrong:
    [len(p.shape[0])]) *)
Definition one_radii (x : item) (p : poly) : option (list R) :=
  match x with
  | Num r => Some (repeat r (length p))
  | Arr l => if (length l =? length p)%nat then Some l else None
  end.
(** [radius[n : n + p.shape[0]]], 444-448 *)
Fixpoint split_radii (l : list R) (polys : list poly) : list (list R) :=
  match polys with [] => [] | p :: r => firstn (length p) l :: split_radii (skipn (length p) l) r end.
Definition as_num (x : item) : option R := match x with Num r => Some r | Arr _ => None end.
Definition total (polys : list poly) : nat := list_sum (map (@length pt) polys).
(** 418-448.  (A nested array in the flattened form is only noticed later, at the
    comparison in 489; here at once.) *)
Definition radii_of (r : radius) (polys : list poly) : option (list (list R)) :=
  match r with
  | Scalar x => Some (map (fun p => repeat x (length p)) polys)
  | Array l =>
      if (length l =? length polys)%nat then all_some (map (fun xp => one_radii (fst xp) (snd xp)) (combine l polys))
      else if (length l =? total polys)%nat then option_map (fun l => split_radii l polys) (all_some (map as_num l))
      else None
  end.

(** ** One corner *)

Definition unit_vec (a b : pt) : pt := let v := psub b a in (fst v / len v, snd v / len v).
(** [int(numpy.ceil(x) + 0.5)] *)
Definition ceil (x : R) : Z := (- Int_part (- x))%Z.
(** polygon.py 463-502 for the corner [b] between [a] and [c].  Where the cosine is zero
    (the way back) numpy divides by something like 6e-17; here [None]. *)
Definition fillet_corner (ppp : Z) (a b c : pt) (rad : R) : option (list pt) :=
  let l0 := len (psub b a) in let l1 := len (psub c b) in
  let v0 := unit_vec a b in let v1 := unit_vec b c in
  let d := psub v1 v0 in
  let dvec := if Req_EM_T (len d) 0 then d else (fst d / len d, snd d / len d) in
  let theta := acos (fst v1 * fst v0 + snd v1 * snd v0) in
  let ct := cos (theta * / 2) in let tt := tan (theta * / 2) in
  if Rlt_dec (1 / 1000000) theta then
    if Req_EM_T ct 0 then None
    else
      let w0 := psub (smul (- tt) v0) (smul (/ ct) dvec) in
      let a0 := atan2 (snd w0) (fst w0) in
      let w1 := psub (smul tt v1) (smul (/ ct) dvec) in
      let a1 := atan2 (snd w1) (fst w1) in
      let a1 := if Rlt_dec PI (a1 - a0) then a1 - 2 * PI else if Rlt_dec (a1 - a0) (- PI) then a1 + 2 * PI else a1 in
      let n := Z.to_nat (Z.max (ceil (Rabs (a1 - a0) / (2 * PI) * IZR ppp)) 2) in
      let ll := rad * tt in
      let '(r, ll) := if Rlt_dec (49 / 100 * l0) ll then (49 / 100 * l0 / tt, 49 / 100 * l0) else (rad, ll) in
      let r := if Rlt_dec (49 / 100 * l1) ll then 49 / 100 * l1 / tt else r in
      let ctr := padd (smul (r / ct) dvec) b in
      Some (map (fun x => padd ctr (on_circle r x)) (linspace a0 a1 n))
  else Some [b].

(** ** Polygons *)

Definition pt_eqb (p q : pt) : bool := if Req_EM_T (fst p) (fst q) then if Req_EM_T (snd p) (snd q) then true else false else false.
(** The vertices that differ from the one before, with their radii, 451-460 *)
Fixpoint keep (prev : pt) (l : list (pt * R)) : list (pt * R) :=
  match l with
  | [] => []
  | x :: r => if pt_eqb (fst x) prev then keep (fst x) r else x :: keep (fst x) r
  end.
Definition clean (l : list (pt * R)) : list (pt * R) := keep (fst (last l ((0, 0), 0))) l.
(** The loop [for ii in range(-1, n - 1)], 473-502: the last corner comes first. *)
Definition at_ (l : list (pt * R)) (i : nat) : pt * R := nth i l ((0, 0), 0).
Definition order (n : nat) : list nat := match n with O => [] | S m => m :: seq 0 m end.
Definition fillet_poly (ppp : Z) (l : list (pt * R)) : option poly :=
  let n := length l in
  option_map (@concat pt)
    (all_some (map (fun i => fillet_corner ppp (fst (at_ l ((i + n - 1) mod n))) (fst (at_ l i)) (fst (at_ l ((i + 1) mod n))) (snd (at_ l i))) (order n))).
(** 383-509 on the polygons; [fracture] is PolygonSet.fracture with its arguments. *)
Definition fillet (fracture : nat -> list poly -> list poly) (r : radius) (ppp : Z) (max_points : nat) (polys : list poly) : option (list poly) :=
  match radii_of r polys with
  | None => None
  | Some rr =>
      option_map (fun new => if existsb (fun p => max_points <? length p)%nat new then fracture max_points new else new)
        (all_some (map (fun pr => fillet_poly ppp (clean (combine (fst pr) (snd pr)))) (combine polys rr)))
  end.
