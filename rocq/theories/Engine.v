(** Operations that use the clipping library: gdspy/operation.py 42-299,
    PolygonSet.fracture (gdspy/polygon.py 326-381) and the code around the library in
    gdspy/clipper.cpp (parse_polygon, bounding_box, PointInPolygon, inside, chop, clip).

    The clipping algorithm itself (Clipper.Execute, and the linking of holes into
    outlines, which is in LinkHoles.v) is a parameter [eng].  Coordinates are exact reals before
    snapping and integers after; the cInt overflow and the rounding of products to
    double in PointInPolygon are not modelled.  [None] is an exception, a read outside
    an array, or running out of fuel. *)

From Coq Require Import Reals Lra List ZArith Bool.
From Verif Require Import Plane.
Import ListNotations.
Open Scope R_scope.

(** ** Snapping, clipper.cpp 143-147 and 4641-4698 *)

Notation zpt := (Z * Z)%type.
Notation zpath := (list (Z * Z)).
Definition trunc (x : R) : Z := if Rlt_dec x 0 then (- Int_part (- x))%Z else Int_part x.
Definition cround (x : R) : Z := if Rlt_dec x 0 then trunc (x - / 2) else trunc (x + / 2).
Definition snap (scaling : R) (p : pt) : zpt := (cround (scaling * fst p), cround (scaling * snd p)).
(** The sum for j > 1, in terms of path[0], path[j-1], path[j]. *)
Fixpoint turning (p0 prev : zpt) (l : zpath) : Z :=
  match l with
  | [] => 0%Z
  | q :: r => ((fst p0 - fst q) * (snd prev - snd p0) - (snd p0 - snd q) * (fst prev - fst p0) + turning p0 q r)%Z
  end.
Definition orientation (path : zpath) : Z :=
  match path with p0 :: p1 :: r => turning p0 p1 r | _ => 0%Z end.
Definition parse_polygon (scaling : R) (check : bool) (poly : poly) : zpath :=
  let path := map (snap scaling) poly in
  if check && (orientation path <? 0)%Z then rev path else path.
(** build_polygon_tuple, 4836-4879 *)
Definition unsnap (scaling : R) (p : zpt) : pt := (IZR (fst p) / scaling, IZR (snd p) / scaling).

(** ** bounding_box, clipper.cpp 4883-4897: x min, x max, y min, y max *)
Notation zbox := (Z * Z * Z * Z)%type.
Definition grow (b : zbox) (p : zpt) : zbox :=
  let '(a, b, c, d) := b in
  (if (fst p <? a)%Z then fst p else a, if (b <? fst p)%Z then fst p else b,
   if (snd p <? c)%Z then snd p else c, if (d <? snd p)%Z then snd p else d).
Definition bounding_box (path : zpath) : option zbox :=
  match path with
  | [] => None
  | p :: _ => Some (fold_left grow path (fst p, fst p, snd p, snd p))
  end.

(** ** PointInPolygon, clipper.cpp 448-489 *)
(** One turn of the loop: None returns -1. *)
Definition pip_edge (pt ip next : zpt) (result : bool) : option bool :=
  let '(x, y) := pt in let '(ax, ay) := ip in let '(bx, by_) := next in
  if (by_ =? y)%Z && ((bx =? x)%Z || ((ay =? y)%Z && eqb (x <? bx)%Z (ax <? x)%Z)) then None
  else if negb (eqb (ay <? y)%Z (by_ <? y)%Z) then
    let d := ((ax - x) * (by_ - y) - (bx - x) * (ay - y))%Z in
    let by_d := if (d =? 0)%Z then None
                else Some (if eqb (0 <? d)%Z (ay <? by_)%Z then negb result else result) in
    if (x <=? ax)%Z then
      if (x <? bx)%Z then Some (negb result) else by_d
    else if (x <? bx)%Z then by_d
    else Some result
  else Some result.
Fixpoint pip_loop (pt ip : zpt) (rest : zpath) (result : bool) : Z :=
  match rest with
  | [] => if result then 1%Z else 0%Z
  | next :: more => match pip_edge pt ip next result with None => (-1)%Z | Some r => pip_loop pt next more r end
  end.
Definition point_in_polygon (pt : zpt) (path : zpath) : Z :=
  match path with
  | p0 :: _ :: _ :: _ => pip_loop pt p0 (tl path ++ [p0]) false
  | _ => 0%Z
  end.

(** ** inside, clipper.cpp 5007-5134 *)
Definition within_box (p : zpt) (b : zbox) : bool :=
  let '(x0, x1, y0, y1) := b in
  (x0 <=? fst p)%Z && (fst p <=? x1)%Z && (y0 <=? snd p)%Z && (snd p <=? y1)%Z.
Definition join_box (a b : zbox) : zbox :=
  let '(a0, a1, a2, a3) := a in let '(b0, b1, b2, b3) := b in
  (if (b0 <? a0)%Z then b0 else a0, if (a1 <? b1)%Z then b1 else a1,
   if (b2 <? a2)%Z then b2 else a2, if (a3 <? b3)%Z then b3 else a3).
Definition boxes_meet (g p : zbox) : bool :=
  let '(g0, g1, g2, g3) := g in let '(p0, p1, p2, p3) := p in
  (g0 <=? p1)%Z && (p0 <=? g1)%Z && (g2 <=? p3)%Z && (p2 <=? g3)%Z.
Fixpoint all_some {X} (l : list (option X)) : option (list X) :=
  match l with
  | [] => Some []
  | None :: _ => None
  | Some x :: r => option_map (cons x) (all_some r)
  end.
(** The polygons with their boxes, [polygons_bb]. *)
Definition boxed (polys : list zpath) : option (list (zpath * zbox)) :=
  all_some (map (fun p => option_map (pair p) (bounding_box p)) polys).
Definition hit (pt : zpt) (pb : zpath * zbox) : bool :=
  within_box pt (snd pb) && negb (point_in_polygon pt (fst pb) =? 0)%Z.
(** One point, after testing the box of everything. *)
Definition hit_any (all : zbox) (pbs : list (zpath * zbox)) (pt : zpt) : bool :=
  within_box pt all && existsb (hit pt) pbs.
(** ANY: for each polygon whose box meets the box of the group, each point. *)
Definition group_any (pbs : list (zpath * zbox)) (g : zpath) : option bool :=
  match bounding_box g with
  | None => None
  | Some gb => Some (existsb (fun pb => boxes_meet gb (snd pb) && existsb (fun pt => hit pt pb) g) pbs)
  end.
Inductive shortcut := NoShort | ShortAny | ShortAll.
(** Without polygons [polygons_bb[0]] is read outside the array (NoShort, ShortAll). *)
Definition inside_c (sc : shortcut) (groups polys : list zpath) : option (list bool) :=
  match boxed polys with
  | None => None
  | Some pbs =>
      let all := match pbs with [] => None | pb :: r => Some (fold_left join_box (map snd r) (snd pb)) end in
      match sc with
      | NoShort => match groups, all with
                   | g :: _, Some a => Some (map (hit_any a pbs) g)
                   | _, _ => None
                   end
      | ShortAny => all_some (map (group_any pbs) groups)
      | ShortAll => match all with Some a => Some (map (forallb (hit_any a pbs)) groups) | None => None end
      end
  end.

(** ** _gather_polys, operation.py 42-82

    The operand, with what [get_polygons()] gives. *)
Inductive item := ISet (l : list poly) | IRobust (l : list poly) | IRef (l : list poly) | IFlex (l : list poly) | IPoly (p : poly).
Inductive operand := ONone | OSet (l : list poly) | OObject (l : list poly) | OList (l : list item).
(** A FlexPath inside a list is not recognised (line 75 tests [args]) and is
    appended as it is; using it as a polygon raises. *)
Definition gather_item (i : item) : option (list poly) :=
  match i with
  | ISet l | IRobust l | IRef l => Some l
  | IFlex _ => None
  | IPoly p => Some [p]
  end.
Definition gather_polys (o : operand) : option (list poly) :=
  match o with
  | ONone => Some []
  | OSet l | OObject l => Some l
  | OList l => option_map (@concat poly) (all_some (map gather_item l))
  end.

(** inside, operation.py 265-299: the points are one list, or a list of groups. *)
Inductive points := Flat (l : list pt) | Grouped (any : bool) (gs : list (list pt)).
Definition py_inside (ps : points) (polys : operand) (precision : R) : option (list bool) :=
  match gather_polys polys with
  | None => None
  | Some l =>
      let zl := map (parse_polygon (1 / precision) true) l in
      match ps with
      | Flat [] => None
      | Flat pts => inside_c NoShort [map (snap (1 / precision)) pts] zl
      | Grouped _ [] | Grouped _ ([] :: _) => None
      | Grouped any gs => inside_c (if any then ShortAny else ShortAll) (map (map (snap (1 / precision))) gs) zl
      end
  end.

(** ** chop, clipper.cpp 5136-5230, and clip, 4903-4943 *)
Inductive op := Or | And | Xor | Not.
Section Engine.
Variable eng : op -> list zpath -> list zpath -> list zpath.

Definition rect (x0 x1 y0 y1 : Z) : zpath := [(x0, y0); (x1, y0); (x1, y1); (x0, y1)].
(** The positions between which each strip lies. *)
Fixpoint strips (pos : Z) (cuts : list Z) (last : Z) : list (Z * Z) :=
  match cuts with
  | [] => [(pos, last)]
  | c :: r => (pos, c) :: strips c r last
  end.
Definition chop (scaling : R) (p : poly) (cuts : list R) (axis : bool) : option (list (list poly)) :=
  let subj := parse_polygon scaling true p in
  match bounding_box subj with
  | None => None
  | Some (x0, x1, y0, y1) =>
      let zc := map (fun c => cround (scaling * c)) cuts in
      let clips := if axis then map (fun s => rect x0 x1 (fst s) (snd s)) (strips y0 zc y1)
                   else map (fun s => rect (fst s) (snd s) y0 y1) (strips x0 zc x1) in
      Some (map (fun c => map (map (unsnap scaling)) (eng And [subj] [c])) clips)
  end.
Definition clip (scaling : R) (o : op) (a b : list poly) : list poly :=
  map (map (unsnap scaling)) (eng o (map (parse_polygon scaling true) a) (map (parse_polygon scaling true) b)).

(** ** PolygonSet.fracture, polygon.py 326-381 *)
Fixpoint insert (x : R) (l : list R) : list R :=
  match l with [] => [x] | y :: r => if Rle_dec x y then x :: l else y :: insert x r end.
Definition rsort (l : list R) : list R := fold_right insert [] l.
(** [int(i * len / (ncuts + 1.0) + 0.5)] *)
Definition cut_index (len ncuts i : nat) : nat :=
  Z.to_nat (Int_part (INR i * INR len / (INR ncuts + 1) + / 2)).
(** [pts[index]]; a bad index raises IndexError *)
Definition cuts_of (pts : list R) (ncuts : nat) : option (list R) :=
  all_some (map (fun i => nth_error pts (cut_index (length pts) ncuts i)) (seq 1 ncuts)).
Definition fracture_one (scaling : R) (max_points : nat) (p : poly) : option (list poly) :=
  let pts0 := rsort (map fst p) in
  let pts1 := rsort (map snd p) in
  let ncuts := (length pts0 / max_points)%nat in
  let horizontal := if Rlt_dec (last pts1 0 - hd 0 pts1) (last pts0 0 - hd 0 pts0) then false else true in
  match cuts_of (if horizontal then pts1 else pts0) ncuts with
  | None => None
  | Some cuts => option_map (@concat poly) (chop scaling p cuts horizontal)
  end.
(** [l.pop(i)] *)
Definition pop {X} (i : nat) (l : list X) : list X := firstn i l ++ skipn (S i) l.
(** The three lists of the polygon set, and [ii]. *)
Fixpoint fracture_loop (fuel : nat) (scaling : R) (max_points ii : nat) (ps : list poly) (ls ds : list Z)
  : option (list poly * list Z * list Z) :=
  match fuel with
  | O => None
  | S n =>
      match nth_error ps ii with
      | None => Some (ps, ls, ds)
      | Some p =>
          if (max_points <? length p)%nat then
            match fracture_one scaling max_points p, nth_error ls ii, nth_error ds ii with
            | Some new, Some l, Some d =>
                fracture_loop n scaling max_points ii
                  (pop ii ps ++ new) (pop ii ls ++ repeat l (length new)) (pop ii ds ++ repeat d (length new))
            | _, _, _ => None
            end
          else fracture_loop n scaling max_points (S ii) ps ls ds
      end
  end.
Definition fracture (fuel : nat) (precision : R) (max_points : nat) (ps : list poly) (ls ds : list Z)
  : option (list poly * list Z * list Z) :=
  if (4 <? max_points)%nat then fracture_loop fuel (1 / precision) max_points 0 ps ls ds else Some (ps, ls, ds).

(** ** boolean, operation.py 251-262 *)
Definition py_boolean (fuel : nat) (o1 o2 : operand) (o : op) (precision : R) (max_points : nat) (layer dt : Z)
  : option (option (list poly * list Z * list Z)) :=
  let set l := option_map Some (fracture fuel precision max_points l (repeat layer (length l)) (repeat dt (length l))) in
  let run a b := match clip (1 / precision) o a b with [] => Some None | r => set r end in
  match gather_polys o1, gather_polys o2 with
  | Some p1, Some p2 =>
      match p2 with
      | [] => match o with
              | Not | Xor => match p1 with [] => Some None | _ => set p1 end
              | _ => match p1 with [] => None | _ => run (removelast p1) [last p1 []] end
              end
      | _ => run p1 p2
      end
  | _, _ => None
  end.

(** ** slice, operation.py 85-145 *)
(** [for r, p in zip(result, chopped): r.extend(p)] *)
Fixpoint extend_each (result chopped : list (list poly)) : list (list poly) :=
  match result, chopped with
  | r :: rs, c :: cs => (r ++ c) :: extend_each rs cs
  | rs, _ => rs
  end.
Fixpoint slice_all (scaling : R) (pos : list R) (axis : bool) (polys : list poly) (result : list (list poly)) : option (list (list poly)) :=
  match polys with
  | [] => Some result
  | p :: r => match chop scaling p pos axis with
              | None => None
              | Some c => slice_all scaling pos axis r (extend_each result c)
              end
  end.
Fixpoint mapi {X Y} (f : nat -> X -> Y) (i : nat) (l : list X) : list Y :=
  match l with [] => [] | x :: r => f i x :: mapi f (S i) r end.
Definition py_slice (o : operand) (position : list R) (axis : bool) (precision : R) (layer dt : list Z)
  : option (list (option (list poly * Z * Z))) :=
  match gather_polys o with
  | None => None
  | Some polys =>
      let pos := rsort position in
      option_map (mapi (fun i l => match l with
                                   | [] => None
                                   | _ => Some (l, nth (i mod length layer) layer 0%Z, nth (i mod length dt) dt 0%Z)
                                   end) 0)
                 (slice_all (1 / precision) pos axis polys (repeat [] (S (length pos))))
  end.

End Engine.
