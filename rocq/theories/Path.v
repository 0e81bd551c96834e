(** Path: gdspy/polygon.py 1022-2038.

    Coordinates are exact reals.  [None] is an exception, coordinates that numpy
    makes NaN, or running out of [fuel] in the refinement loop.  Warnings are left out. *)

From Coq Require Import Reals Lra List ZArith Bool.
From Verif Require Import Plane Curve Flex.
Import ListNotations.
Open Scope R_scope.

(** The attribute [direction], polygon.py 1048: one of four strings, or an angle. *)
Inductive heading := Px | Nx | Py | Ny | Toward (a : R).
(** [ca], [sa] of segment, polygon.py 1276-1290 *)
Definition cos_of (h : heading) : R :=
  match h with Px => 1 | Nx => -1 | Py => 0 | Ny => 0 | Toward a => cos a end.
Definition sin_of (h : heading) : R :=
  match h with Px => 0 | Nx => 0 | Py => 1 | Ny => -1 | Toward a => sin a end.
(** [_directions_dict[direction] * pi], polygon.py 42, or the angle itself *)
Definition angle_of (h : heading) : R :=
  match h with Px => 0 * PI | Py => / 2 * PI | Nx => 1 * PI | Ny => - / 2 * PI | Toward a => a end.

(** The attributes, polygon.py 1073-1084.  [p_w] is half of the width.  The three
    lists of PolygonSet are kept apart here: their alignment is a theorem. *)
Record path := Path {
  p_at : pt; p_w : R; p_n : nat; p_dir : heading; p_dist : R; p_len : R;
  p_polys : list poly; p_layers : list Z; p_dts : list Z }.
Definition new_path (width : R) (start : pt) (n : nat) (distance : R) : path :=
  Path start (width * / 2) n Px distance 0 [] [] [].

(** The arguments [layer] and [datatype]: a number or a list, polygon.py 1326-1335.
    An empty list raises ZeroDivisionError. *)
Inductive tags := Tag (z : Z) | Tags (l : list Z).
Definition tag_list (n : nat) (t : tags) : option (list Z) :=
  match t with
  | Tag z => Some (repeat z n)
  | Tags [] => None
  | Tags l => Some (firstn n (concat (repeat l (n / length l + 1))))
  end.

(** ** segment, polygon.py 1229-1336 *)

(** [ii * distance - (n - 1) * distance * 0.5] *)
Definition lateral (n : nat) (distance : R) (i : nat) : R :=
  INR i * distance - (INR n - 1) * distance * / 2.
(** The four corners, and the removal of one of them for a width of zero *)
Definition seg_poly (ca sa : R) (p q : pt) (w0 w1 d0 d1 : R) : poly :=
  let l := [(fst p + (d0 - w0) * sa, snd p - (d0 - w0) * ca);
            (fst p + (d0 + w0) * sa, snd p - (d0 + w0) * ca);
            (fst q + (d1 + w1) * sa, snd q - (d1 + w1) * ca);
            (fst q + (d1 - w1) * sa, snd q - (d1 - w1) * ca)] in
  let l := if Req_EM_T w1 0 then removelast l else l in
  if Req_EM_T w0 0 then tl l else l.
Definition or_old (o : option R) (x : R) : R := match o with Some y => y | None => x end.
Definition half (o : option R) : option R := option_map (fun x => x * / 2) o.
(** [(self.w != 0) or (old_w != 0)] *)
Definition visible (w0 w1 : R) : bool :=
  if Req_EM_T w1 0 then if Req_EM_T w0 0 then false else true else true.
Definition p_segment (l : R) (dir : option heading) (fw fd : option R) (axis : R) (la dt : tags) (s : path) : option path :=
  let h := match dir with Some h => h | None => p_dir s end in
  let ca := cos_of h in
  let sa := sin_of h in
  let q := (fst (p_at s) + (l * ca + axis * sa), snd (p_at s) + (l * sa - axis * ca)) in
  let w := or_old (half fw) (p_w s) in
  let d := or_old fd (p_dist s) in
  if visible (p_w s) w then
    match tag_list (p_n s) la, tag_list (p_n s) dt with
    | Some las, Some dts =>
        Some (Path q w (p_n s) h d (p_len s + sqrt (l ^ 2 + axis ^ 2))
                (p_polys s ++ map (fun i => seg_poly ca sa (p_at s) q (p_w s) w
                                              (lateral (p_n s) (p_dist s) i) (lateral (p_n s) d i)) (seq 0 (p_n s)))
                (p_layers s ++ las) (p_dts s ++ dts))
    | _, _ => None
    end
  else Some (Path q w (p_n s) h d (p_len s) (p_polys s) (p_layers s) (p_dts s)).

(** ** arc, polygon.py 1338-1495 *)

(** [number_of_points] when not given, 1421-1437.  numpy's arccos gives NaN outside
    [-1, 1] (int raises); of zero it divides by zero. *)
Definition auto_points (tol r a0 a1 : R) : option nat :=
  let c := 1 - tol / r in
  if Req_EM_T r 0 then None
  else if Rle_dec (-1) c then
    if Rlt_dec c 1 then
      Some (Nat.max 6 (2 + 2 * Z.to_nat (Int_part (/ 2 * Rabs (a1 - a0) / acos c + / 2))))
    else None
  else None.
(** [int(ceil(number_of_points / max_points))], 1438-1442 *)
Definition piece_count (np mx : nat) : nat :=
  match mx with O => 1%nat | _ => ((np + (mx - 1)) / mx)%nat end.
(** One polygon, 1459-1483: the outer side forwards, the inner side backwards, with
    one point less on the outer side, and one more on the inner side, for an end of
    width zero.  [rad[0]] raises IndexError if the inner side is empty. *)
Definition polar (c : pt) (ar : R * R) : pt := (cos (fst ar) * snd ar + fst c, sin (fst ar) * snd ar + snd c).
Definition arc_poly (c : pt) (np : nat) (a0 a1 r0 r1 w0 w1 : R) : option poly :=
  let pts2 := (np / 2)%nat in
  let pts1 := (np - pts2)%nat in
  let out := map (polar c) (combine (linspace a0 a1 pts1) (linspace (r0 + w0) (r1 + w1) pts1)) in
  let out := if Req_EM_T w1 0 then removelast out else out in
  let out := if Req_EM_T w0 0 then tl out else out in
  let more (w : R) := if Req_EM_T w 0 then 1%nat else 0%nat in
  let pts2 := (pts2 + more w1 + more w0)%nat in
  if (pts2 =? 0)%nat then None
  else Some (out ++ map (polar c) (combine (linspace a1 a0 pts2) (linspace (r1 - w1) (r0 - w0) pts2))).
Fixpoint all_some {X} (l : list (option X)) : option (list X) :=
  match l with
  | [] => Some []
  | Some x :: r => option_map (cons x) (all_some r)
  | None :: _ => None
  end.
Definition at_ (l : list R) (j : nat) : R := nth j l 0.
(** The polygons of one piece [j] *)
Definition arc_piece (c : pt) (radius : R) (n np : nat) (angles widths dists : list R) (j : nat) : option (list poly) :=
  all_some (map (fun i => arc_poly c np (at_ angles j) (at_ angles (j + 1))
                            (radius + lateral n (at_ dists j) i) (radius + lateral n (at_ dists (j + 1)) i)
                            (at_ widths j) (at_ widths (j + 1))) (seq 0 n)).
Definition p_arc (radius a0 a1 tol : R) (np : option nat) (mx : nat) (fw fd : option R) (la dt : tags) (s : path) : option path :=
  let c := (fst (p_at s) - radius * cos a0, snd (p_at s) - radius * sin a0) in
  let q := (fst c + radius * cos a1, snd c + radius * sin a1) in
  let h := Toward (if Rlt_dec a0 a1 then a1 + PI * / 2 else a1 - PI * / 2) in
  let w := or_old (half fw) (p_w s) in
  let d := or_old fd (p_dist s) in
  let np := match np with
            | Some k => Some k
            | None => auto_points tol (radius + Rmax (p_dist s) d * (INR (p_n s) - 1) * / 2 + Rmax (p_w s) w) a0 a1
            end in
  match np with
  | None => None
  | Some np =>
      let pieces := piece_count np mx in
      if (pieces =? 0)%nat then None
      else
        let np := (np / pieces)%nat in
        let widths := linspace (p_w s) w (pieces + 1) in
        let dists := linspace (p_dist s) d (pieces + 1) in
        let angles := linspace a0 a1 (pieces + 1) in
        if visible (p_w s) w then
          match all_some (map (arc_piece c radius (p_n s) np angles widths dists) (seq 0 pieces)),
                tag_list (p_n s) la, tag_list (p_n s) dt with
          | Some ps, Some las, Some dts =>
              Some (Path q w (p_n s) h d
                      (p_len s + fold_right Rplus 0 (map (fun j => Rabs ((at_ angles (j + 1) - at_ angles j) * radius)) (seq 0 pieces)))
                      (p_polys s ++ concat ps) (p_layers s ++ concat (repeat las pieces)) (p_dts s ++ concat (repeat dts pieces)))
          | _, _, _ => None
          end
        else Some (Path q w (p_n s) h d (p_len s) (p_polys s) (p_layers s) (p_dts s))
  end.

(** ** turn, polygon.py 1497-1602 *)
Inductive turning := Right | Left | RightBack | LeftBack | By (a : R).
(** [delta_i], [delta_f] and [exact], 1557-1577 *)
Definition deltas (t : turning) : R * R * bool :=
  match t with
  | Right => (PI / 2, 0, true)
  | RightBack => (PI / 2, - (PI / 2), true)
  | Left => (- (PI / 2), 0, true)
  | LeftBack => (- (PI / 2), PI / 2, true)
  | By a => if Rlt_dec a 0 then (PI / 2, PI / 2 + a, false) else (- (PI / 2), - (PI / 2) + a, false)
  end.
Definition named (h : heading) : bool := match h with Toward _ => false | _ => true end.
(** [_directions_list[int(round(direction / _halfpi)) % 4]], 1601.  (round takes a
    tie to the even number; the quotient is never a tie here.) *)
Definition nearest (x : R) : Z := Int_part (x + / 2).
Definition compass (a : R) : heading :=
  match (nearest (a / (PI / 2)) mod 4)%Z with 0%Z => Px | 1%Z => Py | 2%Z => Nx | _ => Ny end.
(** [self.direction] as an angle, 1578-1585 *)
Definition turn_angle (h : heading) : R :=
  match h with Px => 0 | Nx => PI | Py => PI / 2 | Ny => - (PI / 2) | Toward a => a end.
Definition with_dir (s : path) (h : heading) : path :=
  Path (p_at s) (p_w s) (p_n s) h (p_dist s) (p_len s) (p_polys s) (p_layers s) (p_dts s).
Definition p_turn (radius : R) (t : turning) (tol : R) (np : option nat) (mx : nat) (fw fd : option R) (la dt : tags) (s : path)
  : option path :=
  let '(di, df, exact) := deltas t in
  let exact := (exact && named (p_dir s))%bool in
  let a := turn_angle (p_dir s) in
  match p_arc radius (a + di) (a + df) tol np mx fw fd la dt (with_dir s (Toward a)) with
  | None => None
  | Some s' => Some (if exact then with_dir s' (compass (angle_of (p_dir s'))) else s')
  end.

(** ** parametric, polygon.py 1604-1801 *)

(** The loop 1697-1708: as in Curve.v, with the smallest distance [delta] *)
Fixpoint halve (fuel : nat) (f : R -> pt) (err delta : R) (prev : R * pt) (rest : list (R * pt)) : option (list (R * pt) * R) :=
  match fuel, rest with
  | _, [] => Some ([], delta)
  | O, _ => None
  | S n, next :: more =>
      let midpoint := / 2 * (fst next + fst prev) in
      let midvalue := f midpoint in
      let test_err := psub (smul (/ 2) (padd (snd next) (snd prev))) midvalue in
      if Rlt_dec err (fst test_err ^ 2 + snd test_err ^ 2)
      then halve n f err (Rmin delta (fst next - midpoint)) prev ((midpoint, midvalue) :: next :: more)
      else option_map (fun r => (next :: fst r, snd r)) (halve n f err delta next more)
  end.
(** 1715-1728; [u0] is 0 and [u1] is 1.  numpy.vstack raises for two points only. *)
Definition slopes (f : R -> pt) (df : option (R -> pt)) (delta : R) (ups : list (R * pt)) : option (list pt) :=
  match df with
  | Some g => Some (map (fun up => g (fst up)) ups)
  | None =>
      let inner := map (fun up => psub (f (fst up + delta)) (f (fst up - delta))) (tl (removelast ups)) in
      match inner with
      | [] => None
      | _ => Some (psub (f delta) (snd (hd (0, (0, 0)) ups)) :: inner ++ [psub (snd (last ups (0, (0, 0)))) (f (1 - delta))])
      end
  end.
(** [final_width] and [final_distance]: nothing, a number or a function, 1730-1748 *)
Inductive final := Same | To (x : R) | Along (g : R -> R).
Definition track (k : R) (f : final) (old u : R) : R :=
  match f with Same => old | To x => old + (x * k - old) * u | Along g => k * g u end.
Definition track_end (k : R) (f : final) (old ulast : R) : R :=
  match f with Same => old | To x => x * k | Along g => k * g ulast end.
(** [derivs[:, ::-1] * _mpone / norm], 1756-1760; None for a derivative of zero *)
Definition leftward (v : pt) : option pt :=
  if Req_EM_T (len v) 0 then None else Some (smul (/ len v) (- snd v, fst v)).
(** A row: the point, the unit vector to the left, the half-width and the distance *)
Definition row := (pt * pt * R * R)%type.
Definition edge (n : nat) (sg : R) (i : nat) (r : row) : pt :=
  let '(x, d, w, dist) := r in padd x (smul (dist * (INR i - (INR n - 1) * / 2) + sg * w) d).
Definition row_w (r : row) : R := snd (fst r).
Definition row0 : row := ((0, 0), (0, 0), 0, 0).
(** 1777-1789 *)
Definition strip (n : nat) (rows : list row) (i : nat) : poly :=
  let p1 := map (edge n 1 i) rows in
  let p2 := rev (map (edge n (-1) i) rows) in
  let p2 := if Req_EM_T (row_w (last rows row0)) 0 then tl p2 else p2 in
  let p1 := if Req_EM_T (row_w (hd row0 rows)) 0 then tl p1 else p1 in
  p1 ++ p2.
(** The loop 1773-1800: [i0] starts each chunk, and is the last row of the one before *)
Fixpoint chunks {X} (fuel m : nat) (l : list X) : list (list X) :=
  match fuel, l with
  | S k, _ :: _ :: _ => firstn m l :: chunks k m (skipn (Nat.min m (length l) - 1) l)
  | _, _ => []
  end.
(** 1768-1771 *)
Definition chunk_size (mx np : nat) : nat := if (mx <? 4)%nat then np else (mx / 2)%nat.
Definition chord_sum (l : list pt) : R := fold_right Rplus 0 (pairwise (fun p q => len (psub q p)) l).
Definition p_parametric (fuel : nat) (f : R -> pt) (df : option (R -> pt)) (tol : R) (evals mx : nat) (fw fd : final) (rel : bool)
  (la dt : tags) (s : path) : option path :=
  match linspace 0 1 evals with
  | u0 :: (u1 :: _) as us =>
      match halve fuel f (tol ^ 2) u1 (u0, f u0) (map (fun u => (u, f u)) us) with
      | None => None
      | Some (more, delta) =>
          let ups := (u0, f u0) :: more in
          match slopes f df (delta * / 2) ups with
          | None => None
          | Some derivs =>
              match all_some (map leftward derivs), tag_list (p_n s) la, tag_list (p_n s) dt with
              | Some dx, Some las, Some dts =>
                  let x0 := map (fun up => if rel then padd (snd up) (p_at s) else snd up) ups in
                  let width := map (fun up => track (/ 2) fw (p_w s) (fst up)) ups in
                  let dist := map (fun up => track 1 fd (p_dist s) (fst up)) ups in
                  let ulast := fst (last ups (0, (0, 0))) in
                  let rows := combine (combine (combine x0 dx) width) dist in
                  let cs := chunks (length rows) (chunk_size mx (length rows)) rows in
                  let dl := last dx (0, 0) in
                  Some (Path (last x0 (0, 0)) (track_end (/ 2) fw (p_w s) ulast) (p_n s) (Toward (atan2 (- fst dl) (snd dl)))
                          (track_end 1 fd (p_dist s) ulast) (p_len s + chord_sum (map snd ups))
                          (p_polys s ++ flat_map (fun c => map (strip (p_n s) c) (seq 0 (p_n s))) cs)
                          (p_layers s ++ concat (repeat las (length cs))) (p_dts s ++ concat (repeat dts (length cs))))
              | _, _, _ => None
              end
          end
      end
  | _ => None
  end.

(** ** bezier and smooth, polygon.py 1803-2038 *)
Definition p_bezier (fuel : nat) (points : list pt) (tol : R) (evals mx : nat) (fw fd : final) (rel : bool) (la dt : tags) (s : path)
  : option path :=
  match points with
  | [] => None
  | _ =>
      let pts := (if rel then (0, 0) else p_at s) :: points in
      let dpts := pairwise (fun p q => smul (INR (length pts - 1)) (psub q p)) pts in
      p_parametric fuel (bezier pts) (Some (bezier dpts)) tol evals mx fw fd rel la dt s
  end.
(** [hs]: the control points from _hobby, one pair for each section; the lists of
    widths and distances must be long enough. *)
Fixpoint p_sections (fuel : nat) (secs : list (pt * pt * pt)) (fws fds : list final) (tol : R) (evals mx : nat) (la dt : tags) (s : path)
  : option path :=
  match secs, fws, fds with
  | [], _, _ => Some s
  | (a, b, e) :: r, fw :: fws', fd :: fds' =>
      match p_bezier fuel [a; b; e] tol evals mx fw fd false la dt s with
      | None => None
      | Some s' => p_sections fuel r fws' fds' tol evals mx la dt s'
      end
  | _, _, _ => None
  end.
Definition p_smooth (fuel : nat) (hs : list pt -> list (pt * pt)) (cycle : bool) (points : list pt) (tol : R) (evals mx : nat)
  (fws fds : option (list final)) (rel : bool) (la dt : tags) (s : path) : option path :=
  let pts := if rel then p_at s :: map (fun p => padd p (p_at s)) points else p_at s :: points in
  let ks := hs pts in
  let args o := match o with Some l => l | None => repeat Same (length ks) end in
  let secs := combine ks (tl pts) in
  match p_sections fuel (map (fun ke => (fst (fst ke), snd (fst ke), snd ke)) secs) (args fws) (args fds) tol evals mx la dt s with
  | None => None
  | Some s' =>
      if cycle then
        match rev ks, rev (args fws), rev (args fds) with
        | (a, b) :: _, fw :: _, fd :: _ => p_bezier fuel [a; b; hd (0, 0) pts] tol evals mx fw fd false la dt s'
        | _, _, _ => None
        end
      else Some s'
  end.

(** ** Transformations, polygon.py 1114-1227 *)
Definition moved (f : pt -> pt) (w : R) (h : heading) (s : path) : path :=
  Path (f (p_at s)) w (p_n s) h (p_dist s) (p_len s) (map (map f) (p_polys s)) (p_layers s) (p_dts s).
Definition p_translate (v : pt) (s : path) : path := moved (fun p => padd p v) (p_w s) (p_dir s) s.
Definition p_rotate (a : R) (c : pt) (s : path) : path := moved (rotate_pt a c) (p_w s) (Toward (angle_of (p_dir s) + a)) s.
Definition p_scale (sx : R) (sy : option R) (c : pt) (s : path) : path := moved (scale_pt sx sy c) (p_w s * sx) (p_dir s) s.
Definition p_mirror (p1 p2 : pt) (s : path) : path :=
  let vec := psub p2 p1 in
  moved (mirror_pt p1 p2) (p_w s) (Toward (2 * atan2 (snd vec) (fst vec) - angle_of (p_dir s))) s.
