(** L1Path: gdspy/polygon.py 2044-2305.  Coordinates are exact reals; [None] is an exception. *)

From Coq Require Import Reals List ZArith Bool.
From Verif Require Import Plane Path.
Import ListNotations.
Open Scope R_scope.

(** [d0], 2144 and 2150: the two signs *)
Definition d_up (n : nat) (distance : R) (i : nat) : R := INR i * distance - (INR n - 1) * distance * / 2.
Definition d_down (n : nat) (distance : R) (i : nat) : R := (INR n - 1) * distance * / 2 - INR i * distance.
(** The two sides of one parallel path, [paths[ii]] *)
Definition sides := (list pt * list pt)%type.
Definition grow (s : sides) (a b : pt) : sides := (fst s ++ [a], snd s ++ [b]).
Definition end_of (l : list pt) : pt := last l (0, 0).
(** 2141-2164; the direction is one of the four strings *)
Definition l1_start (n : nat) (distance w : R) (p : pt) (h : heading) (i : nat) : option sides :=
  match h with
  | Px => let d := d_up n distance i in Some ([(fst p, d + snd p - w)], [(fst p, d + snd p + w)])
  | Py => let d := d_down n distance i in Some ([(d + fst p + w, snd p)], [(d + fst p - w, snd p)])
  | Nx => let d := d_down n distance i in Some ([(fst p, d + snd p + w)], [(fst p, d + snd p - w)])
  | Ny => let d := d_up n distance i in Some ([(d + fst p - w, snd p)], [(d + fst p + w, snd p)])
  | Toward _ => None
  end.
(** 2167-2206 for one path *)
Definition l1_corner (n : nat) (distance w : R) (p : pt) (h : heading) (l t : R) (i : nat) (s : sides) : sides :=
  let '(x, y) := p in
  match h with
  | Px => let d := d_up n distance i in
          grow s (x + l - (d - w) * t, snd (end_of (fst s))) (x + l - (d + w) * t, snd (end_of (snd s)))
  | Py => let d := d_up n distance i in
          grow s (fst (end_of (fst s)), y + l - (d - w) * t) (fst (end_of (snd s)), y + l - (d + w) * t)
  | Nx => let d := d_down n distance i in
          grow s (x - l - (d + w) * t, snd (end_of (fst s))) (x - l - (d - w) * t, snd (end_of (snd s)))
  | Ny => let d := d_down n distance i in
          grow s (fst (end_of (fst s)), y - l - (d + w) * t) (fst (end_of (snd s)), y - l - (d - w) * t)
  | Toward _ => s
  end.
(** [self.x], [self.y] after a section *)
Definition l1_step (p : pt) (h : heading) (l : R) : pt :=
  match h with
  | Px => (fst p + l, snd p) | Py => (fst p, snd p + l) | Nx => (fst p - l, snd p) | Ny => (fst p, snd p - l)
  | Toward _ => p
  end.
(** The middle of the closest pair, 2210-2215 and 2219-2224 ([1e300] as infinity) *)
Definition closest (pairs : list (R * R)) : R :=
  match pairs with
  | [] => 0
  | (a, b) :: r =>
      fst (fold_left (fun (best : R * R) xy => let '(x, y) := xy in
                        if Rlt_dec (Rabs (x - y)) (snd best) then (/ 2 * (x + y), Rabs (x - y)) else best)
             r (/ 2 * (a + b), Rabs (a - b)))
  end.
Definition before_end (l : list pt) : pt := end_of (removelast l).
(** 2208-2231 for one path: the polygon and the sides that remain *)
Definition l1_cut (h : heading) (s : sides) : poly * sides :=
  let '(r, l) := s in
  let pairs (c : pt -> R) := [(c (before_end r), c (end_of r)); (c (before_end r), c (end_of l));
                              (c (before_end l), c (end_of r)); (c (before_end l), c (end_of l))] in
  let '(p0, p1) := match h with
                   | Px | Nx => let x0 := closest (pairs fst) in ((x0, snd (end_of r)), (x0, snd (end_of l)))
                   | _ => let y0 := closest (pairs snd) in ((fst (end_of r), y0), (fst (end_of l), y0))
                   end in
  (removelast r ++ [p0; p1] ++ rev (removelast l), ([p0; end_of r], [p1; end_of l])).
(** 2235-2238 *)
Definition l1_turn (t : R) (h : heading) : heading :=
  match h with
  | Px => if Rlt_dec 0 t then Py else Ny
  | Py => if Rlt_dec 0 t then Nx else Px
  | Nx => if Rlt_dec 0 t then Ny else Py
  | Ny => if Rlt_dec 0 t then Px else Nx
  | Toward a => Toward a
  end.
Record l1 := L1 { l_at : pt; l_h : heading; l_paths : list sides; l_points : Z;
                  l_polys : list poly; l_layers : list Z; l_dts : list Z }.
Definition index_map {X Y} (f : nat -> X -> Y) (l : list X) : list Y := map (fun p => f (fst p) (snd p)) (combine (seq 0 (length l)) l).
(** One pass of the loop, 2165-2238 *)
Definition l1_pass (n : nat) (distance w : R) (mx : nat) (la dt : list Z) (len t : R) (s : l1) : l1 :=
  let paths := index_map (l1_corner n distance w (l_at s) (l_h s) len t) (l_paths s) in
  let p := l1_step (l_at s) (l_h s) len in
  let points := (l_points s - 1)%Z in
  if (points =? 0)%Z
  then L1 p (l1_turn t (l_h s)) (map (fun x => snd (l1_cut (l_h s) x)) paths) (Z.of_nat (mx / 2) - 2)
          (l_polys s ++ map (fun x => fst (l1_cut (l_h s) x)) paths) (l_layers s ++ la) (l_dts s ++ dt)
  else L1 p (l1_turn t (l_h s)) paths points (l_polys s) (l_layers s) (l_dts s).
(** [length[jj]]: too few lengths raise IndexError *)
Fixpoint l1_loop (n : nat) (distance w : R) (mx : nat) (la dt : list Z) (lens turns : list R) (s : l1) : option l1 :=
  match turns, lens with
  | [], _ => Some s
  | t :: turns', len :: lens' => l1_loop n distance w mx la dt lens' turns' (l1_pass n distance w mx la dt len t s)
  | _, [] => None
  end.
(** 2239-2262 for one path *)
Definition l1_close (p : pt) (h : heading) (len : R) (s : sides) : sides :=
  match h with
  | Px => grow s (fst p + len, snd (end_of (fst s))) (fst p + len, snd (end_of (snd s)))
  | Py => grow s (fst (end_of (fst s)), snd p + len) (fst (end_of (snd s)), snd p + len)
  | Nx => grow s (fst p - len, snd (end_of (fst s))) (fst p - len, snd (end_of (snd s)))
  | Ny => grow s (fst (end_of (fst s)), snd p - len) (fst (end_of (snd s)), snd p - len)
  | Toward _ => s
  end.
(** 2239-2266; [lastlen] is [length[-1]] and [jlen] is [length[jj]] of the last pass,
    which is used (2262) for the final position in direction '-y'; without turns [jj] is unbound. *)
Definition l1_finish (lastlen : R) (jlen : option R) (la dt : list Z) (s : l1) : option l1 :=
  let paths := map (l1_close (l_at s) (l_h s) lastlen) (l_paths s) in
  let done p := Some (L1 p (l_h s) paths (l_points s) (l_polys s ++ map (fun x => fst x ++ rev (snd x)) paths)
                         (l_layers s ++ la) (l_dts s ++ dt)) in
  match l_h s with
  | Ny => match jlen with Some j => done (fst (l_at s), snd (l_at s) - j) | None => None end
  | h => done (l1_step (l_at s) h lastlen)
  end.
Definition l1_path (start : pt) (h : heading) (width : R) (lens turns : list R) (n : nat) (distance : R) (mx : nat) (la dt : tags) : option l1 :=
  let w := width * / 2 in
  match tag_list n la, tag_list n dt, all_some (map (l1_start n distance w start h) (seq 0 n)), lens with
  | Some las, Some dts, Some paths, _ :: _ =>
      let points := match mx with O => Z.of_nat (length turns + 1) | _ => (Z.of_nat (mx / 2) - 1)%Z end in
      match l1_loop n distance w mx las dts lens turns (L1 start h paths points [] [] []) with
      | None => None
      | Some s => l1_finish (last lens 0) (match turns with [] => None | _ => Some (nth (length turns - 1) lens 0) end) las dts s
      end
  | _, _, _, _ => None
  end.
(** rotate, 2279-2305 *)
Definition l1_rotate (a : R) (c : pt) (s : l1) : l1 :=
  L1 (rotate_pt a c (l_at s)) (Toward (angle_of (l_h s) + a)) (l_paths s) (l_points s) (map (map (rotate_pt a c)) (l_polys s))
     (l_layers s) (l_dts s).
