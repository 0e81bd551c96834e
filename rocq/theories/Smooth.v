(** _hobby, gdspy/hobby.py 37-247: the control points of the smooth curves of Curve.I,
    FlexPath.smooth, RobustPath.smooth and Path.smooth.

    Complex numbers are points.  Coordinates are exact reals.  [solve] is
    numpy.linalg.solve: [solve n m b] for an n x n matrix and a vector, None if it
    raises.  The arguments [t_in] and [t_out] are lists here, after the numbers have been
    repeated (hobby.py 84-91), and [angles] is a list, after [None] has been replaced
    by a list of [None] (92-93); the three have one element for each point (numpy would
    raise IndexError, or ignore the excess). *)

From Coq Require Import Reals List ZArith Bool Arith.
From Verif Require Import Plane Flex.
Import ListNotations.
Open Scope R_scope.

(** ** Linear equations

    A row of the matrix: the assignments [m[r, k] = x] made to it, in order; the other
    elements are zero (numpy.zeros). *)
Definition row := list (nat * R).
Definition entry (r : row) (c : nat) : R := fold_left (fun acc a => if (fst a =? c)%nat then snd a else acc) r 0.

Section Hobby.
Variable solve : nat -> (nat -> nat -> R) -> (nat -> R) -> option (nat -> R).

Definition at_ (l : list R) (i : nat) : R := nth i l 0.
(** [(x + numpy.pi) % (2 * numpy.pi) - numpy.pi] *)
Definition wrap (x : R) : R := x + PI - 2 * PI * IZR (Int_part ((x + PI) / (2 * PI))) - PI.

(** ** Control points

    [c], [alpha] and the lengths divided by the distance, hobby.py 127-146 and 217-240 *)
Definition c_ : R := (3 - sqrt 5) / 2.
Definition alpha (th ph : R) : R := sqrt 2 * (sin th - / 16 * sin ph) * (sin ph - / 16 * sin th) * (cos th - cos ph).
Definition out_len (th ph t : R) : R := (2 + alpha th ph) / (1 + (1 - c_) * cos th + c_ * cos ph) / (3 * t).
Definition in_len (th ph t : R) : R := (2 - alpha th ph) / (1 + (1 - c_) * cos ph + c_ * cos th) / (3 * t).
(** [z + w * d * ...], [z' - w' * d * ...]; [a] and [a'] are the angles of w and w'. *)
Definition controls (z z' : pt) (d a a' th ph t_out t_in : R) : pt * pt :=
  (padd z (smul (d * out_len th ph t_out) (cos a, sin a)), psub z' (smul (d * in_len th ph t_in) (cos a', sin a'))).

(** ** Open curves, hobby.py 147-243 *)

Section Open.
Variables (z : list pt) (angles : list (option R)) (cs ce : R) (ti to : list R).
Definition pos (i : nat) : pt := nth i z (0, 0).
(** [n = z.size - 1], [d] and [delta], [psi] *)
Definition segs : nat := (length z - 1)%nat.
Definition v (i : nat) : pt := psub (pos (S i)) (pos i).
Definition d (i : nat) : R := len (v i).
Definition delta (i : nat) : R := along (v i).
Definition psi (i : nat) : R := wrap (delta (S i) - delta i).
Definition angle (i : nat) : option R := nth i angles None.
(** [theta[i] = angles[i] - delta[i]], [phi[j - 1] = delta[j - 1] - angles[j]] *)
Definition theta_given (i : nat) (a : R) : R := a - delta i.
Definition phi_given (j : nat) (a : R) : R := delta (j - 1) - a.
(** Rows of the system for z_i, ..., z_j, hobby.py 169-211; [nn = j - i].  Rows 1 to
    nn - 1 and nn to 2 nn - 2 come from [ii = 0 .. nn - 2]. *)
Definition open_row (i j r : nat) : row :=
  let nn := (j - i)%nat in
  if (r =? 0)%nat then
    match angle i with
    | None =>
        let to3 := at_ to 0 ^ 3 in
        let cti3 := cs * at_ ti 1 ^ 3 in
        [(0%nat, to3 * (1 - 3 * at_ ti 1) - cti3); (nn, to3 - cti3 * (1 - 3 * at_ to 0))]
    | Some _ => [(0%nat, 1); (nn, 0)]
    end
  else if (r =? 2 * nn - 1)%nat then
    match angle j with
    | None =>
        let ti3 := at_ ti segs ^ 3 in
        let cto3 := ce * at_ to (segs - 1) ^ 3 in
        [((nn - 1)%nat, ti3 - cto3 * (1 - 3 * at_ ti segs)); ((2 * nn - 1)%nat, ti3 * (1 - 3 * at_ to (segs - 1)) - cto3)]
    | Some _ => [((nn - 1)%nat, 0); ((2 * nn - 1)%nat, 1)]
    end
  else if (r <? nn)%nat then
    let ii := (r - 1)%nat in [(S ii, 1); ((nn + ii)%nat, 1)]
  else
    let ii := (r - nn)%nat in
    let i0 := (i + ii)%nat in let i1 := S i0 in let i2 := S i1 in
    [(ii, d i1 * at_ ti i2 * at_ ti i1 ^ 2);
     (S ii, - d i0 * at_ to i0 * at_ to i1 ^ 2 * (1 - 3 * at_ ti i2));
     ((nn + ii)%nat, d i1 * at_ ti i2 * at_ ti i1 ^ 2 * (1 - 3 * at_ to i0));
     (S (nn + ii), - d i0 * at_ to i0 * at_ to i1 ^ 2)].
Definition open_coef (i j r : nat) : R :=
  let nn := (j - i)%nat in
  if (r =? 0)%nat then match angle i with Some a => theta_given i a | None => 0 end
  else if (r =? 2 * nn - 1)%nat then match angle j with Some a => phi_given j a | None => 0 end
  else if (r <? nn)%nat then - psi (i + r - 1) else 0.
(** theta[i:j] and phi[i:j] *)
Definition solve_piece (i j : nat) : option (list (R * R)) :=
  let nn := (j - i)%nat in
  match angle i, angle j with
  | Some a, Some b =>
      if (1 <? nn)%nat then
        option_map (fun x => map (fun k => (x k, x (nn + k)%nat)) (seq 0 nn)) (solve (2 * nn) (fun r => entry (open_row i j r)) (open_coef i j))
      else Some [(theta_given i a, phi_given j b)]
  | _, _ => option_map (fun x => map (fun k => (x k, x (nn + k)%nat)) (seq 0 nn)) (solve (2 * nn) (fun r => entry (open_row i j r)) (open_coef i j))
  end.
(** The next point after [i] with an angle, or the last point, hobby.py 158-163 *)
Fixpoint next_given (left j : nat) : nat :=
  match left with
  | O => segs
  | S m => match angle j with Some _ => j | None => next_given m (S j) end
  end.
Definition piece_end (i : nat) : nat := next_given (segs - i) (S i).
(** The loop [while i < n]; every piece is at least one segment long. *)
Fixpoint solve_from (fuel i : nat) : option (list (R * R)) :=
  match fuel with
  | O => Some []
  | S m =>
      if (i <? segs)%nat then
        match solve_piece i (piece_end i), solve_from m (piece_end i) with
        | Some a, Some b => Some (a ++ b)
        | _, _ => None
        end
      else Some []
  end.
(** The angles of [w], hobby.py 214-216, and all control points *)
Definition w_angle (s : list (R * R)) (k : nat) : R :=
  if (k <? segs)%nat then delta k + fst (nth k s (0, 0)) else delta (segs - 1) - snd (nth (segs - 1) s (0, 0)).
Definition hobby_open : option (list (pt * pt)) :=
  option_map (fun s =>
    map (fun k => controls (pos k) (pos (S k)) (d k) (w_angle s k) (w_angle s (S k)) (fst (nth k s (0, 0))) (snd (nth k s (0, 0)))
                    (at_ to k) (at_ ti (S k))) (seq 0 segs)) (solve_from segs 0).
End Open.

(** ** Closed curves without angles, hobby.py 105-146 *)

Section Closed.
Variables (z : list pt) (ti to : list R).
Let n : nat := length z.
Definition nxt (i : nat) : nat := (S i mod length z)%nat.
Definition prv (i : nat) : nat := ((i + (length z - 1)) mod length z)%nat.
Definition cv (i : nat) : pt := psub (pos z (nxt i)) (pos z i).
Definition cd (i : nat) : R := len (cv i).
Definition cdelta (i : nat) : R := along (cv i).
Definition cpsi (i : nat) : R := wrap (cdelta i - cdelta (prv i)).
Definition closed_row (r : nat) : row :=
  if (r <? n)%nat then [(r, 1); ((n + prv r)%nat, 1)]
  else
    let i := (r - n)%nat in let i1 := nxt i in let i2 := nxt i1 in
    [(i, cd i1 * at_ ti i2 * at_ ti i1 ^ 2);
     (i1, - cd i * at_ to i * at_ to i1 ^ 2 * (1 - 3 * at_ ti i2));
     ((n + i)%nat, cd i1 * at_ ti i2 * at_ ti i1 ^ 2 * (1 - 3 * at_ to i));
     ((n + i1)%nat, - cd i * at_ to i * at_ to i1 ^ 2)].
Definition closed_coef (r : nat) : R := if (r <? n)%nat then - cpsi r else 0.
Definition hobby_closed : option (list (pt * pt)) :=
  option_map (fun x =>
    let th i := x i in let ph i := x (n + i)%nat in let a i := th i + cdelta i in
    map (fun i => controls (pos z i) (pos z (nxt i)) (cd i) (a i) (a (nxt i)) (th i) (ph i) (at_ to i) (at_ ti (nxt i))) (seq 0 n))
    (solve (2 * n) (fun r => entry (closed_row r)) closed_coef).
End Closed.

(** ** The function, hobby.py 37-104 and 240-247 *)

(** numpy.roll(l, -k) and numpy.roll(l, k) for k <= len(l) *)
Definition rotl {X} (k : nat) (l : list X) : list X := skipn k l ++ firstn k l.
Definition rotr {X} (k : nat) (l : list X) : list X := rotl (length l - k) l.
Definition is_given (a : option R) : bool := match a with Some _ => true | None => false end.
(** [while angles[rotate] is None: rotate += 1] *)
Fixpoint first_given (angles : list (option R)) : nat :=
  match angles with None :: r => S (first_given r) | _ => O end.
Definition hobby (z : list pt) (angles : list (option R)) (cs ce : R) (ti to : list R) (cycle : bool) : option (list (pt * pt)) :=
  if cycle && existsb is_given angles then
    let k := first_given angles in
    option_map (rotr k)
      (hobby_open (rotl k z ++ [nth k z (0, 0)]) (rotl k angles ++ [nth k angles None]) cs ce
         (rotl k ti ++ [nth k ti 0]) (rotl k to ++ [nth k to 0]))
  else if cycle then hobby_closed z ti to
  else hobby_open z angles cs ce ti to.
End Hobby.
