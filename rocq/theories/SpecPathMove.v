(** What moving a Path and drawing with it have to do with each other (C75). *)

From Coq Require Import Reals List ZArith Bool.
From Verif Require Import Plane Curve Flex Path SpecPath.
Import ListNotations.
Open Scope R_scope.

(** A vector turned by [a] and made [k] times as long; a point turned about the
    origin, magnified and then displaced by [v]; and back. *)
Definition carry_vec (a k : R) (u : pt) : pt := smul k (spin a u).
Definition carry (a k : R) (v p : pt) : pt := padd (carry_vec a k p) v.
Definition uncarry (a k : R) (v p : pt) : pt := smul (/ k) (spin (- a) (psub p v)).

(** The call that draws, on a path that was carried, what [c] draws on the path
    before: all lengths are [k] times as long, all directions are turned by [a], points
    (if they are not relative) are carried. *)
Definition carry_final (k : R) (x : final) : final :=
  match x with Same => Same | To y => To (k * y) | Along g => Along (fun u => k * g u) end.
Definition carried (a k : R) (v : pt) (c : pcall) : pcall :=
  let times := option_map (Rmult k) in
  let place (rel : bool) := if rel then carry_vec a k else carry a k v in
  match c with
  | PSegment l dir fw fd axis la dt =>
      PSegment (k * l) (option_map (fun h => Toward (turn_angle h + a)) dir) (times fw) (times fd) (k * axis) la dt
  | PArc r a0 a1 tol np mx fw fd la dt => PArc (k * r) (a0 + a) (a1 + a) (k * tol) np mx (times fw) (times fd) la dt
  | PTurn r t tol np mx fw fd la dt => PTurn (k * r) t (k * tol) np mx (times fw) (times fd) la dt
  | PParametric f df tol ev mx fw fd rel la dt =>
      PParametric (fun u => place rel (f u)) (option_map (fun g u => carry_vec a k (g u)) df) (k * tol) ev mx
        (carry_final k fw) (carry_final k fd) rel la dt
  | PBezier l tol ev mx fw fd rel la dt =>
      PBezier (map (place rel) l) (k * tol) ev mx (carry_final k fw) (carry_final k fd) rel la dt
  | PSmooth hs cyc l tol ev mx fws fds rel la dt =>
      PSmooth (fun pts => map (fun q => (carry a k v (fst q), carry a k v (snd q))) (hs (map (uncarry a k v) pts))) cyc
        (map (place rel) l) (k * tol) ev mx (option_map (map (carry_final k)) fws) (option_map (map (carry_final k)) fds) rel la dt
  | _ => c
  end.
(** Calls that draw. *)
Definition drawing (c : pcall) : Prop := asked c <> None.

(** The same path: everything is equal, but a direction may be given in another way
    (as an angle instead of a name, or with a full turn added). *)
Definition alike (s t : path) : Prop :=
  p_at s = p_at t /\ p_w s = p_w t /\ p_n s = p_n t /\ toward (p_dir s) = toward (p_dir t) /\ p_dist s = p_dist t /\ p_len s = p_len t /\
  p_polys s = p_polys t /\ p_layers s = p_layers t /\ p_dts s = p_dts t.
(** The same drawing, ready to be continued in the same way: as [alike], without the
    length and the distance of parallel paths. *)
Definition looks_alike (s t : path) : Prop :=
  p_at s = p_at t /\ p_w s = p_w t /\ p_n s = p_n t /\ toward (p_dir s) = toward (p_dir t) /\
  p_polys s = p_polys t /\ p_layers s = p_layers t /\ p_dts s = p_dts t.
(** Both calls fail, or both succeed with results that are in relation. *)
Definition both (rel : path -> path -> Prop) (x y : option path) : Prop :=
  match x, y with Some s, Some t => rel s t | None, None => True | _, _ => False end.

(** ** Mirroring *)

(** A vector reflected at a line through the origin that is at the angle [m / 2]; the
    angle of the line from [p1] to [p2], doubled. *)
Definition flip_vec (m : R) (u : pt) : pt := (fst u * cos m + snd u * sin m, fst u * sin m - snd u * cos m).
Definition double_angle (p1 p2 : pt) : R := 2 * atan2 (snd (psub p2 p1)) (fst (psub p2 p1)).
Definition opposite (t : turning) : turning :=
  match t with Right => Left | Left => Right | RightBack => LeftBack | LeftBack => RightBack | By x => By (- x) end.
(** The call that draws the mirror image: left and right are exchanged. *)
Definition mirrored (p1 p2 : pt) (c : pcall) : pcall :=
  let m := double_angle p1 p2 in
  let place (rel : bool) := if rel then flip_vec m else mirror_pt p1 p2 in
  match c with
  | PSegment l dir fw fd axis la dt => PSegment l (option_map (fun h => Toward (m - turn_angle h)) dir) fw fd (- axis) la dt
  | PArc r a0 a1 tol np mx fw fd la dt => PArc r (m - a0) (m - a1) tol np mx fw fd la dt
  | PTurn r t tol np mx fw fd la dt => PTurn r (opposite t) tol np mx fw fd la dt
  | PParametric f df tol ev mx fw fd rel la dt =>
      PParametric (fun u => place rel (f u)) (option_map (fun g u => flip_vec m (g u)) df) tol ev mx fw fd rel la dt
  | PBezier l tol ev mx fw fd rel la dt => PBezier (map (place rel) l) tol ev mx fw fd rel la dt
  | PSmooth hs cyc l tol ev mx fws fds rel la dt =>
      PSmooth (fun pts => map (fun q => (mirror_pt p1 p2 (fst q), mirror_pt p1 p2 (snd q))) (hs (map (mirror_pt p1 p2) pts))) cyc
        (map (place rel) l) tol ev mx fws fds rel la dt
  | _ => c
  end.
(** Arcs and turns by an angle of zero are left out: they reverse the path. *)
Definition moves_on (c : pcall) : Prop :=
  match c with PArc _ a0 a1 _ _ _ _ _ _ _ => a0 <> a1 | PTurn _ t _ _ _ _ _ _ _ => t <> By 0 | _ => True end.
(** The same polygon: the list may start at another vertex, and go round the other way. *)
Definition same_outline (p q : poly) : Prop := exists a b, p = a ++ b /\ (q = b ++ a \/ q = rev (b ++ a)).
(** The same path, with the same polygons. *)
Definition mirror_alike (s t : path) : Prop :=
  p_at s = p_at t /\ p_w s = p_w t /\ p_n s = p_n t /\ toward (p_dir s) = toward (p_dir t) /\ p_dist s = p_dist t /\ p_len s = p_len t /\
  Forall2 same_outline (p_polys s) (p_polys t) /\ p_layers s = p_layers t /\ p_dts s = p_dts t.
