(** C25: arrays survive their encoding in three points. *)

From Coq Require Import Reals Lra Lia List ZArith Bool Psatz.
From Verif Require Import Plane Hier SpecPlane SpecHier Grid SpecGrid PropGrid.
Import ListNotations.
Open Scope R_scope.

Ltac pairs := repeat match goal with |- (_, _) = (_, _) => f_equal end.

(** The three points of an array as written, and the origin and spacing as read. *)
Definition written (pl : place) (columns rows : nat) (sp : pt) : pt * pt * pt := array_points (origin pl) (p_rot pl) (p_refl pl) columns rows sp.
Definition reread (pl : place) (columns rows : nat) (xy : pt * pt * pt) : pt * pt :=
  array_back (has_strans (p_rot pl) (p_mag pl) (p_refl pl)) (p_rot pl) (p_refl pl) columns rows xy.
(** The placement with another origin. *)
Definition at_origin (pl : place) (o : pt) : place := Place (Some o) (p_rot pl) (p_mag pl) (p_refl pl) (p_arr pl).
(** A point written and read: on the grid of pitch [g]. *)
Definition snap (g : R) (p : pt) : pt := get Rmult g (put Rmult (/ g) p).
Definition snap3 (g : R) (xy : pt * pt * pt) : pt * pt * pt := let '(a, b, c) := xy in (snap g a, snap g b, snap g c).

(** The three points written are those of the GDSII format: the origin, and where the
    origin of the element one past the last column (row) would be. *)
Theorem C25_written : forall pl columns rows sp,
  written pl columns rows sp = (origin pl, element pl columns 0 sp (0, 0), element pl 0 rows sp (0, 0)).
Proof.
  intros pl n m [sx sy]. unfold written, array_points, element, similar, angle. destruct (origin pl) as [ox oy].
  destruct (p_rot pl) as [d|], (p_refl pl); unfold padd, turn, smul, flip, about; cbn [fst snd INR]; rewrite ?cos_0, ?sin_0;
    pairs; ring.
Qed.
(** Without rounding: origin and spacing come back. *)
Theorem C25_exact : forall pl columns rows sp, (0 < columns)%nat -> (0 < rows)%nat ->
  reread pl columns rows (written pl columns rows sp) = (origin pl, sp).
Proof.
  intros pl n m [sx sy] N M. apply lt_0_INR in N. apply lt_0_INR in M. unfold reread, written, array_points, array_back, has_strans.
  destruct (origin pl) as [ox oy]. destruct (p_rot pl) as [d|].
  - pose proof (sin2_cos2 (d * PI / 180)) as T. unfold Rsqr in T. unfold about. cbn [fst snd]. set (c := cos _) in *. set (s := sin _) in *.
    replace (((ox + INR n * sx - ox) * c - (oy - oy) * s + ox - ox) * c - ((ox + INR n * sx - ox) * s + (oy - oy) * c + oy - oy) * - s + ox)
      with (INR n * sx * (s * s + c * c) + ox) by ring.
    assert (E : forall w, ((ox - ox) * c - (w - oy) * s + ox - ox) * - s + ((ox - ox) * s + (w - oy) * c + oy - oy) * c + oy = w).
    { intros w. replace w with ((w - oy) * (s * s + c * c) + oy) at 3 by (rewrite T; ring). ring. }
    destruct (p_mag pl), (p_refl pl); cbn [fst snd]; rewrite E, T; pairs; field; lra.
  - destruct (p_mag pl), (p_refl pl); cbn [fst snd]; pairs; field; lra.
Qed.

Lemma snap_near : forall g p, 0 < g -> within (g / 2) p (snap g p).
Proof.
  intros g [x y] G. unfold within, snap, get, put. cbn [fst snd].
  assert (K : forall x, Rabs (g * IZR (rint (x * / g)) - x) <= g / 2).
  { intros z. destruct (rint_spec (z * / g)) as [A _]. set (k := IZR (rint _)) in *.
    replace (g * k - z) with (- ((z * / g - k) * g)) by (field; lra). rewrite Rabs_Ropp, Rabs_mult, (Rabs_pos_eq g) by lra. nra. }
  split; apply K.
Qed.
Lemma convex_err : forall a b a' b' t e, 0 <= t <= 1 -> Rabs (a' - a) <= e -> Rabs (b' - b) <= e ->
  Rabs (((1 - t) * a' + t * b') - ((1 - t) * a + t * b)) <= e.
Proof. intros a b a' b' t e T A B. apply abs_le in A. apply abs_le in B. apply Rabs_le. nra. Qed.
Lemma ratio_01 : forall i n, (0 < n)%nat -> (i <= n)%nat -> 0 <= INR i / INR n <= 1.
Proof.
  intros i n N L. apply lt_0_INR in N. apply le_INR in L. pose proof (pos_INR i). assert (0 < / INR n) by now apply Rinv_0_lt_compat. unfold Rdiv. split; [nra|].
  rewrite <- (Rinv_r (INR n)) by lra. apply Rmult_le_compat_r; lra.
Qed.
(** On the grid, without rotation: every element moves by at most half the pitch in each
    coordinate, however many columns and rows there are. *)
Theorem C25_rounded : forall pl columns rows sp g i j p, 0 < g -> p_rot pl = None -> (0 < columns)%nat -> (0 < rows)%nat -> (i <= columns)%nat -> (j <= rows)%nat ->
  let '(o', sp') := reread pl columns rows (snap3 g (written pl columns rows sp)) in
  within (g / 2) (element pl i j sp p) (element (at_origin pl o') i j sp' p).
Proof.
  intros pl n m [sx sy] g i j [x y] G R0 N M I J.
  pose proof (ratio_01 i n N I) as TI. pose proof (ratio_01 j m M J) as TJ. apply lt_0_INR in N. apply lt_0_INR in M.
  unfold reread, written, array_points, snap3. rewrite R0. cbn [has_strans]. destruct (origin pl) as [ox oy] eqn:O.
  set (b := p_refl pl) in *.
  set (P1 := snap g (ox, oy)). pose proof (snap_near g (ox, oy) G) as [E1 F1]. fold P1 in E1, F1. cbn [fst snd] in E1, F1.
  set (P2 := snap g (fst (ox, oy) + INR n * fst (sx, sy), snd (ox, oy))). pose proof (snap_near g (ox + INR n * sx, oy) G) as [E2 _]. change (snap g (ox + INR n * sx, oy)) with P2 in E2. cbn [fst snd] in E2.
  match goal with |- context [snap g (if b then ?u else ?v)] => set (q3 := if b then u else v) end. set (P3 := snap g q3). pose proof (snap_near g q3 G) as [_ F3]. fold P3 in F3.
  assert (Q3 : snd q3 = if b then oy - INR m * sy else oy + INR m * sy) by (unfold q3; destruct b; cbn [fst snd]; ring).
  rewrite Q3 in F3. clear Q3. clearbody q3 P1 P2 P3. destruct P1 as [a1 b1], P2 as [a2 b2], P3 as [a3 b3]. cbn [fst snd] in *.
  assert (BACK : array_back (match p_mag pl with Some _ => true | None => if b then true else false end) None b n m ((a1, b1), (a2, b2), (a3, b3))
     = ((a1, b1), ((a2 - a1) / INR n, (if b then b1 - b3 else b3 - b1) / INR m))).
  { unfold array_back. destruct (p_mag pl), b; cbn [fst snd]; pairs; field; lra. }
  match goal with |- let '(_, _) := ?t in _ => replace t with ((a1, b1), ((a2 - a1) / INR n, (if b then b1 - b3 else b3 - b1) / INR m)) end.
  clear BACK. unfold element, similar, at_origin, angle, factor, origin. cbn [p_rot p_mag p_refl p_org p_arr]. rewrite R0. fold b. fold (origin pl). rewrite O.
  unfold padd, turn, smul, within. rewrite cos_0, sin_0. set (k := match p_mag pl with Some k => k | None => 1 end).
  assert (X : Rabs (((1 - INR i / INR n) * a1 + INR i / INR n * a2) - ((1 - INR i / INR n) * ox + INR i / INR n * (ox + INR n * sx))) <= g / 2) by (now apply convex_err).
  assert (Y : Rabs (((1 - INR j / INR m) * b1 + INR j / INR m * b3) - ((1 - INR j / INR m) * oy + INR j / INR m * (if b then oy - INR m * sy else oy + INR m * sy))) <= g / 2) by (now apply convex_err).
  split; [match type of X with Rabs ?t <= _ => match goal with |- Rabs ?u <= _ => replace u with t; [exact X|] end end
         |match type of Y with Rabs ?t <= _ => match goal with |- Rabs ?u <= _ => replace u with t; [exact Y|] end end];
    unfold flip; destruct b; cbn [fst snd]; field; lra.
Qed.
(** With any rotation: by at most the pitch (as a distance). *)
Lemma box_dot : forall g e f c s, Rabs e <= g / 2 -> Rabs f <= g / 2 -> c * c + s * s = 1 -> (e * c + f * s) * (e * c + f * s) <= g * g / 2.
Proof.
  intros g e f c s A B T. apply abs_le in A. apply abs_le in B.
  assert (E : e * e <= g * g / 4) by nra. assert (F : f * f <= g * g / 4) by nra.
  assert (C : (e * c + f * s) * (e * c + f * s) + (e * s - f * c) * (e * s - f * c) = (e * e + f * f) * (c * c + s * s)) by ring. rewrite T in C.
  pose proof (Rle_0_sqr (e * s - f * c)) as P. unfold Rsqr in P. lra.
Qed.
Lemma convex_sqr : forall x y t b, 0 <= t <= 1 -> x * x <= b -> y * y <= b -> ((1 - t) * x + t * y) * ((1 - t) * x + t * y) <= b.
Proof.
  intros x y t b T X Y. pose proof (Rle_0_sqr (x - y)) as P. unfold Rsqr in P.
  replace (((1 - t) * x + t * y) * ((1 - t) * x + t * y)) with ((1 - t) * (x * x) + t * (y * y) - t * (1 - t) * ((x - y) * (x - y))) by ring.
  assert (0 <= t * (1 - t) * ((x - y) * (x - y))) by (apply Rmult_le_pos; [nra|exact P]). nra.
Qed.
Theorem C25_rotated : forall pl columns rows sp g i j p, 0 < g -> (0 < columns)%nat -> (0 < rows)%nat -> (i <= columns)%nat -> (j <= rows)%nat ->
  let '(o', sp') := reread pl columns rows (snap3 g (written pl columns rows sp)) in
  sqrt (dist2 (element pl i j sp p) (element (at_origin pl o') i j sp' p)) <= g.
Proof.
  intros pl n m sp g i j p G N M I J.
  destruct (p_rot pl) as [d|] eqn:R0.
  2: { pose proof (C25_rounded pl n m sp g i j p G R0 N M I J) as W. destruct (reread _ _ _ _) as [o' sp'].
       destruct (element pl i j sp p) as [x y], (element (at_origin pl o') i j sp' p) as [x' y']. destruct W as [A B]. cbn [fst snd] in A, B.
       rewrite <- (sqrt_square g) by lra. apply sqrt_le_1_alt. unfold dist2, dot, psub. cbn [fst snd]. apply abs_le in A. apply abs_le in B. nra. }
  destruct sp as [sx sy], p as [x y].
  pose proof (ratio_01 i n N I) as TI. pose proof (ratio_01 j m M J) as TJ. apply lt_0_INR in N. apply lt_0_INR in M.
  unfold reread, written, array_points, snap3. rewrite R0. cbn [has_strans]. destruct (origin pl) as [ox oy] eqn:O.
  set (b := p_refl pl) in *. pose proof (sin2_cos2 (d * PI / 180)) as T. unfold Rsqr in T.
  set (sn := sin (d * PI / 180)) in *. set (cs := cos (d * PI / 180)) in *.
  set (h := if b then - sy else sy).
  assert (Q2 : about (ox, oy) cs sn (fst (ox, oy) + INR n * fst (sx, sy), snd (ox, oy)) = (ox + INR n * sx * cs, oy + INR n * sx * sn)).
  { unfold about. cbn [fst snd]. f_equal; ring. }
  match goal with |- context [about (ox, oy) cs sn ?w] => lazymatch w with context [b] => set (W := w) end end.
  assert (Q3 : about (ox, oy) cs sn W = (ox - INR m * h * sn, oy + INR m * h * cs)).
  { unfold about, h, W. destruct b; cbn [fst snd]; f_equal; ring. }
  rewrite Q2, Q3. clear Q2 Q3.
  pose proof (snap_near g (ox, oy) G) as [E1 F1]. pose proof (snap_near g (ox + INR n * sx * cs, oy + INR n * sx * sn) G) as [E2 F2].
  pose proof (snap_near g (ox - INR m * h * sn, oy + INR m * h * cs) G) as [E3 F3].
  destruct (snap g (ox, oy)) as [a1 b1], (snap g (ox + INR n * sx * cs, oy + INR n * sx * sn)) as [a2 b2], (snap g (ox - INR m * h * sn, oy + INR m * h * cs)) as [a3 b3].
  cbn [fst snd] in *.
  set (U := (a2 - a1) * cs + (b2 - b1) * sn). set (V := (b3 - b1) * cs - (a3 - a1) * sn).
  assert (BACK : array_back true (Some d) b n m ((a1, b1), (a2, b2), (a3, b3)) = ((a1, b1), (U / INR n, (if b then - V else V) / INR m))).
  { unfold array_back, U, V. fold sn cs. destruct b; cbn [fst snd]; pairs; field; lra. }
  match goal with |- let '(_, _) := ?t in _ => replace t with ((a1, b1), (U / INR n, (if b then - V else V) / INR m)) end.
  clear BACK. unfold element, similar, at_origin, angle, factor, origin. cbn [p_rot p_mag p_refl p_org p_arr]. rewrite R0. fold b. fold (origin pl). rewrite O.
  unfold padd, turn, smul, dist2, dot, psub. fold sn cs. set (k := match p_mag pl with Some k => k | None => 1 end).
  rewrite <- (sqrt_square g) by lra. apply sqrt_le_1_alt.
  set (ti := INR i / INR n) in *. set (tj := INR j / INR m) in *.
  set (u1 := (a1 - ox) * cs + (b1 - oy) * sn). set (v1 := (a1 - ox) * - sn + (b1 - oy) * cs).
  set (u2 := (a2 - (ox + INR n * sx * cs)) * cs + (b2 - (oy + INR n * sx * sn)) * sn).
  set (v3 := (a3 - (ox - INR m * h * sn)) * - sn + (b3 - (oy + INR m * h * cs)) * cs).
  assert (B1 : u1 * u1 <= g * g / 2) by (apply box_dot; [assumption|assumption|lra]).
  assert (B2 : u2 * u2 <= g * g / 2) by (apply box_dot; [assumption|assumption|lra]).
  assert (B3 : v1 * v1 <= g * g / 2) by (apply box_dot; [assumption|assumption|lra]).
  assert (B4 : v3 * v3 <= g * g / 2) by (apply box_dot; [assumption|assumption|lra]).
  pose proof (convex_sqr u1 u2 ti _ TI B1 B2) as C1. pose proof (convex_sqr v1 v3 tj _ TJ B3 B4) as C2.
  set (X := (1 - ti) * u1 + ti * u2) in *. set (Y := (1 - tj) * v1 + tj * v3) in *.
  apply (Rle_trans _ (X * X + Y * Y)); [|lra]. apply Req_le.
  assert (UU : U = INR n * sx * (sn * sn + cs * cs) + (u2 - u1)) by (unfold U, u1, u2; ring). rewrite T, Rmult_1_r in UU.
  assert (VV : V = INR m * h * (sn * sn + cs * cs) + (v3 - v1)) by (unfold V, v1, v3; ring). rewrite T, Rmult_1_r in VV.
  assert (TU : INR i * (U / INR n) = INR i * sx + ti * (u2 - u1)) by (rewrite UU; unfold ti; field; lra).
  assert (TV : (if b then - (INR j * ((if b then - V else V) / INR m)) else INR j * ((if b then - V else V) / INR m)) = INR j * h + tj * (v3 - v1)).
  { rewrite VV. unfold tj. destruct b; field; lra. }
  assert (HH : (if b then - (INR j * sy) else INR j * sy) = INR j * h) by (unfold h; destruct b; ring).
  assert (DX : (ox - a1) = - (u1 * cs - v1 * sn)).
  { replace (u1 * cs - v1 * sn) with ((a1 - ox) * (sn * sn + cs * cs)) by (unfold u1, v1; ring). rewrite T. ring. }
  assert (DY : (oy - b1) = - (u1 * sn + v1 * cs)).
  { replace (u1 * sn + v1 * cs) with ((b1 - oy) * (sn * sn + cs * cs)) by (unfold u1, v1; ring). rewrite T. ring. }
  assert (FL : forall w z, flip b (w, z) = (w, if b then - z else z)) by (intros; unfold flip; destruct b; reflexivity).
  rewrite !FL. cbn [fst snd]. rewrite TU, TV, HH.
  set (L1 := k * x). set (L2 := k * (if b then - y else y)).
  replace (ox + (INR i * sx * cs - INR j * h * sn) + (L1 * cs - L2 * sn) - (a1 + ((INR i * sx + ti * (u2 - u1)) * cs - (INR j * h + tj * (v3 - v1)) * sn) + (L1 * cs - L2 * sn)))
    with (- (X * cs - Y * sn)) by (replace (- (X * cs - Y * sn)) with ((ox - a1) - (ti * (u2 - u1) * cs - tj * (v3 - v1) * sn)) by (rewrite DX; unfold X, Y; ring); ring).
  replace (oy + (INR i * sx * sn + INR j * h * cs) + (L1 * sn + L2 * cs) - (b1 + ((INR i * sx + ti * (u2 - u1)) * sn + (INR j * h + tj * (v3 - v1)) * cs) + (L1 * sn + L2 * cs)))
    with (- (X * sn + Y * cs)) by (replace (- (X * sn + Y * cs)) with ((oy - b1) - (ti * (u2 - u1) * sn + tj * (v3 - v1) * cs)) by (rewrite DY; unfold X, Y; ring); ring).
  replace (- (X * cs - Y * sn) * - (X * cs - Y * sn) + - (X * sn + Y * cs) * - (X * sn + Y * cs)) with ((X * X + Y * Y) * (sn * sn + cs * cs)) by ring.
  rewrite T. ring.
Qed.
Print Assumptions C25_written.
Print Assumptions C25_exact.
Print Assumptions C25_rounded.
Print Assumptions C25_rotated.
(** Four columns and two rows, reflected and turned by 90 degrees. *)
Example C25_case : let pl := Place (Some (1, 2)) (Some 90) None true (Some (4%nat, 2%nat, (3, 5))) in
  written pl 4 2 (3, 5) = ((1, 2), (1, 14), (11, 2)) /\ reread pl 4 2 ((1, 2), (1, 14), (11, 2)) = ((1, 2), (3, 5)).
Proof.
  assert (H : 90 * PI / 180 = PI / 2) by field. intros pl.
  assert (W : written pl 4 2 (3, 5) = ((1, 2), (1, 14), (11, 2))).
  { unfold written, array_points, pl, about, origin. cbn [p_org p_rot p_refl fst snd INR]. rewrite H, cos_PI2, sin_PI2. pairs; ring. }
  split; [exact W|]. rewrite <- W. apply C25_exact; apply Nat.lt_0_succ.
Qed.
