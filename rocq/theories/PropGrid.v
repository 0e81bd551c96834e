(** C51 (rereading), C52 (rounding) and C25 (arrays). *)

From Coq Require Import Reals Lra Lia List ZArith Bool Psatz.
From Verif Require Import Plane Hier SpecHier Grid SpecGrid.
Import ListNotations.
Open Scope R_scope.

Lemma abs_le : forall x e, Rabs x <= e -> - e <= x <= e.
Proof. intros x e H. pose proof (Rle_abs x). pose proof (Rle_abs (- x)). rewrite Rabs_Ropp in *. lra. Qed.
Lemma rint_spec : forall x, nearest_even x (rint x).
Proof.
  intros x. unfold rint. destruct (base_Int_part x) as [A B]. set (f := Int_part x) in *. set (d := x - IZR f) in *.
  assert (D : 0 <= d < 1) by (unfold d; lra).
  unfold nearest_even. destruct (Rlt_dec d (/ 2)); [|destruct (Rlt_dec (/ 2) d)]; [| |destruct (Z.even f) eqn:E].
  - fold d. rewrite Rabs_pos_eq by lra. split; [lra|]. intros Z. lra.
  - rewrite plus_IZR. replace (x - (IZR f + 1)) with (- (1 - d)) by (unfold d; lra). rewrite Rabs_Ropp, Rabs_pos_eq by lra. split; [lra|]. intros Z. lra.
  - fold d. rewrite Rabs_pos_eq by lra. split; [lra|]. intros _. exact E.
  - rewrite plus_IZR. replace (x - (IZR f + 1)) with (- (1 - d)) by (unfold d; lra). rewrite Rabs_Ropp, Rabs_pos_eq by lra. split; [lra|]. intros _.
    rewrite Z.even_add, E. reflexivity.
Qed.
Lemma nearest_even_unique : forall x y z z', x <= y -> nearest_even x z -> nearest_even y z' -> (z <= z')%Z.
Proof.
  intros x y z z' L [A1 A2] [B1 B2]. destruct (Z.le_gt_cases z z') as [H|H]; [exact H|exfalso].
  assert (H1 : IZR z' + 1 <= IZR z) by (rewrite <- plus_IZR; apply IZR_le; lia).
  apply abs_le in A1. apply abs_le in B1.
  assert (E1 : x - IZR z = - / 2) by lra. assert (E2 : y - IZR z' = / 2) by lra. assert (E3 : IZR z = IZR z' + 1) by lra.
  assert (A3 : Z.even z = true) by (apply A2; rewrite E1, Rabs_Ropp; apply Rabs_pos_eq; lra).
  assert (B3 : Z.even z' = true) by (apply B2; rewrite E2; apply Rabs_pos_eq; lra).
  rewrite <- plus_IZR in E3. apply eq_IZR in E3. rewrite E3, Z.even_add, B3 in A3. discriminate.
Qed.
Lemma rint_near : forall x k, Rabs (x - IZR k) < / 2 -> rint x = k.
Proof.
  intros x k H. destruct (rint_spec x) as [A _]. apply Rabs_def2 in H. apply abs_le in A.
  assert (H1 : IZR (rint x) < IZR k + 1) by lra. assert (H2 : IZR k < IZR (rint x) + 1) by lra.
  rewrite <- plus_IZR in H1, H2. apply lt_IZR in H1. apply lt_IZR in H2. lia.
Qed.
(** The rounding is to the nearest integer, ties to even; it keeps the order, and integers. *)
Theorem C52_rounding : forall x, nearest_even x (rint x) /\ (forall y, x <= y -> (rint x <= rint y)%Z) /\
  (forall z, nearest_even x z -> rint x = z) /\ (forall k, rint (IZR k) = k).
Proof.
  intros x. split; [apply rint_spec|]. split; [intros y L; eapply nearest_even_unique; [exact L|apply rint_spec|apply rint_spec]|]. split.
  - intros z N. apply Z.le_antisymm; eapply nearest_even_unique; try apply Rle_refl; try exact N; apply rint_spec.
  - intros k. apply rint_near. rewrite Rminus_eq_0, Rabs_R0. lra.
Qed.
(** Written and read back, a point moves by at most half the precision in each
    coordinate: in the units of the file for 'skip' and 'import', and in metres (each
    library's unit) for 'convert'. *)
Theorem C52_points : forall u v m p, 0 < unit u -> 0 < precision u -> 0 < unit v ->
  let rec := stored Rdiv u in let '(factor, w) := read_units Rdiv m rec v in
  let q := get Rmult factor (put Rmult (multiplier Rdiv u) p) in
  match m with
  | Convert => within (precision u / 2) (smul (unit u) p) (smul (unit w) q)
  | _ => within (precision u / unit u / 2) p q
  end.
Proof.
  intros u v m [x y] U P V.
  assert (K : forall x, Rabs (IZR (rint (x * (unit u / precision u))) * precision u - x * unit u) <= precision u / 2).
  { intros z. destruct (rint_spec (z * (unit u / precision u))) as [A _]. set (k := IZR (rint _)) in *.
    replace (k * precision u - z * unit u) with (- ((z * (unit u / precision u) - k) * precision u)) by (field; lra).
    rewrite Rabs_Ropp, Rabs_mult, (Rabs_pos_eq (precision u)) by lra. nra. }
  assert (K2 : forall x, Rabs (precision u / unit u * IZR (rint (x * (unit u / precision u))) - x) <= precision u / unit u / 2).
  { intros z. specialize (K z). set (k := IZR (rint _)) in *. replace (precision u / unit u * k - z) with ((k * precision u - z * unit u) * / unit u) by (field; lra).
    rewrite Rabs_mult, (Rabs_pos_eq (/ unit u)) by (apply Rlt_le, Rinv_0_lt_compat; lra).
    replace (precision u / unit u / 2) with (precision u / 2 * / unit u) by (field; lra). apply Rmult_le_compat_r; [apply Rlt_le, Rinv_0_lt_compat; lra|exact K]. }
  destruct m; cbn [read_units stored fst snd]; unfold within, get, put, multiplier; cbn [fst snd].
  - split; apply K2.
  - split; apply K2.
  - unfold smul. cbn [fst snd]. split.
    + replace (unit v * (precision u / unit v * IZR (rint (x * (unit u / precision u)))) - unit u * x)
        with (IZR (rint (x * (unit u / precision u))) * precision u - x * unit u) by (field; lra). apply K.
    + replace (unit v * (precision u / unit v * IZR (rint (y * (unit u / precision u)))) - unit u * y)
        with (IZR (rint (y * (unit u / precision u))) * precision u - y * unit u) by (field; lra). apply K.
Qed.
Print Assumptions C52_rounding.
Print Assumptions C52_points.
Example C52_case : put Rmult (multiplier Rdiv (Units 1 (1/1000))) (1.0005, -2.4996) = (1000, -2500)%Z.
Proof.
  unfold put, multiplier. cbn [fst snd unit precision]. f_equal.
  - destruct (C52_rounding (1.0005 * (1 / (1 / 1000)))) as [_ [_ [H _]]]. apply H. split.
    + apply Rabs_le. lra.
    + reflexivity.
  - apply rint_near. apply Rabs_def1; lra.
Qed.

(** ** Rereading *)
Lemma eps_small : 0 < / 2 ^ 53 < / 1000000000000000.
Proof.
  split; [apply Rinv_0_lt_compat, pow_lt; lra|]. apply Rinv_lt_contravar.
  - apply Rmult_lt_0_compat; [lra|apply pow_lt; lra].
  - lra.
Qed.
(** If the product of factor and multiplier is 1 up to 2^-40, accurate multiplications
    bring every 32-bit coordinate back. *)
Theorem C51_factor : forall mul F M k, accurate mul Rmult -> Rabs (F * M - 1) <= / 2 ^ 40 -> (Z.abs k <= 2 ^ 31)%Z ->
  rint (mul (mul F (IZR k)) M) = k.
Proof.
  intros mul F M k A FM K. apply rint_near. destruct eps_small as [E0 E1]. set (e := / 2 ^ 53) in *.
  assert (KB : Rabs (IZR k) <= 2147483648). { rewrite <- abs_IZR. apply IZR_le. exact K. }
  assert (FB : / 2 ^ 40 < / 1000000000000). { apply Rinv_lt_contravar; [apply Rmult_lt_0_compat; [lra|apply pow_lt; lra]|lra]. }
  set (a := mul F (IZR k)). pose proof (A F (IZR k)) as H1. fold a in H1. pose proof (A a M) as H2. set (b := mul a M) in *.
  set (K' := IZR k) in *. set (d1 := a - F * K') in *. set (d2 := b - a * M) in *.
  (* b - K' = d2 + d1 * M + (F * M - 1) * K' *)
  replace (b - K') with (d2 + (d1 * M + (F * M - 1) * K')) by (unfold d1, d2; ring).
  assert (FMB : Rabs (F * M) <= 1 + / 1000000000000).
  { replace (F * M) with ((F * M - 1) + 1) by ring. eapply Rle_lt_trans in FB; [|exact FM]. eapply Rle_trans; [apply Rabs_triang|]. rewrite (Rabs_pos_eq 1) by lra. lra. }
  assert (B1 : Rabs (d1 * M) <= e * (Rabs (F * M) * Rabs K')).
  { rewrite Rabs_mult. replace (e * (Rabs (F * M) * Rabs K')) with ((e * Rabs (F * K')) * Rabs M) by (rewrite !Rabs_mult; ring).
    apply Rmult_le_compat_r; [apply Rabs_pos|exact H1]. }
  assert (P1 : 0 <= Rabs K') by apply Rabs_pos. assert (P2 : 0 <= Rabs (F * M)) by apply Rabs_pos.
  assert (FK : Rabs (F * M) * Rabs K' <= (1 + / 1000000000000) * 2147483648) by (apply Rmult_le_compat; lra).
  assert (B1' : Rabs (d1 * M) <= / 100000).
  { eapply Rle_trans; [exact B1|]. apply (Rle_trans _ (/ 1000000000000000 * ((1 + / 1000000000000) * 2147483648))); [|lra].
    apply Rmult_le_compat; [lra|nra|lra|exact FK]. }
  assert (B2 : Rabs d2 <= e * (Rabs (F * M) * Rabs K' + Rabs (d1 * M))).
  { eapply Rle_trans; [exact H2|]. apply Rmult_le_compat_l; [lra|]. replace (a * M) with (F * M * K' + d1 * M) by (unfold d1; ring).
    eapply Rle_trans; [apply Rabs_triang|]. rewrite (Rabs_mult (F * M)). lra. }
  assert (B2' : Rabs d2 <= / 100000).
  { eapply Rle_trans; [exact B2|]. apply (Rle_trans _ (/ 1000000000000000 * ((1 + / 1000000000000) * 2147483648 + 1))); [|lra].
    apply Rmult_le_compat; [lra|pose proof (Rabs_pos (d1 * M)); nra|lra|lra]. }
  assert (B3 : Rabs ((F * M - 1) * K') <= / 100).
  { rewrite Rabs_mult. apply (Rle_trans _ (/ 1000000000000 * 2147483648)); [|lra]. apply Rmult_le_compat; [apply Rabs_pos|exact P1|lra|exact KB]. }
  eapply Rle_lt_trans; [apply Rabs_triang|]. eapply Rle_lt_trans; [apply Rplus_le_compat_l, Rabs_triang|]. lra.
Qed.
Lemma rel_error : forall x y, Rabs (x - y) <= / 2 ^ 53 * Rabs y -> exists d, x = y * (1 + d) /\ Rabs d <= / 2 ^ 53.
Proof.
  intros x y H. destruct (Req_EM_T y 0) as [->|N].
  - exists 0. rewrite Rabs_R0, Rmult_0_r in H. pose proof (Rabs_pos (x - 0)). assert (Z : Rabs (x - 0) = 0) by lra.
    split.
    + destruct (Req_EM_T (x - 0) 0) as [E|E]; [lra|]. apply Rabs_no_R0 in E. lra.
    + rewrite Rabs_R0. destruct eps_small. lra.
  - exists ((x - y) / y). split; [field; exact N|]. unfold Rdiv. rewrite Rabs_mult, Rabs_Rinv by exact N.
    apply (Rmult_le_reg_r (Rabs y)); [now apply Rabs_pos_lt|]. rewrite Rmult_assoc, Rinv_l by (now apply Rabs_no_R0). lra.
Qed.
(** Read with units = 'import' and written again: the same integers, for every file. *)
Theorem C51_import : forall mul div user metres u k, accurate mul Rmult -> accurate div Rdiv -> user <> 0 -> metres <> 0 ->
  (Z.abs (fst k) <= 2 ^ 31)%Z -> (Z.abs (snd k) <= 2 ^ 31)%Z ->
  let '(factor, v) := read_units div Import (user, metres) u in
  put mul (multiplier div v) (get mul factor k) = k.
Proof.
  intros mul div user metres u [k1 k2] A D U M K1 K2. cbn [read_units fst snd] in *.
  assert (FM : Rabs (user * multiplier div (Units (div metres user) metres) - 1) <= / 2 ^ 40).
  { unfold multiplier. cbn [unit precision]. destruct (rel_error _ _ (D metres user)) as [d1 [E1 B1]].
    destruct (rel_error _ _ (D (div metres user) metres)) as [d2 [E2 B2]]. rewrite E2, E1.
    replace (user * (metres / user * (1 + d1) / metres * (1 + d2)) - 1) with (d1 + d2 + d1 * d2) by (field; split; assumption).
    destruct eps_small as [_ S]. assert (S1 : Rabs d1 <= / 1000000000000000) by lra. assert (S2 : Rabs d2 <= / 1000000000000000) by lra.
    assert (S3 : Rabs (d1 * d2) <= / 1000000000000000).
    { rewrite Rabs_mult. pose proof (Rabs_pos d1). pose proof (Rabs_pos d2). apply (Rle_trans _ (/ 1000000000000000 * 1)); [|lra]. apply Rmult_le_compat; lra. }
    eapply Rle_trans; [apply Rabs_triang|]. eapply Rle_trans; [apply Rplus_le_compat_r, Rabs_triang|]. lra. }
  unfold put, get. cbn [fst snd]. f_equal; now apply C51_factor.
Qed.
(** The same for 'skip' if the library has the units of the file, up to the error of one
    division and of the 8-byte format. *)
Theorem C51_skip : forall mul div user metres u k, accurate mul Rmult -> accurate div Rdiv -> 0 < unit u -> 0 < precision u ->
  Rabs (user - precision u / unit u) <= / 2 ^ 45 * (precision u / unit u) ->
  (Z.abs (fst k) <= 2 ^ 31)%Z -> (Z.abs (snd k) <= 2 ^ 31)%Z ->
  let '(factor, v) := read_units div Skip (user, metres) u in
  put mul (multiplier div v) (get mul factor k) = k.
Proof.
  intros mul div user metres u [k1 k2] A D U P H K1 K2. cbn [read_units fst snd] in *.
  assert (FM : Rabs (user * multiplier div u - 1) <= / 2 ^ 40).
  { unfold multiplier. destruct (rel_error _ _ (D (unit u) (precision u))) as [d [E B]]. rewrite E.
    assert (RP : 0 < precision u / unit u) by (apply Rmult_lt_0_compat; [exact P|now apply Rinv_0_lt_compat]).
    set (r := precision u / unit u) in *. replace (unit u / precision u) with (/ r) by (unfold r; field; lra).
    replace (user * (/ r * (1 + d)) - 1) with ((user - r) * / r * (1 + d) + d) by (field; lra).
    assert (X : Rabs ((user - r) * / r) <= / 2 ^ 45).
    { rewrite Rabs_mult, (Rabs_pos_eq (/ r)) by (now apply Rlt_le, Rinv_0_lt_compat). apply (Rmult_le_reg_r r); [exact RP|]. rewrite Rmult_assoc, Rinv_l by lra. lra. }
    destruct eps_small as [_ S]. assert (S1 : Rabs d <= / 1000000000000000) by lra. assert (S2 : Rabs (1 + d) <= 2).
    { eapply Rle_trans; [apply Rabs_triang|]. rewrite (Rabs_pos_eq 1) by lra. lra. }
    assert (S3 : Rabs ((user - r) * / r * (1 + d)) <= / 2 ^ 45 * 2).
    { rewrite Rabs_mult. apply Rmult_le_compat; [apply Rabs_pos|apply Rabs_pos|exact X|exact S2]. }
    eapply Rle_trans; [apply Rabs_triang|]. eapply Rle_trans; [apply Rplus_le_compat; [exact S3|exact S1]|].
    replace (2 ^ 45) with 35184372088832 by ring. replace (2 ^ 40) with 1099511627776 by ring. lra. }
  unfold put, get. cbn [fst snd]. f_equal; now apply C51_factor.
Qed.
Print Assumptions C51_factor.
Print Assumptions C51_import.
Print Assumptions C51_skip.
(** Arithmetic with an error: every product a little too large, every quotient too small. *)
Example C51_case : let mul x y := x * y * (1 + / 2 ^ 54) in let div x y := x / y * (1 - / 2 ^ 53) in
  accurate mul Rmult /\ accurate div Rdiv /\ rint (mul (mul (1/1000) 123456789) (div (div (/ 1000000000) (1/1000)) (/ 1000000000))) = 123456789%Z.
Proof.
  assert (E54 : 0 < / 2 ^ 54 <= / 2 ^ 53).
  { split; [apply Rinv_0_lt_compat, pow_lt; lra|]. apply Rinv_le_contravar; [apply pow_lt; lra|]. apply Rle_pow; [lra|lia]. }
  intros mul div. assert (A : accurate mul Rmult).
  { intros x y. unfold mul. replace (x * y * (1 + / 2 ^ 54) - x * y) with (/ 2 ^ 54 * (x * y)) by ring. rewrite Rabs_mult, (Rabs_pos_eq (/ 2 ^ 54)) by lra.
    apply Rmult_le_compat_r; [apply Rabs_pos|lra]. }
  assert (D : accurate div Rdiv).
  { intros x y. unfold div. replace (x / y * (1 - / 2 ^ 53) - x / y) with (- (/ 2 ^ 53 * (x / y))) by ring. rewrite Rabs_Ropp, Rabs_mult, (Rabs_pos_eq (/ 2 ^ 53)) by lra. lra. }
  split; [exact A|]. split; [exact D|].
  pose proof (C51_import mul div (1/1000) (/ 1000000000) (Units 1 1) (123456789, 0)%Z A D ltac:(lra) ltac:(lra) ltac:(cbn; lia) ltac:(cbn; lia)) as X.
  cbn [read_units fst snd] in X. apply (f_equal fst) in X. exact X.
Qed.
