(** C78: the equations of smooth curves have exactly one solution. *)

From Coq Require Import Reals Lra Lia Psatz List ZArith Bool Arith.
From Verif Require Import Plane PlaneProofs Flex SpecFlex FlexProofs SpecRound PropFlexShape PropFlexEnds PropFlexRound Smooth SpecSmooth PropSmooth.
Import ListNotations.
Open Scope R_scope.

(** ** A chain of equations

    [a k] and [b k] are [3 to - 1] and [3 ti - 1] for the tensions of arc k. *)
Section Chain.
Variables (n : nat) (a b A B th ph : nat -> R).
Hypothesis a_pos : forall k, (k < n)%nat -> 1 < a k.
Hypothesis b_pos : forall k, (k < n)%nat -> 1 < b k.
Hypothesis A_pos : forall k, (S k < n)%nat -> 0 < A k.
Hypothesis B_pos : forall k, (S k < n)%nat -> 0 < B k.
Hypothesis turn : forall k, (S k < n)%nat -> th (S k) = - ph k.
Hypothesis bend : forall k, (S k < n)%nat -> A k * (th k - a k * ph k) = B k * (ph (S k) - b (S k) * th (S k)).
Hypothesis begin : Rabs (th 0%nat) <= a 0%nat * Rabs (ph 0%nat).

Lemma step_up k : (S k < n)%nat -> Rabs (th k) <= a k * Rabs (ph k) -> b (S k) * Rabs (ph k) <= Rabs (ph (S k)).
Proof.
  intros K I. pose proof (turn k K) as T. pose proof (bend k K) as E. pose proof (A_pos k K) as PA. pose proof (B_pos k K) as PB. pose proof (b_pos (S k) K) as P1.
  pose proof (a_pos k ltac:(lia)) as P2. rewrite T in E.
  assert (X : ph (S k) = - (A k / B k * (a k * ph k - th k) + b (S k) * ph k)).
  { apply (Rmult_eq_reg_l (B k)); [|lra]. replace (B k * - (A k / B k * (a k * ph k - th k) + b (S k) * ph k)) with (A k * (th k - a k * ph k) - B k * b (S k) * ph k) by (field; lra). lra. }
  assert (QP : 0 < A k / B k) by (apply Rdiv_lt_0_compat; assumption). rewrite X, Rabs_Ropp.
  destruct (Rle_dec 0 (ph k)) as [SG|SG].
  - rewrite (Rabs_right (ph k)) in * by lra. assert (0 <= a k * ph k - th k) by (pose proof (Rle_abs (th k)); lra).
    assert (0 <= A k / B k * (a k * ph k - th k)) by (apply Rmult_le_pos; lra). assert (0 <= b (S k) * ph k) by (apply Rmult_le_pos; lra). rewrite Rabs_right by lra. lra.
  - rewrite (Rabs_left (ph k)) in * by lra. assert (0 <= th k - a k * ph k) by (pose proof (Rle_abs (- th k)) as Z; rewrite Rabs_Ropp in Z; lra).
    assert (0 <= A k / B k * (th k - a k * ph k)) by (apply Rmult_le_pos; lra). assert (0 <= b (S k) * - ph k) by (apply Rmult_le_pos; lra).
    rewrite Rabs_left1 by lra. lra.
Qed.
Lemma climb : forall k, (k < n)%nat -> Rabs (th k) <= a k * Rabs (ph k) /\ (forall m, k = S m -> b k * Rabs (ph m) <= Rabs (ph k)).
Proof.
  induction k as [|k IH]; intro K; [split; [exact begin|intros; discriminate]|]. destruct (IH ltac:(lia)) as [I _]. pose proof (step_up k K I) as U.
  split; [|intros m E; injection E as <-; exact U]. rewrite (turn k K), Rabs_Ropp. pose proof (b_pos (S k) K). pose proof (a_pos (S k) K). pose proof (Rabs_pos (ph k)). pose proof (Rabs_pos (ph (S k))). nra.
Qed.
Lemma all_zero : (0 < n)%nat -> ph (n - 1)%nat = 0 -> forall k, (k < n)%nat -> th k = 0 /\ ph k = 0.
Proof.
  intros N Z. assert (P : forall j, (j < n)%nat -> ph (n - 1 - j)%nat = 0).
  { induction j as [|j IH]; intro J; [rewrite Nat.sub_0_r; exact Z|]. specialize (IH ltac:(lia)).
    destruct (climb (n - 1 - j) ltac:(lia)) as [_ C]. specialize (C (n - 1 - S j)%nat ltac:(lia)). rewrite IH, Rabs_R0 in C.
    pose proof (b_pos (n - 1 - j) ltac:(lia)). pose proof (Rabs_pos (ph (n - 1 - S j)%nat)) as Q.
    destruct (Req_dec (ph (n - 1 - S j)%nat) 0) as [E|E]; [exact E|]. apply Rabs_pos_lt in E. nra. }
  intros k K. assert (E : ph k = 0) by (replace k with (n - 1 - (n - 1 - k))%nat by lia; apply P; lia). split; [|exact E].
  destruct (climb k K) as [C _]. rewrite E, Rabs_R0, Rmult_0_r in C. destruct (Req_dec (th k) 0) as [F|F]; [exact F|]. apply Rabs_pos_lt in F. lra.
Qed.
End Chain.

(** ** The matrices are regular *)

Section Open.
Variables (z : list pt) (angles : list (option R)) (cs ce : R) (ti to : list R).
Notation segs := (segs z). Notation angle := (angle angles). Notation d := (Smooth.d z). Notation at_ := Smooth.at_.
(** The equations of the rows, with any right side *)
Lemma system_rows i j x e : (i < j <= segs)%nat ->
  solves (2 * (j - i)) (fun r => entry (open_row z angles cs ce ti to i j r)) e x ->
  let th k := x (k - i)%nat in let ph k := x (j - i + (k - i))%nat in
  (angle i <> None -> th i = e 0%nat) /\
  (angle i = None -> (at_ to 0 ^ 3 * (1 - 3 * at_ ti 1) - cs * at_ ti 1 ^ 3) * th i + (at_ to 0 ^ 3 - cs * at_ ti 1 ^ 3 * (1 - 3 * at_ to 0)) * ph i = e 0%nat) /\
  (angle j <> None -> ph (j - 1)%nat = e (2 * (j - i) - 1)%nat) /\
  (angle j = None -> (at_ ti segs ^ 3 - ce * at_ to (segs - 1) ^ 3 * (1 - 3 * at_ ti segs)) * th (j - 1)%nat +
     (at_ ti segs ^ 3 * (1 - 3 * at_ to (segs - 1)) - ce * at_ to (segs - 1) ^ 3) * ph (j - 1)%nat = e (2 * (j - i) - 1)%nat) /\
  (forall k, (i <= k)%nat -> (S k < j)%nat -> th (S k) + ph k = e (S k - i)%nat) /\
  (forall k, (i <= k)%nat -> (S k < j)%nat ->
     d (S k) * at_ ti (S (S k)) * at_ ti (S k) ^ 2 * th k + - d k * at_ to k * at_ to (S k) ^ 2 * (1 - 3 * at_ ti (S (S k))) * th (S k) +
     d (S k) * at_ ti (S (S k)) * at_ ti (S k) ^ 2 * (1 - 3 * at_ to k) * ph k + - d k * at_ to k * at_ to (S k) ^ 2 * ph (S k) = e (j - i + (k - i))%nat).
Proof.
  intros B SOL th ph.
  assert (ROW : forall r, (r < 2 * (j - i))%nat -> NoDup (map fst (open_row z angles cs ce ti to i j r)) ->
     (forall k, In k (map fst (open_row z angles cs ce ti to i j r)) -> (k < 2 * (j - i))%nat) -> rowsum (open_row z angles cs ce ti to i j r) x = e r).
  { intros r R N K. rewrite <- (SOL r R). symmetry. now apply total_row. }
  split; [|split; [|split; [|split; [|split]]]].
  - intro A. specialize (ROW 0%nat). unfold open_row in ROW. cbn [Nat.eqb] in ROW. destruct (angle i) as [y|]; [|congruence]. unfold rowsum in ROW. cbn [fold_right fst snd map In] in ROW.
    unfold th. rewrite Nat.sub_diag. rewrite <- ROW; [ring|lia|nodup|intuition lia].
  - intro A. specialize (ROW 0%nat). unfold open_row in ROW. cbn [Nat.eqb] in ROW. rewrite A in ROW. unfold rowsum in ROW. cbv zeta in ROW. cbn [fold_right fst snd map In] in ROW.
    unfold th, ph. rewrite Nat.sub_diag, Nat.add_0_r. rewrite <- ROW; [ring|lia|nodup|intuition lia].
  - intro A. specialize (ROW (2 * (j - i) - 1)%nat). unfold open_row in ROW. replace (2 * (j - i) - 1 =? 0)%nat with false in ROW by (symmetry; apply Nat.eqb_neq; lia).
    rewrite Nat.eqb_refl in ROW. destruct (angle j) as [y|]; [|congruence]. unfold rowsum in ROW. cbn [fold_right fst snd map In] in ROW.
    unfold ph. replace (j - i + (j - 1 - i))%nat with (2 * (j - i) - 1)%nat by lia. rewrite <- ROW; [ring|lia|nodup|intuition lia].
  - intro A. specialize (ROW (2 * (j - i) - 1)%nat). unfold open_row in ROW. replace (2 * (j - i) - 1 =? 0)%nat with false in ROW by (symmetry; apply Nat.eqb_neq; lia).
    rewrite Nat.eqb_refl, A in ROW. unfold rowsum in ROW. cbv zeta in ROW. cbn [fold_right fst snd map In] in ROW. unfold th, ph.
    replace (j - i + (j - 1 - i))%nat with (2 * (j - i) - 1)%nat by lia. replace (j - 1 - i)%nat with (j - i - 1)%nat by lia. rewrite <- ROW; [ring|lia|nodup|intuition lia].
  - intros k K1 K2. specialize (ROW (S k - i)%nat). unfold open_row in ROW.
    replace (Nat.eqb (S k - i) 0) with false in ROW by (symmetry; apply Nat.eqb_neq; lia).
    replace (Nat.eqb (S k - i) (2 * (j - i) - 1)) with false in ROW by (symmetry; apply Nat.eqb_neq; lia).
    replace (Nat.ltb (S k - i) (j - i)) with true in ROW by (symmetry; apply Nat.ltb_lt; lia).
    unfold rowsum in ROW. cbn [fold_right fst snd map In] in ROW. unfold th, ph.
    replace (S (S k - i - 1)) with (S k - i)%nat in ROW by lia. replace (j - i + (S k - i - 1))%nat with (j - i + (k - i))%nat in ROW by lia.
    rewrite <- ROW; [ring|lia|nodup|intuition lia].
  - intros k K1 K2. specialize (ROW (j - i + (k - i))%nat). unfold open_row in ROW.
    replace (Nat.eqb (j - i + (k - i)) 0) with false in ROW by (symmetry; apply Nat.eqb_neq; lia).
    replace (Nat.eqb (j - i + (k - i)) (2 * (j - i) - 1)) with false in ROW by (symmetry; apply Nat.eqb_neq; lia).
    replace (Nat.ltb (j - i + (k - i)) (j - i)) with false in ROW by (symmetry; apply Nat.ltb_ge; lia).
    cbv zeta in ROW. replace (j - i + (k - i) - (j - i))%nat with (k - i)%nat in ROW by lia. replace (i + (k - i))%nat with k in ROW by lia.
    unfold rowsum in ROW. cbn [fold_right fst snd map In] in ROW. unfold th, ph.
    replace (S k - i)%nat with (S (k - i)) by lia. replace (j - i + S (k - i))%nat with (S (j - i + (k - i))) by lia.
    rewrite <- ROW; [ring|lia|nodup|intuition lia].
Qed.
Hypothesis d_pos : forall k, (k < segs)%nat -> 0 < d k.
Hypothesis ti_big : forall k, (k <= segs)%nat -> 2 / 3 < at_ ti k.
Hypothesis to_big : forall k, (k <= segs)%nat -> 2 / 3 < at_ to k.
Hypothesis cs_pos : 0 <= cs.
Hypothesis ce_pos : 0 <= ce.
Lemma open_regular i j : (i < j <= segs)%nat -> (i = 0%nat \/ angle i <> None) -> (j = segs \/ angle j <> None) ->
  ~ (segs = 1%nat /\ angle 0 = None /\ angle 1 = None /\ cs * ce = 1) ->
  regular_matrix (2 * (j - i)) (fun r => entry (open_row z angles cs ce ti to i j r)).
Proof.
  intros B I J NB x SOL. destruct (system_rows i j x (fun _ => 0) B SOL) as (R1 & R2 & R3 & R4 & R5 & R6).
  set (nn := (j - i)%nat) in *. set (th := fun k => x k). set (ph := fun k => x (nn + k)%nat).
  assert (X : forall k, (i <= k)%nat -> x (k - i)%nat = th (k - i)%nat /\ x (nn + (k - i))%nat = ph (k - i)%nat) by (intros; split; reflexivity).
  pose proof (all_zero nn (fun k => 3 * at_ to (i + k) - 1) (fun k => 3 * at_ ti (S (i + k)) - 1)
    (fun k => d (S (i + k)) * at_ ti (S (S (i + k))) * at_ ti (S (i + k)) ^ 2) (fun k => d (i + k) * at_ to (i + k) * at_ to (S (i + k)) ^ 2) th ph) as AZ.
  assert (ST : Rabs (th 0%nat) <= (3 * at_ to (i + 0) - 1) * Rabs (ph 0%nat)).
  { rewrite Nat.add_0_r. destruct (angle i) as [y|] eqn:AI.
    - specialize (R1 ltac:(congruence)). cbv beta in R1. rewrite Nat.sub_diag in R1. change (x 0%nat) with (th 0%nat) in R1. rewrite R1, Rabs_R0. apply Rmult_le_pos; [|apply Rabs_pos].
      pose proof (to_big i ltac:(lia)). lra.
    - destruct I as [->|I]; [|congruence]. specialize (R2 eq_refl). cbv beta in R2. rewrite Nat.sub_diag, Nat.add_0_r in R2. change (x 0%nat) with (th 0%nat) in R2.
      assert (PH : x nn = ph 0%nat) by (unfold ph; f_equal; lia). rewrite PH in R2. pose proof (to_big 0%nat ltac:(lia)) as T1. pose proof (ti_big 1%nat ltac:(lia)) as T2.
      set (a := 3 * at_ to 0 - 1) in *. set (b := 3 * at_ ti 1 - 1) in *. set (p := at_ to 0 ^ 3) in *. set (q := at_ ti 1 ^ 3) in *.
      assert (Pp : 0 < p) by (apply pow_lt; lra). assert (Pq : 0 < q) by (apply pow_lt; lra). assert (Pa : 1 < a) by (unfold a; lra). assert (Pb : 1 < b) by (unfold b; lra).
      assert (E : (p * b + cs * q) * th 0%nat = (p + cs * q * a) * ph 0%nat) by (unfold a, b; lra).
      assert (C1 : 0 < p * b + cs * q) by (assert (0 <= cs * q) by (apply Rmult_le_pos; lra); nra).
      assert (C2 : 0 <= p + cs * q * a) by (assert (0 <= cs * q) by (apply Rmult_le_pos; lra); nra).
      apply (Rmult_le_reg_l (p * b + cs * q)); [exact C1|]. rewrite <- (Rabs_right (p * b + cs * q)) at 1 by lra. rewrite <- Rabs_mult, E, Rabs_mult, Rabs_right by lra.
      rewrite <- Rmult_assoc. apply Rmult_le_compat_r; [apply Rabs_pos|]. assert (1 < a * b) by (clear - Pa Pb; nra). assert (p * 1 <= p * (a * b)) by (apply Rmult_le_compat_l; lra). lra. }
  assert (TU : forall k, (S k < nn)%nat -> th (S k) = - ph k).
  { intros k K. specialize (R5 (i + k)%nat ltac:(lia) ltac:(lia)). cbv beta in R5. replace (S (i + k) - i)%nat with (S k) in R5 by lia. replace (i + k - i)%nat with k in R5 by lia. unfold th, ph. lra. }
  assert (BE : forall k, (S k < nn)%nat -> d (S (i + k)) * at_ ti (S (S (i + k))) * at_ ti (S (i + k)) ^ 2 * (th k - (3 * at_ to (i + k) - 1) * ph k) =
      d (i + k) * at_ to (i + k) * at_ to (S (i + k)) ^ 2 * (ph (S k) - (3 * at_ ti (S (i + S k)) - 1) * th (S k))).
  { intros k K. specialize (R6 (i + k)%nat ltac:(lia) ltac:(lia)). cbv beta in R6. replace (S (i + k) - i)%nat with (S k) in R6 by lia. replace (i + k - i)%nat with k in R6 by lia.
    change (x k) with (th k) in R6. change (x (S k)) with (th (S k)) in R6. change (x (nn + k)%nat) with (ph k) in R6. change (x (nn + S k)%nat) with (ph (S k)) in R6.
    replace (i + S k)%nat with (S (i + k)) by lia. lra. }
  assert (P1 : forall k, (k < nn)%nat -> 1 < 3 * at_ to (i + k) - 1) by (intros k K; pose proof (to_big (i + k)%nat ltac:(lia)); lra).
  assert (P2 : forall k, (k < nn)%nat -> 1 < 3 * at_ ti (S (i + k)) - 1) by (intros k K; pose proof (ti_big (S (i + k)) ltac:(lia)); lra).
  assert (P3 : forall k, (S k < nn)%nat -> 0 < d (S (i + k)) * at_ ti (S (S (i + k))) * at_ ti (S (i + k)) ^ 2).
  { intros k K. pose proof (d_pos (S (i + k)) ltac:(lia)). pose proof (ti_big (S (S (i + k))) ltac:(lia)). pose proof (ti_big (S (i + k)) ltac:(lia)).
    repeat apply Rmult_lt_0_compat; try lra. }
  assert (P4 : forall k, (S k < nn)%nat -> 0 < d (i + k) * at_ to (i + k) * at_ to (S (i + k)) ^ 2).
  { intros k K. pose proof (d_pos (i + k)%nat ltac:(lia)). pose proof (to_big (i + k)%nat ltac:(lia)). pose proof (to_big (S (i + k)) ltac:(lia)).
    repeat apply Rmult_lt_0_compat; try lra. }
  specialize (AZ P1 P2 P3 P4 TU BE ST ltac:(lia)).
  assert (EN : ph (nn - 1)%nat = 0).
  { destruct (angle j) as [y|] eqn:AJ.
    - specialize (R3 ltac:(congruence)). cbv beta in R3. replace (j - 1 - i)%nat with (nn - 1)%nat in R3 by lia. exact R3.
    - destruct J as [J|J]; [|congruence]. specialize (R4 eq_refl). cbv beta in R4. replace (j - 1 - i)%nat with (nn - 1)%nat in R4 by lia.
      change (x (nn - 1)%nat) with (th (nn - 1)%nat) in R4. change (x (nn + (nn - 1))%nat) with (ph (nn - 1)%nat) in R4.
      pose proof (to_big (segs - 1)%nat ltac:(lia)) as T1. pose proof (ti_big segs ltac:(lia)) as T2.
      set (a := 3 * at_ to (segs - 1) - 1) in *. set (b := 3 * at_ ti segs - 1) in *. set (p := at_ to (segs - 1) ^ 3) in *. set (q := at_ ti segs ^ 3) in *.
      assert (Pp : 0 < p) by (apply pow_lt; lra). assert (Pq : 0 < q) by (apply pow_lt; lra). assert (Pa : 1 < a) by (unfold a; lra). assert (Pb : 1 < b) by (unfold b; lra).
      assert (E : (q + ce * p * b) * th (nn - 1)%nat = (q * a + ce * p) * ph (nn - 1)%nat) by (unfold a, b; lra).
      assert (Cp : 0 <= ce * p) by (apply Rmult_le_pos; lra).
      destruct (Nat.eq_dec nn 1) as [N1|N1].
      + rewrite N1 in *. cbn [Nat.sub] in *. destruct (angle i) as [y|] eqn:AI.
        * specialize (R1 ltac:(congruence)). cbv beta in R1. rewrite Nat.sub_diag in R1. change (x 0%nat) with (th 0%nat) in R1. rewrite R1 in E. rewrite Rmult_0_r in E.
          symmetry in E. apply Rmult_integral in E as [E|E]; [nra|exact E].
        * destruct I as [I|I]; [|congruence]. assert (SG : segs = 1%nat) by lia. rewrite SG in *. subst i. rewrite J in AJ.
          assert (NC : cs * ce <> 1) by (intro; apply NB; auto). specialize (R2 eq_refl). cbv beta in R2. cbn [Nat.sub Nat.add] in R2. change (x 0%nat) with (th 0%nat) in R2. replace (x 1%nat) with (ph 0%nat) in R2 by (unfold ph; f_equal; lia).
          assert (Ea : a = 3 * at_ to 0 - 1) by (unfold a; rewrite SG; reflexivity). assert (Eb : b = 3 * at_ ti 1 - 1) by (unfold b; rewrite SG; reflexivity).
          assert (Ep : p = at_ to 0 ^ 3) by (unfold p; rewrite SG; reflexivity). assert (Eq : q = at_ ti 1 ^ 3) by (unfold q; rewrite SG; reflexivity).
          assert (E2 : (p * b + cs * q) * th 0%nat = (p + cs * q * a) * ph 0%nat) by (rewrite Ea, Eb, Ep, Eq; lra).
          clearbody a b p q.
          assert (D : p * q * (a * b - 1) * (cs * ce - 1) * ph 0%nat = 0).
          { transitivity ((q + ce * p * b) * ((p + cs * q * a) * ph 0%nat) - (p * b + cs * q) * ((q * a + ce * p) * ph 0%nat)); [ring|]. rewrite <- E, <- E2. ring. }
          apply Rmult_integral in D as [D|D]; [|exact D]. apply Rmult_integral in D as [D|D]; [|lra]. assert (0 < p * q) by nra. assert (0 < a * b - 1) by nra. nra.
      + assert (CL : (3 * at_ ti (S (i + (nn - 1))) - 1) * Rabs (ph (nn - 2)%nat) <= Rabs (ph (nn - 1)%nat)).
        { apply (climb nn (fun k => 3 * at_ to (i + k) - 1) (fun k => 3 * at_ ti (S (i + k)) - 1) _ _ th ph P1 P2 P3 P4 TU BE ST (nn - 1)%nat); lia. }
        replace (S (i + (nn - 1))) with segs in CL by lia. fold b in CL. pose proof (TU (nn - 2)%nat ltac:(lia)) as T. replace (S (nn - 2)) with (nn - 1)%nat in T by lia.
        rewrite T in E. destruct (Req_dec (ph (nn - 1)%nat) 0) as [Z|Z]; [exact Z|exfalso]. apply Rabs_pos_lt in Z.
        assert (F : (q + ce * p * b) * Rabs (ph (nn - 2)%nat) = (q * a + ce * p) * Rabs (ph (nn - 1)%nat)).
        { assert (0 < q + ce * p * b) by nra. assert (0 < q * a + ce * p) by nra. rewrite <- (Rabs_right (q + ce * p * b)) by lra. rewrite <- (Rabs_right (q * a + ce * p)) by lra.
          rewrite <- !Rabs_mult, <- E, <- Rabs_Ropp. f_equal. ring. }
        set (u := Rabs (ph (nn - 2)%nat)) in *. set (w := Rabs (ph (nn - 1)%nat)) in *. assert (0 <= u) by apply Rabs_pos. clearbody u w a b p q.
        assert (G1 : ce * p * b * u <= ce * p * w) by (rewrite Rmult_assoc; apply Rmult_le_compat_l; assumption).
        assert (G2 : u < w) by (destruct (Req_dec u 0); [lra|assert (u < b * u) by nra; lra]).
        assert (G3 : q * u < q * w) by (apply Rmult_lt_compat_l; assumption). assert (G4 : q * w * 1 < q * w * a) by (apply Rmult_lt_compat_l; [apply Rmult_lt_0_compat; assumption|assumption]). lra. }
  specialize (AZ EN). intros c C. destruct (Nat.lt_ge_cases c nn) as [L|L]; [apply (AZ c L)|]. replace c with (nn + (c - nn))%nat by lia. apply (AZ (c - nn)%nat). lia.
Qed.
End Open.
Lemma largest (f : nat -> R) : forall n, (0 < n)%nat -> exists m, (m < n)%nat /\ forall k, (k < n)%nat -> f k <= f m.
Proof.
  induction n as [|n IH]; intro H; [lia|]. destruct n as [|n]; [exists 0%nat; split; [lia|]; intros k K; replace k with 0%nat by lia; lra|].
  destruct (IH ltac:(lia)) as (m & M & G). destruct (Rle_dec (f (S n)) (f m)) as [L|L].
  - exists m. split; [lia|]. intros k K. destruct (Nat.eq_dec k (S n)) as [->|]; [exact L|apply G; lia].
  - exists (S n). split; [lia|]. intros k K. destruct (Nat.eq_dec k (S n)) as [->|]; [lra|]. specialize (G k ltac:(lia)). lra.
Qed.
Lemma prv_lt z i : (0 < length z)%nat -> (prv z i < length z)%nat.
Proof. intro I. apply Nat.mod_upper_bound. lia. Qed.
Lemma closed_regular z ti to : (2 <= length z)%nat -> (forall k, (k < length z)%nat -> 0 < cd z k) ->
  (forall k, (k < length z)%nat -> 2 / 3 < Smooth.at_ ti k) -> (forall k, (k < length z)%nat -> 2 / 3 < Smooth.at_ to k) ->
  regular_matrix (2 * length z) (fun r => entry (closed_row z ti to r)).
Proof.
  intros LZ DP TI TO x SOL. set (n := length z) in *.
  assert (ROW : forall r, (r < 2 * n)%nat -> NoDup (map fst (closed_row z ti to r)) ->
     (forall k, In k (map fst (closed_row z ti to r)) -> (k < 2 * n)%nat) -> rowsum (closed_row z ti to r) x = 0).
  { intros r R N K. rewrite <- (SOL r R). symmetry. now apply total_row. }
  assert (TURN : forall k, (k < n)%nat -> x k + x (n + prv z k)%nat = 0).
  { intros k K. assert (B : (prv z k < n)%nat) by (apply prv_lt; fold n; lia). specialize (ROW k). unfold closed_row in ROW. cbv zeta in ROW. fold n in ROW.
    replace (k <? n)%nat with true in ROW by (symmetry; apply Nat.ltb_lt; exact K). unfold rowsum in ROW. cbn [fold_right fst snd map In] in ROW.
    rewrite <- ROW; [ring|lia|nodup|intuition lia]. }
  assert (BEND : forall k, (k < n)%nat -> let i1 := nxt z k in let i2 := nxt z i1 in
     cd z i1 * Smooth.at_ ti i2 * Smooth.at_ ti i1 ^ 2 * (x k - (3 * Smooth.at_ to k - 1) * x (n + k)%nat) =
     cd z k * Smooth.at_ to k * Smooth.at_ to i1 ^ 2 * (x (n + i1)%nat - (3 * Smooth.at_ ti i2 - 1) * x i1)).
  { intros k K i1 i2. assert (B : (i1 < n)%nat) by exact (nxt_lt z k K). assert (NE : i1 <> k) by exact (nxt_ne z k LZ K).
    assert (C : rowsum (closed_row z ti to (n + k)) x = 0).
    { apply ROW; [lia| |]; unfold closed_row; cbv zeta; fold n; replace (n + k <? n)%nat with false by (symmetry; apply Nat.ltb_ge; lia);
        replace (n + k - n)%nat with k by lia; cbn [map fst]; fold i1; [nodup|cbn [In]; intuition lia]. }
    unfold closed_row in C. cbv zeta in C. fold n in C. replace (n + k <? n)%nat with false in C by (symmetry; apply Nat.ltb_ge; lia).
    replace (n + k - n)%nat with k in C by lia. unfold rowsum in C. cbn [fold_right fst snd] in C. fold i1 in C. fold i2 in C. lra. }
  destruct (largest (fun k => Rabs (x (n + k)%nat)) n ltac:(lia)) as (m & M & G).
  assert (B1 : (nxt z m < n)%nat) by exact (nxt_lt z m M). assert (B2 : (nxt z (nxt z m) < n)%nat) by exact (nxt_lt z _ B1). assert (B0 : (prv z m < n)%nat) by (apply prv_lt; fold n; lia).
  pose proof (BEND m M) as E. cbv zeta in E. set (i1 := nxt z m) in *. set (i2 := nxt z i1) in *.
  pose proof (TURN m M) as T0. pose proof (TURN i1 B1) as T1. unfold i1 in T1 at 2. rewrite prv_nxt in T1 by exact M.
  pose proof (DP _ B1) as D1. pose proof (DP _ M) as D0. pose proof (TI _ B2) as I2. pose proof (TI _ B1) as I1. pose proof (TO _ M) as O0. pose proof (TO _ B1) as O1.
  set (A := cd z i1 * Smooth.at_ ti i2 * Smooth.at_ ti i1 ^ 2) in *. set (B := cd z m * Smooth.at_ to m * Smooth.at_ to i1 ^ 2) in *.
  assert (PA : 0 < A) by (unfold A; repeat apply Rmult_lt_0_compat; lra). assert (PB : 0 < B) by (unfold B; repeat apply Rmult_lt_0_compat; lra).
  set (a := 3 * Smooth.at_ to m - 1) in *. set (b := 3 * Smooth.at_ ti i2 - 1) in *. assert (Pa : 1 < a) by (unfold a; lra). assert (Pb : 1 < b) by (unfold b; lra).
  assert (Z : x (n + m)%nat = 0).
  { pose proof (G _ B0) as G0. pose proof (G _ B1) as G1. cbv beta in G0, G1. replace (x m) with (- x (n + prv z m)%nat) in E by lra. replace (x i1) with (- x (n + m)%nat) in E by lra.
    set (u := x (n + prv z m)%nat) in *. set (v := x (n + m)%nat) in *. set (w := x (n + i1)%nat) in *. clearbody u v w A B a b.
    assert (F : (A * a + B * b) * v = - (A * u + B * w)) by lra. assert (PP : 0 < A * a + B * b) by nra.
    destruct (Req_dec v 0) as [V|V]; [exact V|exfalso]. apply Rabs_pos_lt in V.
    assert (H : (A * a + B * b) * Rabs v <= (A + B) * Rabs v).
    { rewrite <- (Rabs_right (A * a + B * b)) by lra. rewrite <- Rabs_mult, F, Rabs_Ropp. eapply Rle_trans; [apply Rabs_triang|]. rewrite !Rabs_mult, (Rabs_right A), (Rabs_right B) by lra.
      assert (A * Rabs u <= A * Rabs v) by (apply Rmult_le_compat_l; lra). assert (B * Rabs w <= B * Rabs v) by (apply Rmult_le_compat_l; lra). lra. }
    assert ((A + B) * Rabs v < (A * a + B * b) * Rabs v) by (apply Rmult_lt_compat_r; nra). lra. }
  assert (ZP : forall k, (k < n)%nat -> x (n + k)%nat = 0).
  { intros k K. specialize (G k K). cbv beta in G. rewrite Z, Rabs_R0 in G. destruct (Req_dec (x (n + k)%nat) 0) as [Q|Q]; [exact Q|]. apply Rabs_pos_lt in Q. lra. }
  intros c C. destruct (Nat.lt_ge_cases c n) as [L|L].
  - pose proof (TURN c L) as T. rewrite (ZP (prv z c)) in T by (apply prv_lt; fold n; lia). lra.
  - replace c with (n + (c - n))%nat by lia. apply ZP. lia.
Qed.

(** ** The result is defined and does not depend on the way the equations are solved *)

Lemma solution_unique n m b x y : regular_matrix n m -> solves n m b x -> solves n m b y -> forall c, (c < n)%nat -> x c = y c.
Proof.
  intros G X Y c C. apply Rminus_diag_uniq. apply (G (fun c => x c - y c)); [|exact C]. intros r Rr.
  transitivity (total n (fun c => m r c * x c) + - total n (fun c => m r c * y c)); [|rewrite (X r Rr), (Y r Rr); ring].
  replace (- total n (fun c => m r c * y c)) with (total n (fun c => - (m r c * y c))).
  - rewrite <- total_plus. apply total_ext. intros. ring.
  - unfold total. induction (seq 0 n) as [|k l IH]; cbn; [ring|]. rewrite IH. ring.
Qed.
Section Both.
Variables (s1 s2 : solver) (z : list pt) (angles : list (option R)) (cs ce : R) (ti to : list R).
Hypothesis d_pos : forall k, (k < segs z)%nat -> 0 < Smooth.d z k.
Hypothesis ti_big : forall k, (k <= segs z)%nat -> 2 / 3 < Smooth.at_ ti k.
Hypothesis to_big : forall k, (k <= segs z)%nat -> 2 / 3 < Smooth.at_ to k.
Hypothesis cs_pos : 0 <= cs.
Hypothesis ce_pos : 0 <= ce.
Hypothesis not_loose : ~ (segs z = 1%nat /\ angle angles 0 = None /\ angle angles 1 = None /\ cs * ce = 1).
Lemma piece_defined i j : complete s1 -> (i < j <= segs z)%nat -> (i = 0%nat \/ angle angles i <> None) -> (j = segs z \/ angle angles j <> None) ->
  solve_piece s1 z angles cs ce ti to i j <> None.
Proof.
  intros C B I J. pose proof (C _ _ (open_coef z angles i j) (open_regular z angles cs ce ti to d_pos ti_big to_big cs_pos ce_pos i j B I J not_loose)) as D.
  assert (SYS : option_map (fun x : nat -> R => map (fun k => (x k, x (j - i + k)%nat)) (seq 0 (j - i))) (s1 (2 * (j - i))%nat (fun r => entry (open_row z angles cs ce ti to i j r)) (open_coef z angles i j)) <> None).
  { destruct (s1 _ _ _); [discriminate|congruence]. }
  unfold solve_piece. destruct (angle angles i), (angle angles j); try exact SYS. destruct (1 <? j - i)%nat; [exact SYS|discriminate].
Qed.
Lemma piece_unique i j u w : sound s1 -> sound s2 -> (i < j <= segs z)%nat -> (i = 0%nat \/ angle angles i <> None) -> (j = segs z \/ angle angles j <> None) ->
  solve_piece s1 z angles cs ce ti to i j = Some u -> solve_piece s2 z angles cs ce ti to i j = Some w -> u = w.
Proof.
  intros S1 S2 B I J. pose proof (open_regular z angles cs ce ti to d_pos ti_big to_big cs_pos ce_pos i j B I J not_loose) as G.
  assert (SYS : option_map (fun x : nat -> R => map (fun k => (x k, x (j - i + k)%nat)) (seq 0 (j - i))) (s1 (2 * (j - i))%nat (fun r => entry (open_row z angles cs ce ti to i j r)) (open_coef z angles i j)) = Some u ->
    option_map (fun x : nat -> R => map (fun k => (x k, x (j - i + k)%nat)) (seq 0 (j - i))) (s2 (2 * (j - i))%nat (fun r => entry (open_row z angles cs ce ti to i j r)) (open_coef z angles i j)) = Some w -> u = w).
  { destruct (s1 _ _ _) as [x|] eqn:X; [|discriminate]. destruct (s2 _ _ _) as [y|] eqn:Y; [|discriminate]. apply S1 in X. apply S2 in Y.
    pose proof (solution_unique _ _ _ _ _ G X Y) as U. intros P Q. injection P as <-. injection Q as <-. apply map_ext_in. intros k K. apply in_seq in K. rewrite !U by lia. reflexivity. }
  unfold solve_piece. destruct (angle angles i), (angle angles j); try exact SYS. destruct (1 <? j - i)%nat; [exact SYS|congruence].
Qed.
Lemma from_defined : complete s1 -> forall fuel i, (i <= segs z)%nat -> (i = 0%nat \/ i = segs z \/ angle angles i <> None) -> solve_from s1 z angles cs ce ti to fuel i <> None.
Proof.
  intros C. induction fuel as [|fuel IH]; intros i I G; cbn [solve_from]; [discriminate|]. destruct (Nat.ltb_spec i (segs z)) as [L|L]; [|discriminate].
  destruct (piece_end_spec z angles i L) as (B & _ & E). set (j := piece_end z angles i) in *. pose proof (piece_defined i j C B ltac:(intuition lia) E) as P.
  specialize (IH j ltac:(lia) ltac:(tauto)). destruct (solve_piece _ _ _ _ _ _ _ _ _), (solve_from _ _ _ _ _ _ _ _ _); congruence.
Qed.
Lemma from_unique : sound s1 -> sound s2 -> forall fuel i u w, (i <= segs z)%nat -> (i = 0%nat \/ i = segs z \/ angle angles i <> None) ->
  solve_from s1 z angles cs ce ti to fuel i = Some u -> solve_from s2 z angles cs ce ti to fuel i = Some w -> u = w.
Proof.
  intros S1 S2. induction fuel as [|fuel IH]; intros i u w I G; cbn [solve_from]; [congruence|]. destruct (Nat.ltb_spec i (segs z)) as [L|L]; [|congruence].
  destruct (piece_end_spec z angles i L) as (B & _ & E). set (j := piece_end z angles i) in *.
  destruct (solve_piece s1 _ _ _ _ _ _ _ _) as [a1|] eqn:A1; [|discriminate]. destruct (solve_from s1 _ _ _ _ _ _ _ _) as [b1|] eqn:B1; [|discriminate].
  destruct (solve_piece s2 _ _ _ _ _ _ _ _) as [a2|] eqn:A2; [|discriminate]. destruct (solve_from s2 _ _ _ _ _ _ _ _) as [b2|] eqn:B2; [|discriminate].
  intros P Q. injection P as <-. injection Q as <-. f_equal; [exact (piece_unique i j _ _ S1 S2 B ltac:(intuition lia) E A1 A2)|]. apply (IH j); [lia|tauto|assumption|assumption].
Qed.
End Both.
(** What the theorems about one curve suppose *)
Lemma open_ready (z : list pt) ti to : (2 <= length z)%nat -> length ti = length z -> length to = length z -> (forall x, In x ti -> 2 / 3 < x) -> (forall x, In x to -> 2 / 3 < x) ->
  (forall k, (S k < length z)%nat -> nth k z (0, 0) <> nth (S k) z (0, 0)) ->
  (forall k, (k < segs z)%nat -> 0 < Smooth.d z k) /\ (forall k, (k <= segs z)%nat -> 2 / 3 < Smooth.at_ ti k) /\ (forall k, (k <= segs z)%nat -> 2 / 3 < Smooth.at_ to k).
Proof.
  intros LZ LI LO TI TO DP. unfold segs. split; [|split].
  - intros k K. apply (apart_pos (nth k z (0, 0)) (nth (S k) z (0, 0))). apply DP. lia.
  - intros k K. apply TI, nth_In. lia.
  - intros k K. apply TO, nth_In. lia.
Qed.
Lemma round_ready r (z : list pt) ti to : (r < length z)%nat -> length ti = length z -> length to = length z -> (forall x, In x ti -> 2 / 3 < x) -> (forall x, In x to -> 2 / 3 < x) ->
  (forall k, (k < length z)%nat -> nth k z (0, 0) <> nth (S k mod length z) z (0, 0)) ->
  let z' := rotl r z ++ [nth r z (0, 0)] in let ti' := rotl r ti ++ [nth r ti 0] in let to' := rotl r to ++ [nth r to 0] in
  (forall k, (k < segs z')%nat -> 0 < Smooth.d z' k) /\ (forall k, (k <= segs z')%nat -> 2 / 3 < Smooth.at_ ti' k) /\ (forall k, (k <= segs z')%nat -> 2 / 3 < Smooth.at_ to' k).
Proof.
  intros RB LI LO TI TO DP z' ti' to'. apply open_ready.
  - unfold z'. rewrite round_length by exact RB. lia.
  - unfold z', ti'. rewrite !round_length by lia. lia.
  - unfold z', to'. rewrite !round_length by lia. lia.
  - intros x X. apply TI. apply round_in in X; [exact X|lia].
  - intros x X. apply TO. apply round_in in X; [exact X|lia].
  - intros k K. unfold z' in *. rewrite round_length in K by exact RB. rewrite !nth_round by lia.
    replace ((S k + r) mod length z)%nat with (S ((k + r) mod length z) mod length z)%nat; [apply DP; apply Nat.mod_upper_bound; lia|].
    rewrite <- (Nat.add_1_r ((k + r) mod length z)), Nat.add_mod_idemp_l by lia. f_equal. lia.
Qed.
Lemma loose_round r (z : list pt) (angles : list (option R)) cs ce x : (r < length z)%nat -> length angles = length z -> nth r angles None = Some x ->
  ~ (segs (rotl r z ++ [nth r z (0, 0)]) = 1%nat /\ angle (rotl r angles ++ [nth r angles None]) 0 = None /\ angle (rotl r angles ++ [nth r angles None]) 1 = None /\ cs * ce = 1).
Proof.
  intros RB LA RX (_ & A & _). unfold angle in A. rewrite nth_round in A by lia. rewrite Nat.add_0_l, LA, Nat.mod_small in A by exact RB. congruence.
Qed.
Lemma loose_open (z : list pt) (angles : list (option R)) cs ce : (2 <= length z)%nat -> length angles = length z -> ~ (length z = 2%nat /\ angles = [None; None] /\ cs * ce = 1) ->
  ~ (segs z = 1%nat /\ angle angles 0 = None /\ angle angles 1 = None /\ cs * ce = 1).
Proof.
  intros LZ LA N (S1 & A0 & A1 & C). unfold segs in S1. apply N. split; [lia|]. split; [|exact C]. destruct angles as [|a0 [|a1 [|a2 l]]]; cbn in *; try lia. unfold angle in *. cbn in *. congruence.
Qed.
Lemma distinct_open z : distinct_points false z -> forall k, (S k < length z)%nat -> nth k z (0, 0) <> nth (S k) z (0, 0).
Proof. intros D k K. specialize (D k ltac:(lia) (or_intror K)). rewrite Nat.mod_small in D by exact K. exact D. Qed.

(** With a solver that does not raise for regular matrices, the control points are
    always found: for tensions over 2/3 and curls of at least 0, except for a curve
    between two points without angles. *)
Theorem C78_defined : forall solve z angles cs ce ti to cycle, complete solve -> (2 <= length z)%nat ->
  length angles = length z -> length ti = length z -> length to = length z -> (forall x, In x ti -> 2 / 3 < x) -> (forall x, In x to -> 2 / 3 < x) ->
  0 <= cs -> 0 <= ce -> distinct_points cycle z -> (cycle = false -> ~ (length z = 2%nat /\ angles = [None; None] /\ cs * ce = 1)) ->
  hobby solve z angles cs ce ti to cycle <> None.
Proof.
  intros solve z angles cs ce ti to cycle C LZ LA LI LO TI TO CS CE DP NL. unfold hobby.
  destruct cycle; cbn [andb].
  - assert (DC : forall k, (k < length z)%nat -> nth k z (0, 0) <> nth (S k mod length z) z (0, 0)) by (intros k K; apply DP; auto).
    destruct (existsb is_given angles) eqn:G.
    + destruct (first_given_spec angles G) as [RB (x0 & RX)]. set (r := first_given angles) in *. rewrite LA in RB.
      destruct (round_ready r z ti to RB LI LO TI TO DC) as (R1 & R2 & R3).
      unfold hobby_open. match goal with |- option_map _ (option_map _ ?s) <> None => assert (F : s <> None); [|destruct s; [discriminate|congruence]] end.
      apply from_defined; try assumption; [|lia|auto]. exact (loose_round r z angles cs ce x0 RB LA RX).
    + unfold hobby_closed. match goal with |- option_map _ ?s <> None => assert (F : s <> None); [|destruct s; [discriminate|congruence]] end.
      apply C. apply closed_regular; [exact LZ| | |].
      * intros k K. apply (apart_pos (nth k z (0, 0)) (nth (S k mod length z) z (0, 0))). apply DC, K.
      * intros k K. apply TI, nth_In. lia.
      * intros k K. apply TO, nth_In. lia.
  - destruct (open_ready z ti to LZ LI LO TI TO (distinct_open z DP)) as (R1 & R2 & R3).
    unfold hobby_open. match goal with |- option_map _ ?s <> None => assert (F : s <> None); [|destruct s; [discriminate|congruence]] end.
    apply from_defined; try assumption; [|lia|auto]. apply loose_open; auto.
Qed.
Print Assumptions C78_defined.

(** Whoever solves the equations gets the same control points. *)
Theorem C78_unique : forall s1 s2 z angles cs ce ti to cycle c1 c2, sound s1 -> sound s2 -> (2 <= length z)%nat ->
  length angles = length z -> length ti = length z -> length to = length z -> (forall x, In x ti -> 2 / 3 < x) -> (forall x, In x to -> 2 / 3 < x) ->
  0 <= cs -> 0 <= ce -> distinct_points cycle z -> (cycle = false -> ~ (length z = 2%nat /\ angles = [None; None] /\ cs * ce = 1)) ->
  hobby s1 z angles cs ce ti to cycle = Some c1 -> hobby s2 z angles cs ce ti to cycle = Some c2 -> c1 = c2.
Proof.
  intros s1 s2 z angles cs ce ti to cycle c1 c2 S1 S2 LZ LA LI LO TI TO CS CE DP NL. unfold hobby.
  destruct cycle; cbn [andb].
  - assert (DC : forall k, (k < length z)%nat -> nth k z (0, 0) <> nth (S k mod length z) z (0, 0)) by (intros k K; apply DP; auto).
    destruct (existsb is_given angles) eqn:G.
    + destruct (first_given_spec angles G) as [RB (x0 & RX)]. set (r := first_given angles) in *. rewrite LA in RB.
      destruct (round_ready r z ti to RB LI LO TI TO DC) as (R1 & R2 & R3). unfold hobby_open.
      destruct (solve_from s1 _ _ _ _ _ _ _ _) as [u|] eqn:U; [|discriminate]. destruct (solve_from s2 _ _ _ _ _ _ _ _) as [w|] eqn:W; [|discriminate].
      assert (E : u = w). { refine (from_unique s1 s2 _ _ cs ce _ _ R1 R2 R3 CS CE _ S1 S2 _ 0%nat u w _ _ U W); [exact (loose_round r z angles cs ce x0 RB LA RX)|lia|auto]. } subst w. congruence.
    + unfold hobby_closed. destruct (s1 _ _ _) as [x|] eqn:X; [|discriminate]. destruct (s2 _ _ _) as [y|] eqn:Y; [|discriminate]. apply S1 in X. apply S2 in Y.
      assert (U : forall c, (c < 2 * length z)%nat -> x c = y c).
      { eapply solution_unique; [|exact X|exact Y]. apply closed_regular; [exact LZ| | |].
        * intros k K. apply (apart_pos (nth k z (0, 0)) (nth (S k mod length z) z (0, 0))). apply DC, K.
        * intros k K. apply TI, nth_In. lia.
        * intros k K. apply TO, nth_In. lia. }
      intros P Q. cbn [option_map] in P, Q. injection P as <-. injection Q as <-. apply map_ext_in. intros k K. apply in_seq in K.
      assert (B : (nxt z k < length z)%nat) by (apply nxt_lt; lia). rewrite !(U k), !(U (nxt z k)), !(U (length z + k)%nat) by lia. reflexivity.
  - destruct (open_ready z ti to LZ LI LO TI TO (distinct_open z DP)) as (R1 & R2 & R3). unfold hobby_open.
    destruct (solve_from s1 _ _ _ _ _ _ _ _) as [u|] eqn:U; [|discriminate]. destruct (solve_from s2 _ _ _ _ _ _ _ _) as [w|] eqn:W; [|discriminate].
    assert (E : u = w). { refine (from_unique s1 s2 _ _ cs ce _ _ R1 R2 R3 CS CE _ S1 S2 _ 0%nat u w _ _ U W); [apply loose_open; auto|lia|auto]. } subst w. congruence.
Qed.
Print Assumptions C78_unique.
