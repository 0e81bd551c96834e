(** Gaussian elimination over the reals: a function with the properties that are
    expected of numpy.linalg.solve.  It is not a model of any code in gdspy; it shows
    that these properties can be met, for the examples of PropSmoothMore.v. *)

From Coq Require Import Reals Lra Lia List Arith.
From Verif Require Import Plane Smooth SpecSmooth PropSmooth.
Import ListNotations.
Open Scope R_scope.

Fixpoint pivot (left r : nat) (m : nat -> nat -> R) : option nat :=
  match left with
  | O => None
  | S k => if Req_EM_T (m r 0%nat) 0 then pivot k (S r) m else Some r
  end.
Definition skip (r i : nat) : nat := if (i <? r)%nat then i else S i.
Definition reduced (m : nat -> nat -> R) (r i c : nat) : R := m (skip r i) (S c) - m (skip r i) 0%nat / m r 0%nat * m r (S c).
Definition reduced_b (m : nat -> nat -> R) (b : nat -> R) (r i : nat) : R := b (skip r i) - m (skip r i) 0%nat / m r 0%nat * b r.
Definition extend (n : nat) (m : nat -> nat -> R) (b : nat -> R) (r : nat) (y : nat -> R) (c : nat) : R :=
  match c with O => (b r - total n (fun c => m r (S c) * y c)) / m r 0%nat | S c => y c end.
Fixpoint gauss (n : nat) (m : nat -> nat -> R) (b : nat -> R) : option (nat -> R) :=
  match n with
  | O => Some (fun _ => 0)
  | S k =>
      match pivot n 0 m with
      | None => None
      | Some r => match gauss k (reduced m r) (reduced_b m b r) with None => None | Some y => Some (extend k m b r y) end
      end
  end.

Lemma pivot_some m : forall left r p, pivot left r m = Some p -> (r <= p < r + left)%nat /\ m p 0%nat <> 0.
Proof.
  induction left as [|k IH]; intros r p H; cbn in H; [discriminate|]. destruct (Req_EM_T (m r 0%nat) 0) as [E|E]; [|injection H as <-; split; [lia|exact E]].
  destruct (IH _ _ H) as [A B]. split; [lia|exact B].
Qed.
Lemma pivot_none m : forall left r, pivot left r m = None -> forall i, (r <= i < r + left)%nat -> m i 0%nat = 0.
Proof.
  induction left as [|k IH]; intros r H i I; [lia|]. cbn in H. destruct (Req_EM_T (m r 0%nat) 0) as [E|E]; [|discriminate].
  destruct (Nat.eq_dec i r) as [->|]; [exact E|]. apply (IH (S r) H). lia.
Qed.
Lemma total_S n f : total (S n) f = f 0%nat + total n (fun c => f (S c)).
Proof. unfold total. cbn [seq map fold_right]. f_equal. rewrite <- seq_shift, map_map. reflexivity. Qed.
Lemma total_scale n k f : total n (fun c => k * f c) = k * total n f.
Proof. unfold total. induction (seq 0 n) as [|a l IH]; cbn; [ring|]. rewrite IH. ring. Qed.
Lemma skip_all n r q : (r < S n)%nat -> (q < S n)%nat -> q <> r -> exists i, (i < n)%nat /\ q = skip r i.
Proof.
  intros Hr Q N. destruct (Nat.lt_ge_cases q r) as [L|L].
  - exists q. split; [lia|]. unfold skip. replace (q <? r)%nat with true; [reflexivity|symmetry; apply Nat.ltb_lt; exact L].
  - exists (q - 1)%nat. split; [lia|]. unfold skip. replace (q - 1 <? r)%nat with false; [lia|symmetry; apply Nat.ltb_ge; lia].
Qed.
Lemma skip_lt n r i : (i < n)%nat -> (skip r i < S n)%nat.
Proof. intro I. unfold skip. destruct (i <? r)%nat; lia. Qed.
Lemma reduced_row n m r i y : m r 0%nat <> 0 -> total n (fun c => reduced m r i c * y c) =
  total n (fun c => m (skip r i) (S c) * y c) - m (skip r i) 0%nat / m r 0%nat * total n (fun c => m r (S c) * y c).
Proof.
  intro P. unfold Rminus. rewrite Ropp_mult_distr_l, <- total_scale, <- total_plus. apply total_ext. intros c _. unfold reduced. field. exact P.
Qed.
Lemma extend_ok n m b r y : (r < S n)%nat -> m r 0%nat <> 0 -> solves n (reduced m r) (reduced_b m b r) y -> solves (S n) m b (extend n m b r y).
Proof.
  intros R0 P Y q Q. rewrite total_S. cbn [extend]. destruct (Nat.eq_dec q r) as [->|N]; [field; exact P|].
  destruct (skip_all n r q R0 Q N) as (i & I & ->). specialize (Y i I). rewrite (reduced_row n m r i y P) in Y. unfold reduced_b in Y.
  set (A := total n (fun c => m (skip r i) (S c) * y c)) in *. set (B := total n (fun c => m r (S c) * y c)) in *.
  transitivity ((A - m (skip r i) 0%nat / m r 0%nat * B) + m (skip r i) 0%nat / m r 0%nat * b r); [field; exact P|]. rewrite Y. ring.
Qed.
Lemma gauss_sound : sound gauss.
Proof.
  intro n. induction n as [|n IH]; intros m b x H.
  - intros r Hr. lia.
  - cbn [gauss] in H. destruct (pivot (S n) 0 m) as [r|] eqn:P; [|discriminate]. destruct (pivot_some _ _ _ _ P) as [B0 NZ].
    destruct (gauss n (reduced m r) (reduced_b m b r)) as [y|] eqn:G; [|discriminate]. injection H as <-. apply extend_ok; [lia|exact NZ|exact (IH _ _ _ G)].
Qed.
Lemma regular_reduced n m r : (r < S n)%nat -> m r 0%nat <> 0 -> regular_matrix (S n) m -> regular_matrix n (reduced m r).
Proof.
  intros B0 NZ G y Y c C. assert (Z : solves (S n) m (fun _ => 0) (extend n m (fun _ => 0) r y)).
  { apply extend_ok; [exact B0|exact NZ|]. intros i I. rewrite (Y i I). unfold reduced_b. ring. }
  exact (G _ Z (S c) ltac:(lia)).
Qed.
Lemma gauss_complete : complete gauss.
Proof.
  intro n. induction n as [|n IH]; intros m b G; [discriminate|]. cbn [gauss]. destruct (pivot (S n) 0 m) as [r|] eqn:P.
  - destruct (pivot_some _ _ _ _ P) as [B0 NZ]. specialize (IH (reduced m r) (reduced_b m b r) (regular_reduced n m r ltac:(lia) NZ G)).
    destruct (gauss n _ _); [discriminate|congruence].
  - exfalso. set (e := fun c : nat => match c with O => 1 | S _ => 0 end).
    assert (K : solves (S n) m (fun _ => 0) e).
    { intros r Hr. rewrite total_S. rewrite (pivot_none _ _ _ P r ltac:(lia)). cbn [e]. rewrite total_zero; [ring|]. intros. ring. }
    pose proof (G e K 0%nat ltac:(lia)) as Z. cbn in Z. lra.
Qed.
Lemma gauss_regular : forall n m b x, gauss n m b = Some x -> regular_matrix n m.
Proof.
  induction n as [|n IH]; intros m b x H y Y c C; [lia|]. cbn [gauss] in H. destruct (pivot (S n) 0 m) as [r|] eqn:P; [|discriminate]. destruct (pivot_some _ _ _ _ P) as [B0 NZ].
  destruct (gauss n (reduced m r) (reduced_b m b r)) as [w|] eqn:G; [|discriminate]. specialize (IH _ _ _ G (fun c => y (S c))).
  pose proof (Y r ltac:(lia)) as YR. rewrite total_S in YR.
  assert (Z : forall c, (c < n)%nat -> y (S c) = 0).
  { apply IH. intros i I. rewrite (reduced_row n m r i _ NZ). pose proof (Y (skip r i) (skip_lt n r i I)) as YI. rewrite total_S in YI.
    set (A := total n (fun c => m (skip r i) (S c) * y (S c))) in *. set (B := total n (fun c => m r (S c) * y (S c))) in *.
    replace A with (- (m (skip r i) 0%nat * y 0%nat)) by lra. replace B with (- (m r 0%nat * y 0%nat)) by lra. field. exact NZ. }
  destruct c as [|c]; [|apply Z; lia]. rewrite total_zero in YR; [|intros k K; rewrite Z by exact K; ring]. rewrite Rplus_0_r in YR. apply Rmult_integral in YR as [Q|Q]; [contradiction|exact Q].
Qed.
Lemma gauss_strict : strict gauss.
Proof. intros n m b N. destruct (gauss n m b) as [x|] eqn:G; [|reflexivity]. exfalso. apply N. exact (gauss_regular _ _ _ _ G). Qed.
