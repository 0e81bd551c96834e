(** Facts about Bezier evaluation and adaptive sampling. *)

From Coq Require Import Reals Lra Lia List ZArith Bool.
From Verif Require Import Plane SpecPlane Curve SpecCurve.
Import ListNotations.
Open Scope R_scope.

(** ** Bezier evaluation, coordinate by coordinate *)

Fixpoint cast (k : nat) (a : nat -> R) (i : nat) (u : R) : R :=
  match k with O => a i | S k => u * cast k a (S i) u + (1 - u) * cast k a i u end.

Lemma step_length u l : length (bez_step u l) = (length l - 1)%nat.
Proof.
  induction l as [|a [|b r] IH]; [reflexivity|reflexivity|]. change (bez_step u (a :: b :: r)) with
    (padd (smul u b) (smul (1 - u) a) :: bez_step u (b :: r)). cbn [length] in *. rewrite IH. lia.
Qed.
Lemma step_nth u l i : (S i < length l)%nat ->
  nth i (bez_step u l) (0, 0) = padd (smul u (nth (S i) l (0, 0))) (smul (1 - u) (nth i l (0, 0))).
Proof.
  revert i; induction l as [|a [|b r] IH]; intros i H; cbn [length] in H; [lia|lia|].
  change (bez_step u (a :: b :: r)) with (padd (smul u b) (smul (1 - u) a) :: bez_step u (b :: r)).
  destruct i as [|i]; [reflexivity|]. cbn [nth]. rewrite IH by (cbn [length]; lia). reflexivity.
Qed.
Lemma iter_length u k l : length (Nat.iter k (bez_step u) l) = (length l - k)%nat.
Proof. induction k as [|k IH]; cbn [Nat.iter nat_rect]; [lia|]. change (nat_rect _ _ _ k) with (Nat.iter k (bez_step u) l). rewrite step_length, IH. lia. Qed.
Lemma iter_nth (pr : pt -> R) u k l i : (forall p q s t, pr (padd (smul s p) (smul t q)) = s * pr p + t * pr q) ->
  (i + k < length l)%nat ->
  pr (nth i (Nat.iter k (bez_step u) l) (0, 0)) = cast k (fun j => pr (nth j l (0, 0))) i u.
Proof.
  intro L. revert i; induction k as [|k IH]; intros i H; [reflexivity|]. cbn [Nat.iter nat_rect cast].
  change (nat_rect _ _ _ k) with (Nat.iter k (bez_step u) l).
  rewrite step_nth by (rewrite iter_length; lia). rewrite L, !IH by lia. reflexivity.
Qed.
Lemma hd_nth {X} (d : X) l : hd d l = nth 0 l d. Proof. destruct l; reflexivity. Qed.
Lemma bezier_fst l u : l <> [] -> fst (bezier l u) = cast (length l - 1) (fun j => nth j (map fst l) 0) 0 u.
Proof.
  intro N. unfold bezier. rewrite hd_nth, (iter_nth fst); [|intros; reflexivity|destruct l; [congruence|cbn [length]; lia]].
  revert N. generalize (length l - 1)%nat. intros k _.
  assert (E : forall i, cast k (fun j => fst (nth j l (0, 0))) i u = cast k (fun j => nth j (map fst l) 0) i u).
  { induction k as [|k IH]; intro i; cbn [cast]; [symmetry; apply (map_nth fst l (0, 0))|now rewrite !IH]. }
  apply E.
Qed.
Lemma bezier_snd l u : l <> [] -> snd (bezier l u) = cast (length l - 1) (fun j => nth j (map snd l) 0) 0 u.
Proof.
  intro N. unfold bezier. rewrite hd_nth, (iter_nth snd); [|intros; reflexivity|destruct l; [congruence|cbn [length]; lia]].
  revert N. generalize (length l - 1)%nat. intros k _.
  assert (E : forall i, cast k (fun j => snd (nth j l (0, 0))) i u = cast k (fun j => nth j (map snd l) 0) i u).
  { induction k as [|k IH]; intro i; cbn [cast]; [symmetry; apply (map_nth snd l (0, 0))|now rewrite !IH]. }
  apply E.
Qed.

Lemma cast0 k a i : cast k a i 0 = a i.
Proof. revert i; induction k as [|k IH]; intro i; cbn [cast]; [reflexivity|]. rewrite !IH. ring. Qed.
Lemma cast1 k a i : cast k a i 1 = a (i + k)%nat.
Proof. revert i; induction k as [|k IH]; intro i; cbn [cast]; [f_equal; lia|]. rewrite !IH. replace (S i + k)%nat with (i + S k)%nat by lia. ring. Qed.
Lemma cast_rev N a k i u : (i + k <= N)%nat -> cast k (fun j => a (N - j)%nat) i u = cast k a (N - i - k) (1 - u).
Proof.
  revert i; induction k as [|k IH]; intros i H; cbn [cast]; [f_equal; lia|]. rewrite !IH by lia.
  replace (N - S i - k)%nat with (N - i - S k)%nat by lia. replace (N - i - k)%nat with (S (N - i - S k)) by lia. ring.
Qed.
Lemma cast_ext k a b i u : (forall j, (i <= j <= i + k)%nat -> a j = b j) -> cast k a i u = cast k b i u.
Proof.
  revert i; induction k as [|k IH]; intros i H; cbn [cast]; [apply H; lia|]. rewrite !IH; auto; intros; apply H; lia.
Qed.

(** Bernstein *)
Lemma C_n_0 n : C n 0 = 1.
Proof. unfold C. rewrite Nat.sub_0_r. cbn [fact]. change (INR 1) with 1. field. apply INR_fact_neq_0. Qed.
Lemma C_n_n n : C n n = 1.
Proof. unfold C. rewrite Nat.sub_diag. cbn [fact]. change (INR 1) with 1. field. apply INR_fact_neq_0. Qed.
Lemma pascal_sum k g : sum_f_R0 (fun j => C (S k) j * g j) (S k) = sum_f_R0 (fun j => C k j * (g j + g (S j))) k.
Proof.
  destruct k as [|k].
  - cbn [sum_f_R0]. rewrite !C_n_0, C_n_n. ring.
  - rewrite (decomp_sum _ (S (S k))) by lia. cbn [Nat.pred]. rewrite (tech5 _ k).
    rewrite (sum_eq (fun j => C (S k) j * (g j + g (S j))) (fun j => C (S k) j * g j + C (S k) j * g (S j)) (S k)) by (intros; ring).
    rewrite plus_sum. rewrite (decomp_sum (fun j => C (S k) j * g j) (S k)) by lia. cbn [Nat.pred].
    rewrite (tech5 (fun j => C (S k) j * g (S j)) k).
    rewrite (sum_eq (fun i => C (S (S k)) (S i) * g (S i)) (fun i => C (S k) i * g (S i) + C (S k) (S i) * g (S i)) k).
    2: { intros i Hi. rewrite <- pascal by lia. ring. }
    rewrite plus_sum, !C_n_0, !C_n_n. ring.
Qed.
Lemma cast_bernstein k a i u :
  cast k a i u = sum_f_R0 (fun j => C k j * u ^ j * (1 - u) ^ (k - j) * a (i + j)%nat) k.
Proof.
  revert i; induction k as [|k IH]; intro i; cbn [cast].
  - cbn [sum_f_R0]. rewrite C_n_0, Nat.add_0_r. cbn. ring.
  - rewrite !IH, !scal_sum, <- plus_sum.
    rewrite (sum_eq (fun j => C (S k) j * u ^ j * (1 - u) ^ (S k - j) * a (i + j)%nat)
                    (fun j => C (S k) j * (u ^ j * (1 - u) ^ (S k - j) * a (i + j)%nat)) (S k)) by (intros; ring).
    rewrite pascal_sum. apply sum_eq. intros j Hj. replace (S k - j)%nat with (S (k - j)) by lia.
    replace (S k - S j)%nat with (k - j)%nat by lia. replace (i + S j)%nat with (S i + j)%nat by lia. cbn [pow]. ring.
Qed.

(** Bounds *)
Lemma cast_bound k a i u M : (forall j, Rabs (a j) <= M) -> 0 <= u <= 1 -> Rabs (cast k a i u) <= M.
Proof.
  intros B U. revert i; induction k as [|k IH]; intro i; cbn [cast]; [apply B|].
  eapply Rle_trans; [apply Rabs_triang|]. rewrite !Rabs_mult, (Rabs_pos_eq u), (Rabs_pos_eq (1 - u)) by lra.
  pose proof (IH i). pose proof (IH (S i)). nra.
Qed.
Lemma cast_lipschitz k a i u v M : (forall j, Rabs (a j) <= M) -> 0 <= u <= 1 -> 0 <= v <= 1 ->
  Rabs (cast k a i u - cast k a i v) <= 2 * M * INR k * Rabs (u - v).
Proof.
  intros B U V. assert (M0 : 0 <= M) by (eapply Rle_trans; [apply Rabs_pos|apply (B 0%nat)]).
  revert i; induction k as [|k IH]; intro i; cbn [cast].
  - rewrite Rminus_eq_0, Rabs_R0. change (INR 0) with 0. rewrite Rmult_0_r, Rmult_0_l. lra.
  - replace (u * cast k a (S i) u + (1 - u) * cast k a i u - (v * cast k a (S i) v + (1 - v) * cast k a i v))
      with ((u * (cast k a (S i) u - cast k a (S i) v) + (1 - u) * (cast k a i u - cast k a i v))
            + (u - v) * (cast k a (S i) v - cast k a i v)) by ring.
    pose proof (IH i) as I1. pose proof (IH (S i)) as I2.
    pose proof (cast_bound k a i v M B V) as B1. pose proof (cast_bound k a (S i) v M B V) as B2.
    assert (D : Rabs (cast k a (S i) v - cast k a i v) <= 2 * M).
    { unfold Rminus. eapply Rle_trans; [apply Rabs_triang|]. rewrite Rabs_Ropp. lra. }
    eapply Rle_trans; [apply Rabs_triang|]. eapply Rle_trans; [apply Rplus_le_compat; [apply Rabs_triang|apply Rle_refl]|].
    rewrite !Rabs_mult, (Rabs_pos_eq u), (Rabs_pos_eq (1 - u)) by lra. rewrite S_INR.
    pose proof (Rabs_pos (u - v)) as Pd.
    apply (Rmult_le_compat_l u) in I2; [|lra]. apply (Rmult_le_compat_l (1 - u)) in I1; [|lra].
    apply (Rmult_le_compat_l (Rabs (u - v))) in D; [|exact Pd]. nra.
Qed.

(** ** Affine maps and half-planes *)
Lemma step_map u (A : pt -> pt) l : (forall p q, A (padd (smul u p) (smul (1 - u) q)) = padd (smul u (A p)) (smul (1 - u) (A q))) ->
  bez_step u (map A l) = map A (bez_step u l).
Proof.
  intro H. induction l as [|a [|b r] IH]; [reflexivity|reflexivity|].
  change (bez_step u (map A (a :: b :: r))) with (padd (smul u (A b)) (smul (1 - u) (A a)) :: bez_step u (map A (b :: r))).
  rewrite IH. change (bez_step u (a :: b :: r)) with (padd (smul u b) (smul (1 - u) a) :: bez_step u (b :: r)). cbn [map]. now rewrite H.
Qed.
Lemma bezier_map u (A : pt -> pt) l : l <> [] ->
  (forall p q, A (padd (smul u p) (smul (1 - u) q)) = padd (smul u (A p)) (smul (1 - u) (A q))) ->
  bezier (map A l) u = A (bezier l u).
Proof.
  intros N H. unfold bezier. rewrite map_length.
  assert (E : forall k, Nat.iter k (bez_step u) (map A l) = map A (Nat.iter k (bez_step u) l)).
  { induction k as [|k IH]; [reflexivity|]. cbn [Nat.iter nat_rect]. change (nat_rect _ ?x ?f k) with (Nat.iter k (bez_step u) x).
    change (nat_rect (fun _ => list pt) (map A l) (fun _ => bez_step u) k) with (Nat.iter k (bez_step u) (map A l)).
    change (nat_rect (fun _ => list pt) l (fun _ => bez_step u) k) with (Nat.iter k (bez_step u) l).
    rewrite IH. now apply step_map. }
  rewrite E. assert (L : (0 < length (Nat.iter (length l - 1) (bez_step u) l))%nat).
  { rewrite iter_length. destruct l; [congruence|cbn [length]; lia]. }
  destruct (Nat.iter (length l - 1) (bez_step u) l); [cbn in L; lia|reflexivity].
Qed.
Lemma step_in u l p : In p (bez_step u l) -> exists a b, In a l /\ In b l /\ p = padd (smul u b) (smul (1 - u) a).
Proof.
  induction l as [|a [|b r] IH]; [intros []|intros []|].
  change (bez_step u (a :: b :: r)) with (padd (smul u b) (smul (1 - u) a) :: bez_step u (b :: r)).
  intros [<-|H]; [exists a, b; cbn; auto|]. destruct (IH H) as (x & y & Hx & Hy & E). exists x, y. cbn in *; auto.
Qed.
Lemma bezier_in (Q : pt -> Prop) u l : l <> [] -> (forall p q, Q p -> Q q -> Q (padd (smul u p) (smul (1 - u) q))) ->
  (forall p, In p l -> Q p) -> Q (bezier l u).
Proof.
  intros N H I. unfold bezier.
  assert (E : forall k p, In p (Nat.iter k (bez_step u) l) -> Q p).
  { induction k as [|k IH]; intros p Hp; [now apply I|]. cbn [Nat.iter nat_rect] in Hp.
    apply step_in in Hp as (a & b & Ha & Hb & ->). apply H; now apply IH. }
  assert (L : (0 < length (Nat.iter (length l - 1) (bez_step u) l))%nat).
  { rewrite iter_length. destruct l; [congruence|cbn [length]; lia]. }
  destruct (Nat.iter (length l - 1) (bez_step u) l) as [|p r] eqn:Ei; [cbn in L; lia|]. apply (E (length l - 1)%nat). rewrite Ei. now left.
Qed.

Lemma bezier_0 a l : bezier (a :: l) 0 = a.
Proof.
  apply injective_projections; [rewrite bezier_fst by discriminate|rewrite bezier_snd by discriminate]; rewrite cast0; reflexivity.
Qed.
Lemma nth_last {X} (l : list X) d : nth (length l - 1) l d = last l d.
Proof.
  induction l as [|a [|b r] IH]; [reflexivity|reflexivity|].
  transitivity (nth (length (b :: r) - 1) (b :: r) d); [|exact IH].
  replace (length (a :: b :: r) - 1)%nat with (S (length (b :: r) - 1)) by (cbn [length]; lia). reflexivity.
Qed.
Lemma bezier_1 l : l <> [] -> bezier l 1 = last l (0, 0).
Proof.
  intro N. rewrite <- nth_last. apply injective_projections; [rewrite bezier_fst by auto|rewrite bezier_snd by auto]; rewrite cast1, Nat.add_0_l.
  - apply (map_nth fst l (0, 0)).
  - apply (map_nth snd l (0, 0)).
Qed.

(** ** The refinement loop *)

Definition on_curve (f : R -> pt) (x : R * pt) : Prop := snd x = f (fst x).

Lemma refine_flat f tol (u0 u1 : R) :
  let e := psub (smul (/ 2) (padd (f u0) (f u1))) (f (/ 2 * (u0 + u1))) in
  ~ tol < fst e ^ 2 + snd e ^ 2 -> flat f tol u0 u1.
Proof.
  intros e H. unfold flat, dist2, dot. fold e. nra.
Qed.

Lemma last_cons {X} (a d : X) l : last (a :: l) d = last l a.
Proof. revert a; induction l as [|b l IH]; intro a; [reflexivity|]. change (last (a :: b :: l) d) with (last (b :: l) d). rewrite IH.
  destruct l; [reflexivity|]. rewrite <- (IH b). change (last (b :: x :: l) a) with (last (x :: l) a). rewrite <- IH. destruct l; reflexivity. Qed.
Lemma sub_tail {X} (x : X) l m : sub (x :: l) m -> sub l m.
Proof.
  intro H. remember (x :: l) as t eqn:E. revert x l E. induction H as [m|y l0 m S IH|y l0 m S IH]; intros x l E; [discriminate| |].
  - injection E as -> ->. now apply sub_skip.
  - apply sub_skip. eapply IH; eauto.
Qed.
(** Everything the loop promises. *)
Lemma refine_ok f tol fuel : forall prev rest out,
  refine fuel f tol prev rest = Some out -> on_curve f prev -> Forall (on_curve f) rest ->
  links Rlt (fst prev) (map fst rest) ->
  Forall (on_curve f) out /\ links Rlt (fst prev) (map fst out) /\ links (flat f tol) (fst prev) (map fst out) /\
  sub (map fst rest) (map fst out) /\ last (map fst out) (fst prev) = last (map fst rest) (fst prev).
Proof.
  induction fuel as [|n IH]; intros prev rest out E P F L.
  - destruct rest; [|discriminate]. injection E as <-. cbn. repeat split; constructor.
  - destruct rest as [|[u1 p1] more]; [injection E as <-; cbn; repeat split; constructor|].
    destruct prev as [u0 p0]. cbn [refine fst snd] in E.
    inversion F as [|x y F1 F2]; subst. unfold on_curve in P, F1; cbn [fst snd] in P, F1. subst p0 p1.
    destruct L as [L1 L2]; cbn [fst map] in L1, L2.
    destruct (Rlt_dec tol _) as [T|T].
    + apply IH in E as (E1 & E2 & E3 & E4 & E5).
      * split; [exact E1|]. split; [exact E2|]. split; [exact E3|]. split; [|exact E5].
        eapply sub_tail; exact E4.
      * reflexivity.
      * constructor; [reflexivity|]. now constructor.
      * cbn [map links fst]. split; [lra|]. split; [lra|]. exact L2.
    + destruct (refine n f tol (u1, f u1) more) as [o|] eqn:R; [|discriminate]. injection E as <-.
      apply IH in R as (E1 & E2 & E3 & E4 & E5); auto; [|reflexivity].
      cbn [map fst] in *. split; [constructor; auto; reflexivity|]. split; [split; auto|]. split; [split; auto; now apply refine_flat|].
      split; [now constructor|]. now rewrite !last_cons.
Qed.

(** The loop ends if the function has bounded slope. *)
Definition slope (f : R -> pt) (K : R) : Prop :=
  0 <= K /\ forall u v, 0 <= u <= 1 -> 0 <= v <= 1 ->
    Rabs (fst (f u) - fst (f v)) <= K * Rabs (u - v) /\ Rabs (snd (f u) - snd (f v)) <= K * Rabs (u - v).
Lemma slope_small f K tol u0 u1 : slope f K -> 0 <= u0 -> u0 <= u1 -> u1 <= 1 -> 2 * (K * (u1 - u0)) ^ 2 <= tol ->
  let e := psub (smul (/ 2) (padd (f u0) (f u1))) (f (/ 2 * (u0 + u1))) in
  ~ tol < fst e ^ 2 + snd e ^ 2.
Proof.
  intros [K0 S] H0 H01 H1 T e. assert (D : forall (pr : pt -> R), (pr = fst \/ pr = snd) -> Rabs (pr e) <= K * (u1 - u0)).
  { intros pr Hp. set (m := / 2 * (u0 + u1)).
    assert (Um : 0 <= m <= 1) by (unfold m; lra). assert (U0 : 0 <= u0 <= 1) by lra. assert (U1 : 0 <= u1 <= 1) by lra.
    destruct (S u0 m U0 Um) as [A1 A2], (S u1 m U1 Um) as [B1 B2].
    rewrite (Rabs_left1 (u0 - m)) in A1, A2 by (unfold m; lra). rewrite (Rabs_pos_eq (u1 - m)) in B1, B2 by (unfold m; lra).
    assert (E : pr e = / 2 * ((pr (f u0) - pr (f m)) + (pr (f u1) - pr (f m)))) by (destruct Hp; subst pr; unfold e, m; cbn; field).
    rewrite E, Rabs_mult, (Rabs_pos_eq (/ 2)) by lra.
    pose proof (Rabs_triang (pr (f u0) - pr (f m)) (pr (f u1) - pr (f m))) as Tr.
    assert (Rabs (pr (f u0) - pr (f m)) <= K * - (u0 - m) /\ Rabs (pr (f u1) - pr (f m)) <= K * (u1 - m)) as [A B]
      by (destruct Hp; subst pr; auto).
    unfold m in *. nra. }
  pose proof (D fst (or_introl eq_refl)) as D1. pose proof (D snd (or_intror eq_refl)) as D2.
  assert (Sq : forall x y, Rabs x <= y -> x ^ 2 <= y ^ 2).
  { intros x y H. replace (x ^ 2) with (Rabs x ^ 2) by (rewrite pow2_abs; reflexivity). apply pow_incr. split; [apply Rabs_pos|auto]. }
  apply Sq in D1. apply Sq in D2. lra.
Qed.
Lemma refine_ends f K tol : slope f K -> 0 < tol -> forall rest u0,
  0 <= u0 -> links Rle u0 (map fst rest) -> Forall (fun x => fst x <= 1) rest -> Forall (on_curve f) rest ->
  exists fuel out, refine fuel f tol (u0, f u0) rest = Some out.
Proof.
  intros Sl T.
  assert (Half : forall N u0 u1 more, 2 * (K * (u1 - u0)) ^ 2 <= tol * 4 ^ N -> 0 <= u0 -> u0 <= u1 -> u1 <= 1 ->
    (exists fuel out, refine fuel f tol (u1, f u1) more = Some out) ->
    exists fuel out, refine fuel f tol (u0, f u0) ((u1, f u1) :: more) = Some out).
  { induction N as [|N IH]; intros u0 u1 more B H0 H01 H1 (n & out & E).
    - exists (S n), ((u1, f u1) :: out). cbn [refine fst snd]. destruct (Rlt_dec tol _) as [X|X]; [|now rewrite E].
      exfalso. revert X. apply (slope_small f K tol u0 u1 Sl); auto. rewrite pow_O in B. lra.
    - destruct (Rlt_dec tol (let e := psub (smul (/ 2) (padd (f u0) (f u1))) (f (/ 2 * (u0 + u1))) in fst e ^ 2 + snd e ^ 2)) as [X|X].
      + set (m := / 2 * (u0 + u1)).
        assert (Bm : forall a b, b - a = (u1 - u0) / 2 -> 2 * (K * (b - a)) ^ 2 <= tol * 4 ^ N).
        { intros a b ->. cbn [pow] in B. replace (2 * (K * ((u1 - u0) / 2)) ^ 2) with (/ 4 * (2 * (K * (u1 - u0)) ^ 2)) by field. cbn [pow]. lra. }
        destruct (IH m u1 more) as (n1 & o1 & E1); [apply Bm; unfold m; field|unfold m; lra|unfold m; lra|lra|eauto|].
        destruct (IH u0 m ((u1, f u1) :: more)) as (n2 & o2 & E2); [apply Bm; unfold m; field|lra|unfold m; lra|unfold m; lra|eauto|].
        exists (S n2), o2. cbn [refine fst snd]. destruct (Rlt_dec tol _) as [Y|Y]; [exact E2|contradiction].
      + exists (S n), ((u1, f u1) :: out). cbn [refine fst snd]. destruct (Rlt_dec tol _) as [Y|Y]; [contradiction|now rewrite E]. }
  induction rest as [|[u1 p1] more IH]; intros u0 H0 L B F.
  - exists 0%nat, []. reflexivity.
  - destruct L as [L1 L2]; cbn [map fst] in L1, L2. inversion B as [|? ? B1 B2]; subst. inversion F as [|? ? F1 F2]; subst.
    cbn [fst] in B1. unfold on_curve in F1; cbn in F1; subst p1.
    assert (exists N, 2 * (K * (u1 - u0)) ^ 2 <= tol * 4 ^ N) as [N HN].
    { destruct (Pow_x_infinity 4 ltac:(rewrite Rabs_pos_eq; lra) (2 * (K * (u1 - u0)) ^ 2 / tol)) as [N HN].
      exists N. specialize (HN N (Nat.le_refl N)). rewrite Rabs_pos_eq in HN by (apply pow_le; lra).
      apply Rge_le in HN. apply (Rmult_le_compat_l tol) in HN; [|lra].
      replace (tol * (2 * (K * (u1 - u0)) ^ 2 / tol)) with (2 * (K * (u1 - u0)) ^ 2) in HN by (field; lra). exact HN. }
    apply (Half N); auto. apply IH; auto. lra.
Qed.
Lemma refine_mono f tol n k prev rest out : refine n f tol prev rest = Some out -> refine (n + k) f tol prev rest = Some out.
Proof.
  revert prev rest out; induction n as [|n IH]; intros prev rest out E.
  - destruct rest; [|discriminate]. destruct k; exact E.
  - destruct rest as [|x more]; [exact E|]. cbn [refine Nat.add] in *. destruct (Rlt_dec tol _); [now apply IH|].
    destruct (refine n f tol x more) as [o|] eqn:R; [|discriminate]. now rewrite (IH _ _ _ R).
Qed.

Lemma max_abs (l : list R) : exists M, forall j, Rabs (nth j l 0) <= M.
Proof.
  induction l as [|a l [M IH]].
  - exists 0. intros [|j]; cbn; rewrite Rabs_R0; lra.
  - exists (Rmax (Rabs a) M). intros [|j]; cbn [nth]; [apply Rmax_l|]. eapply Rle_trans; [apply IH|apply Rmax_r].
Qed.
Lemma bezier_slope l : l <> [] -> exists K, slope (bezier l) K.
Proof.
  intro N. destruct (max_abs (map fst l)) as [M1 B1], (max_abs (map snd l)) as [M2 B2].
  assert (P1 : 0 <= M1) by (eapply Rle_trans; [apply Rabs_pos|apply (B1 0%nat)]).
  assert (P2 : 0 <= M2) by (eapply Rle_trans; [apply Rabs_pos|apply (B2 0%nat)]).
  set (k := (length l - 1)%nat). pose proof (pos_INR k) as Pk.
  exists (2 * (M1 + M2) * INR k). split; [nra|]. intros u v U V. rewrite !bezier_fst, !bezier_snd by auto.
  pose proof (cast_lipschitz k _ 0 u v M1 B1 U V). pose proof (cast_lipschitz k _ 0 u v M2 B2 U V).
  pose proof (Rabs_pos (u - v)) as Pa. assert (0 <= INR k * Rabs (u - v)) by nra.
  split; (eapply Rle_trans; [eassumption|nra]).
Qed.
