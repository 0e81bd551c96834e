(** C78: the control points of smooth curves. *)

From Coq Require Import Reals Lra Lia List ZArith Bool Arith.
From Verif Require Import Plane PlaneProofs Flex SpecFlex FlexProofs SpecRound PropFlexShape PropFlexEnds PropFlexRound Smooth SpecSmooth.
Import ListNotations.
Open Scope R_scope.

(** ** Sparse rows *)

Lemma entry_acc (r : row) (c : nat) : forall acc : R, ~ In c (map fst r) -> fold_left (fun acc a => if (fst a =? c)%nat then snd a else acc) r acc = acc.
Proof.
  induction r as [|[k x] r IH]; intros acc N; [reflexivity|]. cbn [fold_left fst snd map] in *. destruct (Nat.eqb_spec k c) as [->|_]; [exfalso; apply N; now left|].
  apply IH. intro. apply N. now right.
Qed.
Lemma entry_cons k x r c : ~ In k (map fst r) -> entry ((k, x) :: r) c = if (k =? c)%nat then x else entry r c.
Proof. intro N. unfold entry. cbn [fold_left fst snd]. destruct (Nat.eqb_spec k c) as [->|_]; [now apply entry_acc|reflexivity]. Qed.
Lemma total_plus n f g : total n (fun c => f c + g c) = total n f + total n g.
Proof. unfold total. induction (seq 0 n) as [|a l IH]; cbn; [ring|]. rewrite IH. ring. Qed.
Lemma total_zero n f : (forall c, (c < n)%nat -> f c = 0) -> total n f = 0.
Proof.
  intro H. unfold total. assert (G : forall c, In c (seq 0 n) -> f c = 0) by (intros c I; apply H; apply in_seq in I; lia). clear H.
  induction (seq 0 n) as [|a l IH]; cbn; [reflexivity|]. rewrite (G a) by now left. rewrite IH; [ring|]. intros c I. apply G. now right.
Qed.
Lemma total_ext n f g : (forall c, (c < n)%nat -> f c = g c) -> total n f = total n g.
Proof. intro H. unfold total. f_equal. apply map_ext_in. intros c I. apply H. apply in_seq in I. lia. Qed.
Lemma total_one n k y : (k < n)%nat -> total n (fun c => if (k =? c)%nat then y else 0) = y.
Proof.
  intro K. unfold total. replace n with (k + S (n - k - 1))%nat by lia. rewrite seq_app, map_app. cbn [seq map plus].
  assert (Z : forall l, (forall c, In c l -> k <> c) -> forall e, fold_right Rplus e (map (fun c => if (k =? c)%nat then y else 0) l) = e).
  { induction l as [|a l IH]; intros G e; [reflexivity|]. cbn. destruct (Nat.eqb_spec k a) as [E|_]; [exfalso; apply (G a); [now left|exact E]|]. rewrite IH; [ring|]. intros c I. apply G. now right. }
  rewrite fold_right_app. cbn [fold_right]. rewrite Nat.eqb_refl, !Z; [ring| |]; intros c I; apply in_seq in I; lia.
Qed.
Definition rowsum (r : row) (x : nat -> R) : R := fold_right (fun a acc => snd a * x (fst a) + acc) 0 r.
Lemma total_row n r x : NoDup (map fst r) -> (forall k, In k (map fst r) -> (k < n)%nat) -> total n (fun c => entry r c * x c) = rowsum r x.
Proof.
  induction r as [|[k y] r IH]; intros ND B.
  - apply total_zero. intros c _. unfold entry. cbn. ring.
  - cbn [map fst] in *. inversion ND as [|? ? NI ND']; subst. cbn [rowsum fold_right fst snd]. fold (rowsum r x).
    rewrite <- IH; [|assumption|intros j J; apply B; now right].
    rewrite <- (total_one n k (y * x k)) by (apply B; now left). rewrite <- total_plus. apply total_ext. intros c _. rewrite entry_cons by exact NI.
    destruct (Nat.eqb_spec k c) as [->|_]; [|ring]. unfold entry. rewrite (entry_acc r c 0 NI). ring.
Qed.

(** ** Angles *)

Lemma wrap_turns x : exists k : Z, wrap x = x - 2 * IZR k * PI.
Proof. exists (Int_part ((x + PI) / (2 * PI))). unfold wrap. ring. Qed.
Lemma wrap_range x : - PI <= wrap x < PI.
Proof.
  pose proof PI_RGT_0 as P. unfold wrap. destruct (base_Int_part ((x + PI) / (2 * PI))) as [A B]. set (k := IZR (Int_part _)) in *. clearbody k.
  set (y := (x + PI) / (2 * PI)) in *. assert (Y : x + PI = 2 * PI * y) by (unfold y; field; lra). clearbody y.
  assert (2 * PI * (y - k) >= 0) by nra. assert (2 * PI * (y - k) < 2 * PI) by nra. nra.
Qed.
Lemma turns_same x (k : Z) : same_dir (x - 2 * IZR k * PI) x.
Proof.
  assert (P : forall n y, same_dir (y + 2 * INR n * PI) y) by (intros n y; split; [apply cos_period|apply sin_period]).
  unfold same_dir. destruct k as [|p|p].
  - replace (x - 2 * 0 * PI) with x by ring. auto.
  - rewrite <- (positive_nat_Z p), <- INR_IZR_INZ. set (m := Pos.to_nat p). destruct (P m (x - 2 * INR m * PI)) as [C S].
    replace (x - 2 * INR m * PI + 2 * INR m * PI) with x in * by ring. auto.
  - replace (Z.neg p) with (- Z.pos p)%Z by reflexivity. rewrite opp_IZR, <- (positive_nat_Z p), <- INR_IZR_INZ. set (m := Pos.to_nat p).
    replace (x - 2 * - INR m * PI) with (x + 2 * INR m * PI) by ring. apply P.
Qed.
Lemma same_dir_refl a : same_dir a a. Proof. split; reflexivity. Qed.
Lemma same_dir_sym a b : same_dir a b -> same_dir b a. Proof. intros [A B]. split; congruence. Qed.
Lemma same_dir_trans a b c : same_dir a b -> same_dir b c -> same_dir a c. Proof. intros [A B] [C D]. split; congruence. Qed.
Lemma same_dir_add a b x : same_dir a b -> same_dir (a + x) (b + x).
Proof. intros [A B]. unfold same_dir. rewrite !cos_plus, !sin_plus, A, B. auto. Qed.
Lemma same_dir_opp a b : same_dir a b -> same_dir (- a) (- b).
Proof. intros [A B]. unfold same_dir. rewrite !cos_neg, !sin_neg, A, B. auto. Qed.
Lemma same_dir_sub a b x : same_dir a b -> same_dir (x - a) (x - b).
Proof. intro H. unfold Rminus. rewrite (Rplus_comm x), (Rplus_comm x). apply same_dir_add, same_dir_opp, H. Qed.

(** ** The pieces between points with angles *)

Ltac nodup := repeat constructor; cbn [In map fst]; try lia; intuition lia.
Section Open.
Variables (solve : solver) (z : list pt) (angles : list (option R)) (cs ce : R) (ti to : list R).
Hypothesis sound_solve : sound solve.
Notation segs := (segs z). Notation angle := (angle angles). Notation d := (d z). Notation delta := (delta z). Notation psi := (psi z).
Notation at_ := Smooth.at_.

Definition curv (k : nat) (th ph : nat -> R) : Prop :=
  d (S k) * at_ ti (S (S k)) * at_ ti (S k) ^ 2 * th k + - d k * at_ to k * at_ to (S k) ^ 2 * (1 - 3 * at_ ti (S (S k))) * th (S k) +
  d (S k) * at_ ti (S (S k)) * at_ ti (S k) ^ 2 * (1 - 3 * at_ to k) * ph k + - d k * at_ to k * at_ to (S k) ^ 2 * ph (S k) = 0.
Definition start_eq (th ph : nat -> R) : Prop :=
  (at_ to 0 ^ 3 * (1 - 3 * at_ ti 1) - cs * at_ ti 1 ^ 3) * th 0%nat + (at_ to 0 ^ 3 - cs * at_ ti 1 ^ 3 * (1 - 3 * at_ to 0)) * ph 0%nat = 0.
Definition end_eq (th ph : nat -> R) : Prop :=
  (at_ ti segs ^ 3 - ce * at_ to (segs - 1) ^ 3 * (1 - 3 * at_ ti segs)) * th (segs - 1)%nat +
  (at_ ti segs ^ 3 * (1 - 3 * at_ to (segs - 1)) - ce * at_ to (segs - 1) ^ 3) * ph (segs - 1)%nat = 0.
(** The equations of the arcs from point [i] to point [j]. *)
Record piece_ok (i j : nat) (th ph : nat -> R) : Prop := {
  po_out : forall k a, (i <= k < j)%nat -> angle k = Some a -> th k = a - delta k;
  po_in : forall k a, (i < k <= j)%nat -> angle k = Some a -> ph (k - 1)%nat = delta (k - 1) - a;
  po_turn : forall k, (i <= k)%nat -> (S k < j)%nat -> angle (S k) = None -> th (S k) + ph k = - psi k;
  po_curv : forall k, (i <= k)%nat -> (S k < j)%nat -> angle (S k) = None -> curv k th ph;
  po_start : i = 0%nat -> (0 < j)%nat -> angle 0 = None -> start_eq th ph;
  po_end : j = segs -> (i < j)%nat -> angle segs = None -> end_eq th ph }.

Lemma next_given_spec left j : (j + left = S segs)%nat -> (1 <= j)%nat ->
  (j <= S segs)%nat -> let m := next_given z angles left j in
  (m <= segs)%nat /\ (j <= S m)%nat /\ (j <= segs -> j <= m)%nat /\ (forall k, (j <= k < m)%nat -> angle k = None) /\ (m = segs \/ angle m <> None).
Proof.
  revert j. induction left as [|m IH]; intros j E J B; cbn [next_given].
  - cbv zeta. repeat split; try lia.
  - destruct (angle j) as [a|] eqn:A.
    + cbv zeta. split; [lia|]. split; [lia|]. split; [lia|]. split; [intros; lia|right; congruence].
    + destruct (IH (S j) ltac:(lia) ltac:(lia) ltac:(lia)) as (X1 & X2 & X3 & X4 & X5). cbv zeta. split; [exact X1|]. split; [lia|]. split; [|split; [|exact X5]].
      * intros Q. destruct (Nat.eq_dec j segs); [|lia]. lia.
      * intros k K. destruct (Nat.eq_dec k j) as [->|]; [exact A|]. apply X4. lia.
Qed.
Lemma piece_end_spec i : (i < segs)%nat -> let j := piece_end z angles i in
  (i < j <= segs)%nat /\ (forall k, (i < k < j)%nat -> angle k = None) /\ (j = segs \/ angle j <> None).
Proof.
  intro I. unfold piece_end. destruct (next_given_spec (segs - i) (S i) ltac:(lia) ltac:(lia) ltac:(lia)) as (A & B & C & D & E).
  cbv zeta. split; [lia|]. split; [|exact E]. intros k K. apply D. lia.
Qed.

Lemma system_ok i j x : (i < j <= segs)%nat -> (forall k, (i < k < j)%nat -> angle k = None) -> (j = segs \/ angle j <> None) -> (i = 0%nat \/ angle i <> None) ->
  solves (2 * (j - i)) (fun r => entry (open_row z angles cs ce ti to i j r)) (open_coef z angles i j) x ->
  forall th ph, (forall k, (i <= k < j)%nat -> th k = x (k - i)%nat /\ ph k = x (j - i + (k - i))%nat) -> piece_ok i j th ph.
Proof.
  intros B F J I SOL th ph E.
  assert (ROW : forall r, (r < 2 * (j - i))%nat -> NoDup (map fst (open_row z angles cs ce ti to i j r)) ->
     (forall k, In k (map fst (open_row z angles cs ce ti to i j r)) -> (k < 2 * (j - i))%nat) -> rowsum (open_row z angles cs ce ti to i j r) x = open_coef z angles i j r).
  { intros r R N K. rewrite <- (SOL r R). symmetry. now apply total_row. }
  split.
  - intros k a K A. assert (k = i) by (destruct (Nat.eq_dec k i); [assumption|]; rewrite (F k) in A by lia; discriminate). subst k.
    specialize (ROW 0%nat). unfold open_row, open_coef in ROW. cbn [Nat.eqb] in ROW. rewrite A in ROW. unfold rowsum in ROW. cbn [fold_right fst snd map In] in ROW.
    unfold theta_given in ROW. destruct (E i ltac:(lia)) as [-> _]. rewrite Nat.sub_diag. rewrite <- ROW; [ring|lia|nodup|intuition lia].
  - intros k a K A. assert (k = j) by (destruct (Nat.eq_dec k j); [assumption|]; rewrite (F k) in A by lia; discriminate). subst k.
    specialize (ROW (2 * (j - i) - 1)%nat). unfold open_row, open_coef in ROW. replace (2 * (j - i) - 1 =? 0)%nat with false in ROW by (symmetry; apply Nat.eqb_neq; lia).
    rewrite Nat.eqb_refl, A in ROW. unfold rowsum in ROW. cbn [fold_right fst snd map In] in ROW. unfold phi_given in ROW.
    destruct (E (j - 1)%nat ltac:(lia)) as [_ ->]. replace (j - i + (j - 1 - i))%nat with (2 * (j - i) - 1)%nat by lia. rewrite <- ROW; [ring|lia|nodup|intuition lia].
  - intros k K1 K2 A. specialize (ROW (S k - i)%nat). unfold open_row, open_coef in ROW.
    replace (Nat.eqb (S k - i) 0) with false in ROW by (symmetry; apply Nat.eqb_neq; lia).
    replace (Nat.eqb (S k - i) (2 * (j - i) - 1)) with false in ROW by (symmetry; apply Nat.eqb_neq; lia).
    replace (Nat.ltb (S k - i) (j - i)) with true in ROW by (symmetry; apply Nat.ltb_lt; lia).
    unfold rowsum in ROW. cbn [fold_right fst snd map In] in ROW. destruct (E (S k) ltac:(lia)) as [-> _]. destruct (E k ltac:(lia)) as [_ ->].
    replace (S (S k - i - 1)) with (S k - i)%nat in ROW by lia. replace (j - i + (S k - i - 1))%nat with (j - i + (k - i))%nat in ROW by lia.
    replace (i + (S k - i) - 1)%nat with k in ROW by lia. rewrite <- ROW; [ring|lia|nodup|intuition lia].
  - intros k K1 K2 A. specialize (ROW (j - i + (k - i))%nat). unfold open_row, open_coef in ROW.
    replace (Nat.eqb (j - i + (k - i)) 0) with false in ROW by (symmetry; apply Nat.eqb_neq; lia).
    replace (Nat.eqb (j - i + (k - i)) (2 * (j - i) - 1)) with false in ROW by (symmetry; apply Nat.eqb_neq; lia).
    replace (Nat.ltb (j - i + (k - i)) (j - i)) with false in ROW by (symmetry; apply Nat.ltb_ge; lia).
    cbv zeta in ROW. replace (j - i + (k - i) - (j - i))%nat with (k - i)%nat in ROW by lia. replace (i + (k - i))%nat with k in ROW by lia.
    unfold rowsum in ROW. cbn [fold_right fst snd map In] in ROW. unfold curv. destruct (E (S k) ltac:(lia)) as [-> ->]. destruct (E k ltac:(lia)) as [-> ->].
    replace (S k - i)%nat with (S (k - i)) by lia. replace (j - i + S (k - i))%nat with (S (j - i + (k - i))) by lia.
    rewrite <- ROW; [ring|lia|nodup|intuition lia].
  - intros -> J0 A. specialize (ROW 0%nat). unfold open_row, open_coef in ROW. cbn [Nat.eqb] in ROW. rewrite A in ROW. unfold rowsum in ROW. cbv zeta in ROW. cbn [fold_right fst snd map In] in ROW.
    unfold start_eq. destruct (E 0%nat ltac:(lia)) as [-> ->]. replace (j - 0 + (0 - 0))%nat with (j - 0)%nat by lia. replace (0 - 0)%nat with 0%nat by lia.
    rewrite <- ROW; [ring|lia|nodup|intuition lia].
  - intros -> J0 A. specialize (ROW (2 * (segs - i) - 1)%nat). unfold open_row, open_coef in ROW.
    replace (2 * (segs - i) - 1 =? 0)%nat with false in ROW by (symmetry; apply Nat.eqb_neq; lia).
    rewrite Nat.eqb_refl, A in ROW. unfold rowsum in ROW. cbv zeta in ROW. cbn [fold_right fst snd map In] in ROW. unfold end_eq.
    destruct (E (segs - 1)%nat ltac:(lia)) as [-> ->]. replace (segs - i + (segs - 1 - i))%nat with (2 * (segs - i) - 1)%nat by lia.
    replace (segs - 1 - i)%nat with (segs - i - 1)%nat by lia. rewrite <- ROW; [ring|lia|nodup|intuition lia].
Qed.
Lemma nth_map_seq {X} (f : nat -> X) n k e : (k < n)%nat -> nth k (map f (seq 0 n)) e = f k.
Proof. intro K. rewrite (nth_indep _ e (f 0%nat)) by (rewrite map_length, seq_length; exact K). rewrite (map_nth f), seq_nth by exact K. reflexivity. Qed.
Lemma solve_piece_ok i j s : (i < j <= segs)%nat -> (forall k, (i < k < j)%nat -> angle k = None) -> (j = segs \/ angle j <> None) -> (i = 0%nat \/ angle i <> None) ->
  solve_piece solve z angles cs ce ti to i j = Some s -> length s = (j - i)%nat /\
  forall th ph, (forall k, (i <= k < j)%nat -> th k = fst (nth (k - i) s (0, 0)) /\ ph k = snd (nth (k - i) s (0, 0))) -> piece_ok i j th ph.
Proof.
  intros B F J I H.
  assert (SYS : option_map (fun x => map (fun k => (x k, x (j - i + k)%nat)) (seq 0 (j - i)))
       (solve (2 * (j - i))%nat (fun r => entry (open_row z angles cs ce ti to i j r)) (open_coef z angles i j)) = Some s ->
     length s = (j - i)%nat /\
     forall th ph, (forall k, (i <= k < j)%nat -> th k = fst (nth (k - i) s (0, 0)) /\ ph k = snd (nth (k - i) s (0, 0))) -> piece_ok i j th ph).
  { intro Q. destruct (solve _ _ _) as [x|] eqn:S; [|discriminate]. injection Q as <-. split; [now rewrite map_length, seq_length|].
    intros th ph E. apply (system_ok i j x B F J I (sound_solve _ _ _ _ S)). intros k K. destruct (E k K) as [-> ->]. rewrite nth_map_seq by lia. auto. }
  unfold solve_piece in H. destruct (angle i) as [a|] eqn:Ai; [|exact (SYS H)]. destruct (angle j) as [b|] eqn:Aj; [|exact (SYS H)].
  destruct (Nat.ltb_spec 1 (j - i)) as [L|L]; [exact (SYS H)|]. injection H as <-. assert (j = S i) by lia. subst j. split; [cbn [length]; lia|].
  intros th ph E. destruct (E i ltac:(lia)) as [E1 E2]. rewrite Nat.sub_diag in E1, E2. cbn [nth fst snd] in E1, E2. unfold theta_given, phi_given in *.
  split; try (intros; lia).
  - intros k c K A. assert (k = i) by lia. subst k. rewrite Ai in A. injection A as <-. exact E1.
  - intros k c K A. assert (k = S i) by lia. subst k. rewrite Aj in A. injection A as <-. replace (S i - 1)%nat with i in * by lia. exact E2.
  - intros -> _ A. congruence.
  - intros <- _ A. congruence.
Qed.
Lemma solve_from_ok : forall fuel i s, (segs - i <= fuel)%nat -> (i <= segs)%nat -> (i = 0%nat \/ angle i <> None) ->
  solve_from solve z angles cs ce ti to fuel i = Some s -> length s = (segs - i)%nat /\
  forall th ph, (forall k, (i <= k < segs)%nat -> th k = fst (nth (k - i) s (0, 0)) /\ ph k = snd (nth (k - i) s (0, 0))) -> piece_ok i segs th ph.
Proof.
  induction fuel as [|fuel IH]; intros i s F I G H; cbn [solve_from] in H.
  - injection H as <-. split; [cbn; lia|]. intros th ph _. split; intros; lia.
  - destruct (Nat.ltb_spec i segs) as [L|L].
    + destruct (piece_end_spec i L) as (B & N & E). set (j := piece_end z angles i) in *.
      destruct (solve_piece _ _ _ _ _ _ _ i j) as [a|] eqn:P; [|discriminate]. destruct (solve_from _ _ _ _ _ _ _ _ j) as [b|] eqn:Q; [|discriminate].
      injection H as <-. destruct (solve_piece_ok i j a B N E G P) as [LA PA].
      assert (QB : length b = (segs - j)%nat /\
        forall th ph, (forall k, (j <= k < segs)%nat -> th k = fst (nth (k - j) b (0, 0)) /\ ph k = snd (nth (k - j) b (0, 0))) -> piece_ok j segs th ph).
      { destruct E as [E|E]; [|apply (IH j b); [lia|lia|now right|exact Q]]. rewrite E in *. rewrite Nat.sub_diag in *.
        assert (b = []) by (destruct fuel; cbn [solve_from] in Q; rewrite ?Nat.ltb_irrefl in Q; congruence). subst b.
        split; [reflexivity|]. intros th ph _. split; intros; lia. }
      destruct QB as [LB PB]. split; [rewrite app_length; lia|]. intros th ph T.
      assert (P1 : piece_ok i j th ph). { apply PA. intros k K. destruct (T k ltac:(lia)) as [-> ->]. rewrite app_nth1 by lia. auto. }
      assert (P2 : piece_ok j segs th ph). { apply PB. intros k K. destruct (T k ltac:(lia)) as [-> ->]. rewrite app_nth2 by lia. rewrite LA. replace (k - i - (j - i))%nat with (k - j)%nat by lia. auto. }
      split.
      * intros k x K A. destruct (Nat.ltb_spec k j); [eapply po_out; [exact P1| |exact A]; lia|eapply po_out; [exact P2| |exact A]; lia].
      * intros k x K A. destruct (Nat.leb_spec k j); [eapply po_in; [exact P1| |exact A]; lia|eapply po_in; [exact P2| |exact A]; lia].
      * intros k K1 K2 A. destruct (Nat.ltb_spec (S k) j); [apply (po_turn _ _ _ _ P1); [lia|lia|exact A]|]. destruct (Nat.eq_dec (S k) j) as [EK|]; [|apply (po_turn _ _ _ _ P2); [lia|lia|exact A]].
        rewrite EK in *. destruct E as [->|E]; [lia|congruence].
      * intros k K1 K2 A. destruct (Nat.ltb_spec (S k) j); [apply (po_curv _ _ _ _ P1); [lia|lia|exact A]|]. destruct (Nat.eq_dec (S k) j) as [EK|]; [|apply (po_curv _ _ _ _ P2); [lia|lia|exact A]].
        rewrite EK in *. destruct E as [->|E]; [lia|congruence].
      * intros I0 _ A. apply (po_start _ _ _ _ P1); [exact I0|lia|exact A].
      * intros _ _ A. destruct (Nat.eq_dec j segs) as [EJ|]; [apply (po_end _ _ _ _ P1); [exact EJ|lia|exact A]|apply (po_end _ _ _ _ P2); [reflexivity|lia|exact A]].
    + injection H as <-. split; [cbn; lia|]. intros th ph _. split; intros; lia.
Qed.
End Open.

(** ** Arcs *)

Lemma heads_same p q t u : p <> q -> heads p q t -> heads p q u -> same_dir t u.
Proof.
  intros N H K. pose proof (apart_pos p q N) as P. unfold heads in *. rewrite H in K. unfold smul in K. cbn [fst snd] in K. injection K as C S.
  split; eapply Rmult_eq_reg_l; eauto; lra.
Qed.
Lemma out_f th ph t : 0 < t -> out_len th ph t = hobby_f th ph / t.
Proof.
  intro P. unfold out_len, hobby_f, alpha, c_. replace (1 - (3 - sqrt 5) / 2) with ((sqrt 5 - 1) / 2) by lra.
  set (D := 1 + (sqrt 5 - 1) / 2 * cos th + (3 - sqrt 5) / 2 * cos ph). unfold Rdiv. rewrite !Rinv_mult. ring.
Qed.
Lemma in_f th ph t : 0 < t -> in_len th ph t = hobby_f ph th / t.
Proof.
  intro P. rewrite <- (out_f ph th t P). unfold in_len, out_len, alpha. f_equal. f_equal. ring.
Qed.
Lemma f_same a b x y : same_dir a b -> same_dir x y -> hobby_f a x = hobby_f b y.
Proof. intros [A B] [C D]. unfold hobby_f. now rewrite A, B, C, D. Qed.
(** A direction written as the angle of the chord plus something *)
Lemma controls_arc p q a b th ph to ti : p <> q -> 0 < to -> 0 < ti -> same_dir a (along (psub q p) + th) -> same_dir b (along (psub q p) - ph) ->
  hobby_arc p q a b to ti (controls p q (len (psub q p)) a b th ph to ti).
Proof.
  intros N TO TI A B t H. pose proof (heads_same p q t _ N H (heads_along p q N)) as T.
  assert (X : same_dir (a - t) th).
  { apply (same_dir_trans _ (along (psub q p) + th - t)); [unfold Rminus; now apply same_dir_add|].
    apply (same_dir_trans _ (along (psub q p) + th - along (psub q p))); [now apply same_dir_sub|]. replace (along (psub q p) + th - along (psub q p)) with th by ring. apply same_dir_refl. }
  assert (Y : same_dir (t - b) ph).
  { apply (same_dir_trans _ (t - (along (psub q p) - ph))); [now apply same_dir_sub|].
    replace (t - (along (psub q p) - ph)) with (t + (ph - along (psub q p))) by ring. apply (same_dir_trans _ (along (psub q p) + (ph - along (psub q p)))); [now apply same_dir_add|].
    replace (along (psub q p) + (ph - along (psub q p))) with ph by ring. apply same_dir_refl. }
  rewrite (f_same _ _ _ _ X Y), (f_same _ _ _ _ Y X). unfold controls. cbn [fst snd]. rewrite out_f, in_f by assumption.
  replace (len (psub q p)) with (apart p q) by reflexivity. unfold Rdiv. split; f_equal; f_equal; ring.
Qed.
Lemma turned_along p q a x : p <> q -> same_dir a (along (psub q p) + x) -> turned p q a x.
Proof.
  intros N A t H. pose proof (heads_same p q t _ N H (heads_along p q N)) as T. eapply same_dir_trans; [exact A|]. apply same_dir_add, same_dir_sym, T.
Qed.
Lemma psi_turn z k : same_dir (delta z (S k) - psi z k) (delta z k).
Proof.
  unfold psi. destruct (wrap_turns (delta z (S k) - delta z k)) as [m ->].
  replace (delta z (S k) - (delta z (S k) - delta z k - 2 * IZR m * PI)) with (delta z k - 2 * IZR (- m) * PI) by (rewrite opp_IZR; ring). apply turns_same.
Qed.

(** ** Open curves *)

Theorem C78_open : forall solve z angles cs ce ti to ctrl, sound solve -> (2 <= length z)%nat -> length ti = length z -> length to = length z ->
  (forall x, In x ti -> 0 < x) -> (forall x, In x to -> 0 < x) -> (forall k, (S k < length z)%nat -> nth k z (0, 0) <> nth (S k) z (0, 0)) ->
  hobby solve z angles cs ce ti to false = Some ctrl ->
  let n := (length z - 1)%nat in let p k := nth k z (0, 0) in let tout k := nth k to 0 in let tin k := nth k ti 0 in
  let d k := apart (p k) (p (S k)) in
  length ctrl = n /\
  exists a th ph, spline n p tout tin (fun k => nth k ctrl ((0, 0), (0, 0))) a th ph /\
    (forall k x, (k <= n)%nat -> nth k angles None = Some x -> same_dir (a k) x) /\
    (forall k, (S k < n)%nat -> nth (S k) angles None = None -> joined p tout tin th ph k) /\
    (nth 0 angles None = None -> mock_start (d 0%nat) (tout 0%nat) (tin 1%nat) (th 0%nat) (ph 0%nat) = cs * mock_end (d 0%nat) (tout 0%nat) (tin 1%nat) (th 0%nat) (ph 0%nat)) /\
    (nth n angles None = None -> let m := (n - 1)%nat in mock_end (d m) (tout m) (tin n) (th m) (ph m) = ce * mock_start (d m) (tout m) (tin n) (th m) (ph m)).
Proof.
  intros solve z angles cs ce ti to ctrl SS LZ LI LO TI TO DP H n p tout tin d.
  unfold hobby in H. cbn [andb] in H. unfold hobby_open in H. destruct (solve_from _ _ _ _ _ _ _ _ 0) as [s|] eqn:SF; [|discriminate]. injection H as <-.
  assert (SN : segs z = n) by reflexivity.
  destruct (solve_from_ok solve z angles cs ce ti to SS (segs z) 0 s ltac:(lia) ltac:(lia) ltac:(now left) SF) as [LS PK].
  split; [rewrite map_length, seq_length; reflexivity|].
  set (th := fun k => fst (nth k s (0, 0))). set (ph := fun k => snd (nth k s (0, 0))). set (a := w_angle z s).
  specialize (PK th ph). destruct PK as [PO PI_ PT PC PS PE]; [intros k _; rewrite Nat.sub_0_r; auto|].
  rewrite SN in *.
  assert (DP' : forall k, (k < n)%nat -> p k <> p (S k)) by (intros; apply DP; lia).
  assert (DD : forall k, Smooth.d z k = d k) by reflexivity.
  assert (Dpos : forall k, (k < n)%nat -> 0 < d k) by (intros k K; apply apart_pos, DP', K).
  assert (TOP : forall k, (k <= n)%nat -> 0 < tout k) by (intros k K; apply TO, nth_In; lia).
  assert (TIP : forall k, (k <= n)%nat -> 0 < tin k) by (intros k K; apply TI, nth_In; lia).
  assert (A0 : forall k, (k < n)%nat -> a k = along (psub (p (S k)) (p k)) + th k).
  { intros k K. unfold a, w_angle. rewrite SN. replace (k <? n)%nat with true by (symmetry; apply Nat.ltb_lt; lia). reflexivity. }
  assert (AN : a n = along (psub (p n) (p (n - 1)%nat)) - ph (n - 1)%nat).
  { unfold a, w_angle. rewrite SN, Nat.ltb_irrefl. unfold delta, v, pos. replace (S (n - 1)) with n by lia. reflexivity. }
  assert (A1 : forall k, (k < n)%nat -> same_dir (a (S k)) (along (psub (p (S k)) (p k)) - ph k)).
  { intros k K. destruct (Nat.eq_dec (S k) n) as [E|E].
    - rewrite E, AN. replace (n - 1)%nat with k by lia. apply same_dir_refl.
    - rewrite A0 by lia. change (along (psub (p (S k)) (p k))) with (delta z k). change (along (psub (p (S (S k))) (p (S k)))) with (delta z (S k)).
      destruct (angle angles (S k)) as [x|] eqn:AK.
      + rewrite (PO (S k) x) by (try lia; exact AK). pose proof (PI_ (S k) x ltac:(lia) AK) as Q. replace (S k - 1)%nat with k in Q by lia. rewrite Q.
        replace (delta z (S k) + (x - delta z (S k))) with x by ring. replace (delta z k - (delta z k - x)) with x by ring. apply same_dir_refl.
      + pose proof (PT k ltac:(lia) ltac:(lia) AK) as Q. replace (delta z (S k) + th (S k)) with (delta z (S k) - psi z k + - ph k) by lra.
        apply same_dir_add, psi_turn. }
  exists a, th, ph. split; [|split; [|split; [|split]]].
  - split.
    + intros k K. rewrite nth_map_seq by exact K. apply controls_arc; [apply DP', K|apply TOP; lia|apply TIP; lia|rewrite A0 by exact K; apply same_dir_refl|apply A1, K].
    + intros k K. apply turned_along; [apply DP', K|]. rewrite A0 by exact K. apply same_dir_refl.
    + intros k K. apply turned_along; [apply DP', K|]. apply A1, K.
  - intros k x K E. destruct (Nat.eq_dec k n) as [->|].
    + unfold a, w_angle. rewrite SN, Nat.ltb_irrefl. change (snd (nth (n - 1) s (0, 0))) with (ph (n - 1)%nat). rewrite (PI_ n x ltac:(lia) E).
      replace (delta z (n - 1) - (delta z (n - 1) - x)) with x by ring. apply same_dir_refl.
    + rewrite A0 by lia. rewrite (PO k x ltac:(lia) E). change (along (psub (p (S k)) (p k))) with (delta z k). replace (delta z k + (x - delta z k)) with x by ring. apply same_dir_refl.
  - intros k K E. pose proof (PT k ltac:(lia) K E) as Q. pose proof (PC k ltac:(lia) K E) as C. split.
    + rewrite Q. pose proof (wrap_range (delta z (S k) - delta z k)) as W. fold (psi z k) in W. lra.
    + cbv zeta. fold (d k) (d (S k)). unfold curv in C. change (Smooth.d z) with d in C. unfold mock_end, mock_start.
      change (Smooth.at_ ti) with tin in C. change (Smooth.at_ to) with tout in C.
      pose proof (Dpos k ltac:(lia)). pose proof (Dpos (S k) ltac:(lia)). pose proof (TOP k ltac:(lia)). pose proof (TOP (S k) ltac:(lia)). pose proof (TIP (S k) ltac:(lia)). pose proof (TIP (S (S k)) ltac:(lia)).
      apply (Rmult_eq_reg_l (d k * d (S k) * tout k * tin (S (S k)) / 2)); [|assert (0 < d k * d (S k) * tout k * tin (S (S k))) by (repeat apply Rmult_lt_0_compat; assumption); lra].
      apply Rminus_diag_uniq. match goal with |- ?g = 0 => match type of C with ?c = 0 => replace g with c; [exact C|] end end. field. lra.
  - intro E. pose proof (PS eq_refl ltac:(lia) E) as C. unfold start_eq in C. change (Smooth.at_ ti) with tin in C. change (Smooth.at_ to) with tout in C.
    pose proof (Dpos 0%nat ltac:(lia)). pose proof (TOP 0%nat ltac:(lia)). pose proof (TIP 1%nat ltac:(lia)). unfold mock_start, mock_end.
    apply (Rmult_eq_reg_l (d 0%nat * tout 0%nat * tin 1%nat / 2)); [|assert (0 < d 0%nat * tout 0%nat * tin 1%nat) by (repeat apply Rmult_lt_0_compat; assumption); lra].
    apply Rminus_diag_uniq. match goal with |- ?g = 0 => match type of C with ?c = 0 => replace g with c; [exact C|] end end. field. lra.
  - intros E m. pose proof (PE eq_refl ltac:(lia) E) as C. unfold end_eq in C. rewrite SN in C. change (Smooth.at_ ti) with tin in C. change (Smooth.at_ to) with tout in C. fold m in C.
    pose proof (Dpos m ltac:(unfold m; lia)). pose proof (TOP m ltac:(unfold m; lia)). pose proof (TIP n ltac:(lia)). unfold mock_start, mock_end.
    apply (Rmult_eq_reg_l (d m * tout m * tin n / 2)); [|assert (0 < d m * tout m * tin n) by (repeat apply Rmult_lt_0_compat; assumption); lra].
    apply Rminus_diag_uniq. match goal with |- ?g = 0 => match type of C with ?c = 0 => replace g with c; [exact C|] end end. field. lra.
Qed.
Print Assumptions C78_open.

(** ** Closed curves without angles *)

Lemma prv_nxt z i : (i < length z)%nat -> prv z (nxt z i) = i.
Proof.
  intro I. unfold prv, nxt. set (n := length z) in *. destruct (Nat.eq_dec (S i) n) as [E|E].
  - rewrite E, Nat.mod_same by lia. rewrite Nat.add_0_l. rewrite Nat.mod_small by lia. lia.
  - rewrite (Nat.mod_small (S i)) by lia. replace (S i + (n - 1))%nat with (i + 1 * n)%nat by lia. rewrite Nat.mod_add by lia. apply Nat.mod_small. lia.
Qed.
Lemma nxt_lt z i : (i < length z)%nat -> (nxt z i < length z)%nat.
Proof. intro I. apply Nat.mod_upper_bound. lia. Qed.
Lemma nxt_ne z i : (2 <= length z)%nat -> (i < length z)%nat -> nxt z i <> i.
Proof.
  intros L I. unfold nxt. destruct (Nat.eq_dec (S i) (length z)) as [E|E]; [rewrite E, Nat.mod_same by lia; lia|rewrite Nat.mod_small; lia].
Qed.
Lemma closed_free solve z ti to ctrl : sound solve -> (2 <= length z)%nat -> length ti = length z -> length to = length z ->
  (forall x, In x ti -> 0 < x) -> (forall x, In x to -> 0 < x) -> (forall k, (k < length z)%nat -> nth k z (0, 0) <> nth (S k mod length z) z (0, 0)) ->
  hobby_closed solve z ti to = Some ctrl ->
  let n := length z in let p k := nth (k mod n) z (0, 0) in let tout k := nth (k mod n) to 0 in let tin k := nth (k mod n) ti 0 in
  length ctrl = n /\
  exists a th ph, spline n p tout tin (fun k => nth k ctrl ((0, 0), (0, 0))) a th ph /\ a n = a 0%nat /\ th n = th 0%nat /\ ph n = ph 0%nat /\
    (forall k, (k < n)%nat -> joined p tout tin th ph k).
Proof.
  intros SS LZ LI LO TI TO DP H n p tout tin. unfold hobby_closed in H. fold n in H. destruct (solve _ _ _) as [x|] eqn:SV; [|discriminate]. injection H as <-.
  apply SS in SV. split; [rewrite map_length, seq_length; reflexivity|].
  assert (ROW : forall r, (r < 2 * n)%nat -> NoDup (map fst (closed_row z ti to r)) ->
     (forall k, In k (map fst (closed_row z ti to r)) -> (k < 2 * n)%nat) -> rowsum (closed_row z ti to r) x = closed_coef z r).
  { intros r R N K. rewrite <- (SV r R). symmetry. now apply total_row. }
  set (th := fun k => x (k mod n)%nat). set (ph := fun k => x (n + k mod n)%nat). set (a := fun k => x (k mod n)%nat + cdelta z (k mod n)).
  assert (MS : forall k, (k < n)%nat -> (k mod n = k)%nat) by (intros; now apply Nat.mod_small).
  assert (SM : forall k, (k < n)%nat -> (S k mod n)%nat = nxt z k) by reflexivity.
  assert (PK : forall k, (k < n)%nat -> p k = pos z k) by (intros k K; unfold p; rewrite MS by exact K; reflexivity).
  assert (PS : forall k, p (S k) = pos z (nxt z k)) by (intro k; reflexivity).
  assert (DP' : forall k, (k < n)%nat -> p k <> p (S k)) by (intros k K; rewrite PK, PS by exact K; apply DP, K).
  assert (CDE : forall k, (k < n)%nat -> along (psub (p (S k)) (p k)) = cdelta z k) by (intros k K; rewrite (PK k K); reflexivity).
  assert (CDD : forall k, (k < n)%nat -> apart (p k) (p (S k)) = cd z k) by (intros k K; rewrite (PK k K); reflexivity).
  assert (Dpos : forall k, (k < n)%nat -> 0 < cd z k) by (intros k K; rewrite <- CDD by exact K; apply apart_pos, DP', K).
  assert (TOP : forall k, 0 < tout k) by (intros k; apply TO, nth_In; rewrite LO; apply Nat.mod_upper_bound; lia).
  assert (TIP : forall k, 0 < tin k) by (intros k; apply TI, nth_In; rewrite LI; apply Nat.mod_upper_bound; lia).
  assert (TURN : forall k, (k < n)%nat -> x (nxt z k) + x (n + k)%nat = - cpsi z (nxt z k)).
  { intros k K. assert (B : (nxt z k < n)%nat) by exact (nxt_lt z k K). specialize (ROW (nxt z k)). unfold closed_row, closed_coef in ROW. cbv zeta in ROW. change (@length pt z) with n in ROW. change (@length (R * R) z) with n in ROW.
    replace (nxt z k <? n)%nat with true in ROW by (symmetry; apply Nat.ltb_lt; exact B). rewrite prv_nxt in ROW by exact K. unfold rowsum in ROW. cbn [fold_right fst snd map In] in ROW.
    rewrite <- ROW; [ring|lia|nodup|intuition lia]. }
  assert (A0 : forall k, (k < n)%nat -> a k = cdelta z k + th k) by (intros k K; unfold a, th; rewrite MS by exact K; ring).
  assert (A1 : forall k, (k < n)%nat -> same_dir (a (S k)) (cdelta z k - ph k)).
  { intros k K. unfold a. rewrite SM by exact K. unfold ph. rewrite MS by exact K. pose proof (TURN k K) as Q.
    replace (x (nxt z k) + cdelta z (nxt z k)) with (cdelta z (nxt z k) - cpsi z (nxt z k) + - x (n + k)%nat) by lra. apply same_dir_add.
    unfold cpsi. rewrite prv_nxt by exact K. destruct (wrap_turns (cdelta z (nxt z k) - cdelta z k)) as [m ->].
    replace (cdelta z (nxt z k) - (cdelta z (nxt z k) - cdelta z k - 2 * IZR m * PI)) with (cdelta z k - 2 * IZR (- m) * PI) by (rewrite opp_IZR; ring). apply turns_same. }
  exists a, th, ph. split; [|split; [|split; [|split]]].
  - split.
    + intros k K. rewrite nth_map_seq by exact K.
      replace (controls _ _ _ _ _ _ _ _ _) with (controls (p k) (p (S k)) (len (psub (p (S k)) (p k))) (a k) (a (S k)) (th k) (ph k) (tout k) (tin (S k))).
      * apply controls_arc; [apply DP', K|apply TOP|apply TIP| |]; rewrite CDE by exact K; [rewrite A0 by exact K; apply same_dir_refl|apply A1, K].
      * unfold a, th, ph, tout, tin. rewrite (PK k K), !SM, !(MS k) by exact K. reflexivity.
    + intros k K. apply turned_along; [apply DP', K|]. rewrite A0, CDE by exact K. apply same_dir_refl.
    + intros k K. apply turned_along; [apply DP', K|]. rewrite CDE by exact K. apply A1, K.
  - unfold a. rewrite Nat.mod_same, Nat.mod_0_l by lia. reflexivity.
  - unfold th. rewrite Nat.mod_same, Nat.mod_0_l by lia. reflexivity.
  - unfold ph. rewrite Nat.mod_same, Nat.mod_0_l by lia. reflexivity.
  - intros k K. split.
    + unfold th, ph. rewrite SM, (MS k) by exact K. rewrite (TURN k K). pose proof (wrap_range (cdelta z (nxt z k) - cdelta z (prv z (nxt z k)))) as W. fold (cpsi z (nxt z k)) in W. lra.
    + cbv zeta. assert (B : (nxt z k < n)%nat) by exact (nxt_lt z k K). pose proof (nxt_ne z k LZ K) as NE.
      assert (C : rowsum (closed_row z ti to (n + k)) x = closed_coef z (n + k)).
      { apply ROW; [lia| |]; unfold closed_row; cbv zeta; change (@length pt z) with n; change (@length (R * R) z) with n; replace (n + k <? n)%nat with false by (symmetry; apply Nat.ltb_ge; lia);
          replace (n + k - n)%nat with k by lia; cbn [map fst]; [nodup|cbn [In]; intuition lia]. }
      unfold closed_row, closed_coef in C. cbv zeta in C. change (@length pt z) with n in C. change (@length (R * R) z) with n in C. replace (n + k <? n)%nat with false in C by (symmetry; apply Nat.ltb_ge; lia).
      cbv zeta in C. replace (n + k - n)%nat with k in C by lia. unfold rowsum in C. cbn [fold_right fst snd] in C.
      assert (NN : nxt z (nxt z k) = (S (S k) mod n)%nat).
      { unfold nxt. change (@length pt z) with n. rewrite <- (Nat.add_1_r (S k mod n)), Nat.add_mod_idemp_l by lia. f_equal. lia. }
      assert (E1 : apart (p (S k)) (p (S (S k))) = cd z (nxt z k)).
      { unfold cd, cv. rewrite NN. reflexivity. }
      assert (E2 : forall l, nth (S (S k) mod n) l 0 = Smooth.at_ l (nxt z (nxt z k))).
      { intro l. rewrite NN. reflexivity. }
      rewrite (CDD k K), E1. unfold mock_start, mock_end, tout, tin, th, ph. rewrite E2, SM, (MS k) by exact K.
      change (nth k to 0) with (Smooth.at_ to k). change (nth (nxt z k) ti 0) with (Smooth.at_ ti (nxt z k)). change (nth (nxt z k) to 0) with (Smooth.at_ to (nxt z k)).
      pose proof (Dpos k K). pose proof (Dpos _ B). pose proof (TOP k) as T1. unfold tout in T1. rewrite (MS k K) in T1. change (nth k to 0) with (Smooth.at_ to k) in T1.
      pose proof (TIP (S (S k))) as T2. unfold tin in T2. rewrite E2 in T2. set (i1 := nxt z k) in *. set (i2 := nxt z i1) in *.
      apply (Rmult_eq_reg_l (cd z k * cd z i1 * Smooth.at_ to k * Smooth.at_ ti i2 / 2)); [|assert (0 < cd z k * cd z i1 * Smooth.at_ to k * Smooth.at_ ti i2) by (repeat apply Rmult_lt_0_compat; assumption); lra].
      apply Rminus_diag_uniq. match goal with |- ?g = 0 => match type of C with ?c = 0 => replace g with c; [exact C|] end end. field. lra.
Qed.

(** ** Closed curves with angles *)

Lemma nth_skipn {X} : forall k (l : list X) i e, nth i (skipn k l) e = nth (k + i) l e.
Proof. induction k as [|k IH]; intros [|x l] i e; cbn; auto. now destruct i. Qed.
Lemma nth_firstn_lt {X} : forall k (l : list X) i e, (i < k)%nat -> nth i (firstn k l) e = nth i l e.
Proof. induction k as [|k IH]; intros [|x l] [|i] e H; cbn; auto; try lia. apply IH. lia. Qed.
Lemma rotl_length {X} k (l : list X) : (k <= length l)%nat -> length (rotl k l) = length l.
Proof. intro K. unfold rotl. rewrite app_length, skipn_length, firstn_length. lia. Qed.
Lemma nth_rotl {X} k (l : list X) i e : (k < length l)%nat -> (i < length l)%nat -> nth i (rotl k l) e = nth ((i + k) mod length l) l e.
Proof.
  intros K I. unfold rotl. destruct (Nat.lt_ge_cases (i + k) (length l)) as [L|L].
  - rewrite app_nth1 by (rewrite skipn_length; lia). rewrite nth_skipn, Nat.mod_small by lia. f_equal. lia.
  - rewrite app_nth2 by (rewrite skipn_length; lia). rewrite skipn_length.
    replace ((i + k) mod length l)%nat with (i + k - length l)%nat; [|apply Nat.mod_unique with (q := 1%nat); lia].
    rewrite nth_firstn_lt by lia. f_equal. lia.
Qed.
Lemma first_given_spec angles : existsb is_given angles = true -> let r := first_given angles in (r < length angles)%nat /\ exists x, nth r angles None = Some x.
Proof.
  induction angles as [|[x|] l IH]; cbn; intro H; [discriminate|split; [lia|now exists x]|]. destruct (IH H) as [A B]. split; [lia|exact B].
Qed.
(** Element [i] of a list that was rotated and closed *)
Lemma nth_round {X} r (l : list X) i e : (r < length l)%nat -> (i <= length l)%nat -> nth i (rotl r l ++ [nth r l e]) e = nth ((i + r) mod length l) l e.
Proof.
  intros K I. destruct (Nat.eq_dec i (length l)) as [->|].
  - rewrite app_nth2 by (rewrite rotl_length; lia). rewrite rotl_length by lia. rewrite Nat.sub_diag. cbn [nth].
    f_equal. rewrite Nat.add_comm. replace (r + length l)%nat with (r + 1 * length l)%nat by lia. rewrite Nat.mod_add by lia. symmetry. apply Nat.mod_small. lia.
  - rewrite app_nth1 by (rewrite rotl_length; lia). apply nth_rotl; lia.
Qed.
Lemma round_length {X} r (l : list X) e : (r < length l)%nat -> length (rotl r l ++ [nth r l e]) = S (length l).
Proof. intro K. rewrite app_length, rotl_length by lia. cbn. lia. Qed.
Lemma round_in {X} r (l : list X) e x : (r < length l)%nat -> In x (rotl r l ++ [nth r l e]) -> In x l.
Proof.
  intros K H. apply in_app_or in H as [H|[<-|[]]]; [|apply nth_In; exact K]. unfold rotl in H. apply in_app_or in H as [H|H].
  - rewrite <- (firstn_skipn r l). apply in_or_app. now right.
  - rewrite <- (firstn_skipn r l). apply in_or_app. now left.
Qed.
Lemma arc_same p q a b a' b' to ti c : same_dir a a' -> same_dir b b' -> hobby_arc p q a b to ti c -> hobby_arc p q a' b' to ti c.
Proof.
  intros A B H t T. destruct (H t T) as [H1 H2].
  assert (X : same_dir (a - t) (a' - t)) by (unfold Rminus; now apply same_dir_add). assert (Y : same_dir (t - b) (t - b')) by now apply same_dir_sub.
  rewrite H1, H2, (f_same _ _ _ _ X Y), (f_same _ _ _ _ Y X). destruct A as [-> ->], B as [-> ->]. auto.
Qed.
Lemma turned_same p q a a' x : same_dir a a' -> turned p q a x -> turned p q a' x.
Proof. intros A H t T. eapply same_dir_trans; [apply same_dir_sym, A|]. now apply H. Qed.

Theorem C78_closed : forall solve z angles cs ce ti to ctrl, sound solve -> (2 <= length z)%nat -> length angles = length z -> length ti = length z -> length to = length z ->
  (forall x, In x ti -> 0 < x) -> (forall x, In x to -> 0 < x) -> (forall k, (k < length z)%nat -> nth k z (0, 0) <> nth (S k mod length z) z (0, 0)) ->
  hobby solve z angles cs ce ti to true = Some ctrl ->
  let n := length z in let p k := nth (k mod n) z (0, 0) in let tout k := nth (k mod n) to 0 in let tin k := nth (k mod n) ti 0 in
  length ctrl = n /\
  exists a th ph, spline n p tout tin (fun k => nth k ctrl ((0, 0), (0, 0))) a th ph /\ a n = a 0%nat /\ th n = th 0%nat /\ ph n = ph 0%nat /\
    (forall k x, (k < n)%nat -> nth k angles None = Some x -> same_dir (a k) x) /\
    (forall k, (k < n)%nat -> nth (S k mod n) angles None = None -> joined p tout tin th ph k).
Proof.
  intros solve z angles cs ce ti to ctrl SS LZ LA LI LO TI TO DP H n p tout tin. unfold hobby in H. cbn [andb] in H.
  destruct (existsb is_given angles) eqn:G.
  2:{ destruct (closed_free solve z ti to ctrl SS LZ LI LO TI TO DP H) as (L & a & th & ph & SP & E1 & E2 & E3 & J).
      split; [exact L|]. exists a, th, ph. split; [exact SP|]. split; [exact E1|]. split; [exact E2|]. split; [exact E3|]. split; [|intros; now apply J].
      intros k x K A. exfalso. assert (X : existsb is_given angles = true) by (apply existsb_exists; exists (Some x); split; [rewrite <- A; apply nth_In; lia|reflexivity]). congruence. }
  destruct (first_given_spec angles G) as [RB (x0 & RX)]. set (r := first_given angles) in *. rewrite LA in RB.
  destruct (hobby_open _ _ _ _ _ _ _) as [c|] eqn:HO; [|discriminate]. injection H as <-.
  set (z' := rotl r z ++ [nth r z (0, 0)]) in *.
  assert (LZ' : length z' = S n) by (apply round_length; exact RB).
  assert (M : forall i, (i <= n)%nat -> nth i z' (0, 0) = nth ((i + r) mod n) z (0, 0)) by (intros i I; apply nth_round; assumption).
  destruct (C78_open solve z' (rotl r angles ++ [nth r angles None]) cs ce (rotl r ti ++ [nth r ti 0]) (rotl r to ++ [nth r to 0]) c SS) as (LC & a' & th' & ph' & SP & GA & JO & _).
  - rewrite LZ'. lia.
  - rewrite LZ', round_length; lia.
  - rewrite LZ', round_length; lia.
  - intros x X. apply TI. apply round_in in X; [exact X|lia].
  - intros x X. apply TO. apply round_in in X; [exact X|lia].
  - intros k K. rewrite LZ' in K. rewrite !M by lia.
    replace ((S k + r) mod n)%nat with (S ((k + r) mod n) mod n)%nat; [apply DP; apply Nat.mod_upper_bound; lia|].
    rewrite <- (Nat.add_1_r ((k + r) mod n)), Nat.add_mod_idemp_l by lia. f_equal. lia.
  - exact HO.
  - rewrite LZ' in *. replace (S n - 1)%nat with n in * by lia. split; [unfold rotr; rewrite rotl_length; lia|].
    (* arc k is arc [q k] of the rotated curve *)
    set (q := fun k => ((k + (n - r)) mod n)%nat).
    assert (QB : forall k, (q k < n)%nat) by (intro k; apply Nat.mod_upper_bound; lia).
    assert (QR : forall k, ((q k + r) mod n = k mod n)%nat).
    { intro k. unfold q. rewrite Nat.add_mod_idemp_l by lia. replace (k + (n - r) + r)%nat with (k + 1 * n)%nat by lia. apply Nat.mod_add. lia. }
    assert (QS : forall k, q (S k) = (S (q k) mod n)%nat).
    { intro k. unfold q. rewrite <- (Nat.add_1_r ((k + (n - r)) mod n)), Nat.add_mod_idemp_l by lia. f_equal. lia. }
    assert (QN : forall k, q (S k) = S (q k) \/ (S (q k) = n /\ q (S k) = 0%nat)).
    { intro k. rewrite QS. pose proof (QB k). destruct (Nat.eq_dec (S (q k)) n) as [->|]; [right; split; [reflexivity|apply Nat.mod_same; lia]|left; apply Nat.mod_small; lia]. }
    assert (GN : same_dir (a' n) x0 /\ same_dir (a' 0%nat) x0).
    { assert (X : forall i, (i <= n)%nat -> ((i + r) mod n = r)%nat -> same_dir (a' i) x0).
      { intros i I E. apply GA; [exact I|]. rewrite nth_round by lia. rewrite LA. change (length z) with n. rewrite E. exact RX. }
      split; apply X; try lia; [rewrite Nat.add_comm; replace (r + n)%nat with (r + 1 * n)%nat by lia; rewrite Nat.mod_add by lia|]; apply Nat.mod_small; exact RB. }
    assert (AS : forall k, same_dir (a' (S (q k))) (a' (q (S k)))).
    { intro k. destruct (QN k) as [->|[E ->]]; [apply same_dir_refl|]. rewrite E. eapply same_dir_trans; [apply GN|]. apply same_dir_sym, GN. }
    assert (PQ : forall k, nth (q k) z' (0, 0) = p k).
    { intro k. pose proof (QB k). rewrite M by lia. rewrite QR. reflexivity. }
    assert (PQ1 : forall k, nth (S (q k)) z' (0, 0) = p (S k)).
    { intro k. pose proof (QB k). rewrite M by lia. unfold p. f_equal. change (S (q k) + r)%nat with (S (q k + r)). rewrite <- (QR (S k)), QS.
      rewrite Nat.add_mod_idemp_l by lia. reflexivity. }
    assert (L1 : forall (l : list R) k, length l = n -> nth (q k) (rotl r l ++ [nth r l 0]) 0 = nth (k mod n) l 0).
    { intros l k E. pose proof (QB k). rewrite nth_round by lia. rewrite E, QR. reflexivity. }
    assert (L2 : forall (l : list R) k, length l = n -> nth (S (q k)) (rotl r l ++ [nth r l 0]) 0 = nth (S k mod n) l 0).
    { intros l k E. pose proof (QB k). rewrite nth_round by lia. rewrite E. f_equal. change (S (q k) + r)%nat with (S (q k + r)). rewrite <- (QR (S k)), QS.
      rewrite Nat.add_mod_idemp_l by lia. reflexivity. }
    assert (QP : q n = q 0%nat).
    { unfold q. rewrite Nat.add_0_l. replace (n + (n - r))%nat with (n - r + 1 * n)%nat by lia. apply Nat.mod_add. lia. }
    destruct SP as [SA SO SI].
    exists (fun k => a' (q k)), (fun k => th' (q k)), (fun k => ph' (q k)). split; [|split; [|split; [|split; [|split]]]]; try (rewrite QP; reflexivity).
    + split.
      * intros k K. specialize (SA (q k) (QB k)). cbv beta in SA. rewrite PQ, PQ1, (L1 to k LO), (L2 ti k LI) in SA.
        replace (nth k (rotr r c) (0, 0, (0, 0))) with (nth (q k) c (0, 0, (0, 0))).
        -- eapply arc_same; [apply same_dir_refl|apply AS|exact SA].
        -- unfold rotr. destruct (Nat.eq_dec r 0) as [R0|R0].
           ++ rewrite R0, Nat.sub_0_r. unfold rotl. rewrite skipn_all, firstn_all. cbn [app]. f_equal. unfold q. rewrite R0, Nat.sub_0_r.
              replace (k + n)%nat with (k + 1 * n)%nat by lia. rewrite Nat.mod_add by lia. apply Nat.mod_small. exact K.
           ++ rewrite nth_rotl by lia. rewrite LC. reflexivity.
      * intros k K. specialize (SO (q k) (QB k)). cbv beta in SO. rewrite PQ, PQ1 in SO. exact SO.
      * intros k K. specialize (SI (q k) (QB k)). cbv beta in SI. rewrite PQ, PQ1 in SI. eapply turned_same; [apply AS|exact SI].
    + intros k x K A. pose proof (QB k). apply GA; [lia|]. rewrite nth_round by lia. rewrite LA. change (length z) with n. rewrite QR, Nat.mod_small by exact K. exact A.
    + intros k K A. destruct (QN k) as [E|[E E0]].
      * assert (B : (S (q k) < n)%nat) by (rewrite <- E; apply QB). specialize (JO (q k) B).
        assert (Q : nth (S (q k)) (rotl r angles ++ [nth r angles None]) None = None).
        { rewrite <- E. pose proof (QB (S k)). rewrite nth_round by lia. rewrite LA. change (length z) with n. rewrite QR. exact A. }
        specialize (JO Q). unfold joined in *. cbv zeta beta in *. rewrite <- E in JO.
        rewrite !PQ, !PQ1, !(L1 to _ LO), !(L1 ti _ LI), !(L2 ti _ LI) in JO. exact JO.
      * exfalso. rewrite <- (QR (S k)), E0, Nat.add_0_l, (Nat.mod_small r n RB) in A. congruence.
Qed.
Print Assumptions C78_closed.
