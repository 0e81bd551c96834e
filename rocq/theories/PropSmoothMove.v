(** C78: smooth curves without given angles follow their points. *)

From Coq Require Import Reals Lra Lia Psatz List ZArith Bool Arith.
From Verif Require Import Plane PlaneProofs Flex SpecFlex FlexProofs SpecRound PropFlexShape PropFlexEnds PropFlexRound Smooth SpecSmooth PropSmooth PropSmoothDefined Gauss.
Import ListNotations.
Open Scope R_scope.

Lemma turn_zero x : - (2 * PI) < x < 2 * PI -> cos x = 1 -> x = 0.
Proof.
  intros B C. assert (S0 : sin (x / 2) = 0).
  { pose proof (cos_2a_sin (x / 2)) as H. replace (2 * (x / 2)) with x in H by field. rewrite C in H. nra. }
  destruct (Rtotal_order x 0) as [L|[E|G]]; [|exact E|].
  - pose proof (sin_gt_0 (- (x / 2)) ltac:(lra) ltac:(lra)) as P. rewrite sin_neg in P. lra.
  - pose proof (sin_gt_0 (x / 2) ltac:(lra) ltac:(lra)) as P. lra.
Qed.
Lemma wrap_same x y : same_dir x y -> wrap x = wrap y.
Proof.
  intro S. destruct (wrap_turns x) as [m X]. destruct (wrap_turns y) as [n Y]. pose proof (wrap_range x). pose proof (wrap_range y).
  assert (D : same_dir (wrap x) (wrap y)).
  { rewrite X, Y. eapply same_dir_trans; [apply turns_same|]. eapply same_dir_trans; [exact S|]. apply same_dir_sym, turns_same. }
  apply Rminus_diag_uniq. apply turn_zero; [lra|]. rewrite cos_minus. destruct D as [-> ->]. pose proof (sin2_cos2 (wrap y)) as E. unfold Rsqr in E. lra.
Qed.

Section Move.
Variables (k r : R) (t : pt).
Hypothesis k_pos : 0 < k.
Notation F := (similar k r t).
Lemma move_sub p q : psub (F q) (F p) = (k * (cos r * fst (psub q p) - sin r * snd (psub q p)), k * (sin r * fst (psub q p) + cos r * snd (psub q p))).
Proof. apply pt_eq; unfold psub, similar; cbn [fst snd]; ring. Qed.
Lemma move_polar p q u : psub q p = smul (apart p q) (cos u, sin u) -> psub (F q) (F p) = smul (k * apart p q) (cos (u + r), sin (u + r)).
Proof. intro E. rewrite move_sub, E. rewrite cos_plus, sin_plus. apply pt_eq; unfold smul; cbn [fst snd]; ring. Qed.
Lemma move_len p q : p <> q -> len (psub (F q) (F p)) = k * len (psub q p).
Proof.
  intro N. pose proof (apart_pos p q N). rewrite (move_polar p q _ (heads_along p q N)). rewrite len_polar by (apply Rmult_lt_0_compat; assumption). reflexivity.
Qed.
Lemma move_along p q : p <> q -> same_dir (along (psub (F q) (F p))) (along (psub q p) + r).
Proof.
  intro N. pose proof (apart_pos p q N). rewrite (move_polar p q _ (heads_along p q N)). destruct (along_polar (k * apart p q) (along (psub q p) + r)) as [A B]; [apply Rmult_lt_0_compat; assumption|].
  split; assumption.
Qed.
Lemma move_controls p q d a b a' b' th ph to ti : same_dir a' (a + r) -> same_dir b' (b + r) ->
  controls (F p) (F q) (k * d) a' b' th ph to ti = (F (fst (controls p q d a b th ph to ti)), F (snd (controls p q d a b th ph to ti))).
Proof.
  intros [A1 A2] [B1 B2]. unfold controls. cbn [fst snd]. rewrite A1, A2, B1, B2, !cos_plus, !sin_plus. f_equal; apply pt_eq; unfold padd, psub, smul, similar; cbn [fst snd]; ring.
Qed.
Lemma move_inj p q : p <> q -> F p <> F q.
Proof.
  intros N E. pose proof (apart_pos p q N) as P. pose proof (move_polar p q _ (heads_along p q N)) as H. rewrite E in H.
  apply (polar_nonzero (k * apart p q) (along (psub q p) + r)); [apply Rmult_lt_0_compat; assumption|]. rewrite <- H. apply pt_eq; unfold psub; cbn [fst snd]; ring.
Qed.
Lemma same_turn a b a' b' : same_dir a' (a + r) -> same_dir b' (b + r) -> same_dir (a' - b') (a - b).
Proof.
  intros A B. apply (same_dir_trans _ (a' - (b + r))); [now apply same_dir_sub|]. replace (a - b) with (a + r - (b + r)) by ring. unfold Rminus. now apply same_dir_add.
Qed.

(** Rows multiplied by a number *)
Lemma entry_scale f (w : row) c : entry (map (fun a => (fst a, f * snd a)) w) c = f * entry w c.
Proof.
  unfold entry. assert (G : forall acc : R, fold_left (fun acc a => if (fst a =? c)%nat then snd a else acc) (map (fun a => (fst a, f * snd a)) w) (f * acc) =
    f * fold_left (fun acc a => if (fst a =? c)%nat then snd a else acc) w acc).
  { induction w as [|[i x] w IH]; intro acc; [reflexivity|]. cbn [map fold_left fst snd]. destruct (i =? c)%nat; apply IH. }
  rewrite <- (Rmult_0_r f) at 1. apply G.
Qed.
Lemma solves_scaled n m m' b b' f x : (forall i c, (i < n)%nat -> m' i c = f i * m i c) -> (forall i, (i < n)%nat -> b' i = f i * b i) -> solves n m b x -> solves n m' b' x.
Proof.
  intros M B X i I. rewrite B, <- (X i I) by exact I. rewrite <- total_scale. apply total_ext. intros c _. rewrite M by exact I. ring.
Qed.

Section Open.
Variables (z : list pt) (cs ce : R) (ti to : list R).
Let z' := map F z.
Let none : list (option R) := map (fun _ => None) z.
Hypothesis LZ : (2 <= length z)%nat.
Hypothesis DP : forall i, (S i < length z)%nat -> nth i z (0, 0) <> nth (S i) z (0, 0).
Lemma pos_move i : (i < length z)%nat -> pos z' i = F (pos z i).
Proof. intro I. unfold pos, z'. rewrite (nth_indep _ (0, 0) (F (0, 0))) by (rewrite map_length; exact I). apply map_nth. Qed.
Lemma segs_move : segs z' = segs z.
Proof. unfold segs, z'. now rewrite map_length. Qed.
Lemma none_angle i : angle none i = None.
Proof. unfold angle, none. destruct (Nat.lt_ge_cases i (length z)) as [L|L]; [|apply nth_overflow; rewrite map_length; exact L].
  exact (map_nth (fun _ : pt => @None R) z (0, 0) i). Qed.
Lemma d_move i : (S i < length z)%nat -> Smooth.d z' i = k * Smooth.d z i.
Proof. intro I. unfold Smooth.d, v. rewrite !pos_move by lia. apply move_len, DP, I. Qed.
Lemma delta_move i : (S i < length z)%nat -> same_dir (delta z' i) (delta z i + r).
Proof. intro I. unfold delta, v. rewrite !pos_move by lia. apply move_along, DP, I. Qed.
Lemma psi_move i : (S (S i) < length z)%nat -> psi z' i = psi z i.
Proof. intro I. unfold psi. apply wrap_same, same_turn; apply delta_move; lia. Qed.
Definition scale_row (i j q : nat) : R := if (q =? 0)%nat || (q =? 2 * (j - i) - 1)%nat || (q <? j - i)%nat then 1 else k.
Lemma entry_move i j q c : (i < j <= segs z)%nat -> (q < 2 * (j - i))%nat ->
  entry (open_row z' none cs ce ti to i j q) c = scale_row i j q * entry (open_row z none cs ce ti to i j q) c.
Proof.
  intros B Q. unfold scale_row, open_row. rewrite !none_angle, segs_move. destruct (Nat.eqb_spec q 0); [cbn [orb]; ring|]. destruct (Nat.eqb_spec q (2 * (j - i) - 1)); [cbn [orb]; ring|].
  destruct (Nat.ltb_spec q (j - i)); [cbn [orb]; ring|]. cbn [orb]. cbv zeta. unfold segs in B. rewrite !d_move by lia. rewrite <- entry_scale. cbn [map fst snd].
  f_equal. repeat (f_equal; try ring).
Qed.
Lemma coef_move i j q : (i < j <= segs z)%nat -> (q < 2 * (j - i))%nat -> open_coef z' none i j q = scale_row i j q * open_coef z none i j q.
Proof.
  intros B Q. unfold scale_row, open_coef. rewrite !none_angle. destruct (Nat.eqb_spec q 0); [cbn [orb]; ring|]. destruct (Nat.eqb_spec q (2 * (j - i) - 1)); [cbn [orb]; ring|].
  destruct (Nat.ltb_spec q (j - i)); cbn [orb]; [|ring]. unfold segs in B. rewrite psi_move by lia. ring.
Qed.

Variables (s1 s2 : solver).
Hypothesis S1 : sound s1.
Hypothesis S2 : sound s2.
Hypothesis LI : length ti = length z.
Hypothesis LO : length to = length z.
Hypothesis TI : forall x, In x ti -> 2 / 3 < x.
Hypothesis TO : forall x, In x to -> 2 / 3 < x.
Hypothesis CS : 0 <= cs.
Hypothesis CE : 0 <= ce.
Hypothesis NL : ~ (length z = 2%nat /\ cs * ce = 1).
Lemma piece_same i j u w : (i < j <= segs z)%nat -> (i = 0%nat \/ angle none i <> None) -> (j = segs z \/ angle none j <> None) ->
  solve_piece s1 z none cs ce ti to i j = Some u -> solve_piece s2 z' none cs ce ti to i j = Some w -> u = w.
Proof.
  intros B I J. destruct (open_ready z ti to LZ LI LO TI TO DP) as (R1 & R2 & R3).
  assert (G : regular_matrix (2 * (j - i)) (fun q => entry (open_row z' none cs ce ti to i j q))).
  { apply open_regular; try assumption; rewrite ?segs_move; try assumption.
    - intros q Q. unfold segs in Q. rewrite d_move by lia. apply Rmult_lt_0_compat; [exact k_pos|apply R1; unfold segs; lia].
    - intros (E & _ & _ & C). apply NL. split; [unfold segs in E; lia|exact C]. }
  unfold solve_piece. rewrite !none_angle. destruct (s1 _ _ _) as [x|] eqn:X; [|discriminate]. destruct (s2 _ _ _) as [y|] eqn:Y; [|discriminate]. apply S1 in X. apply S2 in Y.
  assert (X' : solves (2 * (j - i)) (fun q => entry (open_row z' none cs ce ti to i j q)) (open_coef z' none i j) x).
  { eapply (solves_scaled _ _ _ _ _ (scale_row i j)); [| |exact X]; [intros; now apply entry_move|intros; now apply coef_move]. }
  pose proof (solution_unique _ _ _ _ _ G X' Y) as U. intros P Q. injection P as <-. injection Q as <-. apply map_ext_in. intros q Q. apply in_seq in Q. rewrite !U by lia. reflexivity.
Qed.
Lemma piece_end_move i : piece_end z' none i = piece_end z none i.
Proof.
  unfold piece_end. rewrite segs_move. assert (G : forall left j, next_given z' none left j = next_given z none left j).
  { induction left as [|m IH]; intro j; cbn [next_given]; [apply segs_move|]. rewrite none_angle. apply IH. }
  apply G.
Qed.
Lemma from_same : forall fuel i u w, (i <= segs z)%nat -> (i = 0%nat \/ i = segs z \/ angle none i <> None) ->
  solve_from s1 z none cs ce ti to fuel i = Some u -> solve_from s2 z' none cs ce ti to fuel i = Some w -> u = w.
Proof.
  induction fuel as [|fuel IH]; intros i u w I G; cbn [solve_from]; [congruence|]. rewrite segs_move. destruct (Nat.ltb_spec i (segs z)) as [L|L]; [|congruence].
  rewrite piece_end_move. destruct (piece_end_spec z none i L) as (B & _ & E). set (j := piece_end z none i) in *.
  destruct (solve_piece s1 _ _ _ _ _ _ _ _) as [a1|] eqn:A1; [|discriminate]. destruct (solve_from s1 _ _ _ _ _ _ _ _) as [b1|] eqn:B1; [|discriminate].
  destruct (solve_piece s2 _ _ _ _ _ _ _ _) as [a2|] eqn:A2; [|discriminate]. destruct (solve_from s2 _ _ _ _ _ _ _ _) as [b2|] eqn:B2; [|discriminate].
  intros P Q. injection P as <-. injection Q as <-. f_equal; [exact (piece_same i j _ _ B ltac:(intuition lia) E A1 A2)|]. apply (IH j); [lia|tauto|assumption|assumption].
Qed.
Lemma open_follows c c' : hobby_open s1 z none cs ce ti to = Some c -> hobby_open s2 z' none cs ce ti to = Some c' -> c' = map (fun q => (F (fst q), F (snd q))) c.
Proof.
  unfold hobby_open. rewrite segs_move. destruct (solve_from s1 _ _ _ _ _ _ _ _) as [u|] eqn:U; [|discriminate]. destruct (solve_from s2 _ _ _ _ _ _ _ _) as [w|] eqn:W; [|discriminate].
  assert (E : u = w) by (apply (from_same (segs z) 0 u w); [lia|auto|exact U|exact W]). subst w. cbn [option_map]. intros P Q. injection P as <-. injection Q as <-. rewrite map_map. apply map_ext_in. intros i I. apply in_seq in I.
  unfold segs in I. rewrite !pos_move, d_move by lia.
  assert (WA : forall i, (i < length z)%nat -> same_dir (w_angle z' u i) (w_angle z u i + r)).
  { intros q Q. unfold w_angle. rewrite segs_move. destruct (Nat.ltb_spec q (segs z)) as [L|L]; unfold segs in L.
    - replace (delta z q + fst (nth q u (0, 0)) + r) with (delta z q + r + fst (nth q u (0, 0))) by ring. apply same_dir_add, delta_move. lia.
    - replace (delta z (segs z - 1) - snd (nth (segs z - 1) u (0, 0)) + r) with (delta z (segs z - 1) + r + - snd (nth (segs z - 1) u (0, 0))) by ring.
      unfold Rminus. apply same_dir_add, delta_move. unfold segs. lia. }
  apply move_controls; apply WA; lia.
Qed.
End Open.

Section Closed.
Variables (z : list pt) (ti to : list R).
Let z' := map F z.
Hypothesis LZ : (2 <= length z)%nat.
Hypothesis DP : forall i, (i < length z)%nat -> nth i z (0, 0) <> nth (S i mod length z) z (0, 0).
Lemma nxt_move i : nxt z' i = nxt z i.
Proof. unfold nxt, z'. now rewrite map_length. Qed.
Lemma prv_move i : prv z' i = prv z i.
Proof. unfold prv, z'. now rewrite map_length. Qed.
Lemma cd_move i : (i < length z)%nat -> cd z' i = k * cd z i.
Proof.
  intro I. unfold cd, cv. rewrite nxt_move. assert (B : (nxt z i < length z)%nat) by (apply nxt_lt; exact I). unfold z'. rewrite !pos_move by assumption. apply move_len, DP, I.
Qed.
Lemma cdelta_move i : (i < length z)%nat -> same_dir (cdelta z' i) (cdelta z i + r).
Proof.
  intro I. unfold cdelta, cv. rewrite nxt_move. assert (B : (nxt z i < length z)%nat) by (apply nxt_lt; exact I). unfold z'. rewrite !pos_move by assumption. apply move_along, DP, I.
Qed.
Lemma cpsi_move i : (i < length z)%nat -> cpsi z' i = cpsi z i.
Proof.
  intro I. unfold cpsi. rewrite prv_move. apply wrap_same, same_turn; apply cdelta_move; [exact I|]. apply prv_lt. lia.
Qed.
Definition scale_closed (q : nat) : R := if (q <? length z)%nat then 1 else k.
Lemma closed_entry_move q c : (q < 2 * length z)%nat -> entry (closed_row z' ti to q) c = scale_closed q * entry (closed_row z ti to q) c.
Proof.
  intros Q. unfold scale_closed, closed_row. cbv zeta. rewrite !nxt_move, prv_move. assert (L' : length z' = length z) by apply map_length. rewrite !L'. destruct (Nat.ltb_spec q (length z)); [ring|].
  rewrite <- entry_scale. cbn [map fst snd]. assert (B : (nxt z (q - length z) < length z)%nat) by (apply nxt_lt; lia). rewrite !cd_move by lia. f_equal. repeat (f_equal; try ring).
Qed.
Lemma closed_coef_move q : (q < 2 * length z)%nat -> closed_coef z' q = scale_closed q * closed_coef z q.
Proof.
  intro Q. unfold scale_closed, closed_coef. unfold z' at 1. rewrite map_length. destruct (Nat.ltb_spec q (length z)); [|ring]. rewrite cpsi_move by assumption. ring.
Qed.
Variables (s1 s2 : solver).
Hypothesis S1 : sound s1.
Hypothesis S2 : sound s2.
Hypothesis LI : length ti = length z.
Hypothesis LO : length to = length z.
Hypothesis TI : forall x, In x ti -> 2 / 3 < x.
Hypothesis TO : forall x, In x to -> 2 / 3 < x.
Lemma closed_follows c c' : hobby_closed s1 z ti to = Some c -> hobby_closed s2 z' ti to = Some c' -> c' = map (fun q => (F (fst q), F (snd q))) c.
Proof.
  unfold hobby_closed. assert (L' : length z' = length z) by apply map_length. rewrite L'.
  destruct (s1 _ _ _) as [x|] eqn:X; [|discriminate]. destruct (s2 _ _ _) as [y|] eqn:Y; [|discriminate]. apply S1 in X. apply S2 in Y.
  assert (X' : solves (2 * length z) (fun q => entry (closed_row z' ti to q)) (closed_coef z') x).
  { eapply (solves_scaled _ _ _ _ _ scale_closed); [| |exact X]; [intros; now apply closed_entry_move|intros; now apply closed_coef_move]. }
  assert (U : forall c, (c < 2 * length z)%nat -> x c = y c).
  { eapply solution_unique; [|exact X'|exact Y]. rewrite <- L'. apply closed_regular; rewrite L'; [exact LZ| | |].
    - intros i I. rewrite cd_move by exact I. apply Rmult_lt_0_compat; [exact k_pos|]. apply (apart_pos (nth i z (0, 0)) (nth (S i mod length z) z (0, 0))). apply DP, I.
    - intros i I. apply TI, nth_In. lia.
    - intros i I. apply TO, nth_In. lia. }
  cbn [option_map]. intros P Q. injection P as <-. injection Q as <-. rewrite map_map. apply map_ext_in. intros i I. apply in_seq in I.
  assert (B : (nxt z i < length z)%nat) by (apply nxt_lt; lia). rewrite !nxt_move. unfold z' at 1 2. rewrite !pos_move by lia. rewrite cd_move by lia. rewrite <- !U by lia.
  apply move_controls.
  - replace (x i + cdelta z i + r) with (cdelta z i + r + x i) by ring. rewrite Rplus_comm. apply same_dir_add, cdelta_move. lia.
  - replace (x (nxt z i) + cdelta z (nxt z i) + r) with (cdelta z (nxt z i) + r + x (nxt z i)) by ring. rewrite Rplus_comm. apply same_dir_add, cdelta_move. lia.
Qed.
End Closed.
End Move.

(** Points that are scaled, rotated and translated give control points that are scaled,
    rotated and translated. *)
Theorem C78_follows : forall s1 s2 z cs ce ti to cycle k r t c c', sound s1 -> sound s2 -> (2 <= length z)%nat -> length ti = length z -> length to = length z ->
  (forall x, In x ti -> 2 / 3 < x) -> (forall x, In x to -> 2 / 3 < x) -> 0 <= cs -> 0 <= ce -> distinct_points cycle z ->
  (cycle = false -> ~ (length z = 2%nat /\ cs * ce = 1)) -> 0 < k ->
  let none := map (fun _ => None) z in
  hobby s1 z none cs ce ti to cycle = Some c -> hobby s2 (map (similar k r t) z) none cs ce ti to cycle = Some c' ->
  c' = map (fun q => (similar k r t (fst q), similar k r t (snd q))) c.
Proof.
  intros s1 s2 z cs ce ti to cycle k r t c c' S1 S2 LZ LI LO TI TO CS CE DP NL K none. unfold hobby.
  assert (N : existsb is_given none = false) by (unfold none; clear; induction z; [reflexivity|exact IHz]). rewrite N, andb_false_r.
  destruct cycle.
  - intros H H'. refine (closed_follows k r t K z ti to LZ _ s1 s2 S1 S2 LI LO TI TO c c' H H'). intros i I. apply DP; auto.
  - intros H H'. refine (open_follows k r t K z cs ce ti to LZ (distinct_open z DP) s1 s2 S1 S2 LI LO TI TO CS CE _ c c' H H'). apply NL; reflexivity.
Qed.
Print Assumptions C78_follows.
(** Three corners of a square, doubled and turned *)
Example C78_follows_case : exists c c',
  hobby gauss [(0, 0); (1, 0); (1, 1)] [None; None; None] 1 1 [1; 1; 1] [1; 1; 1] true = Some c /\
  hobby gauss (map (similar 2 1 (3, 4)) [(0, 0); (1, 0); (1, 1)]) [None; None; None] 1 1 [1; 1; 1] [1; 1; 1] true = Some c' /\
  c' = map (fun q => (similar 2 1 (3, 4) (fst q), similar 2 1 (3, 4) (snd q))) c.
Proof.
  assert (DP : distinct_points true [(0, 0); (1, 0); (1, 1)]).
  { intros k K _. cbn in K. destruct k as [|[|[|k]]]; [| | |lia]; cbn; intro E; injection E; lra. }
  assert (DP' : distinct_points true (map (similar 2 1 (3, 4)) [(0, 0); (1, 0); (1, 1)])).
  { intros k K _. cbn in K. pose proof (DP k K (or_introl eq_refl)) as N. destruct k as [|[|[|k]]]; [| | |lia]; exact (move_inj 2 1 (3, 4) ltac:(lra) _ _ N). }
  assert (T : forall x, In x [1; 1; 1] -> 2 / 3 < x) by (intros x [<-|[<-|[<-|[]]]]; lra).
  assert (D : forall z, length z = 3%nat -> distinct_points true z -> hobby gauss z [None; None; None] 1 1 [1; 1; 1] [1; 1; 1] true <> None).
  { intros z L Z. apply C78_defined; rewrite ?L; try reflexivity; try assumption; [exact gauss_complete|lia|lra|lra|discriminate]. }
  destruct (hobby gauss [(0, 0); (1, 0); (1, 1)] _ _ _ _ _ _) as [c|] eqn:C; [|exfalso; exact (D [(0, 0); (1, 0); (1, 1)] eq_refl DP C)].
  destruct (hobby gauss (map _ _) _ _ _ _ _ _) as [c'|] eqn:C'; [|exfalso; exact (D (map (similar 2 1 (3, 4)) [(0, 0); (1, 0); (1, 1)]) eq_refl DP' C')].
  exists c, c'. split; [reflexivity|]. split; [reflexivity|].
  refine (C78_follows gauss gauss [(0, 0); (1, 0); (1, 1)] 1 1 [1; 1; 1] [1; 1; 1] true 2 1 (3, 4) c c' gauss_sound gauss_sound _ _ _ T T _ _ DP _ _ C C'); try reflexivity; try lra; try discriminate; cbn; lia.
Qed.
