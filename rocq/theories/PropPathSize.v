(** The number of vertices of the polygons of a Path (C74). *)

From Coq Require Import Reals Lra Lia List ZArith Bool.
From Verif Require Import Plane Curve Flex Path SpecPath PropPath PropPathJoin PropPathCurve.
Import ListNotations.
Open Scope R_scope.

Lemma arc_poly_length : forall c np a0 a1 r0 r1 w0 w1 p, arc_poly c np a0 a1 r0 r1 w0 w1 = Some p -> (1 <= np)%nat ->
  w0 <> 0 \/ w1 <> 0 -> length p = np.
Proof.
  intros c np a0 a1 r0 r1 w0 w1 p H N W. unfold arc_poly in H.
  assert (L : (1 <= np - np / 2)%nat) by (assert (np / 2 < np)%nat by (apply Nat.div_lt; lia); lia).
  assert (D : (np / 2 <= np)%nat) by (apply Nat.div_le_upper_bound; lia).
  destruct (_ =? 0)%nat; [discriminate|]. injection H as <-.
  assert (RL : forall l : list pt, length (removelast l) = (length l - 1)%nat).
  { intros l. destruct l as [|x l]; [reflexivity|]. rewrite removelast_firstn_len, firstn_length. cbn. lia. }
  destruct (Req_EM_T w1 0); destruct (Req_EM_T w0 0); try (now destruct W);
    rewrite app_length; rewrite ?RL, ?map_length, ?combine_length, ?linspace_length;
    try (match goal with |- context [length (tl ?l)] => replace (length (tl l)) with (length l - 1)%nat by (destruct l; cbn; lia) end);
    rewrite ?map_length, ?combine_length, ?linspace_length, ?Nat.min_id; change (fst (Nat.divmod np 1 0 1)) with (np / 2)%nat; lia.
Qed.

Lemma piece_sizes : forall np mx, (1 <= mx)%nat -> (0 < piece_count np mx)%nat -> (1 <= np / piece_count np mx <= mx)%nat.
Proof.
  intros np mx M P. unfold piece_count in *. destruct mx as [|m]; [lia|]. set (mx := S m) in *.
  set (k := ((np + (mx - 1)) / mx)%nat) in *.
  assert (K1 : (k * mx <= np + (mx - 1))%nat) by (rewrite Nat.mul_comm; apply Nat.mul_div_le; lia).
  assert (K2 : (np + (mx - 1) < mx * S k)%nat) by (apply Nat.mul_succ_div_gt; lia).
  split.
  - apply Nat.div_le_lower_bound; [lia|]. nia.
  - apply Nat.div_le_upper_bound; [lia|]. nia.
Qed.

Lemma group_index : forall k m n, (k < m * n)%nat -> exists i j, (i < n)%nat /\ (j < m)%nat /\ k = (j * n + i)%nat.
Proof.
  intros k m n L. assert (n <> 0)%nat by nia. exists (k mod n)%nat, (k / n)%nat.
  repeat split; [now apply Nat.mod_upper_bound|apply Nat.div_lt_upper_bound; lia|].
  rewrite Nat.mul_comm. now apply Nat.div_mod.
Qed.
Lemma arc_small : forall M r a0 a1 tol np mx fw fd la dt s s', p_arc r a0 a1 tol np mx fw fd la dt s = Some s' ->
  (1 <= mx <= M)%nat -> small M s -> small M s'.
Proof.
  intros M r a0 a1 tol npo mx fw fd la dt s s' H B S. destruct (visible (p_w s) (p_w s')) eqn:V.
  - destruct (arc_points_used _ _ _ _ _ _ _ _ _ _ _ _ H) as [np PU]. destruct (arc_groups _ _ _ _ _ _ _ _ _ _ _ _ _ H V PU) as [MP [ps [P [L G]]]].
    set (m := piece_count np mx) in *. destruct (piece_sizes np mx) as [S1 S2]; [lia|exact MP|]. fold m in S1, S2.
    intros p I. rewrite P in I. apply in_app_or in I. destruct I as [I|I]; [now apply S|].
    apply (In_nth _ _ []) in I. destruct I as [k [K <-]]. assert (K' : (k < m * p_n s)%nat) by (rewrite <- L; exact K). destruct (group_index _ _ _ K') as [i [j [Hi [Hj ->]]]].
    specialize (G i j Hi Hj). apply arc_poly_length in G; [apply Nat.eq_le_incl in G; etransitivity; [exact G|lia]|exact S1|].
    assert (IM : INR m <> 0) by (apply not_0_INR; lia). set (d := (p_w s' - p_w s) / INR m) in *.
    destruct (Req_EM_T d 0) as [D|D].
    + assert (EW : p_w s' = p_w s). { assert (X : d * INR m = p_w s' - p_w s) by (unfold d; field; exact IM). rewrite D in X. lra. }
      left. rewrite D. intros Z. assert (p_w s = 0) by lra. unfold visible in V. rewrite EW, H0 in V. destruct (Req_EM_T 0 0) in V; [discriminate|lra].
    + rewrite plus_INR. cbn [INR]. destruct (Req_EM_T (p_w s + INR j * d) 0) as [Z|Z]; [right|now left]. intros Z'. apply D. lra.
  - destruct (arc_facts _ _ _ _ _ _ _ _ _ _ _ _ H) as [_ [_ [Ew _]]]. unfold p_arc in H. rewrite <- Ew in H. rewrite V in H.
    match type of H with match ?x with _ => _ end = _ => destruct x; [|discriminate] end. destruct (_ =? 0)%nat; [discriminate|].
    injection H as <-. exact S.
Qed.
Lemma parametric_small : forall M fuel f df tol ev mx fw fd rel la dt s s', p_parametric fuel f df tol ev mx fw fd rel la dt s = Some s' ->
  (4 <= mx <= M)%nat -> small M s -> small M s'.
Proof.
  intros M fuel f df tol ev mx fw fd rel la dt s s' H B S. destruct (parametric_facts _ _ _ _ _ _ _ _ _ _ _ _ _ H) as [us [h F]]. cbn zeta in F.
  destruct F as (_ & F2 & _ & _ & _ & _ & _ & F8 & _). intros p I. rewrite F8 in I. apply in_app_or in I. destruct I as [I|I]; [now apply S|].
  apply in_flat_map in I. destruct I as [c [Ic I]]. apply in_map_iff in I. destruct I as [i [<- _]].
  match type of Ic with In c (chunks ?a ?b ?l) => destruct (chunks_overlapping a b l) as [_ Z] end.
  - unfold chunk_size. rewrite (proj2 (Nat.ltb_ge mx 4)) by lia. apply Nat.div_le_lower_bound; lia.
  - lia.
  - cbn. destruct us; [now elim F2|cbn; lia].
  - specialize (Z c Ic). unfold chunk_size in Z. rewrite (proj2 (Nat.ltb_ge mx 4)) in Z by lia.
    assert (2 * (mx / 2) <= mx)%nat by (apply Nat.mul_div_le; lia).
    assert (T : forall l : list pt, (length (tl l) <= length l)%nat) by (intros []; cbn; lia).
    unfold strip. rewrite app_length.
    match goal with |- (length ?a + length ?b <= _)%nat => assert (length a <= length c)%nat; [|assert (length b <= length c)%nat; [|lia]] end.
    + match goal with |- context [Req_EM_T ?x 0] => destruct (Req_EM_T x 0) end; [etransitivity; [apply T|]|]; rewrite !map_length; lia.
    + match goal with |- context [Req_EM_T ?x 0] => destruct (Req_EM_T x 0) end; [etransitivity; [apply T|]|]; rewrite rev_length, !map_length; lia.
Qed.
Lemma bezier_small : forall M fuel l tol ev mx fw fd rel la dt s s', p_bezier fuel l tol ev mx fw fd rel la dt s = Some s' ->
  (4 <= mx <= M)%nat -> small M s -> small M s'.
Proof. intros M fuel l tol ev mx fw fd rel la dt s s' H B S. unfold p_bezier in H. destruct l; [discriminate|]. eapply parametric_small; eassumption. Qed.
Lemma sections_small : forall M fuel secs fws fds tol ev mx la dt s s', p_sections fuel secs fws fds tol ev mx la dt s = Some s' ->
  (4 <= mx <= M)%nat -> small M s -> small M s'.
Proof.
  intros M fuel secs. induction secs as [|[[a b] e] secs IH]; intros fws fds tol ev mx la dt s s' H B S; cbn [p_sections] in H; [now injection H as <-|].
  destruct fws as [|fw fws]; [discriminate|]. destruct fds as [|fd fds]; [discriminate|].
  destruct (p_bezier _ _ _ _ _ _ _ _ _ _ _) as [t|] eqn:E; [|discriminate]. eapply IH; [exact H|exact B|]. eapply bezier_small; eassumption.
Qed.

(** No polygon has more vertices than [max_points] allows, whatever the calls. *)
Theorem C74_call : forall M fuel k s s', (4 <= M)%nat -> do_pcall fuel k s = Some s' -> limited M k -> small M s -> small M s'.
Proof.
  intros M fuel k s s' M4 H B S.
  assert (MV : forall f w h, small M (moved f w h s)).
  { intros f w h p I. cbn [moved p_polys] in I. apply in_map_iff in I. destruct I as [q [<- I]]. rewrite map_length. now apply S. }
  destruct k; cbn [do_pcall limited] in H, B; try (injection H as <-; apply MV).
  - intros p I. unfold p_segment in H. destruct (visible _ _); [|injection H as <-; now apply S].
    destruct (tag_list _ la); [|discriminate]. destruct (tag_list _ dt); [|discriminate]. injection H as <-. cbn [p_polys] in I.
    apply in_app_or in I. destruct I as [I|I]; [now apply S|]. apply in_map_iff in I. destruct I as [i [<- _]]. unfold seg_poly.
    destruct (Req_EM_T _ 0); destruct (Req_EM_T _ 0); cbn; lia.
  - eapply arc_small; eassumption.
  - unfold p_turn in H. destruct (deltas t) as [[di df] ex]. destruct (p_arc _ _ _ _ _ _ _ _ _ _ _) as [q|] eqn:E; [|discriminate].
    assert (Q : small M q) by (eapply arc_small; [exact E|exact B|exact S]). destruct (_ && _)%bool; injection H as <-; exact Q.
  - eapply parametric_small; eassumption.
  - eapply bezier_small; eassumption.
  - unfold p_smooth in H. destruct (p_sections _ _ _ _ _ _ _ _ _ _) as [t|] eqn:E; [|discriminate].
    assert (Q : small M t) by (eapply sections_small; eassumption). destruct cycle; [|now injection H as <-].
    match type of H with match ?x with _ => _ end = _ => destruct x as [|[a b] r]; [discriminate|] end.
    match type of H with match ?x with _ => _ end = _ => destruct x as [|fw r']; [discriminate|] end.
    match type of H with match ?x with _ => _ end = _ => destruct x as [|fd r'']; [discriminate|] end.
    eapply bezier_small; eassumption.
Qed.
Theorem C74_calls : forall M fuel ks width start n distance s, (4 <= M)%nat -> do_pcalls fuel ks (new_path width start n distance) = Some s ->
  Forall (limited M) ks -> forall p, In p (p_polys s) -> (length p <= M)%nat.
Proof.
  intros M fuel ks width start n distance s M4 H F. change (small M s).
  assert (I : small M (new_path width start n distance)) by (intros p []). revert I H F. generalize (new_path width start n distance) as s0.
  induction ks as [|k ks IH]; intros s0 I H F; cbn [do_pcalls] in H; [now injection H as <-|].
  inversion F; subst. destruct (do_pcall fuel k s0) as [t|] eqn:E; [|discriminate]. eapply IH; [|exact H|assumption]. eapply C74_call; eassumption.
Qed.
Print Assumptions C74_call.
Print Assumptions C74_calls.

Example C74_case : exists s, do_pcalls 0
  [PSegment 5 None None None 0 (Tag 1) (Tag 1); PArc 20 0 3 1 (Some 30%nat) 7 (Some 4) None (Tag 2) (Tag 0)] (new_path 2 (1, 1) 3 4) = Some s /\
  length (p_polys s) = 18%nat /\ forall p, In p (p_polys s) -> (length p <= 7)%nat.
Proof.
  assert (E : exists s, do_pcalls 0
    [PSegment 5 None None None 0 (Tag 1) (Tag 1); PArc 20 0 3 1 (Some 30%nat) 7 (Some 4) None (Tag 2) (Tag 0)] (new_path 2 (1, 1) 3 4) = Some s
    /\ length (p_polys s) = 18%nat).
  { cbn [do_pcalls]. destruct (segment_defined (Leg 5 None None None 0 (Tag 1) (Tag 1)) (new_path 2 (1, 1) 3 4)) as [t T]; [discriminate|discriminate|].
    assert (T' : do_pcall 0 (PSegment 5 None None None 0 (Tag 1) (Tag 1)) (new_path 2 (1, 1) 3 4) = Some t) by exact T.
    rewrite T'. cbn [do_pcall].
    destruct (segment_facts _ _ _ T) as [_ [Tw [_ [Tn [_ [_ F]]]]]]. 
    destruct F as [_ TP]; [apply visible_left; cbn; lra|].
    destruct (arc_defined 20 0 3 1 30 7 (Some 4) None (Tag 2) (Tag 0) t) as [u U]; [lia|cbn; lia|discriminate|discriminate|]. rewrite U.
    exists u. split; [reflexivity|]. destruct (arc_groups _ _ _ _ _ 30 _ _ _ _ _ _ _ U) as [_ [ps [P [L _]]]].
    - apply visible_left. rewrite Tw. cbn. lra.
    - reflexivity.
    - rewrite P, app_length, L, TP, app_length, map_length, seq_length, Tn. reflexivity. }
  destruct E as [s [E L]]. exists s. split; [exact E|]. split; [exact L|]. eapply (C74_calls 7); [lia|exact E|].
  repeat constructor; cbn; lia.
Qed.
