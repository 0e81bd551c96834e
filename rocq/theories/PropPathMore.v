(** More of Path: Bézier sections, calls that succeed, and the order of parallel paths (C73, C76). *)

From Coq Require Import Reals Lra Lia List ZArith Bool.
From Verif Require Import Plane PlaneProofs SpecPlane Curve SpecCurve CurveProofs PropCurve Flex PropFlexEnds Path SpecPath PropPath PropPathJoin PropPathCurve.
Import ListNotations.
Open Scope R_scope.

Lemma refine_halve : forall fuel f err delta prev rest l, refine fuel f err prev rest = Some l -> exists d, halve fuel f err delta prev rest = Some (l, d).
Proof.
  induction fuel as [|n IH]; intros f err delta prev rest l H; destruct rest as [|next more]; cbn [halve refine] in *; try discriminate;
    try (injection H as <-; eexists; reflexivity).
  rewrite (Rplus_comm (fst next)). replace (padd (snd next) (snd prev)) with (padd (snd prev) (snd next)) by (unfold padd; f_equal; ring).
  destruct (Rlt_dec err _); [eapply IH; exact H|]. destruct (refine n f err next more) as [l'|] eqn:E; [|discriminate].
  injection H as <-. destruct (IH _ _ delta _ _ _ E) as [d ->]. cbn. eexists. reflexivity.
Qed.
Lemma links_weaken : forall l a, links Rlt a l -> links Rle a l.
Proof. induction l as [|b l IH]; intros a H; [exact I|]. destruct H as [A B]. split; [lra|now apply IH]. Qed.
Lemma linspace_range : forall n x, (2 <= n)%nat -> In x (linspace 0 1 n) -> 0 <= x <= 1.
Proof.
  intros n x N I. unfold linspace in I. apply in_map_iff in I. destruct I as [i [<- I]]. apply in_seq in I.
  assert (P : 0 < INR (n - 1)) by (apply lt_0_INR; lia). pose proof (pos_INR i).
  assert (B : INR i <= INR (n - 1)) by (apply le_INR; lia).
  replace (0 + INR i * ((1 - 0) / INR (n - 1))) with (INR i / INR (n - 1)) by (field; lra). split.
  - apply Rmult_le_pos; [lra|]. apply Rlt_le. now apply Rinv_0_lt_compat.
  - apply (Rmult_le_reg_r (INR (n - 1))); [exact P|]. unfold Rdiv. rewrite Rmult_assoc, Rinv_l by lra. lra.
Qed.
(** Curved sections can be drawn: a function of bounded slope, whose derivative is
    given and never zero, needs finitely many steps. *)
Theorem C76_defined : forall f K g tol ev mx fw fd rel la dt s, slope f K -> tol <> 0 -> (2 <= ev)%nat ->
  (forall u, 0 <= u <= 1 -> g u <> (0, 0)) -> usable la -> usable dt ->
  exists fuel s', p_parametric fuel f (Some g) tol ev mx fw fd rel la dt s = Some s'.
Proof.
  intros f K g tol ev mx fw fd rel la dt s SL T EV G A B.
  destruct (linspace_links ev EV) as [us [EU [NU [LU [E1 H0]]]]]. destruct us as [|u1 us]; [now elim NU|].
  destruct (refine_ends f K (tol ^ 2) SL) with (rest := map (fun u => (u, f u)) (u1 :: us)) (u0 := 0) as [fuel [out R]].
  - simpl. rewrite Rmult_1_r. exact (Rlt_0_sqr tol T).
  - lra.
  - rewrite map_map, map_id. now apply links_weaken.
  - apply Forall_forall. intros x I. apply in_map_iff in I. destruct I as [u [<- I]]. cbn [fst].
    apply (linspace_range ev); [exact EV|]. rewrite EU. now right.
  - apply Forall_forall. intros x I. apply in_map_iff in I. destruct I as [u [<- I]]. reflexivity.
  - destruct (refine_ok f (tol ^ 2) fuel _ _ _ R) as [OC [LL [_ [_ LA]]]].
    + reflexivity.
    + apply Forall_forall. intros x I. apply in_map_iff in I. destruct I as [u [<- I]]. reflexivity.
    + cbn [fst]. rewrite map_map, map_id. exact LU.
    + exists fuel. unfold p_parametric. rewrite EU. destruct (refine_halve _ _ _ u1 _ _ _ R) as [d ->]. cbn [slopes].
      assert (RG : forall up, In up ((0, f 0) :: out) -> 0 <= fst up <= 1).
      { rewrite map_map, map_id in LA. cbn [fst] in LA, LL. rewrite E1 in LA. intros up [<-|I]; [cbn; lra|].
        apply (in_map fst) in I. revert I. generalize (fst up) as x. intros x I.
        destruct (@exists_last _ (map fst out)) as [mid [b Eb]]; [intro Z; rewrite Z in I; destruct I|].
        rewrite Eb in LL, LA, I. rewrite last_last in LA. subst b. destruct (links_mid _ _ _ LL) as [_ M].
        apply in_app_or in I. destruct I as [I|[<-|[]]]; [specialize (M x I)|]; lra. }
      match goal with |- context [all_some ?l] => destruct (all_some_some l) as [dx Edx]; [|rewrite Edx] end.
      { intros x I. apply in_map_iff in I. destruct I as [v [<- I]]. apply in_map_iff in I. destruct I as [up [<- I]].
        unfold leftward. destruct (Req_EM_T _ 0) as [Z|_]; [|discriminate]. elim (G _ (RG up I)).
        unfold len, len2 in Z. destruct (g (fst up)) as [a b]. cbn [fst snd] in Z.
        apply sqrt_eq_0 in Z; [|nra]. f_equal; nra. }
      destruct (tag_list_some (p_n s) _ A) as [x ->]. destruct (tag_list_some (p_n s) _ B) as [y ->]. eexists; reflexivity.
Qed.

(** ** Bézier sections *)
Lemma unit_vec_scale : forall k v, 0 < k -> fst v ^ 2 + snd v ^ 2 = 1 -> unit_vec (smul k v) = v.
Proof.
  intros k [a b] K U. unfold unit_vec, smul. cbn [fst snd] in *. replace ((k * a) ^ 2 + (k * b) ^ 2) with (Rsqr k) by (unfold Rsqr; nra).
  rewrite sqrt_Rsqr by lra. f_equal; field; lra.
Qed.
(** A Bézier section goes to its last control point; if the first one is ahead of the
    path, it goes on from the end of the path. *)
Theorem C73_bezier : forall fuel c l tol ev mx fw fd rel la dt s s', p_bezier fuel (c :: l) tol ev mx fw fd rel la dt s = Some s' ->
  let place v := if rel then padd v (p_at s) else v in
  p_at s' = place (last (c :: l) (0, 0)) /\
  (forall k, 0 < k -> psub (place c) (p_at s) = smul k (toward (p_dir s)) ->
   (forall u, 0 <= u <= 1 -> along_section fw (2 * p_w s) u <> 0) ->
   along_section fw (2 * p_w s) 0 = 2 * p_w s -> along_section fd (p_dist s) 0 = p_dist s ->
   exists ps, p_polys s' = p_polys s ++ ps /\ continues (reversed (p_n s)) s s' ps).
Proof.
  intros fuel c l tol ev mx fw fd rel la dt s s' H place. unfold p_bezier in H. split.
  - destruct (parametric_facts _ _ _ _ _ _ _ _ _ _ _ _ _ H) as [us [h F]]. cbn zeta in F. destruct F as (_ & _ & _ & _ & _ & _ & _ & _ & F & _).
    rewrite F. rewrite bezier_1 by discriminate. unfold place. destruct rel; reflexivity.
  - intros k K C WN W0 D0. eapply C73_parametric; [exact H|exact WN| | |exact W0|exact D0].
    + rewrite bezier_0. destruct rel; [|reflexivity]. destruct (p_at s). unfold padd. cbn. f_equal; ring.
    + intros h _. cbn [direction_at]. cbn [pairwise]. rewrite bezier_0.
      assert (E : psub c (if rel then (0, 0) else p_at s) = smul k (toward (p_dir s))).
      { rewrite <- C. unfold place. destruct rel; [|reflexivity]. unfold psub, padd. cbn [fst snd]. f_equal; ring. }
      etransitivity; [apply f_equal; apply f_equal; exact E|]. set (m := INR _).
      assert (M : 0 < m) by (apply lt_0_INR; cbn; lia).
      replace (smul m (smul k (toward (p_dir s)))) with (smul (m * k) (toward (p_dir s))) by (unfold smul; cbn [fst snd]; f_equal; ring).
      apply unit_vec_scale; [now apply Rmult_lt_0_compat|apply toward_unit].
Qed.
Lemma bezier_defined : forall (l : list pt) tol ev mx fw fd (rel : bool) la dt s, l <> [] -> tol <> 0 -> (2 <= ev)%nat -> usable la -> usable dt ->
  let pts := (if rel then (0, 0) else p_at s) :: l in
  (forall u : R, 0 <= u <= 1 -> bezier (pairwise (fun p q => smul (INR (length pts - 1)) (psub q p)) pts) u <> (0, 0)) ->
  exists fuel s', p_bezier fuel l tol ev mx fw fd rel la dt s = Some s'.
Proof.
  intros l tol ev mx fw fd rel la dt s N T EV A B pts D. destruct (bezier_slope pts) as [K SK]; [discriminate|].
  destruct (C76_defined (bezier pts) K (bezier (pairwise (fun p q => smul (INR (length pts - 1)) (psub q p)) pts)) tol ev mx fw fd rel la dt s)
    as [fuel [s' E]]; try assumption. exists fuel, s'. unfold p_bezier. destruct l; [now elim N|]. exact E.
Qed.
Print Assumptions C76_defined.
Print Assumptions C73_bezier.

(** A curve ahead, of three parallel paths that get wider. *)
Example C73_bezier_case : exists fuel s', p_bezier fuel [(3, 0); (6, 2)] (1/10) 9 8 (To 4) Same true (Tag 1) (Tag 0) (new_path 2 (1, 1) 3 6) = Some s' /\
  p_at s' = (7, 3) /\ exists ps, p_polys s' = ps /\ continues (reversed 3) (new_path 2 (1, 1) 3 6) s' ps.
Proof.
  destruct (bezier_defined [(3, 0); (6, 2)] (1/10) 9 8 (To 4) Same true (Tag 1) (Tag 0) (new_path 2 (1, 1) 3 6)) as [fuel [s' E]];
    [discriminate|lra|lia|discriminate|discriminate| |].
  - intros u U. unfold bezier. cbn. unfold padd, smul, psub. cbn. intros Z. injection Z as Z _. lra.
  - exists fuel, s'. split; [exact E|]. destruct (C73_bezier _ _ _ _ _ _ _ _ _ _ _ _ _ E) as [P C]. cbn zeta in P, C. split.
    + rewrite P. unfold padd. cbn. f_equal; lra.
    + destruct (C 3) as [ps [Q X]].
      * lra.
      * unfold psub, padd, smul. cbn. f_equal; lra.
      * intros u U. cbn. lra.
      * cbn. lra.
      * reflexivity.
      * exists ps. split; [exact Q|exact X].
Qed.

(** ** Layers change sides *)

(** Parallel paths on two layers: a straight section and then a turn to the right. The
    polygon on layer 1 is first on the left, and then on the right. *)
Theorem C73_layers_refuted : exists s0 s1 s2 p q r t,
  do_pcall 0 (PSegment 10 None None None 0 (Tags [1; 2]%Z) (Tag 0)) s0 = Some s1 /\
  do_pcall 0 (PTurn 9 Right 1 (Some 8%nat) 0 None None (Tags [1; 2]%Z) (Tag 0)) s1 = Some s2 /\
  p_polys s2 = [p; q; r; t] /\ p_layers s2 = [1; 2; 1; 2]%Z /\
  joins (mouth s0 0) (mouth s1 0) p /\ joins (mouth s1 1) (mouth s2 1) r /\ fst (mouth s1 0) <> fst (mouth s1 1).
Proof.
  set (s0 := new_path 2 (0, 0) 2 6).
  destruct (segment_defined (Leg 10 None None None 0 (Tags [1; 2]%Z) (Tag 0)) s0) as [s1 E1]; [discriminate|discriminate|].
  destruct (turn_defined 9 Right 1 8 0 None None (Tags [1; 2]%Z) (Tag 0) s1) as [s2 E2]; [lia|cbn; lia|discriminate|discriminate|].
  destruct (segment_facts _ _ _ E1) as [D1 [W1 [X1 [N1 _]]]]. cbn in W1, D1, X1, N1.
  destruct (C34_path_call 0 (PTurn 9 Right 1 (Some 8%nat) 0 None None (Tags [1; 2]%Z) (Tag 0)) s1 s2 E2) as [N2 [m2 [ps2 [L2 [P2 [A2 _]]]]]].
  destruct (C34_path_call 0 _ s0 s1 E1) as [_ [m1 [ps1 [L1 [P1 [A1 _]]]]]].
  destruct (C73_segment 0 _ _ _ E1) as [qs1 [Q1 C1]]; [cbn; lra|rewrite W1; cbn; lra|].
  assert (W2 : p_w s2 = p_w s1).
  { unfold p_turn in E2. cbn [deltas] in E2. destruct (p_arc _ _ _ _ _ _ _ _ _ _ _) as [q|] eqn:E; [|discriminate].
    destruct (arc_facts _ _ _ _ _ _ _ _ _ _ _ _ E) as [_ [_ [Ew _]]]. cbn in Ew. destruct (_ && _)%bool; injection E2 as <-; exact Ew. }
  destruct (C73_turn _ _ _ _ 8 _ _ _ _ _ _ _ E2) as [qs2 [Q2 C2]]; [reflexivity|unfold enough_points; cbn; lia|rewrite W1; cbn; lra|rewrite W2, W1; cbn; lra|discriminate|].
  destruct (Rlt_dec (turn_by Right) 0) as [_|Z] in C2; [|elim Z; cbn; pose proof PI_RGT_0; lra].
  assert (N1' : p_n s1 = 2%nat) by exact N1.
  destruct (C1 0%nat) as [k1 [F1 [K1 [B1 [T1 J1]]]]]; [cbn; lia|]. destruct (C2 1%nat) as [k2 [F2 [K2 [B2 [T2 J2]]]]]; [rewrite N1'; lia|].
  assert (G1 : k1 = 1%nat /\ length qs1 = 2%nat).
  { destruct (segment_facts _ _ _ E1) as [_ [_ [_ [_ [_ [_ F]]]]]]. destruct F as [_ TP]; [apply visible_left; cbn; lra|].
    rewrite TP in Q1. apply app_inv_head in Q1. rewrite <- Q1 in K1 |- *. rewrite map_length, seq_length in *. cbn in *. lia. }
  assert (G2 : k2 = 1%nat /\ length qs2 = 2%nat).
  { clear J2 B2 T2 C2 C1 J1. unfold p_turn in E2. cbn [deltas] in E2. destruct (p_arc _ _ _ _ _ _ _ _ _ _ _) as [q|] eqn:E; [|discriminate].
    assert (PQ : p_polys q = p_polys s2) by (destruct (_ && _)%bool; injection E2 as <-; reflexivity).
    destruct (arc_groups _ _ _ _ _ 8 _ _ _ _ _ _ _ E) as [_ [ps [P [L _]]]]; [apply visible_left; cbn; rewrite W1; cbn; lra|reflexivity|].
    cbn [with_dir p_polys p_n] in P, L. rewrite PQ, Q2 in P. apply app_inv_head in P. subst ps. rewrite N1' in *. cbn in L. lia. }
  destruct G1 as [-> G1]. destruct G2 as [-> G2].
  destruct qs1 as [|p [|q [|? ?]]]; cbn in G1; try lia. destruct qs2 as [|r [|t [|? ?]]]; cbn in G2; try lia.
  exists s0, s1, s2, p, q, r, t. split; [exact E1|]. split; [exact E2|]. split; [now rewrite Q2, Q1|]. split; [|split; [|split]].
  - rewrite A2, A1. rewrite Q1 in P1. apply app_inv_head in P1. rewrite <- P1. rewrite Q2 in P2. apply app_inv_head in P2. rewrite <- P2, N1'. reflexivity.
  - specialize (J1 0%nat ltac:(lia)). rewrite B1, T1 in J1. rewrite D1 in J1. exact J1.
  - specialize (J2 0%nat ltac:(lia)). rewrite B2, T2 in J2. unfold reversed in J2. rewrite N1' in J2. exact J2.
  - unfold mouth, SpecPath.place. rewrite D1, X1, N1', W1. unfold padd, smul, rightward. cbn. intros Z. injection Z as _ Z. lra.
Qed.
Print Assumptions C73_layers_refuted.
