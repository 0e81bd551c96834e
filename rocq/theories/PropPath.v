(** Path: bookkeeping (C34), lengths, ends and areas (C45). *)

From Coq Require Import Reals Lra Lia List ZArith Bool.
From Verif Require Import Plane PlaneProofs SpecPlane Curve Flex Path SpecPath.
Import ListNotations.
Open Scope R_scope.

(** ** C34 *)

Lemma all_some_length : forall {X} (l : list (option X)) r, all_some l = Some r -> length r = length l.
Proof.
  induction l as [|[x|] l IH]; intros r H; cbn in H; try discriminate; [injection H as <-; reflexivity|].
  destruct (all_some l) as [q|] eqn:E; [|discriminate]. injection H as <-. cbn. now rewrite (IH q).
Qed.
Lemma all_some_nth : forall {X} (l : list (option X)) r k d, all_some l = Some r -> (k < length l)%nat ->
  nth k l None = Some (nth k r d).
Proof.
  induction l as [|[x|] l IH]; intros r k d H L; cbn in H, L; try discriminate; [lia|].
  destruct (all_some l) as [q|] eqn:E; [|discriminate]. injection H as <-. destruct k as [|k]; [reflexivity|].
  cbn [nth]. apply IH; [reflexivity|lia].
Qed.
Lemma all_some_in : forall {X} (l : list (option X)) r, all_some l = Some r -> forall x, In x r -> In (Some x) l.
Proof.
  induction l as [|[y|] l IH]; intros r H x I; cbn in H; try discriminate; [injection H as <-; destruct I|].
  destruct (all_some l) as [q|] eqn:E; [|discriminate]. injection H as <-. destruct I as [->|I]; [left; reflexivity|].
  right. eapply IH; [reflexivity|exact I].
Qed.

(** Repeating a list: entry [k] is entry [k mod length]. *)
Lemma nth_concat_repeat : forall {X} (l : list X) m k d, (k < m * length l)%nat ->
  nth k (concat (repeat l m)) d = nth (k mod length l) l d.
Proof.
  intros X l m. induction m as [|m IH]; intros k d L; [cbn in L; lia|]. cbn [repeat concat].
  assert (N : (length l <> 0)%nat) by (intro Z; rewrite Z in L; lia).
  destruct (Nat.lt_ge_cases k (length l)) as [H|H].
  - rewrite app_nth1 by exact H. now rewrite Nat.mod_small.
  - rewrite app_nth2 by exact H. rewrite IH by (cbn in L; lia). f_equal.
    replace k with (k - length l + 1 * length l)%nat at 2 by lia. now rewrite Nat.mod_add.
Qed.
Lemma concat_repeat_length : forall {X} (l : list X) m, length (concat (repeat l m)) = (m * length l)%nat.
Proof. induction m as [|m IH]; [reflexivity|]. cbn [repeat concat]. rewrite app_length, IH. lia. Qed.
Lemma nth_firstn : forall {X} (l : list X) k n d, (k < n)%nat -> nth k (firstn n l) d = nth k l d.
Proof.
  induction l as [|x l IH]; intros k n d L; [destruct n; reflexivity|]. destruct n; [lia|]. destruct k; [reflexivity|]. cbn.
  apply IH. lia.
Qed.

Lemma tag_list_spec : forall n t l, tag_list n t = Some l -> length l = n /\ forall k, (k < n)%nat -> nth k l 0%Z = tag_of t k.
Proof.
  intros n [z|[|a r]] l H; cbn [tag_list] in H; try discriminate.
  - injection H as <-. rewrite repeat_length. split; [reflexivity|]. intros k L. cbn. rewrite (nth_indep _ 0%Z z) by (rewrite repeat_length; exact L). apply nth_repeat.
  - assert (E : l = firstn n (concat (repeat (a :: r) (n / length (a :: r) + 1)))) by congruence. subst l. clear H.
    assert (L : (n <= (n / length (a :: r) + 1) * length (a :: r))%nat).
    { pose proof (Nat.div_mod n (length (a :: r))) as D.
      pose proof (Nat.mod_upper_bound n (length (a :: r))) as U. cbn [length] in *. nia. }
    split.
    + rewrite firstn_length, concat_repeat_length. lia.
    + intros k K. rewrite nth_firstn by exact K. rewrite nth_concat_repeat by lia. reflexivity.
Qed.

Lemma nth_map_lt : forall {X Y} (f : X -> Y) l k dx dy, (k < length l)%nat -> nth k (map f l) dy = f (nth k l dx).
Proof. intros. rewrite (nth_indep _ dy (f dx)) by (rewrite map_length; assumption). apply map_nth. Qed.
Lemma tags_repeat : forall n t l m, tag_list n t = Some l ->
  concat (repeat l m) = map (fun k => tag_of t (k mod n)) (seq 0 (m * n)).
Proof.
  intros n t l m H. destruct (tag_list_spec _ _ _ H) as [L T]. apply (nth_ext _ _ 0%Z 0%Z).
  - rewrite concat_repeat_length, map_length, seq_length, L. reflexivity.
  - intros k K. rewrite concat_repeat_length, L in K. rewrite nth_concat_repeat by (rewrite L; exact K).
    rewrite (nth_map_lt _ _ k 0%nat) by (rewrite seq_length; exact K). rewrite seq_nth by exact K. cbn [Nat.add].
    rewrite L. apply T. apply Nat.mod_upper_bound. intro Z. rewrite Z in K. lia.
Qed.
Lemma draws_groups : forall la dt s s' m ps las dts, tag_list (p_n s) la = Some las -> tag_list (p_n s) dt = Some dts ->
  length ps = (m * p_n s)%nat -> p_polys s' = p_polys s ++ ps ->
  p_layers s' = p_layers s ++ concat (repeat las m) -> p_dts s' = p_dts s ++ concat (repeat dts m) -> draws la dt s s'.
Proof.
  intros la dt s s' m ps las dts H1 H2 L P A B. exists m, ps. rewrite (tags_repeat _ _ _ m H1) in A. rewrite (tags_repeat _ _ _ m H2) in B.
  rewrite L. now repeat split.
Qed.
Lemma draws_nothing : forall la dt s s', p_polys s' = p_polys s -> p_layers s' = p_layers s -> p_dts s' = p_dts s -> draws la dt s s'.
Proof. intros la dt s s' A B C. exists 0%nat, []. cbn. now rewrite !app_nil_r. Qed.
Lemma draws_twice : forall la dt s t u, p_n t = p_n s -> draws la dt s t -> draws la dt t u -> draws la dt s u.
Proof.
  intros la dt s t u N [m [ps [L [P [A B]]]]] [m' [ps' [L' [P' [A' B']]]]]. exists (m + m')%nat, (ps ++ ps'). rewrite N in *.
  assert (E : forall f : nat -> Z, (forall k, f (k + m * p_n s)%nat = f k) ->
    map f (seq 0 (length ps)) ++ map f (seq 0 (length ps')) = map f (seq 0 (length ps + length ps'))).
  { intros f Hf. rewrite seq_app, map_app. f_equal. cbn [Nat.add]. rewrite L.
    transitivity (map f (map (Nat.add (m * p_n s)) (seq 0 (length ps')))).
    - rewrite map_map. apply map_ext. intros k. rewrite Nat.add_comm. symmetry. apply Hf.
    - f_equal. generalize (length ps') as q. intros q.
      assert (S : forall b a, map (Nat.add b) (seq a q) = seq (b + a) q).
      { induction q as [|q IH]; intros b a; [reflexivity|]. cbn [seq map]. rewrite IH. now rewrite Nat.add_succ_r. }
      rewrite S. now rewrite Nat.add_0_r. }
  repeat split.
  - rewrite app_length, L, L'. lia.
  - rewrite P', P. now rewrite app_assoc.
  - rewrite A', A, <- app_assoc. f_equal. rewrite app_length. apply E. intros k.
    destruct (p_n s) as [|n]; [rewrite Nat.mul_0_r, Nat.add_0_r; reflexivity|]. now rewrite Nat.mod_add by discriminate.
  - rewrite B', B, <- app_assoc. f_equal. rewrite app_length. apply E. intros k.
    destruct (p_n s) as [|n]; [rewrite Nat.mul_0_r, Nat.add_0_r; reflexivity|]. now rewrite Nat.mod_add by discriminate.
Qed.

Lemma segment_draws : forall l dir fw fd ax la dt s s', p_segment l dir fw fd ax la dt s = Some s' ->
  p_n s' = p_n s /\ draws la dt s s'.
Proof.
  intros l dir fw fd ax la dt s s' H. unfold p_segment in H. destruct (visible _ _).
  - destruct (tag_list (p_n s) la) as [las|] eqn:E1; [|discriminate]. destruct (tag_list (p_n s) dt) as [dts|] eqn:E2; [|discriminate].
    injection H as <-. split; [reflexivity|]. eapply (draws_groups la dt s _ 1); [exact E1|exact E2| |reflexivity| |]; cbn [p_layers p_dts].
    + rewrite map_length, seq_length. lia.
    + cbn. now rewrite app_nil_r.
    + cbn. now rewrite app_nil_r.
  - injection H as <-. split; [reflexivity|]. now apply draws_nothing.
Qed.
Lemma concat_lengths : forall {X} (l : list (list X)) n, (forall x, In x l -> length x = n) -> length (concat l) = (length l * n)%nat.
Proof.
  induction l as [|x l IH]; intros n H; [reflexivity|]. cbn. rewrite app_length, (IH n), (H x); [reflexivity|left; reflexivity|].
  intros y I. apply H. now right.
Qed.
Lemma arc_draws : forall r a0 a1 tol np mx fw fd la dt s s', p_arc r a0 a1 tol np mx fw fd la dt s = Some s' ->
  p_n s' = p_n s /\ draws la dt s s'.
Proof.
  intros r a0 a1 tol np mx fw fd la dt s s' H. unfold p_arc in H.
  match type of H with match ?x with _ => _ end = _ => destruct x as [k|]; [|discriminate] end.
  destruct (piece_count k mx =? 0)%nat; [discriminate|]. destruct (visible _ _).
  - match type of H with match ?x with _ => _ end = _ => destruct x as [ps|] eqn:E; [|discriminate] end.
    destruct (tag_list (p_n s) la) as [las|] eqn:E1; [|discriminate]. destruct (tag_list (p_n s) dt) as [dts|] eqn:E2; [|discriminate].
    injection H as <-. split; [reflexivity|]. eapply (draws_groups la dt s _ (piece_count k mx)); [exact E1|exact E2| |reflexivity|reflexivity|reflexivity].
    pose proof (all_some_length _ _ E) as L. rewrite map_length, seq_length in L.
    rewrite (concat_lengths _ (p_n s)), L; [reflexivity|].
    intros x I. pose proof (all_some_in _ _ E _ I) as J. apply in_map_iff in J. destruct J as [j [J _]]. unfold arc_piece in J.
    apply all_some_length in J. now rewrite map_length, seq_length in J.
  - injection H as <-. split; [reflexivity|]. now apply draws_nothing.
Qed.
Lemma draws_same_from : forall la dt s t u, p_n t = p_n s -> p_polys t = p_polys s -> p_layers t = p_layers s -> p_dts t = p_dts s ->
  draws la dt t u -> draws la dt s u.
Proof. intros la dt s t u N A B C [m [ps H]]. exists m, ps. now rewrite N, A, B, C in H. Qed.
Lemma turn_draws : forall r t tol np mx fw fd la dt s s', p_turn r t tol np mx fw fd la dt s = Some s' ->
  p_n s' = p_n s /\ draws la dt s s'.
Proof.
  intros r t tol np mx fw fd la dt s s' H. unfold p_turn in H. destruct (deltas t) as [[di df] ex].
  destruct (p_arc _ _ _ _ _ _ _ _ _ _ _) as [q|] eqn:E; [|discriminate]. injection H as <-.
  destruct (arc_draws _ _ _ _ _ _ _ _ _ _ _ _ E) as [N [m [ps [L [P [A B]]]]]]. cbn [with_dir p_n p_polys p_layers p_dts] in *.
  split.
  - now destruct (ex && named (p_dir s))%bool.
  - exists m, ps. destruct (ex && named (p_dir s))%bool; now repeat split.
Qed.
Lemma parametric_draws : forall fuel f df tol ev mx fw fd rel la dt s s', p_parametric fuel f df tol ev mx fw fd rel la dt s = Some s' ->
  p_n s' = p_n s /\ draws la dt s s'.
Proof.
  intros fuel f df tol ev mx fw fd rel la dt s s' H. unfold p_parametric in H.
  destruct (linspace 0 1 ev) as [|u0 [|u1 us]]; try discriminate.
  destruct (halve _ _ _ _ _ _) as [[more delta]|]; [|discriminate]. destruct (slopes _ _ _ _) as [ds|]; [|discriminate].
  destruct (all_some (map leftward ds)) as [dx|]; [|discriminate].
  destruct (tag_list (p_n s) la) as [las|] eqn:E1; [|discriminate]. destruct (tag_list (p_n s) dt) as [dts|] eqn:E2; [|discriminate].
  injection H as <-. split; [reflexivity|].
  match goal with |- context [chunks ?a ?b ?c] => set (cs := chunks a b c) end.
  eapply (draws_groups la dt s _ (length cs)); [exact E1|exact E2| |reflexivity|reflexivity|reflexivity].
  rewrite flat_map_concat_map, (concat_lengths _ (p_n s)); [now rewrite map_length|].
  intros x I. apply in_map_iff in I. destruct I as [c [<- _]]. now rewrite map_length, seq_length.
Qed.
Lemma bezier_draws : forall fuel l tol ev mx fw fd rel la dt s s', p_bezier fuel l tol ev mx fw fd rel la dt s = Some s' ->
  p_n s' = p_n s /\ draws la dt s s'.
Proof.
  intros fuel l tol ev mx fw fd rel la dt s s' H. unfold p_bezier in H. destruct l as [|p l]; [discriminate|].
  eapply parametric_draws. exact H.
Qed.
Lemma sections_draws : forall fuel secs fws fds tol ev mx la dt s s', p_sections fuel secs fws fds tol ev mx la dt s = Some s' ->
  p_n s' = p_n s /\ draws la dt s s'.
Proof.
  intros fuel secs. induction secs as [|[[a b] e] secs IH]; intros fws fds tol ev mx la dt s s' H; cbn [p_sections] in H.
  - injection H as <-. split; [reflexivity|]. now apply draws_nothing.
  - destruct fws as [|fw fws]; [discriminate|]. destruct fds as [|fd fds]; [discriminate|].
    destruct (p_bezier _ _ _ _ _ _ _ _ _ _ _) as [t|] eqn:E; [|discriminate].
    destruct (bezier_draws _ _ _ _ _ _ _ _ _ _ _ _ E) as [N D]. destruct (IH _ _ _ _ _ _ _ _ _ H) as [N' D'].
    split; [congruence|]. eapply draws_twice; eassumption.
Qed.
Lemma smooth_draws : forall fuel hs cyc l tol ev mx fws fds rel la dt s s', p_smooth fuel hs cyc l tol ev mx fws fds rel la dt s = Some s' ->
  p_n s' = p_n s /\ draws la dt s s'.
Proof.
  intros fuel hs cyc l tol ev mx fws fds rel la dt s s' H. unfold p_smooth in H.
  destruct (p_sections _ _ _ _ _ _ _ _ _ _) as [t|] eqn:E; [|discriminate].
  destruct (sections_draws _ _ _ _ _ _ _ _ _ _ _ E) as [N D]. destruct cyc.
  - repeat match type of H with match ?x with _ => _ end = _ => destruct x; try discriminate end.
    destruct (bezier_draws _ _ _ _ _ _ _ _ _ _ _ _ H) as [N' D']. split; [congruence|]. eapply draws_twice; eassumption.
  - injection H as <-. now split.
Qed.

(** Every call that draws adds whole groups of polygons, each with the layer and
    datatype meant for its parallel path; the other calls keep layers, datatypes and
    the number of polygons. *)
Theorem C34_path_call : forall fuel k s s', do_pcall fuel k s = Some s' -> p_n s' = p_n s /\
  match asked k with
  | Some (la, dt) => draws la dt s s'
  | None => length (p_polys s') = length (p_polys s) /\ p_layers s' = p_layers s /\ p_dts s' = p_dts s
  end.
Proof.
  intros fuel k s s' H. destruct k; cbn [do_pcall asked] in H |- *.
  - eapply segment_draws; exact H.
  - eapply arc_draws; exact H.
  - eapply turn_draws; exact H.
  - eapply parametric_draws; exact H.
  - eapply bezier_draws; exact H.
  - eapply smooth_draws; exact H.
  - injection H as <-. cbn. rewrite map_length. now repeat split.
  - injection H as <-. cbn. rewrite map_length. now repeat split.
  - injection H as <-. cbn. rewrite map_length. now repeat split.
  - injection H as <-. cbn. rewrite map_length. now repeat split.
Qed.
Theorem C34_path : forall fuel width start n distance ks s, do_pcalls fuel ks (new_path width start n distance) = Some s -> in_step s.
Proof.
  intros fuel width start n distance ks. assert (I : in_step (new_path width start n distance)) by now split.
  revert I. generalize (new_path width start n distance) as s0. induction ks as [|k ks IH]; intros s0 I s H; cbn [do_pcalls] in H.
  - injection H as <-. exact I.
  - destruct (do_pcall fuel k s0) as [t|] eqn:E; [|discriminate]. apply (IH t); [|exact H].
    destruct (C34_path_call _ _ _ _ E) as [_ K]. destruct I as [I1 I2]. destruct (asked k) as [[la dt]|].
    + destruct K as [m [ps [_ [P [A B]]]]]. unfold in_step. rewrite P, A, B, !app_length, !map_length, !seq_length. lia.
    + destruct K as [P [A B]]. unfold in_step. rewrite P, A, B. now split.
Qed.
Print Assumptions C34_path_call.
Print Assumptions C34_path.

(** ** C45: straight sections *)

Lemma toward_cs : forall h, toward h = (cos_of h, sin_of h).
Proof. now intros []. Qed.
Lemma toward_unit : forall h, fst (toward h) ^ 2 + snd (toward h) ^ 2 = 1.
Proof. intros []; cbn; try ring. generalize (sin2_cos2 a). unfold Rsqr. lra. Qed.
Lemma segment_facts : forall g s s', do_pcall 0 (leg_call g) s = Some s' ->
  let k := leg_heading (p_dir s) g in
  p_dir s' = k /\ p_w s' = or_old (half (l_fw g)) (p_w s) /\ p_dist s' = or_old (l_fd g) (p_dist s) /\ p_n s' = p_n s /\
  p_at s' = padd (p_at s) (padd (smul (l_len g) (toward k)) (smul (l_axis g) (rightward (toward k)))) /\
  (visible (p_w s) (p_w s') = false -> p_len s' = p_len s /\ p_polys s' = p_polys s) /\
  (visible (p_w s) (p_w s') = true ->
     p_len s' = p_len s + sqrt (l_len g ^ 2 + l_axis g ^ 2) /\
     p_polys s' = p_polys s ++ map (fun i => seg_poly (cos_of k) (sin_of k) (p_at s) (p_at s') (p_w s) (p_w s')
                                              (lateral (p_n s) (p_dist s) i) (lateral (p_n s) (p_dist s') i)) (seq 0 (p_n s))).
Proof.
  intros g s s' H k. cbn [do_pcall leg_call] in H. unfold p_segment in H. fold (leg_heading (p_dir s) g) in H. fold k in H.
  rewrite !toward_cs. destruct (visible (p_w s) (or_old (half (l_fw g)) (p_w s))) eqn:V.
  - destruct (tag_list (p_n s) (l_la g)) as [las|]; [|discriminate]. destruct (tag_list (p_n s) (l_dt g)) as [dts|]; [|discriminate].
    injection H as <-. cbn [p_dir p_w p_dist p_n p_at p_len p_polys]. rewrite V. repeat split; try discriminate.
    unfold padd, smul, rightward. cbn [fst snd]. f_equal; ring.
  - injection H as <-. cbn [p_dir p_w p_dist p_n p_at p_len p_polys]. rewrite V. repeat split; try discriminate.
    unfold padd, smul, rightward. cbn [fst snd]. f_equal; ring.
Qed.
Lemma visible_left : forall x y, x <> 0 -> visible x y = true.
Proof. intros x y N. unfold visible. destruct (Req_EM_T y 0); [|reflexivity]. now destruct (Req_EM_T x 0). Qed.

(** The end, the heading and the length after any list of straight sections of a
    visible path. *)
Theorem C45_segments : forall fuel gs s s', do_pcalls fuel (map leg_call gs) s = Some s' ->
  p_at s' = padd (p_at s) (journey (p_dir s) gs) /\ p_dir s' = last_heading (p_dir s) gs /\
  (p_w s <> 0 -> (forall g, In g gs -> l_fw g <> Some 0) ->
   p_len s' = p_len s + total (map (fun g => sqrt (l_len g ^ 2 + l_axis g ^ 2)) gs)).
Proof.
  intros fuel gs. induction gs as [|g gs IH]; intros s s' H.
  - cbn in H. injection H as <-. cbn. split; [|split; [reflexivity|intros; ring]]. unfold padd. cbn. rewrite !Rplus_0_r. now destruct (p_at s).
  - cbn [map do_pcalls] in H. destruct (do_pcall fuel (leg_call g) s) as [t|] eqn:E; [|discriminate].
    change (do_pcall fuel (leg_call g) s) with (do_pcall 0 (leg_call g) s) in E.
    destruct (segment_facts g s t E) as [D [W [_ [_ [A [_ V]]]]]]. destruct (IH t s' H) as [I1 [I2 I3]]. cbn [journey last_heading].
    rewrite <- D. repeat split.
    + rewrite I1, A, D. unfold padd. cbn [fst snd]. f_equal; ring.
    + exact I2.
    + intros N F. destruct (V (visible_left _ _ N)) as [L _]. rewrite I3, L.
      * cbn [map total]. ring.
      * rewrite W. destruct (l_fw g) as [x|] eqn:X; cbn; [|exact N]. intro Z. apply (F g); [left; reflexivity|]. rewrite X. f_equal. lra.
      * intros g' I. apply F. now right.
Qed.
(** Without lateral offset the length is the sum of the lengths. *)
Lemma leg_length : forall l, sqrt (l ^ 2 + 0 ^ 2) = Rabs l.
Proof. intros l. replace (l ^ 2 + 0 ^ 2) with (Rsqr l) by (unfold Rsqr; ring). apply sqrt_Rsqr_abs. Qed.

Lemma seg_area : forall ca sa p q w0 w1 d0 d1 l ax, ca ^ 2 + sa ^ 2 = 1 ->
  q = padd p (padd (smul l (ca, sa)) (smul ax (sa, - ca))) -> visible w0 w1 = true ->
  poly_area (seg_poly ca sa p q w0 w1 d0 d1) = Rabs l * Rabs (w0 + w1).
Proof.
  intros ca sa p q w0 w1 d0 d1 l ax U -> V. rewrite <- Rabs_mult.
  assert (A : forall x, (x = 2 * (l * (w0 + w1)) \/ x = - (2 * (l * (w0 + w1)))) -> / 2 * Rabs x = Rabs (l * (w0 + w1))).
  { intros x [->| ->]; [|rewrite Rabs_Ropp]; rewrite Rabs_mult, (Rabs_right 2) by lra; lra. }
  assert (S : sa ^ 2 = 1 - ca ^ 2) by lra.
  unfold seg_poly, visible in *. destruct (Req_EM_T w1 0) as [->|N1]; destruct (Req_EM_T w0 0) as [->|N0]; try discriminate;
    cbn [removelast tl poly_area fan fst snd padd smul]; apply A; left; ring_simplify; try rewrite !S; ring_simplify; try ring.
Qed.
(** Every polygon of a straight section has the area of a trapezium: the length times
    the mean of the two widths (the attribute w is half of the width). *)
Theorem C45_area : forall fuel g s s', do_pcall fuel (leg_call g) s = Some s' -> visible (p_w s) (p_w s') = true ->
  exists ps, p_polys s' = p_polys s ++ ps /\ length ps = p_n s /\
    forall p, In p ps -> poly_area p = Rabs (l_len g) * Rabs ((2 * p_w s + 2 * p_w s') / 2).
Proof.
  intros fuel g s s' E V. change (do_pcall fuel (leg_call g) s) with (do_pcall 0 (leg_call g) s) in E.
  destruct (segment_facts g s s' E) as [D [W [_ [_ [A [_ F]]]]]]. destruct (F V) as [_ P]. eexists. split; [exact P|]. split.
  - now rewrite map_length, seq_length.
  - intros p I. apply in_map_iff in I. destruct I as [i [<- _]].
    replace ((2 * p_w s + 2 * p_w s') / 2) with (p_w s + p_w s') by lra. eapply seg_area; [| |exact V].
    + generalize (toward_unit (leg_heading (p_dir s) g)). rewrite toward_cs. cbn. lra.
    + rewrite A. rewrite toward_cs. reflexivity.
Qed.
Lemma total_app : forall a b, total (a ++ b) = total a + total b.
Proof. induction a as [|x a IH]; intros b; cbn; [ring|]. rewrite IH. ring. Qed.
Lemma total_const : forall (l : list poly) c, (forall p, In p l -> poly_area p = c) -> total (map poly_area l) = INR (length l) * c.
Proof.
  induction l as [|p l IH]; intros c H; [cbn; ring|]. cbn [map total]. rewrite (H p) by (left; reflexivity).
  rewrite (IH c) by (intros q I; apply H; now right). cbn [length]. rewrite S_INR. ring.
Qed.
(** The area of a path of constant width: width times length for each parallel path. *)
Theorem C45_total : forall fuel gs s s', do_pcalls fuel (map leg_call gs) s = Some s' -> p_w s <> 0 ->
  (forall g, In g gs -> l_fw g = None) ->
  all_area s' = all_area s + INR (p_n s) * Rabs (2 * p_w s) * total (map (fun g => Rabs (l_len g)) gs).
Proof.
  intros fuel gs. induction gs as [|g gs IH]; intros s s' H N C.
  - cbn in H. injection H as <-. cbn. ring.
  - cbn [map do_pcalls] in H. destruct (do_pcall fuel (leg_call g) s) as [t|] eqn:E; [|discriminate].
    assert (W : p_w t = p_w s /\ p_n t = p_n s).
    { change (do_pcall fuel (leg_call g) s) with (do_pcall 0 (leg_call g) s) in E.
      destruct (segment_facts g s t E) as [_ [W [_ [K _]]]]. rewrite (C g) in W by (left; reflexivity). now split. }
    destruct W as [W K]. destruct (C45_area fuel g s t E) as [ps [P [L A]]]; [now apply visible_left|].
    rewrite (IH t s' H); [|now rewrite W|intros g' I; apply C; now right]. rewrite W, K. unfold all_area at 1. rewrite P, map_app, total_app.
    rewrite (total_const ps _ A), L, W. cbn [map total]. replace ((2 * p_w s + 2 * p_w s) / 2) with (2 * p_w s) by lra. unfold all_area. ring.
Qed.
Print Assumptions C45_segments.
Print Assumptions C45_area.
Print Assumptions C45_total.

(** ** C45: turns *)

Lemma toward_angle : forall h, toward h = (cos (turn_angle h), sin (turn_angle h)).
Proof.
  intros []; cbn; rewrite ?cos_0, ?sin_0, ?cos_PI, ?sin_PI, ?cos_PI2, ?sin_PI2, ?cos_neg, ?sin_neg, ?cos_PI2, ?sin_PI2; reflexivity.
Qed.
Lemma deltas_spec : forall t, (forall a, t = By a -> a <> 0) ->
  let '(di, df, ex) := deltas t in
  df - di = turn_by t /\
  (if Rlt_dec (turn_by t) 0 then di = PI / 2 else di = - (PI / 2)) /\
  (ex = match t with By _ => false | _ => true end).
Proof.
  pose proof PI_RGT_0 as P.
  intros [| | | |a] H; cbn [deltas turn_by].
  - destruct (Rlt_dec (- (PI / 2)) 0); [|lra]. repeat split; lra.
  - destruct (Rlt_dec (PI / 2) 0); [lra|]. repeat split; lra.
  - destruct (Rlt_dec (- PI) 0); [|lra]. repeat split; lra.
  - destruct (Rlt_dec PI 0); [lra|]. repeat split; lra.
  - destruct (Rlt_dec a 0); repeat split; lra.
Qed.
Lemma arc_facts : forall r a0 a1 tol np mx fw fd la dt s s', p_arc r a0 a1 tol np mx fw fd la dt s = Some s' ->
  p_at s' = padd (psub (p_at s) (smul r (cos a0, sin a0))) (smul r (cos a1, sin a1)) /\
  p_dir s' = Toward (if Rlt_dec a0 a1 then a1 + PI * / 2 else a1 - PI * / 2) /\
  p_w s' = or_old (half fw) (p_w s) /\ p_dist s' = or_old fd (p_dist s) /\ p_n s' = p_n s /\
  (visible (p_w s) (p_w s') = true -> p_len s' = p_len s + Rabs (a1 - a0) * Rabs r).
Proof.
  intros r a0 a1 tol np mx fw fd la dt s s' H. unfold p_arc in H.
  match type of H with match ?x with _ => _ end = _ => destruct x as [k|]; [|discriminate] end.
  destruct (piece_count k mx =? 0)%nat eqn:Z; [discriminate|]. apply Nat.eqb_neq in Z.
  destruct (visible (p_w s) (or_old (half fw) (p_w s))) eqn:V.
  - match type of H with match ?x with _ => _ end = _ => destruct x as [ps|] eqn:E; [|discriminate] end.
    destruct (tag_list (p_n s) la) as [las|] eqn:E1; [|discriminate]. destruct (tag_list (p_n s) dt) as [dts|] eqn:E2; [|discriminate].
    injection H as <-. cbn [p_at p_dir p_w p_dist p_n p_len]. rewrite V. repeat split.
    intros _. f_equal. generalize (piece_count k mx) Z. clear. intros m Z.
    assert (M : 0 < INR m) by (apply lt_0_INR; lia).
    transitivity (total (map (fun _ => Rabs (a1 - a0) * Rabs r / INR m) (seq 0 m))).
    + assert (F : forall l, fold_right Rplus 0 l = total l) by (induction l; cbn; congruence).
      rewrite F. f_equal. apply map_ext_in. intros j J. apply in_seq in J. unfold at_.
      unfold linspace. rewrite !(nth_map_lt _ _ _ 0%nat) by (rewrite seq_length; lia). rewrite !seq_nth by lia. cbn [Nat.add].
      replace (m + 1 - 1)%nat with m by lia. rewrite plus_INR. cbn [INR].
      replace ((a0 + (INR j + 1) * ((a1 - a0) / INR m) - (a0 + INR j * ((a1 - a0) / INR m))) * r) with ((a1 - a0) * r / INR m)
        by (field; lra).
      unfold Rdiv. rewrite !Rabs_mult. rewrite (Rabs_right (/ INR m)); [ring|]. left. now apply Rinv_0_lt_compat.
    + assert (T : forall (l : list nat) c, total (map (fun _ => c) l) = INR (length l) * c).
      { induction l as [|x l IH]; intros c; [cbn; ring|]. cbn [map total length]. rewrite IH, S_INR. ring. }
      rewrite T, seq_length. field. lra.
  - injection H as <-. cbn [p_at p_dir p_w p_dist p_n p_len]. rewrite V. repeat split. discriminate.
Qed.
Lemma nearest_int : forall z, nearest (IZR z) = z.
Proof.
  intros z. unfold nearest. destruct (base_Int_part (IZR z + / 2)) as [A B].
  assert (H1 : IZR (Int_part (IZR z + / 2)) < IZR (z + 1)) by (rewrite plus_IZR; lra).
  assert (H2 : IZR z < IZR (Int_part (IZR z + / 2) + 1)) by (rewrite plus_IZR; lra).
  apply lt_IZR in H1. apply lt_IZR in H2. lia.
Qed.
Lemma compass_turn : forall k, compass (IZR k * (PI / 2)) = match (k mod 4)%Z with 0%Z => Px | 1%Z => Py | 2%Z => Nx | _ => Ny end.
Proof.
  intros k. unfold compass. replace (IZR k * (PI / 2) / (PI / 2)) with (IZR k) by (field; apply PI_neq0). now rewrite nearest_int.
Qed.

(** A turn (not by an angle of zero): the heading and the end of the path turn about
    the pivot; quarter and half turns of a named direction give a named direction. *)
Theorem C45_turn : forall radius t tol np mx fw fd la dt s s', p_turn radius t tol np mx fw fd la dt s = Some s' ->
  (forall a, t = By a -> a <> 0) ->
  toward (p_dir s') = spin (turn_by t) (toward (p_dir s)) /\
  p_at s' = padd (pivot radius t s) (spin (turn_by t) (psub (p_at s) (pivot radius t s))) /\
  (visible (p_w s) (p_w s') = true -> p_len s' = p_len s + Rabs (turn_by t) * Rabs radius) /\
  (named (p_dir s) = true -> (forall a, t <> By a) -> p_dir s' = turned t (p_dir s)).
Proof.
  intros radius t tol np mx fw fd la dt s s' H N. unfold p_turn in H. pose proof (deltas_spec t N) as D.
  destruct (deltas t) as [[di df] ex]. destruct D as [D1 [D2 D3]]. destruct (p_arc _ _ _ _ _ _ _ _ _ _ _) as [q|] eqn:E; [|discriminate].
  injection H as <-. destruct (arc_facts _ _ _ _ _ _ _ _ _ _ _ _ E) as [A1 [A2 [A3 [A4 [A5 A6]]]]].
  cbn [with_dir p_at p_w p_n p_len p_dist] in A1, A3, A4, A5, A6. set (a := turn_angle (p_dir s)) in *.
  assert (DF : df = di + turn_by t) by lra. clear D1. subst df.
  assert (NZ : turn_by t <> 0).
  { pose proof PI_RGT_0. destruct t; cbn [turn_by]; try lra. now apply N. }
  assert (DIR : p_dir q = Toward (a + turn_by t)).
  { rewrite A2. f_equal. destruct (Rlt_dec (turn_by t) 0); destruct (Rlt_dec (a + di) (a + (di + turn_by t))); lra. }
  assert (EX : named (p_dir s) = true -> (forall b, t <> By b) -> compass (a + turn_by t) = turned t (p_dir s)).
  { intros NM NB. unfold a. destruct (p_dir s); try discriminate NM; destruct t; try (exfalso; now apply (NB a0));
      cbn [turn_angle turn_by turned quarter_left].
    all: match goal with
      | |- compass ?x = Px => first [replace x with (IZR 0 * (PI / 2)) by (cbn; lra) | replace x with (IZR (-4) * (PI / 2)) by (cbn; lra) | replace x with (IZR 4 * (PI / 2)) by (cbn; lra)]
      | |- compass ?x = Py => first [replace x with (IZR 1 * (PI / 2)) by (cbn; lra) | replace x with (IZR (-3) * (PI / 2)) by (cbn; lra) | replace x with (IZR 5 * (PI / 2)) by (cbn; lra)]
      | |- compass ?x = Nx => first [replace x with (IZR 2 * (PI / 2)) by (cbn; lra) | replace x with (IZR (-2) * (PI / 2)) by (cbn; lra) | replace x with (IZR 6 * (PI / 2)) by (cbn; lra)]
      | |- compass ?x = Ny => first [replace x with (IZR 3 * (PI / 2)) by (cbn; lra) | replace x with (IZR (-1) * (PI / 2)) by (cbn; lra)]
      end; rewrite compass_turn; reflexivity. }
  assert (SP : spin (turn_by t) (toward (p_dir s)) = (cos (a + turn_by t), sin (a + turn_by t))).
  { rewrite toward_angle. fold a. unfold spin. cbn [fst snd]. rewrite cos_plus, sin_plus. f_equal; ring. }
  assert (TQ : forall h, (h = Toward (a + turn_by t) \/ (named (p_dir s) = true /\ (forall b, t <> By b) /\ h = compass (a + turn_by t))) ->
    toward h = spin (turn_by t) (toward (p_dir s))).
  { intros h [->|[NM [NB ->]]]; [now rewrite SP|]. rewrite (EX NM NB), SP. unfold a. pose proof PI_RGT_0 as PP.
    assert (Q : forall h, toward (quarter_left h) = (- snd (toward h), fst (toward h))).
    { intros []; cbn; try (f_equal; lra). rewrite cos_plus, sin_plus, cos_PI2, sin_PI2. f_equal; ring. }
    destruct t; cbn [turned turn_by]; rewrite ?Q; cbn [fst snd]; rewrite toward_angle; cbn [fst snd];
      rewrite cos_plus, sin_plus, ?cos_neg, ?sin_neg, ?cos_PI2, ?sin_PI2, ?cos_PI, ?sin_PI; try (f_equal; ring).
    exfalso. now apply (NB a0). }
  assert (CH : p_dir (if (ex && named (p_dir s))%bool then with_dir q (compass (angle_of (p_dir q))) else q) = Toward (a + turn_by t) \/
     (named (p_dir s) = true /\ (forall b, t <> By b) /\
      p_dir (if (ex && named (p_dir s))%bool then with_dir q (compass (angle_of (p_dir q))) else q) = compass (a + turn_by t))).
  { rewrite DIR. cbn [angle_of]. destruct ex; [|left; cbn; exact DIR]. destruct (named (p_dir s)); [|left; cbn; exact DIR].
    right. repeat split; try reflexivity. intros b ->. discriminate D3. }
  assert (AT : p_at q = padd (pivot radius t s) (spin (turn_by t) (psub (p_at s) (pivot radius t s)))).
  { assert (PV : pivot radius t s = psub (p_at s) (smul radius (cos (a + di), sin (a + di)))).
    { unfold pivot. rewrite toward_angle. fold a. unfold rightward, padd, psub, smul.
      destruct (Rlt_dec (turn_by t) 0); cbn [fst snd]; rewrite D2, cos_plus, sin_plus, ?cos_neg, ?sin_neg, ?cos_PI2, ?sin_PI2; f_equal; ring. }
    rewrite A1, PV. replace (a + (di + turn_by t)) with (a + di + turn_by t) by ring. rewrite (cos_plus (a + di)), (sin_plus (a + di)).
    unfold padd, psub, smul, spin. cbn [fst snd]. f_equal; ring. }
  assert (LEN : visible (p_w s) (p_w q) = true -> p_len q = p_len s + Rabs (turn_by t) * Rabs radius).
  { intros V. rewrite (A6 V). replace (a + (di + turn_by t) - (a + di)) with (turn_by t) by ring. reflexivity. }
  split; [now apply TQ|]. split; [|split].
  - destruct (ex && named (p_dir s))%bool; exact AT.
  - destruct (ex && named (p_dir s))%bool; exact LEN.
  - intros NM NB. rewrite DIR. cbn [angle_of]. rewrite NM, D3. destruct t; try (exfalso; now apply (NB a0)); cbn [andb]; now apply EX.
Qed.
(** Turning by an angle of zero reverses the path. *)
Theorem C45_turn_zero_refuted : forall radius tol np mx fw fd la dt s s', p_turn radius (By 0) tol np mx fw fd la dt s = Some s' ->
  p_at s' = p_at s /\ toward (p_dir s') = smul (-1) (toward (p_dir s)).
Proof.
  intros radius tol np mx fw fd la dt s s' H. unfold p_turn in H. cbn [deltas] in H. destruct (Rlt_dec 0 0) as [X|_]; [lra|]. cbn [andb] in H.
  destruct (p_arc _ _ _ _ _ _ _ _ _ _ _) as [q|] eqn:E; [|discriminate]. injection H as <-.
  destruct (arc_facts _ _ _ _ _ _ _ _ _ _ _ _ E) as [A1 [A2 _]]. rewrite A1, A2. cbn [with_dir p_at].
  rewrite Rplus_0_r. split.
  - unfold padd, psub. cbn [fst snd]. apply injective_projections; cbn [fst snd]; ring.
  - rewrite (toward_angle (p_dir s)). match goal with |- context [Rlt_dec ?x ?y] => destruct (Rlt_dec x y) as [X|_]; [exfalso; lra|] end. cbn [toward].
    replace (turn_angle (p_dir s) + - (PI / 2) - PI * / 2) with (turn_angle (p_dir s) - PI) by lra.
    unfold smul. cbn [fst snd]. rewrite cos_minus, sin_minus, cos_PI, sin_PI. f_equal; ring.
Qed.
Print Assumptions C45_turn.
Print Assumptions C45_turn_zero_refuted.

(** ** The calls succeed *)

Lemma tag_list_some : forall n t, usable t -> exists l, tag_list n t = Some l.
Proof. intros n [z|[|a r]] U; [eexists; reflexivity|now elim U|eexists; reflexivity]. Qed.
Lemma all_some_some : forall {X} (l : list (option X)), (forall x, In x l -> x <> None) -> exists r, all_some l = Some r.
Proof.
  induction l as [|[x|] l IH]; intros H; [eexists; reflexivity| |exfalso; now apply (H None); [left|]].
  destruct IH as [r E]; [intros y I; apply H; now right|]. exists (x :: r). cbn. now rewrite E.
Qed.
Lemma segment_defined : forall g s, usable (l_la g) -> usable (l_dt g) -> exists s', do_pcall 0 (leg_call g) s = Some s'.
Proof.
  intros g s A B. cbn [do_pcall leg_call]. unfold p_segment. destruct (visible _ _); [|eexists; reflexivity].
  destruct (tag_list_some (p_n s) _ A) as [x ->]. destruct (tag_list_some (p_n s) _ B) as [y ->]. eexists; reflexivity.
Qed.
Lemma arc_poly_some : forall c np a0 a1 r0 r1 w0 w1, (2 <= np)%nat -> exists p, arc_poly c np a0 a1 r0 r1 w0 w1 = Some p.
Proof.
  intros c np a0 a1 r0 r1 w0 w1 L. unfold arc_poly. destruct (_ =? 0)%nat eqn:Z; [|eexists; reflexivity].
  apply Nat.eqb_eq in Z. assert (1 <= np / 2)%nat by (apply Nat.div_le_lower_bound; lia). lia.
Qed.
Lemma arc_defined : forall r a0 a1 tol np mx fw fd la dt s, (2 <= np)%nat -> (2 <= np / piece_count np mx)%nat -> usable la -> usable dt ->
  exists s', p_arc r a0 a1 tol (Some np) mx fw fd la dt s = Some s'.
Proof.
  intros r a0 a1 tol np mx fw fd la dt s L M A B. unfold p_arc.
  destruct (piece_count np mx =? 0)%nat eqn:Z; [apply Nat.eqb_eq in Z; rewrite Z in M; cbn in M; lia|].
  destruct (visible _ _); [|eexists; reflexivity].
  destruct (tag_list_some (p_n s) _ A) as [x ->]. destruct (tag_list_some (p_n s) _ B) as [y ->].
  match goal with |- context [all_some ?l] => destruct (all_some_some l) as [ps E] end.
  - intros o I. apply in_map_iff in I. destruct I as [j [<- _]]. unfold arc_piece.
    match goal with |- all_some ?l <> _ => destruct (all_some_some l) as [ps E]; [|rewrite E; discriminate] end.
    intros o I. apply in_map_iff in I. destruct I as [i [<- _]].
    match goal with |- arc_poly ?c ?n ?a ?b ?x ?y ?u ?v <> _ => destruct (arc_poly_some c n a b x y u v M) as [p ->] end. discriminate.
  - rewrite E. eexists; reflexivity.
Qed.
Lemma turn_defined : forall r t tol np mx fw fd la dt s, (2 <= np)%nat -> (2 <= np / piece_count np mx)%nat -> usable la -> usable dt ->
  exists s', p_turn r t tol (Some np) mx fw fd la dt s = Some s'.
Proof.
  intros r t tol np mx fw fd la dt s L M A B. unfold p_turn. destruct (deltas t) as [[di df] ex].
  match goal with |- context [p_arc ?r ?a0 ?a1 ?tol (Some ?np) ?mx ?fw ?fd ?la ?dt ?s] =>
    destruct (arc_defined r a0 a1 tol np mx fw fd la dt s L M A B) as [q E]; rewrite E end.
  eexists; reflexivity.
Qed.
(** Non-vacuity: three parallel paths of width 2 on two layers, a tapered section with
    an offset, a right turn in two pieces, and another section. *)
Example C34_path_case : exists s, do_pcalls 0
  [PSegment 5 None (Some 1) (Some 6) 1 (Tags [1; 2]%Z) (Tag 7); PTurn 20 Right 1 (Some 8%nat) 4 None None (Tags [3]%Z) (Tag 0);
   PTranslate (1, 2); PSegment 4 (Some Nx) None None 0 (Tag 9) (Tag 9)]
  (new_path 2 (1, 1) 3 4) = Some s /\ in_step s.
Proof.
  destruct (segment_defined (Leg 5 None (Some 1) (Some 6) 1 (Tags [1; 2]%Z) (Tag 7)) (new_path 2 (1, 1) 3 4)) as [s1 E1]; [discriminate|discriminate|].
  destruct (turn_defined 20 Right 1 8 4 None None (Tags [3]%Z) (Tag 0) s1) as [s2 E2]; [lia|cbn; lia|discriminate|discriminate|].
  destruct (segment_defined (Leg 4 (Some Nx) None None 0 (Tag 9) (Tag 9)) (p_translate (1, 2) s2)) as [s3 E3]; [discriminate|discriminate|].
  match goal with |- exists s, ?x = _ /\ _ => assert (E : x = Some s3) end.
  - cbn [do_pcalls do_pcall leg_call l_len l_dir l_fw l_fd l_axis l_la l_dt] in *. now rewrite E1, E2, E3.
  - exists s3. split; [exact E|]. exact (C34_path _ _ _ _ _ _ _ E).
Qed.
(** Non-vacuity of [C45_segments] and [C45_total]. *)
Example C45_case : exists s, do_pcalls 0 (map leg_call [Leg 5 None None None 0 (Tag 1) (Tag 2); Leg 3 (Some Py) None None 0 (Tag 1) (Tag 2)])
    (new_path 2 (1, 1) 3 4) = Some s /\
  p_at s = (6, 4) /\ p_len s = 8 /\ all_area s = 48.
Proof.
  set (g1 := Leg 5 None None None 0 (Tag 1) (Tag 2)). set (g2 := Leg 3 (Some Py) None None 0 (Tag 1) (Tag 2)).
  destruct (segment_defined g1 (new_path 2 (1, 1) 3 4)) as [s1 E1]; [discriminate|discriminate|].
  destruct (segment_defined g2 s1) as [s2 E2]; [discriminate|discriminate|].
  assert (E : do_pcalls 0 (map leg_call [g1; g2]) (new_path 2 (1, 1) 3 4) = Some s2) by (cbn [map do_pcalls]; now rewrite E1, E2).
  exists s2. split; [exact E|]. destruct (C45_segments _ _ _ _ E) as [A [_ L]].
  pose proof (C45_total _ _ _ _ E) as T.
  assert (W : p_w (new_path 2 (1, 1) 3 4) = 1) by (cbn; lra). rewrite W in L, T. split; [|split].
  - rewrite A. unfold padd, smul. cbn. f_equal; ring.
  - rewrite L; [|lra|intros g [<-|[<-|[]]]; discriminate]. cbn [map total l_len l_axis g1 g2]. rewrite !leg_length, !Rabs_right by lra. cbn. lra.
  - rewrite T; [|lra|intros g [<-|[<-|[]]]; reflexivity]. cbn [map total l_len g1 g2 new_path all_area p_polys p_n INR]. rewrite !Rabs_right by lra. lra.
Qed.
(** Non-vacuity of [C45_turn]. *)
Example C45_turn_case : exists s, p_turn 20 Right 1 (Some 8%nat) 0 None None (Tag 0) (Tag 0) (new_path 2 (1, 1) 3 4) = Some s /\ p_dir s = Ny /\
  p_at s = (21, -19).
Proof.
  destruct (turn_defined 20 Right 1 8 0 None None (Tag 0) (Tag 0) (new_path 2 (1, 1) 3 4)) as [s E]; [lia|cbn; lia|discriminate|discriminate|].
  exists s. split; [exact E|]. destruct (C45_turn _ _ _ _ _ _ _ _ _ _ _ E) as [_ [A [_ D]]]; [discriminate|]. split.
  - rewrite D; [reflexivity|reflexivity|discriminate].
  - rewrite A. pose proof PI_RGT_0. unfold pivot, spin, padd, psub, smul, rightward. cbn [turn_by new_path p_dir p_at toward fst snd].
    destruct (Rlt_dec (- (PI / 2)) 0); [|lra]. cbn [fst snd]. rewrite cos_neg, sin_neg, cos_PI2, sin_PI2. f_equal; ring.
Qed.
