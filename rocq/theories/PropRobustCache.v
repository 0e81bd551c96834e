(** C70: the polygons of a RobustPath are those of its present shape; and examples
    for C37, C53, C70 and C71, and what goes wrong. *)

From Coq Require Import Reals Lra Lia List ZArith Bool.
From Verif Require Import Graph Plane SpecPlane PlaneProofs Hier SpecHier PropFlat Curve Engine Flex SpecFlex FlexProofs FlexMove PropFlexPlace PropFlexShape Hobby
  Robust SpecRobust PropRobust PropRobustJoin RobustExample PropRobustEnds RobustMove PropRobustMove PropRobustPlace PropRobustShape.
Import ListNotations.
Open Scope R_scope.

Section Cache.
Variables (fuel : nat) (hob : pt * pt -> R * R -> pt * pt) (eng : op -> list zpath -> list zpath -> list zpath).
Notation get := (r_get fuel hob eng). Notation now := (r_now fuel hob eng). Notation coherent := (r_coherent fuel hob eng).

(** The second of two calls gives the result of the first. *)
Theorem C70_again : forall r d, snd (get r) = Some d -> snd (get (fst (get r))) = Some d /\ fst (get (fst (get r))) = fst (get r).
Proof.
  intros r d H. assert (X : r_cache (fst (get r)) = Some d); [|unfold r_get at 1 3; rewrite X; now split].
  unfold r_get in *. destruct (r_cache r) eqn:C; [cbn [fst snd] in *; congruence|].
  destruct (r_fill _ _ _ _ _ _) as [e ok]; cbn [fst snd r_remember r_cache] in *; destruct ok; congruence.
Qed.
(** Drawing and moving forget the remembered polygons, whatever they were; smooth
    without points does nothing. *)
Definition r_alters (c : rcall) : bool := match c with RGetPolygons | RSetSpecs _ _ => false | RSmooth _ _ _ _ _ _ => false | _ => true end.
Theorem C70_forgets : forall c r q, do_rcall fuel hob eng c r = Some q -> r_alters c = true -> r_cache q = None.
Proof.
  intros c r q H A. destruct (one_section c) as [[w o]|] eqn:E.
  - destruct (one_section_drawn _ _ _ _ _ _ _ _ E H) as (f & df & x & D). exact (d_c _ _ _ _ _ _ _ D).
  - assert (AM : a_move c = true) by (destruct c; try discriminate; reflexivity). apply (move_rest fuel hob eng _ r q AM H).
Qed.
Lemma r_sections_cache secs : forall w o r q, r_sections secs w o r = Some q -> coherent r -> coherent q.
Proof.
  induction secs as [|[[a b] e] secs IH]; intros w o r q H C; cbn [r_sections] in H; [assert (r = q) by congruence; now subst|].
  destruct (r_bezier [a; b; e] w o false r) as [r1|] eqn:E; [|discriminate]. apply (IH w o r1 q H). apply fresh_robust.
  apply (C70_forgets (RBezier [a; b; e] w o false) r r1 E eq_refl).
Qed.
(** A history in which layers are not reassigned from outside and no get_polygons
    raises. *)
Fixpoint r_plain (cs : list rcall) (r : robust) : Prop :=
  match cs with
  | [] => True
  | c :: rest =>
      match c with
      | RSetSpecs _ _ => False
      | RGetPolygons => snd (get r) <> None
      | _ => True
      end /\ match do_rcall fuel hob eng c r with Some q => r_plain rest q | None => True end
  end.
Theorem C70_current : forall cs r q, r_cache r = None -> do_rcalls fuel hob eng cs r = Some q -> r_plain cs r -> snd (get q) = now q.
Proof.
  intros cs r q C H P.
  assert (X : coherent q).
  { assert (C0 : coherent r) by now apply fresh_robust. clear C. revert r C0 H P. induction cs as [|c cs IH]; intros r C H P; cbn [do_rcalls] in H; [assert (r = q) by congruence; now subst|].
    cbn [r_plain] in P. destruct P as [Pc P]. destruct (do_rcall fuel hob eng c r) as [r1|] eqn:E; [|discriminate]. apply (IH r1); auto.
    destruct c; try (apply fresh_robust; apply (C70_forgets _ r r1 E eq_refl)).
    - cbn [do_rcall] in E. apply (r_sections_cache _ _ _ _ _ E C).
    - cbn [do_rcall] in E. assert (r1 = fst (get r)) by congruence. subst r1. intros d Ed. unfold r_now.
      destruct (r_cache r) as [e|] eqn:F.
      + assert (Eg : fst (get r) = r) by (unfold r_get; now rewrite F). rewrite Eg in *. apply C. exact Ed.
      + destruct (snd (get r)) as [e|] eqn:G; [|congruence].
        assert (Y : r_remember (fst (get r)) None = r_remember r None).
        { unfold r_get. rewrite F. destruct (r_fill _ _ _ _ _ _) as [x ok]. reflexivity. }
        rewrite Y. assert (Z : r_remember r None = r) by (destruct r; cbn in F; subst; reflexivity). rewrite Z.
        unfold r_get in *. rewrite F in *. destruct (r_fill _ _ _ _ _ _) as [x ok]. cbn [fst snd r_remember r_cache] in *. destruct ok; congruence.
    - contradiction. }
  destruct (r_cache q) as [d|] eqn:E.
  - rewrite (X d E). unfold r_get. now rewrite E.
  - unfold r_now. destruct q. cbn in E. subst. reflexivity.
Qed.
End Cache.
Print Assumptions C70_again.
Print Assumptions C70_forgets.
Print Assumptions C70_current.

(** ** Outlines of horizontal sections *)

Section Wrong.
Variables (hob : pt * pt -> R * R -> pt * pt) (eng : op -> list zpath -> list zpath -> list zpath).
Notation get := (r_get 2 hob eng). Notation now := (r_now 2 hob eng).
(** Sides at the heights [-y] and [y] around [c]. *)
Definition flat_sub (x y c : R) (s : sub) : Prop :=
  0 < s_h s /\ 0 <= s_err s /\ forall u arm, 0 <= u <= 1 -> (arm = 0 \/ arm = 1 \/ arm = -1)%Z -> s_at s u arm = (x * u, c + y * IZR arm).
Lemma flat_side x y c s arm : 0 < x -> flat_sub x y c s -> (arm = 0 \/ arm = 1 \/ arm = -1)%Z -> straight_side s arm.
Proof.
  intros X (H & E & A) R. split; [exact H|]. split; [exact E|]. exists (0, c + y * IZR arm), (x, 0). split; [intro Z; injection Z; lra|].
  intros u U. rewrite A by assumption. apply pt_eq; unfold padd, smul; cbn [fst snd]; ring.
Qed.
Lemma flat_outline x y c s en tau ev : 0 < x -> flat_sub x y c s ->
  match en with Flush | Extended | Lengths _ _ => True | _ => False end ->
  r_outline hob en tau ev [s] =
  let e0 := match en with Flush => 0 | Extended => Rabs y | Lengths a _ => a | _ => 0 end in
  let e1 := match en with Flush => 0 | Extended => Rabs y | Lengths _ b => b | _ => 0 end in
  Some ((match en with Flush => [] | _ => [(x + e1, c - Rabs y); (x + e1, c + Rabs y)] end) ++ [(x, c - y); (0, c - y)] ++
        (match en with Flush => [] | _ => [(- e0, c + Rabs y); (- e0, c - Rabs y)] end) ++ [(0, c + y); (x, c + y)]).
Proof.
  intros X F EN. pose proof F as (H & E & A). assert (ST := fun arm => flat_side x y c s arm X F).
  assert (G : forall u, u = 0 \/ u = 1 -> s_grad s u 0 = (x, 0)).
  { intros u U. destruct (straight_grad s 0 u (ST 0%Z ltac:(tauto)) U) as [-> _]. rewrite !A by (try lra; tauto). apply pt_eq; unfold psub; cbn [fst snd]; ring. }
  assert (W : forall u, u = 0 \/ u = 1 -> / 2 * s_width s u = Rabs y).
  { intros u U. unfold s_width. rewrite !A by (try lra; tauto).
    replace (psub _ _) with (smul (-2 * y) (0, 1)) by (apply pt_eq; unfold psub, smul; cbn [fst snd]; ring).
    rewrite len_smul. replace (len (0, 1)) with 1 by (unfold len, len2; cbn [fst snd]; replace (0 ^ 2 + 1 ^ 2) with 1 by ring; symmetry; apply sqrt_1).
    rewrite Rabs_mult. replace (Rabs (-2)) with 2 by (rewrite Rabs_left; lra). field. }
  assert (N : (x, 0) <> (0, 0)) by (intro Z; injection Z; lra).
  assert (L : len (x, 0) = x) by (unfold len, len2; cbn [fst snd]; replace (x ^ 2 + 0 ^ 2) with (x ^ 2) by ring; apply sqrt_sq; lra).
  unfold r_outline. cbn [last side]. rewrite !straight_points by (try (apply ST; tauto); lra). rewrite !A by (try lra; tauto). cbn [app rev].
  assert (S1 : - sgn 1 = -1) by (unfold sgn; lra). assert (S2 : - sgn (-1) = 1) by (unfold sgn; lra).
  assert (U1 : smul (/ len (smul 1 (x, 0))) (smul 1 (x, 0)) = (1, 0)) by (rewrite unit_sign, L by (try assumption; tauto); apply pt_eq; unfold smul; cbn [fst snd]; field; lra).
  assert (U0 : smul (/ len (smul (-1) (x, 0))) (smul (-1) (x, 0)) = (-1, 0)) by (rewrite unit_sign, L by (try assumption; tauto); apply pt_eq; unfold smul; cbn [fst snd]; field; lra).
  destruct en; try contradiction; unfold end_cap; cbv zeta; rewrite ?G, ?W, ?S1, ?S2, ?U0, ?U1, ?A by (try lra; tauto);
    try (destruct (Req_EM_T 0 0) as [_|Z]; [|congruence]; destruct (Req_EM_T 1 0) as [Z|_]; [lra|]);
    cbn [app]; f_equal; repeat (f_equal; try (apply pt_eq; unfold padd, psub, smul; cbn [fst snd]; ring)).
Qed.
Lemma rod_flat o w : flat_sub 2 (- (/ 2 * w)) (- o) (rod_sub o w).
Proof.
  split; [exact h_pos|]. split; [cbn; lra|]. intros u arm U A. rewrite rod_at by assumption. f_equal; ring.
Qed.
Lemma now_one r s en l dt p : r_paths r = [[s]] -> r_ends r = [en] -> r_layers r = [l] -> r_dts r = [dt] -> (r_max r <= 4)%nat ->
  r_outline hob en (r_tol r) (r_evals r) [s] = Some p -> now r = Some [((l, dt), [p])].
Proof.
  intros P E L D M O. rewrite now_gen. unfold zipped. rewrite P, E, L, D. cbn [combine map out_item gen_fill]. rewrite O.
  rewrite r_cut_whole by (try lia; now left). reflexivity.
Qed.
Lemma rod_now o w en gds wt p : r_outline hob en (/ 100) 1000 [rod_sub o w] = Some p -> now (rod o w en gds wt) = Some [((0%Z, 0%Z), [p])].
Proof. intro O. eapply now_one; [reflexivity|reflexivity|reflexivity|reflexivity|cbn; lia|exact O]. Qed.
Lemma rod_uncut o w en gds wt : r_uncut 2 hob eng (rod o w en gds wt).
Proof. left. cbn. lia. Qed.

Lemma rod_flat_by m o w x y c : axx m * 2 = x -> ayy m * (- (/ 2 * w)) = y -> ayy m * - o = c -> axy m = 0 -> ayx m = 0 -> ax m = 0 -> ay m = 0 ->
  flat_sub x y c (with_tr (rod_sub o w) m).
Proof.
  intros X Y C E1 E2 E3 E4. split; [exact h_pos|]. split; [cbn; lra|]. intros u arm U A.
  change (s_at (with_tr (rod_sub o w) m) u arm) with (apply m (s_raw (rod_sub o w) u arm)). rewrite rod_raw by assumption. unfold apply. cbn [fst snd].
  rewrite E1, E2, E3, E4, <- X, <- Y, <- C. f_equal; ring.
Qed.

(** ** Cases *)

Lemma rod_moving o w u : u = 0 \/ u = 1 -> moving (rod_sub o w) u.
Proof.
  intros U arm A. destruct (straight_grad (rod_sub o w) arm u) as (_ & N & _); [|exact U|exact N].
  apply (flat_side 2 (- (/ 2 * w)) (- o)); [lra|apply rod_flat|tauto].
Qed.
Lemma rod_exact o w : straight_exact [rod_sub o w].
Proof.
  intros arm A. split; [|exact I]. intros s [<-|[]]. apply (flat_side 2 (- (/ 2 * w)) (- o)); [lra|apply rod_flat|tauto].
Qed.
(** The rod follows: with flush ends everything, with extended ends everything but
    reflections, with round ends rotations and translations. *)
Example C37_robust_case : robust_follows 2 hob eng true true (rod 3 2 Flush false true) /\ robust_follows 2 hob eng false true (rod 3 2 Extended false true) /\
  robust_follows 2 hob eng false false (rod 3 2 RoundCap false true) /\
  placed_as true true (Place (Some (5, 0)) (Some 90) (Some 2) true None, (0%nat, 0%nat)) /\
  path_content (robust_ops 2 hob eng) (rod 3 2 Flush false true) = [((0%Z, 0%Z), [(2, -2); (0, -2); (0, -4); (2, -4)])].
Proof.
  assert (F : forall b m en, end_follows b m en [rod_sub 3 2] -> robust_follows 2 hob eng b m (rod 3 2 en false true)).
  { intros b m en E. split; [now apply fresh_robust|]. split; [apply rod_uncut|]. intros en' path [Q|[]]. injection Q as <- <-. split; [exact E|]. split.
    - intros _ s [<-|[]]. split; apply rod_moving; tauto.
    - intros _. apply rod_exact. }
  split; [apply F; exact I|]. split; [apply F; reflexivity|]. split; [apply F; cbn; repeat split; try apply rod_moving; tauto|]. split.
  - split; [cbn; lra|]. split; [reflexivity|]. split; [reflexivity|]. now right.
  - unfold path_content. rewrite robust_polys by now apply fresh_robust.
    rewrite (rod_now _ _ _ _ _ _ (flat_outline 2 _ _ _ Flush (/ 100) 1000 ltac:(lra) (rod_flat 3 2) Logic.I)). cbn [flat_map map app fst snd].
    repeat (f_equal; try lra).
Qed.
(** The calls of C71_section. *)
Example C71_case : exists d, do_rcall 2 hob eng (RSegment (2, 0) RKeep RKeep false) (rod_start 3 2 Extended false true) = Some (rod 3 2 Extended false true) /\
  now (rod 3 2 Extended false true) = Some d /\
  d = [((0%Z, 0%Z), [[(3, -4); (3, -2); (2, -2); (0, -2); (-1, -2); (-1, -4); (0, -4); (2, -4)]])].
Proof.
  eexists. split; [reflexivity|]. split; [|reflexivity].
  rewrite (rod_now _ _ _ _ _ _ (flat_outline 2 _ _ _ Extended (/ 100) 1000 ltac:(lra) (rod_flat 3 2) Logic.I)).
  assert (A : Rabs (- (/ 2 * 2)) = 1) by (rewrite Rabs_left; lra). cbv zeta. rewrite A. cbn [app]. repeat (f_equal; try lra).
Qed.
(** A history as in C70_current. *)
Example C70_case : exists q, do_rcalls 2 hob eng [RGetPolygons; RTranslate (1, 1); RSegment (3, 4) RKeep RKeep true] (rod 3 2 Flush false true) = Some q /\
  r_plain 2 hob eng [RGetPolygons; RTranslate (1, 1); RSegment (3, 4) RKeep RKeep true] (rod 3 2 Flush false true) /\ r_len q = 2%nat.
Proof.
  pose proof (rod_now _ _ _ false true _ (flat_outline 2 _ _ _ Flush (/ 100) 1000 ltac:(lra) (rod_flat 3 2) Logic.I)) as B.
  change (now (rod 3 2 Flush false true)) with (snd (get (rod 3 2 Flush false true))) in B.
  assert (E : exists d, fst (get (rod 3 2 Flush false true)) = r_remember (rod 3 2 Flush false true) d).
  { unfold r_get. cbn [rod r_cache]. destruct (r_fill _ _ _ _ _ _) as [d ok]. eexists. reflexivity. }
  destruct E as [d E]. eexists. split; [|split].
  - cbn [do_rcalls do_rcall]. rewrite E. reflexivity.
  - cbn [r_plain do_rcall]. split; [rewrite B; discriminate|]. split; [exact I|]. split; [exact I|]. destruct (r_segment _ _ _ _ _); exact I.
  - reflexivity.
Qed.

(** ** What goes wrong *)

(** flatten(single_layer=5) of a cell whose path has been looked at. *)
Theorem C70_layer_refuted : exists r q p, do_rcalls 2 hob eng [RGetPolygons; RSetSpecs (Some 5%Z) None] r = Some q /\ r_cache r = None /\
  r_layers q = [5%Z] /\ snd (get q) = Some [((0%Z, 0%Z), [p])] /\ now q = Some [((5%Z, 0%Z), [p])].
Proof.
  pose proof (flat_outline 2 _ _ _ Flush (/ 100) 1000 ltac:(lra) (rod_flat 3 2) Logic.I) as O. cbv zeta iota in O.
  match type of O with _ = Some ?x => set (p := x) in * end. pose proof (rod_now _ _ _ false true _ O) as B.
  set (r := rod 3 2 Flush false true) in *. change (now r) with (snd (get r)) in B.
  exists r, (r_set_specs (Some 5%Z) None (fst (get r))), p.
  assert (X : fst (get r) = r_remember r (Some [((0%Z, 0%Z), [p])])).
  { unfold r_get in *. change (r_cache r) with (@None (list (spec * list poly))) in *. cbv iota in *. destruct (r_fill _ _ _ _ _ _) as [d ok]. cbn [fst snd] in *. destruct ok; [|discriminate]. do 2 f_equal. now injection B. }
  split; [reflexivity|]. split; [reflexivity|]. rewrite X. split; [reflexivity|]. split; [reflexivity|].
  eapply now_one; [reflexivity|reflexivity|reflexivity|reflexivity|cbn; lia|exact O].
Qed.
(** Round ends of a radius below half the tolerance: the first call raises
    ValueError, the second returns no polygon at all. *)
Theorem C70_failed_refuted : exists r, r_cache r = None /\ snd (get r) = None /\ snd (get (fst (get r))) = Some [].
Proof.
  set (r := Rob 1 [RoundCap] (2, 0) [0] [2] [[rod_sub 0 2]] [0%Z] [0%Z] 3 (/ 1000) 0 1000 false true None).
  exists r. split; [reflexivity|].
  assert (O : r_outline hob RoundCap 3 1000 [rod_sub 0 2] = None).
  { unfold r_outline, end_cap. cbn [last]. cbv zeta.
    assert (W : / 2 * s_width (rod_sub 0 2) 1 = 1).
    { unfold s_width. rewrite !rod_at by (try lra; tauto). replace (psub _ _) with (smul 2 (0, 1)) by (apply pt_eq; unfold psub, smul; cbn [fst snd]; lra).
      rewrite len_smul. replace (len (0, 1)) with 1 by (unfold len, len2; cbn [fst snd]; replace (0 ^ 2 + 1 ^ 2) with 1 by ring; symmetry; apply sqrt_1).
      rewrite Rabs_pos_eq by lra. lra. }
    rewrite W. unfold arc_count. destruct (Req_EM_T 1 0); [lra|]. destruct (Rlt_dec (1 - 3 / 1) (-1)); [reflexivity|lra]. }
  assert (G : get r = (r_remember r (Some []), None)).
  { unfold r_get. change (r_cache r) with (@None (list (spec * list poly))). cbv iota. unfold zipped. cbn [r r_paths r_ends r_layers r_dts combine r_fill r_tol r_evals]. rewrite O. reflexivity. }
  rewrite G. split; reflexivity.
Qed.
(** transform with [x_reflection] and extended ends: the outline crosses itself at
    both ends.  The section is 4 long and 2 wide with its ends (area 8), reflected the
    outline has the area 4. *)
Theorem C37_robust_reflect_refuted : exists r d p p', r_uncut 2 hob eng r /\ now r = Some [(d, [p])] /\
  now (r_transform None None None true None r) = Some [(d, [p'])] /\ poly_area p = 8 /\ poly_area p' = 4.
Proof.
  set (r := rod 0 2 Extended false true).
  pose proof (flat_outline 2 _ _ _ Extended (/ 100) 1000 ltac:(lra) (rod_flat 0 2) Logic.I) as O. cbv zeta iota in O.
  assert (A : Rabs (- (/ 2 * 2)) = 1) by (rewrite Rabs_left; lra). rewrite A in O.
  exists r, (0%Z, 0%Z). eexists. eexists. split; [apply rod_uncut|]. split; [apply rod_now; exact O|].
  set (s' := s_scale 1 (-1) (rod_sub 0 2)).
  assert (F : flat_sub 2 1 0 s').
  { apply rod_flat_by; cbn; lra. }
  pose proof (flat_outline 2 1 0 s' Extended (/ 100) 1000 ltac:(lra) F Logic.I) as O'. cbv zeta iota in O'. rewrite (Rabs_pos_eq 1) in O' by lra.
  split; [eapply now_one; [reflexivity|reflexivity|reflexivity|reflexivity|cbn; lia|exact O']|].
  split; unfold poly_area; cbn [app fan fst snd].
  - match goal with |- / 2 * Rabs ?x = _ => replace x with 16 by field end. rewrite Rabs_pos_eq; lra.
  - match goal with |- / 2 * Rabs ?x = _ => replace x with (-8) by field end. rewrite Rabs_left; lra.
Qed.
(** End extensions given as lengths are not scaled: a section from -3 to 5 with its
    ends, doubled, reaches 7, not 10. *)
Theorem C37_robust_lengths_refuted : exists r d p p', r_uncut 2 hob eng r /\ now r = Some [(d, [p])] /\
  now (r_scale 2 (0, 0) r) = Some [(d, [p'])] /\ (exists v, In v (map (smul 2) p) /\ fst v = 10) /\ (forall v, In v p' -> fst v <= 7).
Proof.
  set (r := rod 0 2 (Lengths 3 3) false true).
  pose proof (flat_outline 2 _ _ _ (Lengths 3 3) (/ 100) 1000 ltac:(lra) (rod_flat 0 2) Logic.I) as O. cbv zeta iota in O.
  exists r, (0%Z, 0%Z). eexists. eexists. split; [apply rod_uncut|]. split; [apply rod_now; exact O|].
  set (s' := s_translate (smul (1 - 2) (0, 0)) (s_scale 2 2 (rod_sub 0 2))).
  assert (F : flat_sub 4 (-2) 0 s').
  { apply rod_flat_by; cbn; lra. }
  pose proof (flat_outline 4 (-2) 0 s' (Lengths 3 3) (/ 100) 1000 ltac:(lra) F Logic.I) as O'. cbv zeta iota in O'.
  split; [eapply now_one; [reflexivity|reflexivity|reflexivity|reflexivity|cbn; lia|exact O']|].
  split.
  - eexists. split; [left; reflexivity|]. unfold smul. cbn [fst snd]. lra.
  - intros v I. cbn [app] in I. repeat (destruct I as [<-|I]; [cbn [fst]; lra|]). destruct I.
Qed.
(** The same offset puts a FlexPath on the left of its spine and a RobustPath on the
    right of it. *)
Theorem C71_sides_refuted : exists f r d d' p p',
  f_pts f = [(0, 0); (2, 0)] /\ f_w f = [[2]; [2]] /\ f_o f = [[3]; [3]] /\
  do_rcall 2 hob eng (RSegment (2, 0) RKeep RKeep false) (rod_start 3 2 Flush false true) = Some r /\
  SpecFlex.now 2 hob eng f = Some [(d, [p])] /\ now r = Some [(d', [p'])] /\
  (forall v, In v p -> 2 <= snd v <= 4) /\ (forall v, In v p' -> -4 <= snd v <= -2).
Proof.
  exists (bar 2 3 Flush), (rod 3 2 Flush false true). eexists. eexists. eexists. eexists. split; [reflexivity|]. split; [reflexivity|]. split; [reflexivity|].
  split; [reflexivity|]. split; [apply bar_now; lra|]. split.
  - apply rod_now. exact (flat_outline 2 _ _ _ Flush (/ 100) 1000 ltac:(lra) (rod_flat 3 2) Logic.I).
  - split; intros v I; cbn [app] in I; repeat (destruct I as [<-|I]; [cbn [snd]; lra|]); destruct I.
Qed.
End Wrong.
Print Assumptions C70_layer_refuted.
Print Assumptions C70_failed_refuted.
Print Assumptions C37_robust_reflect_refuted.
Print Assumptions C37_robust_lengths_refuted.
Print Assumptions C71_sides_refuted.
