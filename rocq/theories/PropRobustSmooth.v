(** C78: RobustPath.smooth draws the arcs of the spline, and the spline has no
    corners. *)

From Coq Require Import Reals Lra Lia List Arith ZArith Bool.
From Verif Require Import Plane PlaneProofs Curve SpecCurve CurveProofs PropCurve Engine Flex SpecFlex FlexProofs PropFlexEnds
  Robust SpecRobust PropRobust PropRobustJoin PropRobustEnds SpecSpine PropRobustSpine SpecRound SpecSmooth Smooth Gauss PropSmooth PropSmoothAhead PropSmoothMore.
Import ListNotations.
Open Scope R_scope.

(** ** Cubic curves *)

Lemma cubic_bernstein p a b e u :
  (bernstein (map fst [p; a; b; e]) u, bernstein (map snd [p; a; b; e]) u) = cubic p a b e u.
Proof.
  assert (C 3 0 = 1 /\ C 3 1 = 3 /\ C 3 2 = 3 /\ C 3 3 = 1) as (C0 & C1 & C2 & C3) by (unfold C; cbn; repeat split; field).
  unfold bernstein, cubic, padd, smul. apply pt_eq; cbn; rewrite C0, C1, C2, C3; ring.
Qed.
Lemma cubic_velocity p a b e u v : v = padd (smul (3 * (1 - u) ^ 2) (psub a p)) (padd (smul (6 * (u * (1 - u))) (psub b a)) (smul (3 * u ^ 2) (psub e b))) ->
  velocity (cubic p a b e) u v.
Proof.
  intros ->. pose proof (bezier_velocity [p; a; b; e] u ltac:(cbn; lia)) as V.
  apply (velocity_ext (bezier [p; a; b; e])); [intro x; rewrite C31_bernstein by discriminate; apply cubic_bernstein|].
  match type of V with velocity _ _ ?v => match goal with |- velocity _ _ ?w => replace w with v; [exact V|] end end.
  assert (C 2 0 = 1 /\ C 2 1 = 2 /\ C 2 2 = 1) as (C0 & C1 & C2) by (unfold C; cbn; repeat split; field).
  rewrite ?C31_bernstein by discriminate. unfold bernstein, padd, smul, psub. apply pt_eq; cbn; rewrite ?C0, ?C1, ?C2; ring.
Qed.
(** The two sides of a point of the spline have the same direction. *)
Theorem C78_no_corner : forall n p to ti ctrl a th ph k, spline n p to ti ctrl a th ph -> (S k < n)%nat ->
  p k <> p (S k) -> p (S k) <> p (S (S k)) -> 0 < to k -> 0 < ti (S k) -> 0 < to (S k) -> 0 < ti (S (S k)) ->
  ~ (turned (p k) (p (S k)) (a k) PI /\ turned (p k) (p (S k)) (a (S k)) PI) ->
  ~ (turned (p (S k)) (p (S (S k))) (a (S k)) PI /\ turned (p (S k)) (p (S (S k))) (a (S (S k))) PI) ->
  let arc k := cubic (p k) (fst (ctrl k)) (snd (ctrl k)) (p (S k)) in
  arc k 1 = p (S k) /\ arc (S k) 0 = p (S k) /\
  exists v v', velocity (arc k) 1 v /\ velocity (arc (S k)) 0 v' /\ same_way v v' /\ same_way (cos (a (S k)), sin (a (S k))) v.
Proof.
  intros n p to ti ctrl a th ph k SP K N1 N2 T1 T2 T3 T4 B1 B2 arc.
  split; [unfold arc, cubic; apply pt_eq; unfold padd, smul; cbn [fst snd]; ring|].
  split; [unfold arc, cubic; apply pt_eq; unfold padd, smul; cbn [fst snd]; ring|].
  destruct (C78_ahead _ _ _ _ _ _ _ _ k SP ltac:(lia) N1 T1 T2 B1) as (L & M & LP & MP & _ & E2).
  destruct (C78_ahead _ _ _ _ _ _ _ _ (S k) SP ltac:(lia) N2 T3 T4 B2) as (L' & M' & LP' & MP' & E1' & _).
  set (u := (cos (a (S k)), sin (a (S k)))) in *.
  assert (U0 : u <> (0, 0)) by (unfold u; intro E; injection E as E1 E3; pose proof (sin2_cos2 (a (S k))) as Q; unfold Rsqr in Q; rewrite E1, E3 in Q; lra).
  exists (smul (3 * M) u), (smul (3 * L') u).
  split; [apply cubic_velocity; rewrite E2; apply pt_eq; unfold padd, psub, smul; cbn [fst snd]; ring|].
  split; [apply cubic_velocity; rewrite E1'; apply pt_eq; unfold padd, psub, smul; cbn [fst snd]; ring|].
  split; split.
  - intro E. apply U0. unfold smul in E. destruct u as [u1 u2]. cbn [fst snd] in E. injection E as E1 E3. apply pt_eq; cbn [fst snd]; nra.
  - exists (L' / M). split; [apply Rdiv_lt_0_compat; assumption|]. apply pt_eq; unfold smul; cbn [fst snd]; field; lra.
  - exact U0.
  - exists (3 * M). split; [lra|reflexivity].
Qed.
Print Assumptions C78_no_corner.

(** ** The sections *)

Lemma nth_tl_S {X} (l : list X) i d : nth i (tl l) d = nth (S i) l d.
Proof. destruct l; [destruct i; reflexivity|reflexivity]. Qed.
Lemma nth_map_lt {X Y} (g : X -> Y) l d d' i : (i < length l)%nat -> nth i (map g l) d' = g (nth i l d).
Proof. intro L. rewrite (nth_indep _ d' (g d)) by (rewrite map_length; exact L). apply map_nth. Qed.
Lemma iter_shift {X} (g : X -> X) i x : Nat.iter i g (g x) = Nat.iter (S i) g x.
Proof. induction i as [|i IH]; [reflexivity|]. cbn [Nat.iter nat_rect]. unfold Nat.iter in *. cbn in *. now rewrite IH. Qed.
Lemma sections_at secs : forall w o r q, r_aligned r -> (0 < r_n r)%nat -> r_sections secs w o r = Some q ->
  r_aligned q /\ r_n q = r_n r /\ r_len q = (r_len r + length secs)%nat /\
  (forall u arm, 0 <= u < INR (r_len r) -> r_at q u arm = r_at r u arm) /\
  forall i t, (i < length secs)%nat -> 0 <= t < 1 \/ (t = 1 /\ S i = length secs) ->
    let from := nth i (r_x r :: map snd secs) (0, 0) in let '(a, b, e) := nth i secs ((0, 0), (0, 0), (0, 0)) in
    exists v l, velocity (cubic from a b e) t v /\ r_at q (INR (r_len r + i) + t) 0 = Some l /\ length l = r_n r /\
      forall k, (k < r_n r)%nat -> nth k l (0, 0) = to_right (cubic from a b e t) v (wanted (offset_after o k (nth k (r_o r) 0) i) true o k t).
Proof.
  induction secs as [|[[a b] e] secs IH]; intros w o r q A N H; cbn [r_sections] in H.
  - injection H as <-. split; [exact A|]. split; [reflexivity|]. split; [cbn; lia|]. split; [reflexivity|]. intros i t I. cbn in I. lia.
  - destruct (r_bezier [a; b; e] w o false r) as [r1|] eqn:B; [|discriminate].
    pose (fuel := 0%nat). pose (hob := fun (_ : pt * pt) (_ : R * R) => ((0, 0), (0, 0)) : pt * pt). pose (eng := fun (_ : op) (_ _ : list zpath) => @nil zpath).
    assert (B' : do_rcall fuel hob eng (RBezier [a; b; e] w o false) r = Some r1) by exact B.
    assert (A1 : r_aligned r1 /\ r_n r1 = r_n r) by (eapply call_aligned; eassumption). destruct A1 as [A1 N1].
    assert (L1 : r_len r1 = S (r_len r)).
    { destruct (one_section_drawn fuel hob eng (RBezier [a; b; e] w o false) w o r r1 eq_refl B') as (f & df & x & D).
      destruct (d_k _ _ _ _ _ _ _ D 0%nat N) as (off & wid & path & _ & _ & PP & _ & _ & QP). apply nth_error_In in PP, QP.
      rewrite <- (len_all _ _ A PP), <- (len_all _ _ A1 QP), app_length. cbn. lia. }
    assert (X1 : r_x r1 = e) by (rewrite (bezier_end_r _ _ _ _ _ _ B); reflexivity).
    assert (O1 : forall k, (k < r_n r)%nat -> nth k (r_o r1) 0 = wanted (nth k (r_o r) 0) true o k 1).
    { intros k K. assert (LP : length (r_paths r1) = r_n r1) by apply A1.
      destruct (nth_error (r_paths r1) k) as [path'|] eqn:P; [|apply nth_error_None in P; lia].
      destruct (C69_dimensions fuel hob eng (RBezier [a; b; e] w o false) w o r r1 k path' eq_refl B' A P) as (path & s & _ & _ & _ & O & _ & Q). now rewrite Q, O. }
    destruct (IH w o r1 q A1 ltac:(lia) H) as (AQ & NQ & LQ & KQ & SQ).
    split; [exact AQ|]. split; [congruence|]. split; [cbn [length]; lia|]. split.
    + intros u arm U. rewrite KQ by (rewrite L1, S_INR; lra). exact (C77_keeps fuel hob eng (RBezier [a; b; e] w o false) w o r r1 u arm eq_refl A N B' U).
    + intros [|i] t I T; cbn [nth map snd].
      * assert (T1 : 0 <= t <= 1) by (destruct T as [|[-> _]]; lra).
        destruct (C77_curve fuel hob eng (RBezier [a; b; e] w o false) (0, 0) w o r r1 t eq_refl Logic.I Logic.I A N B' T1) as (v & l & V & L & LL & K).
        assert (E : forall u, curve_of (RBezier [a; b; e] w o false) (0, 0) r u = cubic (r_x r) a b e u).
        { intro u. unfold curve_of. cbv zeta. rewrite <- cubic_bernstein. reflexivity. }
        exists v, l. split; [eapply velocity_ext; [exact E|exact V]|]. rewrite Nat.add_0_r. split; [|split; [exact LL|]].
        -- destruct T as [T|[-> T]]; [rewrite KQ by (rewrite L1, S_INR; pose proof (pos_INR (r_len r)); lra); exact L|].
           cbn [length] in T. destruct secs; [|cbn in T; lia]. cbn [r_sections] in H. injection H as <-. exact L.
        -- intros k Kk. rewrite (K k Kk). rewrite E. reflexivity.
      * specialize (SQ i t ltac:(cbn [length] in I; lia) ltac:(cbn [length] in T; destruct T as [T|[T T2]]; [auto|right; split; [exact T|lia]])).
        cbv zeta in SQ. rewrite X1, L1, N1 in SQ. change (nth i (e :: map snd secs) (0, 0)) with (nth i (e :: map snd secs) (0, 0)) in SQ.
        destruct (nth i secs ((0, 0), (0, 0), (0, 0))) as [[a' b'] e'] eqn:Q. destruct SQ as (v & l & V & L & LL & K).
        exists v, l. split; [exact V|]. split; [replace (r_len r + S i)%nat with (S (r_len r) + i)%nat by lia; exact L|]. split; [exact LL|].
        intros k Kk. rewrite (K k Kk). f_equal. rewrite (O1 k Kk). unfold offset_after. f_equal. exact (iter_shift (fun x => wanted x true o k 1) i (nth k (r_o r) 0)).
Qed.

(** The control points computed for the current point and the given points are used
    in order: parallel path k is at its offset to the right of the arcs between
    consecutive points, and the last arc of a closed curve leads back to the start. *)
Theorem C78_robust : forall fuel hob eng (hs : list pt -> list (pt * pt)) (cyc : bool) (l : list pt) w o rel r q, r_aligned r -> (0 < r_n r)%nat -> l <> [] ->
  let z := r_x r :: map (r_place rel r) l in let n := length z in let arcs := if cyc then n else (n - 1)%nat in
  let p i := nth (i mod n) z (0, 0) in let c i := nth i (hs z) ((0, 0), (0, 0)) in
  let arc i := cubic (p i) (fst (c i)) (snd (c i)) (p (S i)) in
  length (hs z) = arcs -> do_rcall fuel hob eng (RSmooth hs cyc l w o rel) r = Some q ->
  (r_len q = r_len r + arcs)%nat /\
  (forall u arm, 0 <= u < INR (r_len r) -> r_at q u arm = r_at r u arm) /\
  forall i t, (i < arcs)%nat -> 0 <= t < 1 \/ (t = 1 /\ S i = arcs) ->
    exists v at_t, velocity (arc i) t v /\ r_at q (INR (r_len r + i) + t) 0 = Some at_t /\ length at_t = r_n r /\
      forall k, (k < r_n r)%nat -> nth k at_t (0, 0) = to_right (arc i t) v (wanted (offset_after o k (nth k (r_o r) 0) i) true o k t).
Proof.
  intros fuel hob eng hs cyc l w o rel r q A N NE z n arcs p c arc LH H. cbn [do_rcall] in H. unfold r_smooth in H.
  replace (if rel then map (padd (r_x r)) l else l) with (map (r_place rel r) l) in H by (unfold r_place; destruct rel; [reflexivity|apply map_id]).
  fold z in H. cbv zeta in H. set (secs := _ ++ _) in H.
  assert (LN : n = S (length l)) by (unfold n, z; cbn [length]; now rewrite map_length).
  assert (LL : (0 < length l)%nat) by (destruct l; [congruence|cbn; lia]).
  assert (LS : length secs = arcs).
  { unfold secs, arcs. rewrite app_length, map_length, combine_length, LH. unfold z. cbn [tl]. rewrite map_length. unfold arcs. destruct cyc; cbn [length]; lia. }
  destruct (sections_at secs w o r q A N H) as (AQ & NQ & LQ & KQ & SQ).
  split; [lia|]. split; [exact KQ|].
  assert (E : forall i, (i < arcs)%nat -> nth i secs ((0, 0), (0, 0), (0, 0)) = (fst (c i), snd (c i), p (S i))).
  { intros i I. unfold secs. destruct (lt_dec i (length l)) as [J|J].
    - rewrite app_nth1 by (rewrite map_length, combine_length, LH; unfold z; cbn [tl]; rewrite map_length; unfold arcs; destruct cyc; lia).
      set (dd := (((0, 0), (0, 0)), (0, 0)) : pt * pt * pt).
      rewrite (nth_map_lt _ _ dd) by (rewrite combine_length, LH; unfold z; cbn [tl]; rewrite map_length; unfold arcs; destruct cyc; lia).
      destruct (nth_error (combine (hs z) (tl z)) i) as [[[x y] e]|] eqn:Q.
      2:{ apply nth_error_None in Q. rewrite combine_length, LH in Q. unfold z in Q. cbn [tl] in Q. rewrite map_length in Q. unfold arcs in Q. destruct cyc; lia. }
      rewrite (nth_error_nth _ _ dd Q). cbn [fst snd].
      assert (Q1 : nth_error (hs z) i = Some (x, y) /\ nth_error (tl z) i = Some e).
      { revert Q. generalize (hs z) (tl z). clear. induction i as [|i IH]; intros [|u us] [|v vs] Q; cbn in *; try discriminate; [injection Q as -> ->; auto|eauto]. }
      destruct Q1 as [Q1 Q2]. unfold c, p. rewrite (nth_error_nth _ _ _ Q1). cbn [fst snd]. f_equal.
      rewrite Nat.mod_small by lia. rewrite <- nth_tl_S. symmetry. apply nth_error_nth. exact Q2.
    - assert (CY : cyc = true /\ i = length l) by (unfold arcs in I; destruct cyc; [split; [reflexivity|lia]|lia]). destruct CY as [-> ->].
      assert (LM : length (map (fun kp : pt * pt * pt => (fst (fst kp), snd (fst kp), snd kp)) (combine (hs z) (tl z))) = length l)
        by (rewrite map_length, combine_length, LH; unfold z; cbn [tl]; rewrite map_length; unfold arcs; lia).
      rewrite app_nth2 by lia. rewrite LM, Nat.sub_diag. cbn [nth].
      assert (LA : last (hs z) ((0, 0), (0, 0)) = c (length l)).
      { unfold c. rewrite <- (nth_last (hs z)). f_equal. rewrite LH. unfold arcs. lia. }
      rewrite LA. f_equal. unfold p. rewrite <- LN. rewrite Nat.mod_same by lia. reflexivity. }
  intros i t I T. specialize (SQ i t ltac:(lia) ltac:(rewrite LS; exact T)). cbv zeta in SQ. rewrite (E i I) in SQ.
  assert (F : nth i (r_x r :: map snd secs) (0, 0) = p i).
  { destruct i as [|i]; [unfold p; rewrite Nat.mod_0_l by lia; reflexivity|].
    cbn [nth]. rewrite (nth_map_lt _ _ ((((0, 0), (0, 0)), (0, 0)) : pt * pt * pt)) by lia.
    rewrite (E i ltac:(lia)). reflexivity. }
  rewrite F in SQ. exact SQ.
Qed.
Print Assumptions C78_robust.

(** Two parallel paths through three corners of a square; the offsets grow by 1 in each
    section. *)
Example C78_robust_case : forall fuel hob eng, exists c q,
  hobby gauss (r_x twin :: map (r_place false twin) [(1, 0); (1, 1)]) [None; None; None] 1 1 [1; 1; 1] [1; 1; 1] false = Some c /\
  do_rcall fuel hob eng (RSmooth (fun _ => c) false [(1, 0); (1, 1)] RKeep (RNum 1) false) twin = Some q /\
  r_aligned twin /\ (0 < r_n twin)%nat /\ r_len q = 2%nat /\ offset_after (RNum 1) 1 (nth 1 (r_o twin) 0) 2 = 3.
Proof.
  intros fuel hob eng. destruct C78_case as (c & H & L & _). destruct c as [|c0 [|c1 [|c2 c]]]; try discriminate L. exists [c0; c1]. eexists.
  split; [exact H|]. split; [reflexivity|]. split; [repeat split; intros p q [<-|[<-|[]]] [<-|[<-|[]]]; reflexivity|]. split; [cbn; lia|]. split; [reflexivity|].
  unfold offset_after. cbn. ring.
Qed.
