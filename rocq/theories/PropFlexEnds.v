(** Sections of a FlexPath (C63) and the sampling of parametric sections (C64). *)

From Coq Require Import Reals Lra Lia List ZArith Bool.
From Verif Require Import Plane Curve SpecCurve CurveProofs Engine Flex SpecFlex PropFlexRows.
Import ListNotations.
Open Scope R_scope.

(** ** C63: widths and offsets *)

Lemma nth_combine_map (g : R * R -> R) : forall a b k, length a = length b -> (k < length a)%nat ->
  nth k (map g (combine a b)) 0 = g (nth k a 0, nth k b 0).
Proof.
  induction a as [|x a IH]; intros [|y b] k L K; cbn in *; try lia. destruct k; [reflexivity|]. apply IH; lia.
Qed.
Lemma linspace_at a b n i : (i < n)%nat -> nth i (linspace a b n) 0 = a + INR i * ((b - a) / INR (n - 1)).
Proof.
  intro H. unfold linspace. set (g := fun _ => _).
  rewrite (nth_indep _ 0 (g 0%nat)) by (rewrite map_length, seq_length; auto). rewrite (map_nth g), seq_nth by auto. reflexivity.
Qed.
Lemma nth_tl {X} (l : list X) i d : nth i (tl l) d = nth (S i) l d.
Proof. destruct l; [destruct i; reflexivity|reflexivity]. Qed.
Lemma new_rows_taper arg from to m n : (0 < m)%nat -> length from = n -> length to = n ->
  (arg = Keep -> from = to) ->
  tapers n m (fun k => nth k from 0) (fun k => nth k to 0) (new_rows arg from to m).
Proof.
  intros M F T K. split; [apply (new_rows_ok arg from to m n F T)|]. intros j k J Kn.
  assert (Z : INR m <> 0) by (apply not_0_INR; lia).
  assert (B : nth k (nth j (map (fun u => blend u from to) (tl (linspace 0 1 (S m)))) []) 0
              = nth k from 0 + INR (S j) / INR m * (nth k to 0 - nth k from 0)).
  { set (g := fun u => blend u from to).
    rewrite (nth_indep _ [] (g 0)) by (rewrite map_length, tl_length, linspace_length; lia).
    rewrite (map_nth g), nth_tl, linspace_at by lia. unfold g, blend.
    rewrite nth_combine_map by lia. cbn [fst snd]. replace (S m - 1)%nat with m by lia. field. exact Z. }
  destruct arg; cbn [new_rows]; [|exact B|exact B].
  specialize (K eq_refl). subst to. replace (nth j (repeat from m) []) with from.
  - field. exact Z.
  - symmetry. clear -J. revert j J. induction m as [|m IH]; intros j J; [lia|]. destruct j; [reflexivity|]. cbn. apply IH. lia.
Qed.

Lemma fit_listed wide n l r k : fit wide n l = Some r -> (k < n)%nat -> nth k r 0 = listed l k.
Proof.
  unfold fit. destruct (Nat.eqb_spec (length l) n) as [L|L].
  - intros E K. injection E as <-. destruct l as [|x [|y l]]; [reflexivity| |reflexivity].
    cbn [length] in L. assert (k = 0)%nat by lia. subst k. reflexivity.
  - destruct wide, l as [|x [|? ?]]; try discriminate. intros E K; injection E as <-. cbn [listed].
    clear -K. revert k K. induction n as [|n IH]; intros [|k] K; [lia|lia|reflexivity|]. cbn. apply IH. lia.
Qed.
Lemma nth_repeat_in (x : R) n k : (k < n)%nat -> nth k (repeat x n) 0 = x.
Proof. revert k; induction n as [|n IH]; intros [|k] K; [lia|lia|reflexivity|]. cbn. apply IH. lia. Qed.
Lemma final_w_asked wide f a w k : final_w wide f (width_arg f a) = Some w -> (k < f_n f)%nat -> nth k w 0 = asked_width f a k.
Proof.
  unfold width_arg, asked_width. destruct (f_gds f); [intro E; injection E as <-; reflexivity|].
  destruct a; cbn [final_w]; intros E K.
  - injection E as <-. reflexivity.
  - injection E as <-. now apply nth_repeat_in.
  - eapply fit_listed; eassumption.
Qed.
Lemma final_o_asked wide f a o k : length (lastrow (f_o f)) = f_n f ->
  final_o wide f a = Some o -> (k < f_n f)%nat -> nth k o 0 = asked_offset f a k.
Proof.
  intros L. unfold asked_offset. destruct a; cbn [final_o]; intros E K.
  - injection E as <-. reflexivity.
  - injection E as <-. unfold add_each, previous, lastrow in *. set (g := fun y => y + x).
    rewrite (nth_indep _ 0 (g 0)) by (rewrite map_length; lia). now rewrite (map_nth g).
  - eapply fit_listed; eassumption.
Qed.
Lemma tapers_ext n m a b a' b' rows : (forall k, (k < n)%nat -> a k = a' k) -> (forall k, (k < n)%nat -> b k = b' k) ->
  tapers n m a b rows -> tapers n m a' b' rows.
Proof. intros A B [L T]. split; [exact L|]. intros j k J K. rewrite T by assumption. now rewrite A, B. Qed.

Definition tapered_section (f g : flex) (w o : dim) : Prop :=
  exists m P W O, (0 < m)%nat /\ length P = m /\
    f_pts g = f_pts f ++ P /\ f_w g = f_w f ++ W /\ f_o g = f_o f ++ O /\
    tapers (f_n f) m (previous (f_w f)) (asked_width f w) W /\
    tapers (f_n f) m (previous (f_o f)) (asked_offset f o) O.
Lemma grown_tapered f g w o : aligned f -> grown f g w o -> tapered_section f g w o.
Proof.
  intros A (pts & w' & o' & N & Nf & W & O & ->). destruct (aligned_last f A Nf) as [Lw Lo].
  pose proof (final_w_length _ _ _ _ Lw W) as Lw'. pose proof (final_o_length _ _ _ _ Lo O) as Lo'.
  assert (M : (0 < length pts)%nat) by (destruct pts; [congruence|cbn; lia]).
  exists (length pts), pts. eexists; eexists. split; [exact M|]. split; [reflexivity|]. split; [reflexivity|]. split; [reflexivity|].
  split; [reflexivity|]. split.
  - eapply tapers_ext; [| |apply new_rows_taper; [exact M|exact Lw|exact Lw'|]].
    + reflexivity.
    + intros k K. cbv beta. eapply final_w_asked; eassumption.
    + intro E. rewrite E in W. injection W as W. exact W.
  - eapply tapers_ext; [| |apply new_rows_taper; [exact M|exact Lo|exact Lo'|]].
    + reflexivity.
    + intros k K. cbv beta. eapply final_o_asked; eassumption.
    + intro E. rewrite E in O. injection O as O. exact O.
Qed.
(** The new points come after the old ones, with one new row of widths and offsets
    for each, going linearly from the previous values to those asked for. *)
Theorem C63_taper : forall fuel hob eng c f g w o,
  section_args c = Some (w, o) -> aligned f -> do_call fuel hob eng c f = Some g -> tapered_section f g w o.
Proof.
  intros fuel hob eng c f g w o S A E. destruct c; cbn [section_args] in S; try discriminate; injection S as <- <-; cbn [do_call] in E.
  - unfold f_segment, segment_step in E. destruct (f_pts f) as [|q l] eqn:P; [discriminate|]. rewrite <- P in E.
    destruct (final_w false f (width_arg f w0)) as [w'|] eqn:W; [|discriminate].
    destruct (final_o false f o0) as [o'|] eqn:O; [|discriminate]. injection E as <-.
    assert (Nf : f_pts f <> []) by congruence. destruct (aligned_last f A Nf) as [Lw Lo].
    exists 1%nat. eexists; eexists; eexists. split; [lia|]. split; [|split; [reflexivity|split; [reflexivity|split; [reflexivity|]]]]; [reflexivity|].
    split; split; try reflexivity; intros [|j] k J K; try lia; cbn [nth]; change (INR 1) with 1.
    + rewrite (final_w_asked _ _ _ _ _ W K). field.
    + rewrite (final_o_asked _ _ _ _ _ Lo O K). field.
  - apply grown_tapered; [exact A|]. eapply arc_grown, E.
  - unfold f_turn in E. destruct (_ <? 2)%nat; [discriminate|]. apply grown_tapered; [exact A|]. eapply arc_grown, E.
  - apply grown_tapered; [exact A|]. eapply parametric_grown, E.
  - apply grown_tapered; [exact A|]. eapply parametric_grown, E.
Qed.
Print Assumptions C63_taper.

(** ** C64: parametric sections *)

Definition on_c (c : R -> pt) (x : R * pt) : Prop := snd x = c (fst x).
Lemma first_bad_some c tol u0 u1 fs x : u0 < u1 -> Forall (fun t => 0 < t < 1) fs ->
  first_bad c tol (u0, c u0) (u1, c u1) fs = Some x -> on_c c x /\ exists t, In t fs /\ fst x = u0 * (1 - t) + u1 * t.
Proof.
  intros L. induction fs as [|t r IH]; cbn [first_bad fst snd]; intros F E; [discriminate|]. inversion F; subst.
  destruct (Rlt_dec tol _).
  - injection E as <-. split; [reflexivity|]. exists t. split; [left; reflexivity|reflexivity].
  - destruct (IH ltac:(assumption) E) as [A (t' & I & B)]. split; [exact A|]. exists t'. split; [right; exact I|exact B].
Qed.
Lemma first_bad_none c tol u0 u1 fs : first_bad c tol (u0, c u0) (u1, c u1) fs = None ->
  forall t, In t fs -> dist2 (padd (smul (1 - t) (c u0)) (smul t (c u1))) (c ((1 - t) * u0 + t * u1)) <= tol.
Proof.
  induction fs as [|t r IH]; cbn [first_bad fst snd]; [intros _ s []|]; intros E s [<-|I].
  - destruct (Rlt_dec tol _) as [|N]; [discriminate|]. unfold dist2, dot.
    replace ((1 - t) * u0 + t * u1) with (u0 * (1 - t) + u1 * t) by ring. set (e := psub _ _) in *. nra.
  - destruct (Rlt_dec tol _); [discriminate|]. auto.
Qed.
Lemma thirds_in : Forall (fun t => 0 < t < 1) thirds.
Proof. unfold thirds. repeat constructor; lra. Qed.
Lemma refine3_ok c tol fuel : forall prev rest out,
  refine3 fuel c tol prev rest = Some out -> on_c c prev -> Forall (on_c c) rest -> links Rlt (fst prev) (map fst rest) ->
  Forall (on_c c) out /\ links Rlt (fst prev) (map fst out) /\ links (flat3 c tol) (fst prev) (map fst out) /\
  last (map fst out) (fst prev) = last (map fst rest) (fst prev).
Proof.
  induction fuel as [|n IH]; intros prev rest out E P F L.
  - destruct rest; [|discriminate]. injection E as <-. cbn. repeat split; constructor.
  - destruct rest as [|[u1 p1] more]; [injection E as <-; cbn; repeat split; constructor|].
    destruct prev as [u0 p0]. cbn [refine3] in E.
    inversion F as [|x y F1 F2]; subst. unfold on_c in P, F1; cbn [fst snd] in P, F1. subst p0 p1.
    destruct L as [L1 L2]; cbn [fst map] in L1, L2.
    destruct (first_bad c tol (u0, c u0) (u1, c u1) thirds) as [bad|] eqn:B.
    + destruct (first_bad_some _ _ _ _ _ _ L1 thirds_in B) as [Ob (t & It & Ub)].
      pose proof (proj1 (Forall_forall _ _) thirds_in t It) as T; cbv beta in T.
      apply IH in E as (E1 & E2 & E3 & E4).
      * split; [exact E1|]. split; [exact E2|]. split; [exact E3|]. cbn [map fst] in *. rewrite E4. now rewrite !last_cons.
      * reflexivity.
      * constructor; [exact Ob|]. now constructor.
      * cbn [map links fst]. rewrite Ub. split; [nra|]. split; [nra|]. exact L2.
    + destruct (refine3 n c tol (u1, c u1) more) as [o|] eqn:R; [|discriminate]. injection E as <-.
      apply IH in R as (E1 & E2 & E3 & E4); auto; [|reflexivity].
      cbn [map fst] in *. split; [constructor; auto; reflexivity|]. split; [split; auto|].
      split; [|now rewrite !last_cons].
      split; [|exact E3]. intros t T. apply (first_bad_none _ _ _ _ _ B). unfold thirds. cbn. destruct T as [->|[->| ->]]; auto.
Qed.
(** The new points of a parametric section are points of the curve for increasing
    parameters from just after 0 to 1; between consecutive ones (starting from the
    value at 0) the three tests pass. *)
Theorem C64_sampled : forall fuel c w o rel f g, f_parametric fuel c w o rel f = Some g ->
  exists us, f_pts g = f_pts f ++ map (fun u => at_end rel f (c u)) us /\
    links Rlt 0 us /\ last us 0 = 1 /\ links (flat3 c (f_tol f ^ 2)) 0 us.
Proof.
  intros fuel c w o rel f g E. unfold f_parametric in E.
  destruct (f_pts f) as [|q l] eqn:P; [discriminate|]. rewrite <- P in *.
  destruct (final_w true f (width_arg f w)) as [w'|]; [|discriminate]. destruct (final_o true f o) as [o'|]; [|discriminate].
  destruct (refine3 fuel c (f_tol f ^ 2) (0, c 0) [(1, c 1)]) as [m|] eqn:R; [|discriminate]. injection E as <-.
  apply refine3_ok in R as (R1 & R2 & R3 & R4); [|reflexivity|repeat constructor|cbn; split; [lra|exact I]].
  exists (map fst m). cbn [fst snd map] in R2, R3, R4. split; [|split; [exact R2|split; [exact R4|exact R3]]].
  unfold extend, set_spine; cbn [f_pts]. rewrite map_map. f_equal. apply map_ext_in. intros [u p] I.
  pose proof (proj1 (Forall_forall _ _) R1 _ I) as O. unfold on_c in O; cbn [fst snd] in *. subst p.
  unfold at_end, end_of, f_last. destruct rel; [|reflexivity]. unfold padd. cbn. f_equal; ring.
Qed.
Print Assumptions C64_sampled.
(** A Bezier section is the parametric section of the Bezier curve. *)
Theorem C64_bezier : forall fuel l w o rel f g, f_bezier fuel l w o rel f = Some g ->
  exists us, f_pts g = f_pts f ++ map (bezier (end_of f :: map (at_end rel f) l)) us /\
    links Rlt 0 us /\ last us 0 = 1 /\ links (flat3 (bezier (end_of f :: map (at_end rel f) l)) (f_tol f ^ 2)) 0 us.
Proof.
  intros fuel l w o rel f g E. unfold f_bezier in E. apply C64_sampled in E.
  replace (map (at_end rel f) l) with (if rel then map (padd (f_last f)) l else l); [exact E|].
  unfold at_end, end_of, f_last. destruct rel; [reflexivity|symmetry; apply map_id].
Qed.
Print Assumptions C64_bezier.
Lemma slope_small3 f K tol u0 u1 t : slope f K -> 0 <= u0 -> u0 <= u1 -> u1 <= 1 -> 0 <= t <= 1 -> 2 * (K * (u1 - u0)) ^ 2 <= tol ->
  let e := psub (padd (smul (1 - t) (f u0)) (smul t (f u1))) (f (u0 * (1 - t) + u1 * t)) in
  ~ tol < fst e ^ 2 + snd e ^ 2.
Proof.
  intros [K0 S] H0 H01 H1 Ht T e. assert (D : forall (pr : pt -> R), (pr = fst \/ pr = snd) -> Rabs (pr e) <= K * (u1 - u0)).
  { intros pr Hp. set (m := u0 * (1 - t) + u1 * t).
    assert (Um : 0 <= m <= 1) by (unfold m; nra). assert (U0 : 0 <= u0 <= 1) by lra. assert (U1 : 0 <= u1 <= 1) by lra.
    assert (Mo : u0 <= m <= u1) by (unfold m; nra).
    destruct (S u0 m U0 Um) as [A1 A2], (S u1 m U1 Um) as [B1 B2].
    rewrite (Rabs_left1 (u0 - m)) in A1, A2 by lra. rewrite (Rabs_pos_eq (u1 - m)) in B1, B2 by lra.
    assert (E : pr e = (1 - t) * (pr (f u0) - pr (f m)) + t * (pr (f u1) - pr (f m))) by (destruct Hp; subst pr; unfold e, m; cbn; ring).
    rewrite E. eapply Rle_trans; [apply Rabs_triang|]. rewrite !Rabs_mult, (Rabs_pos_eq (1 - t)), (Rabs_pos_eq t) by lra.
    assert (Rabs (pr (f u0) - pr (f m)) <= K * (u1 - u0) /\ Rabs (pr (f u1) - pr (f m)) <= K * (u1 - u0)) as [A B].
    { destruct Hp; subst pr; (split; [eapply Rle_trans; [eassumption|]|eapply Rle_trans; [eassumption|]]; apply Rmult_le_compat_l; lra). }
    pose proof (Rabs_pos (pr (f u0) - pr (f m))). pose proof (Rabs_pos (pr (f u1) - pr (f m))). nra. }
  pose proof (D fst (or_introl eq_refl)) as D1. pose proof (D snd (or_intror eq_refl)) as D2.
  assert (Sq : forall x y, Rabs x <= y -> x ^ 2 <= y ^ 2).
  { intros x y H. replace (x ^ 2) with (Rabs x ^ 2) by (rewrite pow2_abs; reflexivity). apply pow_incr. split; [apply Rabs_pos|auto]. }
  apply Sq in D1. apply Sq in D2. lra.
Qed.
Lemma first_bad_small f K tol u0 u1 fs : slope f K -> 0 <= u0 -> u0 <= u1 -> u1 <= 1 -> Forall (fun t => 0 < t < 1) fs ->
  2 * (K * (u1 - u0)) ^ 2 <= tol -> first_bad f tol (u0, f u0) (u1, f u1) fs = None.
Proof.
  intros S H0 H01 H1 F T. induction fs as [|t r IH]; [reflexivity|]. inversion F; subst. cbn [first_bad fst snd].
  destruct (Rlt_dec tol _) as [X|X]; [|apply IH; assumption]. exfalso. revert X. apply (slope_small3 f K tol u0 u1 t); auto; lra.
Qed.
Lemma first_bad_in c tol prev next fs x : first_bad c tol prev next fs = Some x -> exists t, In t fs /\ x = (fst prev * (1 - t) + fst next * t, c (fst prev * (1 - t) + fst next * t)).
Proof.
  induction fs as [|t r IH]; cbn [first_bad]; intro E; [discriminate|]. destruct (Rlt_dec tol _).
  - injection E as <-. exists t. split; [left; reflexivity|reflexivity].
  - destruct (IH E) as (s & I & ->). exists s. split; [right; exact I|reflexivity].
Qed.
Lemma refine3_ends f K tol : slope f K -> 0 < tol -> forall u0 u1 more,
  0 <= u0 -> u0 <= u1 -> u1 <= 1 ->
  (exists fuel out, refine3 fuel f tol (u1, f u1) more = Some out) ->
  exists fuel out, refine3 fuel f tol (u0, f u0) ((u1, f u1) :: more) = Some out.
Proof.
  intros Sl T.
  assert (Half : forall N u0 u1 more, 2 * (K * (u1 - u0)) ^ 2 <= tol * (25 / 16) ^ N -> 0 <= u0 -> u0 <= u1 -> u1 <= 1 ->
    (exists fuel out, refine3 fuel f tol (u1, f u1) more = Some out) ->
    exists fuel out, refine3 fuel f tol (u0, f u0) ((u1, f u1) :: more) = Some out).
  { induction N as [|N IH]; intros u0 u1 more B H0 H01 H1 (n & out & E).
    - exists (S n), ((u1, f u1) :: out). cbn [refine3]. rewrite (first_bad_small f K), E; auto using thirds_in. rewrite pow_O in B. lra.
    - destruct (first_bad f tol (u0, f u0) (u1, f u1) thirds) as [bad|] eqn:X.
      + pose proof X as X0. apply first_bad_in in X as (t & It & ->). cbn [fst] in *. set (m := u0 * (1 - t) + u1 * t) in *.
        assert (Tt : / 5 <= t <= 4 / 5) by (unfold thirds in It; cbn in It; destruct It as [<-|[<-|[<-|[]]]]; lra).
        assert (Bm : forall a b, 0 <= b - a <= 4 / 5 * (u1 - u0) -> 2 * (K * (b - a)) ^ 2 <= tol * (25 / 16) ^ N).
        { intros a b [D0 D1]. cbn [pow] in B. rewrite <- Rmult_assoc in B.
          assert (Q : (b - a) ^ 2 <= 16 / 25 * (u1 - u0) ^ 2).
          { replace (16 / 25 * (u1 - u0) ^ 2) with ((4 / 5 * (u1 - u0)) ^ 2) by field. apply pow_incr. lra. }
          replace (2 * (K * (b - a)) ^ 2) with (2 * K ^ 2 * (b - a) ^ 2) by ring.
          assert (0 <= 2 * K ^ 2) by (pose proof (pow2_ge_0 K); lra).
          apply Rle_trans with (2 * K ^ 2 * (16 / 25 * (u1 - u0) ^ 2)); [now apply Rmult_le_compat_l|]. cbn [pow]. lra. }
        assert (M0 : u0 <= m <= u1) by (unfold m; nra).
        destruct (IH m u1 more) as (n1 & o1 & E1); [apply Bm; unfold m; nra|lra|lra|lra|eauto|].
        destruct (IH u0 m ((u1, f u1) :: more)) as (n2 & o2 & E2); [apply Bm; unfold m; nra|lra|lra|lra|eauto|].
        exists (S n2), o2. cbn [refine3]. rewrite X0. exact E2.
      + exists (S n), ((u1, f u1) :: out). cbn [refine3]. now rewrite X, E. }
  intros u0 u1 more H0 H01 H1 Ex.
  assert (exists N, 2 * (K * (u1 - u0)) ^ 2 <= tol * (25 / 16) ^ N) as [N HN].
  { destruct (Pow_x_infinity (25 / 16) ltac:(rewrite Rabs_pos_eq; lra) (2 * (K * (u1 - u0)) ^ 2 / tol)) as [N HN].
    exists N. specialize (HN N (Nat.le_refl N)). rewrite Rabs_pos_eq in HN by (apply pow_le; lra).
    apply Rge_le in HN. apply (Rmult_le_compat_l tol) in HN; [|lra].
    replace (tol * (2 * (K * (u1 - u0)) ^ 2 / tol)) with (2 * (K * (u1 - u0)) ^ 2) in HN by (field; lra). exact HN. }
  apply (Half N); auto.
Qed.
(** The sampling ends for every curve of bounded slope and positive tolerance: the
    call succeeds when its width and offset lists fit the path. *)
Theorem C64_terminates : forall c K w o rel f, slope c K -> 0 < f_tol f -> f_pts f <> [] ->
  final_w true f (width_arg f w) <> None -> final_o true f o <> None ->
  exists fuel g, f_parametric fuel c w o rel f = Some g.
Proof.
  intros c K w o rel f S T N W O. destruct (refine3_ends c K (f_tol f ^ 2) S) with (u0 := 0) (u1 := 1) (more := @nil (R * pt)) as (n & out & E).
  - apply pow_lt, T.
  - lra.
  - lra.
  - lra.
  - exists 0%nat, []. reflexivity.
  - exists n. unfold f_parametric. destruct (f_pts f); [congruence|].
    destruct (final_w true f (width_arg f w)); [|congruence]. destruct (final_o true f o); [|congruence]. rewrite E. eexists. reflexivity.
Qed.
Print Assumptions C64_terminates.

(** ** C63: where sections end *)

Lemma last_app1 {X} (l : list X) x d : last (l ++ [x]) d = x.
Proof. apply last_last. Qed.
Lemma last_app_ne {X} (l m : list X) d : m <> [] -> last (l ++ m) d = last m d.
Proof.
  intro N. destruct (exists_last N) as (m' & x & ->). rewrite app_assoc, !last_last. reflexivity.
Qed.
Lemma last_map {X Y} (g : X -> Y) l d e : l <> [] -> last (map g l) e = g (last l d).
Proof. intro N. destruct (exists_last N) as (m & x & ->). rewrite map_app. cbn [map]. now rewrite !last_last. Qed.
Lemma linspace_last a b n d : (2 <= n)%nat -> last (linspace a b n) d = b.
Proof.
  intro N. rewrite <- (nth_last _ d). rewrite linspace_length. rewrite (nth_indep _ d 0) by (rewrite linspace_length; lia).
  rewrite linspace_at by lia. field. apply not_0_INR. lia.
Qed.
Lemma linspace_cons a b n : (2 <= n)%nat -> exists r, linspace a b n = a :: r /\ r <> [].
Proof.
  intro N. destruct n as [|[|n]]; try lia. unfold linspace. cbn [seq map].
  eexists. split; [f_equal; cbn [INR]; ring|discriminate].
Qed.
Lemma arc_end r a b w o f g : f_arc r a b w o f = Some g ->
  end_of g = padd (end_of f) (r * cos b - r * cos a, r * sin b - r * sin a).
Proof.
  unfold f_arc. destruct (f_pts f) as [|p l] eqn:P; [discriminate|].
  destruct (final_w true f (width_arg f w)) as [w'|]; [|discriminate].
  destruct (final_o true f o) as [o'|]; [|discriminate].
  destruct (arc_count 3 _ _ _) as [np|] eqn:C; [|discriminate]. apply arc_count_base in C.
  destruct (linspace_cons a b np ltac:(lia)) as (m & L & N). pose proof (linspace_last a b np 0 ltac:(lia)) as La.
  rewrite L in *. cbn [map]. intro E; injection E as <-. unfold end_of, extend, set_spine; cbn [f_pts].
  rewrite last_app_ne; [|intro Z; apply map_eq_nil, map_eq_nil in Z; contradiction]. rewrite map_map.
  rewrite (last_map _ m 0) by exact N. destruct m as [|x m]; [congruence|]. change (last (a :: x :: m) 0) with (last (x :: m) 0) in La.
  rewrite La. unfold f_last, on_circle, padd, psub; cbn [fst snd]. f_equal; ring.
Qed.
Lemma parametric_end fuel c w o rel f g : f_parametric fuel c w o rel f = Some g -> end_of g = at_end rel f (c 1).
Proof.
  intro E. apply C64_sampled in E as (us & P & _ & L & _).
  destruct us as [|u us]; [cbn in L; lra|]. unfold end_of at 1. rewrite P, last_app_ne by discriminate.
  rewrite (last_map _ (u :: us) 0) by discriminate. now rewrite L.
Qed.
Lemma bezier_end fuel l w o rel f g : f_bezier fuel l w o rel f = Some g ->
  end_of g = match l with [] => end_of f | _ => at_end rel f (last l (0, 0)) end.
Proof.
  intro E. unfold f_bezier in E. apply parametric_end in E. rewrite E. unfold at_end at 1. rewrite bezier_1 by discriminate.
  destruct l as [|p l]; [destruct rel; reflexivity|]. unfold at_end. destruct rel.
  - change (last (?a :: map ?g (p :: l)) ?d) with (last (map g (p :: l)) d). rewrite (last_map _ (p :: l) (0, 0)) by discriminate. reflexivity.
  - reflexivity.
Qed.
Lemma sections_end fuel secs : forall w o f g, f_sections fuel secs w o f = Some g ->
  end_of g = match secs with [] => end_of f | _ => snd (last secs ((0, 0), (0, 0), (0, 0))) end.
Proof.
  induction secs as [|[[a b] e] r IH]; cbn [f_sections]; intros w o f g E; [injection E as <-; reflexivity|].
  destruct (f_bezier fuel [a; b; e] w o false f) as [h|] eqn:B; [|discriminate]. apply bezier_end in B. cbn in B.
  rewrite (IH _ _ _ _ E). destruct r as [|s r]; [exact B|]. reflexivity.
Qed.
Lemma cos_atan2 y x : (x, y) <> (0, 0) -> cos (atan2 y x) = x / sqrt (x ^ 2 + y ^ 2) /\ sin (atan2 y x) = y / sqrt (x ^ 2 + y ^ 2).
Proof.
  intro N. unfold atan2. set (r := sqrt (x ^ 2 + y ^ 2)).
  assert (P : 0 < x ^ 2 + y ^ 2).
  { destruct (Req_dec x 0) as [->|Nx]; [destruct (Req_dec y 0) as [->|Ny]; [congruence|]|].
    - assert (0 < y ^ 2) by (destruct (Rdichotomy _ _ Ny); nra). nra.
    - assert (0 < x ^ 2) by (destruct (Rdichotomy _ _ Nx); nra). pose proof (pow2_ge_0 y). lra. }
  assert (R0 : 0 < r) by (apply sqrt_lt_R0, P). assert (R2 : r * r = x ^ 2 + y ^ 2) by (apply sqrt_sqrt; lra).
  destruct (Req_EM_T r 0) as [Z|_]; [lra|].
  assert (B : -1 <= x / r <= 1).
  { pose proof (pow2_ge_0 y). split.
    - apply Rmult_le_reg_r with r; [exact R0|]. unfold Rdiv. rewrite Rmult_assoc, Rinv_l by lra. nra.
    - apply Rmult_le_reg_r with r; [exact R0|]. unfold Rdiv. rewrite Rmult_assoc, Rinv_l by lra. nra. }
  assert (S : sqrt (1 - (x / r)²) = Rabs y / r).
  { replace (1 - (x / r)²) with ((Rabs y / r)²).
    - apply sqrt_Rsqr. apply Rle_mult_inv_pos; [apply Rabs_pos|exact R0].
    - unfold Rsqr. apply Rmult_eq_reg_r with (r * r); [|nra].
      replace (Rabs y / r * (Rabs y / r) * (r * r)) with (Rabs y * Rabs y) by (field; lra).
      replace ((1 - x / r * (x / r)) * (r * r)) with (r * r - x * x) by (field; lra).
      rewrite <- Rabs_mult, Rabs_pos_eq by nra. rewrite R2. ring. }
  destruct (Rle_dec 0 y) as [Y|Y].
  - rewrite cos_acos by exact B. rewrite sin_acos by exact B. rewrite S, Rabs_pos_eq by exact Y. split; reflexivity.
  - rewrite cos_neg, sin_neg. rewrite cos_acos by exact B. rewrite sin_acos by exact B. rewrite S, Rabs_left by lra. split; [reflexivity|field; lra].
Qed.
(** After each call the path ends at the place the call names.  For [turn], the last
    segment must not have length zero; for [smooth], the interpolation must give
    control points for every section. *)
Definition sections_given (c : call) (f : flex) : Prop :=
  match c with
  | Turn _ _ _ _ => direction f <> (0, 0)
  | Smooth hs cyc l _ _ rel =>
      let pts := end_of f :: (if rel then map (padd (end_of f)) l else l) in (length (hs pts) >= length l)%nat
  | _ => True
  end.
Theorem C63_end : forall fuel hob eng c f g, builds c = true -> sections_given c f ->
  do_call fuel hob eng c f = Some g -> end_of g = target c f.
Proof.
  intros fuel hob eng c f g B S E. destruct c; try discriminate B; cbn [do_call target sections_given] in *.
  - unfold f_segment, segment_step in E. destruct (f_pts f) as [|q l] eqn:P; [discriminate|]. rewrite <- P in E.
    destruct (final_w false f (width_arg f w)); [|discriminate]. destruct (final_o false f o); [|discriminate]. injection E as <-.
    unfold end_of, set_spine; cbn [f_pts]. rewrite last_last. reflexivity.
  - eapply arc_end, E.
  - unfold f_turn in E. destruct (_ <? 2)%nat; [discriminate|]. apply arc_end in E. rewrite E. clear E.
    change (psub (f_last f) (beforelast (f_pts f))) with (direction f). set (d := direction f) in *.
    assert (Nd : (fst d, snd d) <> (0, 0)) by (destruct d; exact S).
    destruct (cos_atan2 (snd d) (fst d) Nd) as [Ca Sa].
    unfold rotate_pt, turn_centre. fold d. replace (dot d d) with (fst d ^ 2 + snd d ^ 2) by (unfold dot; ring).
    set (r := sqrt (fst d ^ 2 + snd d ^ 2)) in *. set (al := atan2 (snd d) (fst d)) in *. clearbody al r d.
    destruct (Rlt_dec angle 0); unfold padd, psub, smul, rot_cs; cbn [fst snd].
    + repeat (rewrite cos_plus || rewrite sin_plus). rewrite cos_PI2, sin_PI2, Ca, Sa. unfold Rdiv. f_equal; ring.
    + replace (al + - (PI / 2)) with (al - PI / 2) by ring.
      rewrite !(cos_plus (al - PI / 2)), !(sin_plus (al - PI / 2)), cos_minus, sin_minus, cos_PI2, sin_PI2, Ca, Sa. unfold Rdiv. f_equal; ring.
  - eapply parametric_end, E.
  - eapply bezier_end, E.
  - unfold f_smooth in E. change (f_last f) with (end_of f) in E. cbn [tl hd] in E.
    assert (T : (if rel then map (padd (end_of f)) l else l) = map (at_end rel f) l) by (unfold at_end; destruct rel; [reflexivity|symmetry; apply map_id]).
    rewrite T in *. set (ks := hs _) in *. apply sections_end in E. rewrite E. clear E. destruct cycle.
    + match goal with |- match ?x with _ => _ end = _ => destruct x eqn:Z; [now apply app_eq_nil in Z as [_ Z]|rewrite <- Z; clear Z] end.
      rewrite last_last. reflexivity.
    + rewrite app_nil_r. destruct l as [|p l]; [cbn [map]; rewrite combine_nil; reflexivity|].
      assert (N : combine ks (map (at_end rel f) (p :: l)) <> []) by (destruct ks; cbn in S |- *; [lia|discriminate]).
      match goal with |- match ?x with _ => _ end = _ => destruct x eqn:Z; [apply map_eq_nil in Z; contradiction|rewrite <- Z; clear Z] end.
      rewrite (last_map _ _ ((0, 0), (0, 0), (0, 0))) by exact N. cbn [snd].
      assert (LC : forall (ks : list (pt * pt)) (m : list pt), (length m <= length ks)%nat -> m <> [] -> snd (last (combine ks m) ((0, 0), (0, 0), (0, 0))) = last m (0, 0)).
      { clear. induction ks as [|k ks IH]; intros [|q m] L N; try congruence; [cbn in L; lia|]. destruct m as [|q' m].
        - cbn. destruct ks; reflexivity.
        - destruct ks as [|k' ks]; [cbn in L; lia|]. cbn [combine]. change (last (q :: q' :: m) (0, 0)) with (last (q' :: m) (0, 0)).
          rewrite <- (IH (q' :: m)); [reflexivity|cbn in *; lia|discriminate]. }
      rewrite LC; [|rewrite map_length; lia|discriminate]. rewrite (last_map _ _ (0, 0)) by discriminate. reflexivity.
Qed.
Print Assumptions C63_end.

(** Arcs: the new points are on the circle that passes through the end of the path,
    at equal steps of the angle. *)
Theorem C63_arc : forall r a b w o f g, f_arc r a b w o f = Some g ->
  exists centre m, (2 <= m)%nat /\ end_of f = padd centre (r * cos a, r * sin a) /\
    f_pts g = f_pts f ++ map (fun j => let t := a + INR j / INR m * (b - a) in padd centre (r * cos t, r * sin t)) (seq 1 m).
Proof.
  intros r a b w o f g. unfold f_arc. destruct (f_pts f) as [|p l] eqn:P; [discriminate|].
  destruct (final_w true f (width_arg f w)) as [w'|]; [|discriminate].
  destruct (final_o true f o) as [o'|]; [|discriminate].
  destruct (arc_count 3 _ _ _) as [np|] eqn:C; [|discriminate]. apply arc_count_base in C.
  destruct np as [|m]; [lia|]. unfold linspace. change (seq 0 (S m)) with (0%nat :: seq 1 m).
  cbn [map]. intro E. assert (E' : extend f (map (fun p => padd p (psub (f_last f) (on_circle r (a + INR 0 * ((b - a) / INR (S m - 1))))))
    (map (on_circle r) (map (fun i => a + INR i * ((b - a) / INR (S m - 1))) (seq 1 m)))) (width_arg f w) o w' o' = g) by congruence.
  clear E. subst g. exists (psub (end_of f) (r * cos a, r * sin a)), m. split; [lia|]. split.
  - unfold padd, psub. cbn [fst snd]. destruct (end_of f) as [x y]; cbn [fst snd]. f_equal; ring.
  - unfold extend, set_spine; cbn [f_pts]. rewrite P. f_equal. rewrite !map_map. apply map_ext_in. intros j J.
    replace (S m - 1)%nat with m by lia. change (f_last f) with (end_of f).
    assert (Z : INR m <> 0) by (apply not_0_INR; lia).
    replace (a + INR 0 * ((b - a) / INR m)) with a by (cbn [INR]; ring).
    replace (a + INR j * ((b - a) / INR m)) with (a + INR j / INR m * (b - a)) by (field; exact Z).
    unfold on_circle, padd, psub; cbn [fst snd]. f_equal; ring.
Qed.
Print Assumptions C63_arc.
(** Counterexample to "an arc can always be added": with an offset more negative
    than the radius plus the width, arc raises. *)
Theorem C63_arc_offset_refuted : forall a b,
  f_arc 5 a b Keep Keep
    (Flex 1 [(0, 0)] [[1]] [[-10]] [Flush] [Natural] [None] [0%Z] [0%Z] (/ 100) (/ 1000) 199 false true None) = None.
Proof.
  intros a b. unfold f_arc. cbn [f_pts f_w f_o width_arg f_gds final_w final_o lastrow last sum2 combine map lmax fold_left fst snd f_tol].
  rewrite Rmax_left by lra. unfold arc_count. destruct (Req_EM_T _ 0) as [E|E]; [reflexivity|].
  destruct (Rlt_dec _ (-1)); [reflexivity|]. destruct (Rlt_dec _ 1) as [L|L]; [|reflexivity].
  exfalso. replace (1 - / 100 / (5 + (-10 + 1))) with (1 + / 400) in L by field. lra.
Qed.
Print Assumptions C63_arc_offset_refuted.
(** Non-vacuity: a quarter turn to the left after a segment along x ends at (4, 3). *)
Definition straight : flex := Flex 1 [(0, 0); (1, 0)] [[1]; [1]] [[0]; [0]] [Flush] [Natural] [None] [0%Z] [0%Z] (/ 100) (/ 1000) 199 false true None.
Example C63_turn_case : exists g, f_turn 3 (PI / 2) (Num_ 2) (Num_ 1) straight = Some g /\ aligned straight /\
  direction straight <> (0, 0) /\ target (Turn 3 (PI / 2) (Num_ 2) (Num_ 1)) straight = (4, 3).
Proof.
  assert (T : exists g, f_turn 3 (PI / 2) (Num_ 2) (Num_ 1) straight = Some g).
  { unfold f_turn. cbn [straight f_pts length Nat.ltb Nat.leb]. unfold f_arc. cbn [straight f_pts f_w f_o width_arg f_gds final_w final_o lastrow last sum2 combine map lmax fold_left fst snd f_tol f_n repeat add_each].
    unfold arc_count. rewrite Rmax_right by lra. destruct (Req_EM_T _ 0) as [E|_]; [exfalso; lra|].
    assert (Q : 1 - / 100 / (3 + (0 + 1 + 2)) = 1 - / 600) by field. rewrite Q.
    destruct (Rlt_dec _ (-1)) as [L|_]; [exfalso; lra|]. destruct (Rlt_dec _ 1) as [_|L]; [|exfalso; lra].
    match goal with |- context[Nat.max 3 ?k] => generalize k; intro k0; assert (3 <= Nat.max 3 k0)%nat by apply Nat.le_max_l; destruct (Nat.max 3 k0) as [|n] eqn:N; [lia|] end.
    unfold linspace. cbn [seq map]. eexists. reflexivity. }
  destruct T as [g T]. exists g. split; [exact T|]. split; [|split].
  - unfold aligned; cbn. repeat split; intros r [<-|[<-|[]]]; reflexivity.
  - cbn. intro E. injection E. lra.
  - cbn [target]. unfold rotate_pt, turn_centre, direction, end_of, straight; cbn [f_pts last removelast psub fst snd dot smul padd].
    replace (dot _ _) with 1 by (unfold dot, psub; cbn [fst snd]; ring). rewrite sqrt_1.
    destruct (Rlt_dec (PI / 2) 0) as [L|_]; [pose proof PI_RGT_0; lra|]. unfold rot_cs, psub, padd, smul; cbn [fst snd].
    rewrite cos_PI2, sin_PI2. f_equal; field.
Qed.
(** A parametric section: half a parabola, of slope at most 3. *)
Example C64_case : slope (fun u => (u, u * u)) 2 /\ exists fuel g, f_parametric fuel (fun u => (u, u * u)) (Num_ 2) Keep true straight = Some g.
Proof.
  assert (S : slope (fun u => (u, u * u)) 2).
  { split; [lra|]. intros u v U V. cbn [fst snd]. split.
    - pose proof (Rabs_pos (u - v)). lra.
    - replace (u * u - v * v) with ((u + v) * (u - v)) by ring. rewrite Rabs_mult, (Rabs_pos_eq (u + v)) by lra.
      apply Rmult_le_compat_r; [apply Rabs_pos|lra]. }
  split; [exact S|]. apply (C64_terminates _ 2); [exact S|cbn; lra|discriminate|discriminate|discriminate].
Qed.
