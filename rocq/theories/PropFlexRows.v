(** FlexPath keeps its lists aligned (C34) and its sections end where, and as wide
    as, they were asked to (C63). *)

From Coq Require Import Reals Lra Lia List ZArith Bool.
From Verif Require Import Plane Curve CurveProofs Engine Flex SpecFlex.
Import ListNotations.
Open Scope R_scope.

(** ** C34 *)

Lemma repeat_in {X} (a r : X) n : In r (repeat a n) -> r = a.
Proof. apply repeat_spec. Qed.
Lemma cyclic_length {X} n (a : many X) l : cyclic n a = Some l -> length l = n.
Proof.
  destruct a as [x|[|x m]]; cbn [cyclic]; intro E.
  - injection E as <-. apply repeat_length.
  - destruct n; [|discriminate]. injection E as <-. reflexivity.
  - injection E as <-. rewrite map_length, seq_length. reflexivity.
Qed.
Definition same_length (width offset : many R) : Prop :=
  match width, offset with Many a, Many b => length a = length b | _, _ => True end.
Lemma start_length width offset n w o : same_length width offset -> start_rows width offset = (n, w, o) ->
  length w = n /\ length o = n.
Proof.
  destruct width as [x|ws], offset as [y|os]; cbn [same_length start_rows]; intros S E; injection E as <- <- <-.
  - split; reflexivity.
  - rewrite repeat_length. split; reflexivity.
  - rewrite map_length, seq_length. split; reflexivity.
  - split; [reflexivity|now symmetry].
Qed.
Lemma linspace_length a b n : length (linspace a b n) = n.
Proof. unfold linspace. now rewrite map_length, seq_length. Qed.
Lemma tl_length {X} (l : list X) : length (tl l) = (length l - 1)%nat.
Proof. destruct l; cbn; lia. Qed.
Lemma blend_length u a b n : length a = n -> length b = n -> length (blend u a b) = n.
Proof. intros. unfold blend. rewrite map_length, combine_length. lia. Qed.
Lemma new_rows_ok a from to m n : length from = n -> length to = n ->
  length (new_rows a from to m) = m /\ forall r, In r (new_rows a from to m) -> length r = n.
Proof.
  intros F T. assert (L : length (map (fun u => blend u from to) (tl (linspace 0 1 (S m)))) = m /\
    forall r, In r (map (fun u => blend u from to) (tl (linspace 0 1 (S m)))) -> length r = n).
  { split; [rewrite map_length, tl_length, linspace_length; lia|].
    intros r I. apply in_map_iff in I as (u & <- & _). now apply blend_length. }
  destruct a; cbn [new_rows]; [|exact L|exact L].
  split; [apply repeat_length|]. intros r I. apply repeat_spec in I. now subst.
Qed.
Lemma last_in {X} (l : list X) d : l <> [] -> In (last l d) l.
Proof.
  induction l as [|x l IH]; [congruence|]. intros _. destruct l as [|y l]; [left; reflexivity|].
  right. apply IH. discriminate.
Qed.
Lemma aligned_last f : aligned f -> f_pts f <> [] -> length (lastrow (f_w f)) = f_n f /\ length (lastrow (f_o f)) = f_n f.
Proof.
  intros (W & O & RW & RO & _) N. split.
  - apply RW, last_in. intro E. apply N, length_zero_iff_nil. rewrite <- W, E. reflexivity.
  - apply RO, last_in. intro E. apply N, length_zero_iff_nil. rewrite <- O, E. reflexivity.
Qed.
Lemma fit_length wide n l r : fit wide n l = Some r -> length r = n.
Proof.
  unfold fit. destruct (Nat.eqb_spec (length l) n); [intro E; injection E as <-; assumption|].
  destruct wide, l as [|x [|? ?]]; try discriminate. intro E; injection E as <-. apply repeat_length.
Qed.
Lemma final_w_length wide f a r : length (lastrow (f_w f)) = f_n f -> final_w wide f a = Some r -> length r = f_n f.
Proof.
  intros L. destruct a; cbn [final_w]; intro E.
  - injection E as <-. exact L.
  - injection E as <-. apply repeat_length.
  - eapply fit_length, E.
Qed.
Lemma final_o_length wide f a r : length (lastrow (f_o f)) = f_n f -> final_o wide f a = Some r -> length r = f_n f.
Proof.
  intros L. destruct a; cbn [final_o]; intro E.
  - injection E as <-. exact L.
  - injection E as <-. unfold add_each. now rewrite map_length.
  - eapply fit_length, E.
Qed.
Lemma aligned_extend f pts wa oa w o : aligned f -> f_pts f <> [] -> length w = f_n f -> length o = f_n f ->
  aligned (extend f pts wa oa w o).
Proof.
  intros A N Lw Lo. destruct (aligned_last f A N) as [Aw Ao].
  destruct (new_rows_ok wa (lastrow (f_w f)) w (length pts) (f_n f) Aw Lw) as [W1 W2].
  destruct (new_rows_ok oa (lastrow (f_o f)) o (length pts) (f_n f) Ao Lo) as [O1 O2].
  destruct A as (A1 & A2 & A3 & A4 & A5 & A6 & A7 & A8 & A9).
  unfold aligned, extend, set_spine; cbn [f_w f_o f_pts f_n f_ends f_corners f_bend f_layers f_dts].
  rewrite !app_length, A1, A2, W1, O1.
  split; [reflexivity|]. split; [reflexivity|]. split; [|split; [|split; [assumption|split; [assumption|split; [assumption|split; assumption]]]]].
  - intros r I. apply in_app_or in I as [I|I]; auto.
  - intros r I. apply in_app_or in I as [I|I]; auto.
Qed.
Definition same_kind (f g : flex) : Prop :=
  f_n g = f_n f /\ f_ends g = f_ends f /\ f_corners g = f_corners f /\ f_bend g = f_bend f /\
  f_layers g = f_layers f /\ f_dts g = f_dts f /\ f_tol g = f_tol f /\ f_prec g = f_prec f /\ f_max g = f_max f /\
  f_gds g = f_gds f /\ f_wt g = f_wt f.
Lemma same_kind_refl f : same_kind f f.
Proof. repeat split. Qed.
Lemma same_kind_trans f g h : same_kind f g -> same_kind g h -> same_kind f h.
Proof.
  intros (A1 & A2 & A3 & A4 & A5 & A6 & A7 & A8 & A9 & A10 & A11) (B1 & B2 & B3 & B4 & B5 & B6 & B7 & B8 & B9 & B10 & B11).
  repeat split; congruence.
Qed.
(** What arc, parametric and the calls made of them have in common. *)
Definition grown (f g : flex) (width offset : dim) : Prop :=
  exists pts w o, pts <> [] /\ f_pts f <> [] /\
    final_w true f (width_arg f width) = Some w /\ final_o true f offset = Some o /\
    g = extend f pts (width_arg f width) offset w o.
Lemma arc_count_base base h t r n : arc_count base h t r = Some n -> (base <= n)%nat.
Proof.
  unfold arc_count. destruct (Req_EM_T _ 0); [discriminate|]. destruct (Rlt_dec _ (-1)); [discriminate|].
  destruct (Rlt_dec _ 1); [|discriminate]. generalize (1 + Z.to_nat (Int_part (h / acos (1 - t / r) + / 2)))%nat as k.
  intros k E. assert (n = Nat.max base k) by congruence. lia.
Qed.
Lemma arc_grown r a b w o f g : f_arc r a b w o f = Some g -> grown f g w o.
Proof.
  unfold f_arc. destruct (f_pts f) as [|p l] eqn:P; [discriminate|].
  destruct (final_w true f (width_arg f w)) as [w'|] eqn:W; [|discriminate].
  destruct (final_o true f o) as [o'|] eqn:O; [|discriminate].
  destruct (arc_count 3 _ _ _) as [np|] eqn:C; [|discriminate].
  apply arc_count_base in C.
  destruct (map (on_circle r) (linspace a b np)) as [|q m] eqn:M; [discriminate|]. intro E; injection E as <-.
  exists (map (fun p0 => padd p0 (psub (f_last f) q)) m), w', o'.
  split; [|split; [congruence|split; [assumption|split; [assumption|reflexivity]]]].
  intro N. apply map_eq_nil in N. subst m. apply (f_equal (@length _)) in M. rewrite map_length, linspace_length in M. cbn in M. lia.
Qed.
Lemma refine3_nonempty fuel c tol prev next more l : refine3 fuel c tol prev (next :: more) = Some l -> l <> [].
Proof.
  revert prev next more l. induction fuel as [|n IH]; intros prev next more l; cbn [refine3]; [discriminate|].
  destruct (first_bad _ _ _ _ _) as [bad|].
  - apply IH.
  - destruct (refine3 n c tol next more); cbn [option_map]; [|discriminate]. intro E; injection E as <-. discriminate.
Qed.
Lemma parametric_grown fuel c w o rel f g : f_parametric fuel c w o rel f = Some g -> grown f g w o.
Proof.
  unfold f_parametric. destruct (f_pts f) as [|p l] eqn:P; [discriminate|].
  destruct (final_w true f (width_arg f w)) as [w'|] eqn:W; [|discriminate].
  destruct (final_o true f o) as [o'|] eqn:O; [|discriminate].
  destruct (refine3 _ _ _ _ _) as [m|] eqn:M; [|discriminate]. intro E; injection E as <-.
  apply refine3_nonempty in M.
  eexists _, w', o'. split; [|split; [congruence|split; [assumption|split; [assumption|reflexivity]]]].
  intro N. apply map_eq_nil in N. contradiction.
Qed.
Lemma grown_aligned f g w o : grown f g w o -> aligned f -> aligned g /\ same_kind f g.
Proof.
  intros (pts & w' & o' & _ & N & W & O & ->) A. destruct (aligned_last f A N) as [Lw Lo]. split.
  - apply aligned_extend; try assumption; [eapply final_w_length|eapply final_o_length]; eassumption.
  - repeat split.
Qed.
Lemma sections_aligned fuel secs : forall w o f g, f_sections fuel secs w o f = Some g -> aligned f -> aligned g /\ same_kind f g.
Proof.
  induction secs as [|[[a b] e] r IH]; cbn [f_sections]; intros w o f g E A.
  - injection E as <-. split; [assumption|apply same_kind_refl].
  - destruct (f_bezier fuel [a; b; e] w o false f) as [h|] eqn:B; [|discriminate].
    apply parametric_grown in B. apply grown_aligned in B as [Ah K]; [|assumption].
    destruct (IH _ _ _ _ E Ah) as [Ag K']. split; [assumption|eapply same_kind_trans; eassumption].
Qed.
Lemma segment_aligned p w o rel f g : f_segment p w o rel f = Some g -> aligned f -> aligned g /\ same_kind f g.
Proof.
  unfold f_segment, segment_step. intros E A.
  destruct (f_pts f) as [|q l] eqn:P; [discriminate|].
  destruct (final_w false f (width_arg f w)) as [w'|] eqn:W; [|discriminate].
  destruct (final_o false f o) as [o'|] eqn:O; [|discriminate]. injection E as <-.
  destruct (aligned_last f A) as [Lw Lo]; [congruence|].
  pose proof (final_w_length _ _ _ _ Lw W). pose proof (final_o_length _ _ _ _ Lo O).
  destruct A as (A1 & A2 & A3 & A4 & A5 & A6 & A7 & A8 & A9).
  split; [|repeat split].
  unfold aligned, set_spine; cbn [f_w f_o f_pts f_n f_ends f_corners f_bend f_layers f_dts].
  change ((q :: l) ++ ?x) with (q :: (l ++ x)). rewrite !app_length, A1, A2, P. cbn [length]. rewrite app_length. cbn [length].
  split; [lia|]. split; [lia|]. split; [|split; [|split; [assumption|split; [assumption|split; [assumption|split; assumption]]]]].
  - intros r I. apply in_app_or in I as [I|[<-|[]]]; auto.
  - intros r I. apply in_app_or in I as [I|[<-|[]]]; auto.
Qed.
Lemma select_length {X Y} ks : forall (l : list X) (m : list Y), length l = length m -> length (select ks l) = length (select ks m).
Proof.
  unfold select. induction ks as [|k ks IH]; intros [|x l] [|y m] L; try discriminate; try reflexivity.
  cbn [combine filter fst]. specialize (IH l m ltac:(cbn in L; lia)). destruct k; cbn [map length]; [f_equal|]; exact IH.
Qed.
Lemma select_in {X} ks (l : list X) x : In x (select ks l) -> In x l.
Proof.
  unfold select. intro I. apply in_map_iff in I as ([k y] & <- & I). apply filter_In in I as [I _].
  now apply in_combine_r in I.
Qed.
Lemma tidy_aligned f : aligned f -> aligned (tidy f).
Proof.
  intros A. unfold tidy. destruct (forallb _ _); [exact A|].
  destruct A as (A1 & A2 & A3 & A4 & A5 & A6 & A7 & A8 & A9).
  unfold aligned; cbn [f_w f_o f_pts f_n f_ends f_corners f_bend f_layers f_dts].
  split; [now apply select_length|]. split; [now apply select_length|].
  split; [intros r I; apply A3; eapply select_in, I|]. split; [intros r I; apply A4; eapply select_in, I|].
  repeat split; assumption.
Qed.
Lemma aligned_cache f d : aligned f -> aligned (set_cache f d).
Proof. intro A. exact A. Qed.
Lemma get_aligned fuel hob eng f : aligned f -> aligned (fst (f_get fuel hob eng f)).
Proof.
  intro A. unfold f_get. destruct (f_cache f); [exact A|].
  assert (G : aligned (fst (let g := tidy f in
          let '(d, ok) := fill fuel eng g (general_outline fuel hob g) (seq 0 (f_n f)) [] in
          (set_cache g (Some d), if ok then Some d else None)))).
  { cbv zeta. destruct (fill _ _ _ _ _ _). apply (tidy_aligned f A). }
  destruct (f_pts f) as [|p [|q [|? ?]]]; try exact G.
  destruct (same_pt p q); [exact A|]. destruct (fill _ _ _ _ _ _). exact A.
Qed.
Lemma rows_map (g : R -> R) rows n : (forall r, In r rows -> length r = n) -> forall r, In r (map (map g) rows) -> length r = n.
Proof. intros H r I. apply in_map_iff in I as (s & <- & I). rewrite map_length. auto. Qed.

(** Every FlexPath made from a list of points, with as many widths as offsets when
    both are lists, is aligned, and stays so through any sequence of calls. *)
Theorem C34_flex : forall fuel hob eng points width offset corners ends bend tol prec max gds wt layer dt cs f g,
  same_length width offset ->
  flex_init (Spine points) width offset corners ends bend tol prec max gds wt layer dt = Some f ->
  do_calls fuel hob eng cs f = Some g -> aligned f /\ aligned g.
Proof.
  intros fuel hob eng points width offset corners ends bend tol prec max gds wt layer dt cs f g SL F D.
  assert (A : aligned f).
  { unfold flex_init in F. destruct (start_rows width offset) as [[n w] o] eqn:E.
    destruct (start_length _ _ _ _ _ SL E) as [Lw Lo].
    destruct (cyclic n ends) eqn:E1; [|discriminate]. destruct (cyclic n corners) eqn:E2; [|discriminate].
    destruct (cyclic n bend) eqn:E3; [|discriminate]. destruct (cyclic n layer) eqn:E4; [|discriminate].
    destruct (cyclic n dt) eqn:E5; [|discriminate]. injection F as <-.
    unfold aligned; cbn [f_w f_o f_pts f_n f_ends f_corners f_bend f_layers f_dts].
    split; [apply repeat_length|]. split; [apply repeat_length|].
    split; [intros r I; apply repeat_spec in I; now subst|]. split; [intros r I; apply repeat_spec in I; now subst|].
    repeat split; eapply cyclic_length; eassumption. }
  split; [exact A|]. clear F. revert f A D. induction cs as [|c cs IH]; intros f A D; cbn [do_calls] in D.
  - injection D as <-. exact A.
  - destruct (do_call fuel hob eng c f) as [h|] eqn:E; [|discriminate]. apply (IH h); [|exact D]. clear IH D.
    destruct c; cbn [do_call] in E.
    + eapply segment_aligned; eassumption.
    + apply arc_grown in E. eapply grown_aligned; eassumption.
    + unfold f_turn in E. destruct (_ <? 2)%nat; [discriminate|]. apply arc_grown in E. eapply grown_aligned; eassumption.
    + apply parametric_grown in E. eapply grown_aligned; eassumption.
    + apply parametric_grown in E. eapply grown_aligned; eassumption.
    + eapply sections_aligned; eassumption.
    + injection E as <-. destruct A as (A1 & A2 & A). unfold f_translate, set_spine, aligned; cbn.
      rewrite map_length. tauto.
    + injection E as <-. destruct A as (A1 & A2 & A). unfold f_rotate, set_spine, aligned; cbn.
      rewrite map_length. tauto.
    + injection E as <-. destruct A as (A1 & A2 & A3 & A4 & A5 & A). unfold f_scale, set_spine, set_ends, aligned, scale_rows; cbn.
      rewrite !map_length.
      split; [destruct (_ || _); [rewrite map_length|]; exact A1|]. split; [exact A2|].
      split; [destruct (_ || _); [now apply rows_map|exact A3]|]. split; [now apply rows_map|]. split; [exact A5|]. tauto.
    + injection E as <-. destruct A as (A1 & A2 & A3 & A4 & A). unfold f_transform, set_spine, scale_rows, aligned. destruct mag; cbn; rewrite !map_length.
      * split; [destruct (_ || _); [rewrite map_length|]; exact A1|]. split; [exact A2|].
        split; [destruct (_ || _); [now apply rows_map|exact A3]|]. split; [now apply rows_map|]. tauto.
      * tauto.
    + injection E as <-. now apply get_aligned.
    + injection E as <-. destruct A as (A1 & A2 & A3 & A4 & A5 & A6 & A7 & A8 & A9). unfold set_specs, aligned; cbn.
      split; [exact A1|]. split; [exact A2|]. split; [exact A3|]. split; [exact A4|]. split; [exact A5|]. split; [exact A6|].
      split; [exact A7|]. split; [destruct sl; [apply repeat_length|exact A8]|destruct sd; [apply repeat_length|exact A9]].
Qed.
Print Assumptions C34_flex.

(** Counterexamples.  A path started from one pair of coordinates, which the
    constructor accepts, has two rows of widths for its single point. *)
Definition pair_path : flex := Flex 1 [(0, 0)] [[1]; [1]] [[0]; [0]] [Flush] [Natural] [None] [0%Z] [0%Z] (/ 100) (/ 1000) 199 false true None.
Theorem C34_pair_refuted : forall w, exists f g h,
  flex_init (Pair (0, 0)) (One 1) (One 0) (One Natural) (One Flush) (One None) (/ 100) (/ 1000) 199 false true (One 0%Z) (One 0%Z) = Some f /\
  f_segment (1, 0) (Num_ w) Keep false f = Some g /\ ~ aligned g /\
  (* the second row of widths is not the one asked for, and one more segment makes get_polygons raise *)
  nth_error (f_w g) 1 = Some [1] /\
  f_segment (1, 1) Keep Keep false g = Some h /\
  forall fuel hob eng, snd (f_get fuel hob eng h) = None.
Proof.
  intro w. exists pair_path. eexists. eexists. split; [reflexivity|]. split; [reflexivity|].
  split; [|split; [reflexivity|split; [reflexivity|]]].
  - intros (A & _). cbn in A. discriminate.
  - intros fuel hob eng. unfold f_get.
    cbn [f_cache f_pts set_spine f_w f_o f_n pair_path app].
    assert (K : forall p q, p <> q -> same_pt p q = false).
    { intros p q N. unfold same_pt. destruct (Req_EM_T _ 0) as [E|]; [|reflexivity]. exfalso. apply N.
      unfold len2, psub in E; cbn [fst snd] in E. destruct p as [a b], q as [c d]; cbn [fst snd] in E.
      pose proof (pow2_ge_0 (c - a)). pose proof (pow2_ge_0 (d - b)).
      assert (c - a = 0) by (apply Rsqr_0_uniq; unfold Rsqr; lra). assert (d - b = 0) by (apply Rsqr_0_uniq; unfold Rsqr; lra).
      f_equal; lra. }
    unfold tidy, keep. cbn [f_pts set_spine pair_path app pairwise].
    rewrite !K; [|intro E; injection E; lra|intro E; injection E; lra]. cbn [negb forallb andb].
    reflexivity.
Qed.
Print Assumptions C34_pair_refuted.
(** A call that raises can leave the lists of different lengths: [segment] with a
    list of widths of the wrong length has already stored the point. *)
Theorem C34_failed_call_refuted : exists f g, aligned f /\ segment_step (2, 0) (Row [1; 1]) Keep false f = (g, false) /\ ~ aligned g.
Proof.
  exists (Flex 1 [(0, 0); (1, 0)] [[1]; [1]] [[0]; [0]] [Flush] [Natural] [None] [0%Z] [0%Z] (/ 100) (/ 1000) 199 false true None).
  eexists. split; [|split; [reflexivity|]].
  - unfold aligned; cbn. repeat split; intros r [<-|[<-|[]]]; reflexivity.
  - intros (A & _). cbn in A. discriminate.
Qed.
Print Assumptions C34_failed_call_refuted.
(** Non-vacuity of [C34_flex]: two parallel paths, a segment with a list of widths,
    a translation and the polygons. *)
Example C34_flex_case : exists f g, same_length (Many [1; 2]) (One 3) /\
  flex_init (Spine [(0, 0)]) (Many [1; 2]) (One 3) (One Miter) (Many [Flush; Extended]) (One None) (/ 100) (/ 1000) 199 false true (One 0%Z) (Many [1%Z]) = Some f /\
  do_calls 0 (fun _ _ => ((0, 0), (0, 0))) (fun _ _ _ => []) [Segment (5, 0) (Row [2; 3]) (Num_ 1) true; Translate (1, 1); GetPolygons] f = Some g /\
  length (f_pts g) = 2%nat /\ f_w g = [[1; 2]; [2; 3]].
Proof.
  eexists; eexists. split; [exact I|]. split; [reflexivity|]. split; [reflexivity|].
  cbn [f_get fst f_cache f_translate set_spine f_pts f_segment segment_step f_last last app map padd f_w].
  match goal with |- context[same_pt ?a ?b] => destruct (same_pt a b) end.
  - split; reflexivity.
  - match goal with |- context[fill ?a ?b ?c ?d ?e ?f] => destruct (fill a b c d e f) end. split; reflexivity.
Qed.
