(** C65: the polygons of a FlexPath are those of its present shape. *)

From Coq Require Import Reals Lra Lia List ZArith Bool.
From Verif Require Import Graph Plane Hier Curve Engine Flex SpecFlex FlexProofs FlexMove PropFlexPlace.
Import ListNotations.
Open Scope R_scope.

(** ** Removing repeated points twice is removing them once *)

Lemma same_pt_true p q : same_pt p q = true -> p = q.
Proof.
  unfold same_pt. destruct (Req_EM_T _ 0) as [Z|]; [|discriminate]. intros _. apply len2_zero in Z.
  destruct p, q. unfold psub in Z. cbn in Z. injection Z as A B. f_equal; lra.
Qed.
Lemma pairwise_cons {X Y} (g : X -> X -> Y) a b l : pairwise g (a :: b :: l) = g a b :: pairwise g (b :: l).
Proof. reflexivity. Qed.
Lemma select_cons {X} b ks (x : X) l : select (b :: ks) (x :: l) = if b then x :: select ks l else select ks l.
Proof. unfold select. cbn [combine filter fst]. destruct b; reflexivity. Qed.
Lemma keep_clean l : forall a,
  forallb (fun b => b) (pairwise (fun p q => negb (same_pt p q)) (a :: select (pairwise (fun p q => negb (same_pt p q)) (a :: l)) l)) = true.
Proof.
  induction l as [|b l IH]; intro a; [reflexivity|]. rewrite pairwise_cons, select_cons.
  destruct (same_pt a b) eqn:E; cbn [negb].
  - apply same_pt_true in E. subst b. apply IH.
  - rewrite pairwise_cons. cbn [forallb]. rewrite E. cbn [negb andb]. apply IH.
Qed.
Lemma keep_select pts : forallb (fun b => b) (keep (select (keep pts) pts)) = true.
Proof. destruct pts as [|a l]; [reflexivity|]. unfold keep at 2. rewrite select_cons. unfold keep. cbn [forallb andb]. apply keep_clean. Qed.
Lemma tidy_twice f : tidy (tidy f) = tidy f.
Proof.
  unfold tidy at 2 3. destruct (forallb _ (keep (f_pts f))) eqn:E.
  - unfold tidy. now rewrite E.
  - unfold tidy. cbn [f_pts]. now rewrite keep_select.
Qed.
Lemma tidy_set f d : tidy (set_cache f d) = set_cache (tidy f) d.
Proof. unfold tidy, set_cache. cbn [f_pts f_w f_o]. destruct (forallb _ _); reflexivity. Qed.

Section Cache.
Variables (fuel : nat) (hob : pt * pt -> R * R -> pt * pt) (eng : op -> list zpath -> list zpath -> list zpath).
Notation get := (f_get fuel hob eng). Notation now := (now fuel hob eng). Notation coherent := (coherent fuel hob eng).
Notation do_call := (do_call fuel hob eng). Notation do_calls := (do_calls fuel hob eng).

Lemma general_cache f d k : general_outline fuel hob (set_cache f d) k = general_outline fuel hob f k.
Proof. reflexivity. Qed.
Lemma fill_ext f : forall ks d (o o' : nat -> option poly), (forall k, o k = o' k) -> fill fuel eng f o ks d = fill fuel eng f o' ks d.
Proof.
  induction ks as [|k ks IH]; intros d o o' H; [reflexivity|]. cbn [fill]. rewrite H. destruct (o' k); [|reflexivity].
  destruct (cut_up _ _ _); [|reflexivity]. now apply IH.
Qed.
(** A path of three or more points has not become one of two points. *)
Definition kept_long (f : flex) : Prop := length (f_pts (tidy f)) = 2%nat -> length (f_pts f) = 2%nat.
Lemma get_coherent f d : f_cache f = None -> kept_long f -> snd (get f) = Some d -> coherent (fst (get f)).
Proof.
  intros C K G e E. unfold f_get in *. rewrite C in *.
  destruct (f_pts f) as [|p [|q [|r l]]] eqn:P.
  1,2,4: set (g := tidy f) in *; destruct (fill fuel eng g (general_outline fuel hob g) (seq 0 (f_n f)) []) as [x ok] eqn:F;
    cbn [fst snd set_cache f_cache] in *; destruct ok; [|discriminate]; assert (x = d) by congruence; assert (x = e) by congruence; subst x e;
    unfold SpecFlex.now; assert (T : tidy (set_cache (set_cache g (Some d)) None) = set_cache g None) by
      (change (set_cache (set_cache g (Some d)) None) with (set_cache g None); rewrite tidy_set; unfold g; now rewrite tidy_twice);
    assert (L : f_pts (set_cache (set_cache g (Some d)) None) = f_pts g) by reflexivity;
    assert (N : f_n (set_cache (set_cache g (Some d)) None) = f_n f) by (unfold g, tidy; destruct (forallb _ _); reflexivity);
    assert (F' : fill fuel eng (set_cache g None) (general_outline fuel hob (set_cache g None)) (seq 0 (f_n f)) [] = (d, true)) by
      (rewrite <- F; transitivity (fill fuel eng (set_cache g None) (general_outline fuel hob g) (seq 0 (f_n f)) []);
        [apply fill_ext; intro k; apply general_cache|apply fill_same; reflexivity]);
    unfold f_get; rewrite T, L, N, F';
    change (f_cache (set_cache (set_cache g (Some d)) None)) with (@None (list (spec * list poly)));
    destruct (f_pts g) as [|a [|b [|c m]]] eqn:Q; try reflexivity;
    exfalso; unfold kept_long in K; fold g in K; rewrite Q, P in K; specialize (K eq_refl); discriminate.
  unfold SpecFlex.now, f_get. destruct (same_pt p q) eqn:S.
  - cbn [fst snd set_cache f_cache f_pts] in *. rewrite P, S. cbn [snd]. congruence.
  - destruct (fill fuel eng f (two_outline fuel hob f p q) (seq 0 (f_n f)) []) as [x ok] eqn:F. cbn [fst snd set_cache f_cache f_pts f_n] in *.
    rewrite P, S. destruct ok; [|discriminate]. assert (x = e) by congruence. subst x. match goal with |- context [fill fuel eng ?x (two_outline fuel hob ?x p q) _ _] => set (h := x) end.
    assert (F' : fill fuel eng h (two_outline fuel hob h p q) (seq 0 (f_n f)) [] = (e, true)).
    { rewrite <- F. transitivity (fill fuel eng h (two_outline fuel hob f p q) (seq 0 (f_n f)) []); [apply fill_ext; reflexivity|apply fill_same; reflexivity]. }
    rewrite F'. reflexivity.
Qed.

(** The second of two calls gives the result of the first. *)
Theorem C65_again : forall f d, snd (get f) = Some d -> snd (get (fst (get f))) = Some d /\ fst (get (fst (get f))) = fst (get f).
Proof.
  intros f d H. assert (X : f_cache (fst (get f)) = Some d); [|unfold f_get at 1 3; rewrite X; now split].
  unfold f_get in *. destruct (f_cache f) eqn:C; [cbn [fst snd] in *; congruence|].
  destruct (f_pts f) as [|p [|q [|r l]]].
  1,2,4: destruct (fill _ _ _ _ _ _) as [e ok]; cbn [fst snd set_cache f_cache] in *; destruct ok; congruence.
  destruct (same_pt p q); [exact H|]. destruct (fill _ _ _ _ _ _) as [e ok]. cbn [fst snd set_cache f_cache] in *. destruct ok; congruence.
Qed.
(** Drawing and moving forget the remembered polygons, whatever they were; smooth
    without points does nothing. *)
Definition alters (c : call) : bool := match c with GetPolygons | SetSpecs _ _ => false | Smooth _ _ _ _ _ _ => false | _ => true end.
Theorem C65_forgets : forall c f g, do_call c f = Some g -> alters c = true -> f_cache g = None.
Proof.
  intros [p w o rel|r a b w o|r a w o|c w o rel|l w o rel|hs cyc l w o rel|v|a c|k c|org rot mag refl arr| |sl sd] f g H A; try discriminate A;
    cbn [SpecFlex.do_call] in H.
  - unfold f_segment, segment_step in H. cbv zeta in H. destruct (f_pts f); [discriminate|]. destruct (final_w _ _ _); [|discriminate].
    destruct (final_o _ _ _); [|discriminate]. inversion H. reflexivity.
  - unfold f_arc in H. cbv zeta in H. destruct (f_pts f); [discriminate|]. destruct (final_w _ _ _); [|discriminate]. destruct (final_o _ _ _); [|discriminate].
    destruct (arc_count _ _ _ _); [|discriminate]. destruct (map _ _); [discriminate|]. inversion H. reflexivity.
  - unfold f_turn, f_arc in H. cbv zeta in H. destruct (_ <? _)%nat; [discriminate|]. destruct (f_pts f); [discriminate|]. destruct (final_w _ _ _); [|discriminate]. destruct (final_o _ _ _); [|discriminate].
    destruct (arc_count _ _ _ _); [|discriminate]. destruct (map _ _); [discriminate|]. inversion H. reflexivity.
  - unfold f_parametric in H. cbv zeta in H. destruct (f_pts f); [discriminate|]. destruct (final_w _ _ _); [|discriminate]. destruct (final_o _ _ _); [|discriminate].
    destruct (refine3 _ _ _ _ _); [|discriminate]. inversion H. reflexivity.
  - unfold f_bezier, f_parametric in H. cbv zeta in H. destruct (f_pts f); [discriminate|]. destruct (final_w _ _ _); [|discriminate]. destruct (final_o _ _ _); [|discriminate].
    destruct (refine3 _ _ _ _ _); [|discriminate]. inversion H. reflexivity.
  - inversion H. reflexivity.
  - inversion H. reflexivity.
  - inversion H. reflexivity.
  - inversion H. unfold f_transform. destruct mag; reflexivity.
Qed.
Lemma sections_cache secs : forall w o f g, f_sections fuel secs w o f = Some g -> coherent f -> coherent g.
Proof.
  induction secs as [|[[a b] e] secs IH]; intros w o f g H C; cbn [f_sections] in H; [assert (f = g) by congruence; now subst|].
  destruct (f_bezier fuel [a; b; e] w o false f) as [f1|] eqn:E; [|discriminate]. apply (IH w o f1 g H). apply fresh_coherent.
  apply (C65_forgets (Bezier [a; b; e] w o false) f f1 E eq_refl).
Qed.
(** A history in which layers are not reassigned from outside, no get_polygons
    raises, and none meets a path of three or more points of which all but two
    are repetitions. *)
Fixpoint plain (cs : list call) (f : flex) : Prop :=
  match cs with
  | [] => True
  | c :: r =>
      match c with
      | SetSpecs _ _ => False
      | GetPolygons => snd (get f) <> None /\ kept_long f
      | _ => True
      end /\ match do_call c f with Some g => plain r g | None => True end
  end.
Theorem C65_current : forall cs f g, f_cache f = None -> do_calls cs f = Some g -> plain cs f -> snd (get g) = now g.
Proof.
  intros cs f g C H P.
  assert (X : coherent g).
  { assert (C0 : coherent f) by now apply fresh_coherent. clear C. revert f C0 H P. induction cs as [|c cs IH]; intros f C H P; cbn [SpecFlex.do_calls] in H; [assert (f = g) by congruence; now subst|].
    cbn [plain] in P. destruct P as [Pc P]. destruct (do_call c f) as [f1|] eqn:E; [|discriminate]. apply (IH f1); auto.
    destruct c; try (apply fresh_coherent; apply (C65_forgets _ f f1 E eq_refl)).
    - apply (sections_cache _ _ _ _ _ E C).
    - cbn [SpecFlex.do_call] in E. assert (f1 = fst (get f)) by congruence. subst f1. destruct Pc as [N K].
      destruct (f_cache f) eqn:F.
      + unfold f_get. rewrite F. exact C.
      + destruct (snd (get f)) as [d|] eqn:G; [|congruence]. exact (get_coherent f d F K G).
    - contradiction. }
  destruct (f_cache g) as [d|] eqn:E.
  - rewrite (X d E). unfold f_get. now rewrite E.
  - unfold SpecFlex.now. destruct g. cbn in E. subst. reflexivity.
Qed.
End Cache.

(** ** What goes wrong *)

Section Wrong.
Variables (hob : pt * pt -> R * R -> pt * pt) (eng : op -> list zpath -> list zpath -> list zpath).
Notation get := (f_get 2 hob eng). Notation now := (now 2 hob eng).

(** flatten(single_layer=5) of a cell whose path has been looked at: the path says
    it is on layer 5 and gives its polygons on layer 1. *)
Theorem C65_layer_refuted : exists f g p, do_calls 2 hob eng [GetPolygons; SetSpecs (Some 5%Z) None] f = Some g /\ f_cache f = None /\
  f_layers g = [5%Z] /\ snd (get g) = Some [((1%Z, 0%Z), [p])] /\ now g = Some [((5%Z, 0%Z), [p])].
Proof.
  pose proof (bar_now hob eng 10 3 ltac:(lra)) as B. set (p := [(0, 3 - / 2 * 2); (0, 3 + / 2 * 2); (10, 3 + / 2 * 2); (10, 3 - / 2 * 2)]) in *.
  change (now (bar 10 3 Flush)) with (snd (get (bar 10 3 Flush))) in B.
  exists (bar 10 3 Flush), (set_specs (Some 5%Z) None (fst (get (bar 10 3 Flush)))), p.
  assert (X : fst (get (bar 10 3 Flush)) = set_cache (bar 10 3 Flush) (Some [((1%Z, 0%Z), [p])])).
  { unfold f_get in *. cbn [bar f_cache f_pts] in *. destruct (same_pt (0, 0) (10, 0)); [discriminate|].
    destruct (fill _ _ _ _ _ _) as [d ok]. cbn [fst snd] in *. destruct ok; [|discriminate]. do 2 f_equal. congruence. }
  split; [reflexivity|]. split; [reflexivity|]. rewrite X. split; [reflexivity|]. split; [reflexivity|].
  apply (now_two 1 hob eng (set_specs (Some 5%Z) None (set_cache (bar 10 3 Flush) (Some [((1%Z, 0%Z), [p])]))) (0, 0) (10, 0)); try reflexivity.
  - intro E. injection E. lra.
  - cbn. lia.
  - exact (bar_flush_right 1 hob (/ 100) 10 2 3 ltac:(lra)).
Qed.
(** Round ends of a radius below half the tolerance: the first call raises
    ValueError, the second returns no polygon at all. *)
Theorem C65_failed_refuted : exists f, f_cache f = None /\ snd (get f) = None /\ snd (get (fst (get f))) = Some [].
Proof.
  set (f := Flex 1 [(0, 0); (10, 0)] [[2]; [2]] [[0]; [0]] [RoundCap] [Miter] [None] [1%Z] [0%Z] 3 (/ 1000) 0 false true None).
  exists f. split; [reflexivity|].
  assert (A : arc_count 5 (PI / 2) 3 (/ 2 * 2) = None).
  { unfold arc_count. replace (/ 2 * 2) with 1 by lra. destruct (Req_EM_T 1 0); [reflexivity|]. destruct (Rlt_dec (1 - 3 / 1) (-1)); [reflexivity|lra]. }
  assert (T : two_outline 2 hob f (0, 0) (10, 0) 0 = None).
  { unfold two_outline, f. cbn [f_w f_o f_ends nth_error nth f_tol]. unfold outline2. cbv zeta. now rewrite A. }
  assert (S : same_pt (0, 0) (10, 0) = false).
  { unfold same_pt, len2, psub. cbn [fst snd]. destruct (Req_EM_T ((10 - 0) ^ 2 + (0 - 0) ^ 2) 0); [lra|reflexivity]. }
  assert (G : get f = (set_cache f (Some []), None)).
  { unfold f_get. change (f_cache f) with (@None (list (spec * list poly))). change (f_pts f) with [(0, 0); (10, 0)]. cbv iota beta.
    rewrite S. change (f_n f) with 1%nat. cbn [seq fill]. rewrite T. reflexivity. }
  rewrite G. split; reflexivity.
Qed.
(** A history as in C65_current: drawing, looking, moving, drawing again. *)
Example C65_case : exists g, do_calls 2 hob eng [GetPolygons; Translate (1, 1); Segment (3, 4) Keep Keep true] (bar 10 3 Flush) = Some g /\
  plain 2 hob eng [GetPolygons; Translate (1, 1); Segment (3, 4) Keep Keep true] (bar 10 3 Flush) /\ length (f_pts g) = 3%nat.
Proof.
  pose proof (bar_now hob eng 10 3 ltac:(lra)) as B. change (now (bar 10 3 Flush)) with (snd (get (bar 10 3 Flush))) in B.
  assert (E : exists d, fst (get (bar 10 3 Flush)) = set_cache (bar 10 3 Flush) d).
  { unfold f_get. cbn [bar f_cache f_pts]. destruct (same_pt (0, 0) (10, 0)); [eexists; reflexivity|].
    destruct (fill _ _ _ _ _ _) as [d ok]. eexists. reflexivity. }
  destruct E as [d E]. eexists. split; [|split].
  - cbn [do_calls do_call]. rewrite E. reflexivity.
  - cbn [plain do_call]. split.
    + split; [rewrite B; discriminate|]. intros _. reflexivity.
    + split; [exact I|]. split; [exact I|]. destruct (f_segment _ _ _ _ _); exact I.
  - reflexivity.
Qed.
End Wrong.

Print Assumptions C65_again.
Print Assumptions C65_forgets.
Print Assumptions C65_current.
Print Assumptions C65_layer_refuted.
Print Assumptions C65_failed_refuted.
