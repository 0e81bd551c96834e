(** Invariants of histories of library operations. *)

From Coq Require Import List ZArith Lia Bool Arith.
From Verif Require Import Graph SpecGraph GraphProofs.
Import ListNotations.

Section History.
Context {A B : Type}.
Notation heap := (heap A B).
Notation world := (world A B).
Implicit Types h : heap.
Implicit Types w : world.

Lemma add_loop_same : forall ow upr order h d h' d' ok,
  add_loop h d ow upr order = (h', d', ok) -> same_but_targets h h'.
Proof.
  intros ow upr. induction order as [|c rest IH]; intros h d h' d' ok H; cbn [add_loop] in H.
  - inversion H; subst. apply same_refl.
  - destruct (negb ow && clashes h d c); [inversion H; subst; apply same_refl|].
    eapply same_trans; [|eapply IH; exact H].
    destruct (ow && upr && clashes h d c); [|apply same_refl].
    destruct (repl_refs h d (cname h c) (ToCell c)) as [hh kk] eqn:E.
    apply (repl_refs_spec _ _ _ _ _ _ E).
Qed.

Lemma rename_names : forall h d cell new upr h' d' k,
  rename_cell h d cell new upr = Some (h', d', k) ->
  exists c, renames h d cell c /\ forall e, e <> c -> cname h' e = cname h e.
Proof.
  intros h d cell new upr h' d' k H. unfold rename_cell in H.
  destruct (rename_arg h d cell) as [[old c]|] eqn:Ea; [|discriminate].
  destruct (dget d new); [discriminate|]. exists c. split.
  - unfold rename_arg in Ea. destruct cell as [e|n]; cbn [renames].
    + destruct (dget d (cname h e)) as [x|]; [|discriminate].
      destruct (Nat.eqb_spec x e) as [Exe|]; [|discriminate]. inversion Ea; subst. reflexivity.
    + destruct (dget d n) as [x|] eqn:E; [|discriminate]. inversion Ea; subst. apply dget_Some_In. exact E.
  - intros e He.
    set (h1 := set_cell h c (GCell new (c_refs (h_cell h c)) (c_data (h_cell h c)))) in *.
    assert (N : cname h1 e = cname h e)
      by (unfold h1, cname; cbn [set_cell h_cell]; rewrite upd_neq by exact He; reflexivity).
    destruct upr.
    + destruct (repl_refs h1 (ddel d old ++ [(new, c)]) old (ToCell c)) as [h2 k2] eqn:E.
      inversion H; subst. destruct (repl_refs_spec _ _ _ _ _ _ E) as (Hs & _).
      rewrite (same_cname _ _ _ Hs). exact N.
    + inversion H; subst. exact N.
Qed.

Lemma keyed_ext : forall h h' d, (forall c, In c (dcells d) -> cname h' c = cname h c) ->
  keyed h d -> keyed h' d.
Proof.
  intros h h' d H [Nd Hk]. split; [exact Nd|]. intros n c Hc. rewrite H; [apply Hk; exact Hc|].
  apply dcells_In. eauto.
Qed.

Lemma dict_wf_lt : forall h d c, dict_wf h d -> In c (dcells d) -> c < h_ncell h.
Proof.
  intros h d c W Hc. apply dcells_In in Hc. destruct Hc as (n & Hn).
  unfold dict_wf in W. rewrite Forall_forall in W. exact (W _ Hn).
Qed.

Lemma alloc_cname : forall h n refs b c, c < h_ncell h ->
  cname (fst (alloc_cell h n refs b)) c = cname h c.
Proof.
  intros. unfold alloc_cell, cname. cbn [fst h_cell]. rewrite upd_neq by lia. reflexivity.
Qed.

Lemma keyed_alloc : forall h n refs b d, dict_wf h d -> keyed h d ->
  keyed (fst (alloc_cell h n refs b)) d.
Proof.
  intros h n refs b d W. apply keyed_ext. intros c Hc. apply alloc_cname. eapply dict_wf_lt; eassumption.
Qed.

Lemma add_ref_cname : forall h c t a e, cname (add_ref h c t a) e = cname h e.
Proof.
  intros. unfold add_ref, cname. cbn [h_cell]. unfold upd. destruct (Nat.eqb_spec e c) as [->|]; reflexivity.
Qed.

(** *** Keys stay equal to names *)
Theorem step_keyed : forall i w o w', world_wf w -> harmless i w o -> step w o w' ->
  keyed (w_heap w) (w_libs w i) -> keyed (w_heap w') (w_libs w' i).
Proof.
  intros i w o w' [Wh Wd] Hs H K. destruct H; cbn [w_heap w_libs lib_upd harmless] in *.
  - apply keyed_alloc; auto.
  - eapply keyed_ext; [|exact K]. intros; apply add_ref_cname.
  - apply keyed_alloc; auto.
  - assert (K' : forall l, keyed (w_heap w) (w_libs w l) -> keyed h (w_libs w l)).
    { intros x Kx. replace h with (fst (alloc_cell (w_heap w) n [] b)) by (rewrite H; reflexivity).
      apply keyed_alloc; auto. }
    unfold upd. destruct (Nat.eqb_spec i l) as [->|Hi].
    + apply (add_loop_facts _ _ _ _ _ _ _ _ (K' l K) H0).
    + eapply keyed_ext; [|apply K'; exact K]. intros x _.
      apply same_cname. eapply add_loop_same; eassumption.
  - unfold upd. destruct (Nat.eqb_spec i l) as [->|Hi].
    + apply (add_loop_facts _ _ _ _ _ _ _ _ K H2).
    + eapply keyed_ext; [|exact K]. intros x _. apply same_cname. eapply add_loop_same; eassumption.
  - exact K.
  - unfold upd. destruct (Nat.eqb_spec i l) as [->|Hi].
    + eapply remove_keeps_keyed; eassumption.
    + eapply keyed_ext; [|exact K]. intros x _. unfold remove in H0. destruct rr.
      * destruct (fold_left _ _ _) as [h1 k1] eqn:E in H0. inversion H0; subst.
        apply (drop_fold _ _ _ _ _ _ E).
      * inversion H0; subst. reflexivity.
  - unfold upd. destruct (Nat.eqb_spec i l) as [->|Hi].
    + eapply rename_keeps_keyed; eassumption.
    + destruct (rename_names _ _ _ _ _ _ _ _ H0) as (c & Hc & Hn).
      eapply keyed_ext; [|exact K]. intros x Hx. apply Hn. intros ->.
      apply (Hs (fun E => Hi (eq_sym E)) c Hc). exact Hx.
  - exact K.
  - unfold replace_references in H1. destruct (repl_refs_spec _ _ _ _ _ _ H1) as (Hsm & _).
    unfold upd. destruct (Nat.eqb_spec i l) as [->|Hi];
      (eapply keyed_ext; [|exact K]; intros x _; apply same_cname; exact Hsm).
Qed.

(** *** Only created objects are used *)
Lemma wf_same : forall h h', heap_wf h -> same_but_targets h h' ->
  (forall r d, rtarget h' r = ToCell d -> rtarget h r = ToCell d \/ d < h_ncell h) -> heap_wf h'.
Proof.
  intros h h' [W1 W2] S T. split.
  - intros c r Hc Hr. rewrite (same_crefs _ _ _ S) in Hr. destruct S as (_ & _ & E1 & E2).
    rewrite E2. apply (W1 c); [rewrite <- E1; exact Hc|exact Hr].
  - intros r d Hr Ht. destruct S as (_ & _ & E1 & E2). rewrite E1. destruct (T r d Ht) as [X|X]; [|exact X].
    apply (W2 r d); [rewrite <- E2; exact Hr|exact X].
Qed.

Lemma add_loop_wf : forall ow upr order h d h' d' ok,
  heap_wf h -> dict_wf h d -> (forall c, In c order -> c < h_ncell h) ->
  add_loop h d ow upr order = (h', d', ok) -> heap_wf h' /\ dict_wf h' d'.
Proof.
  intros ow upr. induction order as [|c rest IH]; intros h d h' d' ok W Wd Ho H; cbn [add_loop] in H.
  - inversion H; subst. auto.
  - destruct (negb ow && clashes h d c); [inversion H; subst; auto|].
    set (h1 := if ow && upr && clashes h d c
               then fst (repl_refs h d (cname h c) (ToCell c)) else h) in *.
    assert (G : same_but_targets h h1 /\ heap_wf h1).
    { unfold h1. destruct (ow && upr && clashes h d c); [|split; [apply same_refl|exact W]].
      destruct (repl_refs h d (cname h c) (ToCell c)) as [hh kk] eqn:E. cbn [fst].
      pose proof (repl_fold _ _ _ _ _ _ _ E) as (_ & _ & _ & I4).
      destruct (repl_refs_spec _ _ _ _ _ _ E) as (Hs & _). split; [exact Hs|].
      eapply wf_same; [exact W|exact Hs|]. intros r x Hr. unfold rtarget in Hr. rewrite I4 in Hr.
      destruct (_ && _).
      - cbn [r_target] in Hr. inversion Hr; subst. right. apply Ho. left; reflexivity.
      - left. exact Hr. }
    destruct G as [S1 W1]. destruct S1 as (S1a & S1b & S1c & S1d).
    eapply IH; [exact W1| | |exact H].
    + unfold dict_wf in *. rewrite Forall_forall in *. intros [n x] Hx. cbn [snd].
      rewrite S1c. revert Hx. generalize (cname h1 c). clear - Wd Ho. intros k Hx. induction d as [|[m y] d IHd]; cbn [dset] in Hx.
      * destruct Hx as [Hx|[]]. inversion Hx; subst. apply Ho; left; reflexivity.
      * cbn [fst] in Hx. destruct (name_eqb m k).
        -- destruct Hx as [Hx|Hx]; [inversion Hx; subst; apply Ho; left; reflexivity|].
           apply (Wd (n, x)). right; exact Hx.
        -- destruct Hx as [Hx|Hx]; [apply (Wd (n, x)); left; exact Hx|].
           apply IHd; [intros z Hz; apply Wd; right; exact Hz|exact Hx].
    + intros x Hx. rewrite S1c. apply Ho. right; exact Hx.
Qed.

Lemma dict_wf_le : forall h h' d, h_ncell h <= h_ncell h' -> dict_wf h d -> dict_wf h' d.
Proof.
  intros h h' d Hle W. unfold dict_wf in *. rewrite Forall_forall in *. intros x Hx.
  specialize (W x Hx). lia.
Qed.

Lemma alloc_wf : forall h n refs b, heap_wf h -> (forall r, In r refs -> r < h_nref h) ->
  heap_wf (fst (alloc_cell h n refs b)).
Proof.
  intros h n refs b [W1 W2] Hr. unfold alloc_cell. cbn [fst]. split; cbn [h_ncell h_nref].
  - intros c r Hc Hi. unfold crefs in Hi. cbn [h_cell] in Hi. unfold upd in Hi.
    destruct (Nat.eqb_spec c (h_ncell h)) as [->|Hn]; [apply Hr; exact Hi|].
    apply (W1 c); [lia|exact Hi].
  - intros r d Hlt Ht. specialize (W2 r d Hlt Ht). lia.
Qed.

Theorem step_wf : forall w o w', world_wf w -> step w o w' -> world_wf w'.
Proof.
  intros w o w' [Wh Wd] H. destruct H; cbn [w_heap w_libs lib_upd].
  - split; [apply alloc_wf; [exact Wh|intros r []]|]. intros l. eapply dict_wf_le; [|apply Wd]. cbn; lia.
  - destruct Wh as [W1 W2]. split; cbn [w_heap w_libs].
    + split; unfold add_ref; cbn [h_ncell h_nref].
      * intros x r Hx Hr. unfold crefs in Hr. cbn [h_cell] in Hr. unfold upd in Hr.
        destruct (Nat.eqb_spec x c) as [->|Hn].
        -- cbn [c_refs] in Hr. apply in_app_or in Hr. destruct Hr as [Hr|[<-|[]]]; [|lia].
           specialize (W1 c r Hx Hr). lia.
        -- specialize (W1 x r Hx Hr). lia.
      * intros r d Hr Ht. unfold rtarget in Ht. cbn [h_ref] in Ht. unfold upd in Ht.
        destruct (Nat.eqb_spec r (h_nref (w_heap w))) as [->|Hn].
        -- cbn [r_target] in Ht. subst t. exact H0.
        -- apply (W2 r d); [lia|exact Ht].
    + intros l. eapply dict_wf_le; [|apply Wd]. cbn; lia.
  - split.
    + apply alloc_wf; [exact Wh|]. intros r Hr. destruct Wh as [W1 _]. eapply W1; eassumption.
    + intros l. eapply dict_wf_le; [|apply Wd]. cbn; lia.
  - assert (Wh' : heap_wf h).
    { replace h with (fst (alloc_cell (w_heap w) n [] b)) by (rewrite H; reflexivity).
      apply alloc_wf; [exact Wh|intros r []]. }
    assert (Hn : h_ncell h = S (h_ncell (w_heap w)) /\ c = h_ncell (w_heap w))
      by (unfold alloc_cell in H; inversion H; subst; auto).
    destruct Hn as [Hn ->].
    assert (Wd' : forall l, dict_wf h (w_libs w l)) by (intros x; eapply dict_wf_le; [|apply Wd]; lia).
    assert (Ho : forall x, In x [h_ncell (w_heap w)] -> x < h_ncell h) by (intros x [<-|[]]; lia).
    destruct (add_loop_wf _ _ _ _ _ _ _ _ Wh' (Wd' l) Ho H0) as [G1 G2].
    split; [exact G1|]. intros x. cbn [w_libs lib_upd]. unfold upd. destruct (Nat.eqb_spec x l) as [->|]; [exact G2|].
    eapply dict_wf_le; [|apply Wd']. destruct (add_loop_same _ _ _ _ _ _ _ _ H0) as (_ & _ & E & _).
    cbn [w_heap lib_upd]. lia.
  - assert (Ho : forall c, In c order -> c < h_ncell (w_heap w)).
    { intros c Hc. apply H1 in Hc. eapply cell_set_lt; eassumption. }
    destruct (add_loop_wf _ _ _ _ _ _ _ _ Wh (Wd l) Ho H2) as [G1 G2].
    split; [exact G1|]. intros x. cbn [w_libs lib_upd]. unfold upd. destruct (Nat.eqb_spec x l) as [->|]; [exact G2|].
    eapply dict_wf_le; [|apply Wd]. destruct (add_loop_same _ _ _ _ _ _ _ _ H2) as (_ & _ & E & _).
    cbn [w_heap lib_upd]. lia.
  - split; assumption.
  - assert (G : heap_wf h' /\ h_ncell h' = h_ncell (w_heap w) /\ d' = ddel (w_libs w l) (tname (w_heap w) cell)).
    { unfold remove in H0. destruct rr.
      - destruct (fold_left _ _ _) as [h1 k1] eqn:E in H0. inversion H0; subst.
        destruct (drop_fold _ _ _ _ _ _ E) as (I1 & I2 & I3 & _ & _ & I6 & _).
        split; [|split; [exact I2|reflexivity]]. destruct Wh as [W1 W2]. split.
        + intros c r Hc Hr. rewrite I2 in Hc. rewrite I3. apply (W1 c); [exact Hc|].
          rewrite I6 in Hr. destruct (existsb _ _); [apply filter_In in Hr; tauto|exact Hr].
        + intros r d Hr Ht. rewrite I2. unfold rtarget in Ht. rewrite I1 in Ht. apply (W2 r d); [lia|exact Ht].
      - inversion H0; subst. auto. }
    destruct G as (G1 & G2 & ->). split; [exact G1|]. intros x. cbn [w_libs lib_upd w_heap].
    unfold upd. destruct (Nat.eqb_spec x l) as [->|].
    + unfold dict_wf, ddel. rewrite Forall_forall. intros y Hy. apply filter_In in Hy.
      specialize (Wd l). unfold dict_wf in Wd. rewrite Forall_forall in Wd. specialize (Wd y (proj1 Hy)). lia.
    + eapply dict_wf_le; [|apply Wd]. lia.
  - unfold rename_cell in H0.
    destruct (rename_arg (w_heap w) (w_libs w l) cell) as [[old c]|] eqn:Ea; [|discriminate].
    destruct (dget (w_libs w l) n); [discriminate|].
    assert (Hc : c < h_ncell (w_heap w)).
    { assert (Hi : In (old, c) (w_libs w l)).
      { unfold rename_arg in Ea. destruct cell as [e|m].
        - destruct (dget _ (cname (w_heap w) e)) as [x|] eqn:E; [|discriminate].
          destruct (Nat.eqb_spec x e) as [->|]; [|discriminate]. inversion Ea; subst. apply dget_Some_In; exact E.
        - destruct (dget _ m) as [x|] eqn:E; [|discriminate]. inversion Ea; subst. apply dget_Some_In; exact E. }
      specialize (Wd l). unfold dict_wf in Wd. rewrite Forall_forall in Wd. exact (Wd _ Hi). }
    set (o := h_cell (w_heap w) c) in *. set (h1 := set_cell (w_heap w) c (GCell n (c_refs o) (c_data o))) in *.
    assert (W1 : heap_wf h1).
    { destruct Wh as [Wa Wb]. split.
      - intros x r Hx Hr. apply (Wa x); [exact Hx|]. unfold h1, crefs in Hr. cbn [set_cell h_cell] in Hr.
        unfold upd in Hr. destruct (Nat.eqb_spec x c) as [->|]; exact Hr.
      - exact Wb. }
    set (d1 := ddel (w_libs w l) old ++ [(n, c)]) in *.
    assert (Wd1 : dict_wf h1 d1).
    { unfold dict_wf, d1. apply Forall_app. split; [|constructor; [exact Hc|constructor]].
      unfold ddel. rewrite Forall_forall. intros y Hy. apply filter_In in Hy.
      specialize (Wd l). unfold dict_wf in Wd. rewrite Forall_forall in Wd. exact (Wd y (proj1 Hy)). }
    assert (G : heap_wf h' /\ h_ncell h' = h_ncell (w_heap w) /\ d' = d1).
    { destruct upr.
      - destruct (repl_refs h1 d1 old (ToCell c)) as [h2 k2] eqn:E. inversion H0; subst.
        destruct (repl_refs_spec _ _ _ _ _ _ E) as (Hs & _).
        pose proof (repl_fold _ _ _ _ _ _ _ E) as (_ & _ & _ & I4).
        split; [|split; [apply Hs|reflexivity]]. eapply wf_same; [exact W1|exact Hs|].
        intros r x Hr. unfold rtarget in Hr. rewrite I4 in Hr. destruct (_ && _).
        + cbn [r_target] in Hr. inversion Hr; subst. right. exact Hc.
        + left. exact Hr.
      - inversion H0; subst. split; [exact W1|]. split; reflexivity. }
    destruct G as (G1 & G2 & ->). split; [exact G1|]. intros x. cbn [w_libs lib_upd w_heap].
    unfold upd. destruct (Nat.eqb_spec x l) as [->|].
    + eapply dict_wf_le; [|exact Wd1]. cbn [h1 set_cell h_ncell]. rewrite G2. cbn. lia.
    + eapply dict_wf_le; [|apply Wd]. lia.
  - split; assumption.
  - unfold replace_references in H1. destruct (repl_refs_spec _ _ _ _ _ _ H1) as (Hs & _).
    pose proof (repl_fold _ _ _ _ _ _ _ H1) as (_ & _ & _ & I4).
    assert (G : heap_wf h').
    { eapply wf_same; [exact Wh|exact Hs|]. intros r x Hr. unfold rtarget in Hr. rewrite I4 in Hr.
      destruct (_ && _); [|left; exact Hr]. cbn [r_target] in Hr. right.
      unfold arg_cell in Hr. destruct new as [e|m]; [inversion Hr; subst; exact H0|].
      destruct (dget (w_libs w l) m) as [e|] eqn:E; [|discriminate]. inversion Hr; subst.
      apply dget_Some_In in E. specialize (Wd l). unfold dict_wf in Wd. rewrite Forall_forall in Wd. exact (Wd _ E). }
    split; [exact G|]. intros x. cbn [w_libs lib_upd w_heap]. destruct Hs as (_ & _ & E & _).
    unfold upd. destruct (Nat.eqb_spec x l) as [->|]; (eapply dict_wf_le; [|apply Wd]; lia).
Qed.

Theorem history_keyed : forall i w os w', world_wf w -> keyed (w_heap w) (w_libs w i) ->
  harmless_steps i w os w' -> world_wf w' /\ keyed (w_heap w') (w_libs w' i).
Proof.
  intros i w os w' W K H. induction H; [auto|].
  apply IHharmless_steps; [eapply step_wf; eassumption|eapply step_keyed; eassumption].
Qed.

(** Operations that all go through library [i] are harmless to it. *)
Definition through (i : nat) (o : op A B) : Prop :=
  match o with
  | OpNew l _ _ _ _ | OpAdd l _ _ _ _ | OpRemove l _ _ | OpRename l _ _ _ | OpReplace l _ _ => l = i
  | _ => True
  end.
Lemma through_harmless : forall i w os w', Forall (through i) os -> steps w os w' ->
  harmless_steps i w os w'.
Proof.
  intros i w os w' F H. induction H; [constructor|]. inversion F; subst.
  econstructor; [|eassumption|auto]. destruct o; cbn in *; auto.
Qed.

End History.
