(** The bounding box cache is right in careful histories. *)

From Coq Require Import Reals Lra List ZArith Bool Lia Permutation.
From Verif Require Import Graph SpecGraph GraphProofs Plane SpecPlane PlaneProofs Hier SpecHier HierProofs HierQuery
  HierBox Cache.
Import ListNotations.
Open Scope R_scope.

Section CacheProofs.
Context {P : Type} (ops : pathops P).
Notation heap := (heap place (stuff P)).
Implicit Types h : heap.

(** What a query looks at. *)
Definition same_at (h h' : heap) (y : nat) : Prop :=
  crefs h' y = crefs h y /\ s_polys (stuff_of h' y) = s_polys (stuff_of h y) /\
  s_paths (stuff_of h' y) = s_paths (stuff_of h y) /\ forall r, In r (crefs h y) -> h_ref h' r = h_ref h r.

Lemma polys_local (h h' : heap) m x : (forall y, under h x y -> same_at h h' y) ->
  polys_fuel ops h' m x = polys_fuel ops h m x.
Proof.
  unfold polys_fuel, flat_fuel. revert x; induction m as [|m IH]; intros x H; [reflexivity|].
  cbn [iter_fuel]. unfold flat_step at 1 3. cbn [below next option_map].
  destruct (H x (or_introl eq_refl)) as (E1 & E2 & E3 & E4). unfold own_polys. rewrite E1, E2, E3.
  assert (X : expand h' (iter_fuel (flat_step ops (fun _ => None) h') m) (fun pl l => Some (place_polys pl l)) None (crefs h x) =
              expand h (iter_fuel (flat_step ops (fun _ => None) h) m) (fun pl l => Some (place_polys pl l)) None (crefs h x)).
  { unfold expand.
    assert (DD : forall r, In r (crefs h x) -> forall e, rtarget h r = ToCell e -> direct h x e)
      by (intros r Hr e He; exists r; auto).
    revert E4 DD. generalize (crefs h x). intro l; induction l as [|r rs IHr]; intros E4 DD; [reflexivity|]. cbn [collect].
    rewrite IHr by (intros; try apply E4; try (eapply DD; eauto); now right).
    unfold rtarget, place_of in *. rewrite (E4 r (or_introl eq_refl)).
    destruct (r_target (h_ref h r)) as [e|n] eqn:T; [|reflexivity].
    rewrite IH; [reflexivity|]. intros y U. apply H. right.
    assert (D : direct h x e) by (apply (DD r); [now left|exact T]).
    destruct U as [->|U]; [now apply reach_one|eapply reach_more; eauto]. }
  rewrite X. reflexivity.
Qed.

(** Heaps that differ in caches only. *)
Definition same_geom (h h' : heap) : Prop :=
  (forall y, crefs h' y = crefs h y /\ s_polys (stuff_of h' y) = s_polys (stuff_of h y) /\
     s_paths (stuff_of h' y) = s_paths (stuff_of h y)) /\
  (forall r, h_ref h' r = h_ref h r) /\ h_ncell h' = h_ncell h /\ h_nref h' = h_nref h.
Lemma same_geom_refl h : same_geom h h. Proof. repeat split. Qed.
Lemma same_geom_trans a b c : same_geom a b -> same_geom b c -> same_geom a c.
Proof.
  intros (A & B & C & D) (A' & B' & C' & D'). repeat split; try congruence.
  - destruct (A y) as (? & ? & ?), (A' y) as (? & ? & ?); congruence.
  - destruct (A y) as (? & ? & ?), (A' y) as (? & ? & ?); congruence.
  - destruct (A y) as (? & ? & ?), (A' y) as (? & ? & ?); congruence.
Qed.
Lemma same_geom_sym a b : same_geom a b -> same_geom b a.
Proof.
  intros (A & B & C & D). repeat split; try congruence; destruct (A y) as (? & ? & ?); congruence.
Qed.
Lemma same_geom_at h h' y : same_geom h h' -> same_at h h' y.
Proof. intros (A & B & _). destruct (A y) as (? & ? & ?). repeat split; auto. Qed.
Lemma same_geom_polys h h' m x : same_geom h h' -> polys_fuel ops h' m x = polys_fuel ops h m x.
Proof. intro S; apply polys_local. intros; now apply same_geom_at. Qed.
Lemma same_geom_direct h h' x y : same_geom h h' -> direct h x y -> direct h' x y.
Proof.
  intros (A & B & _) (r & Hr & T). exists r. destruct (A x) as (-> & _). split; [auto|]. unfold rtarget in *. now rewrite B.
Qed.
Lemma same_geom_reach h h' x y : same_geom h h' -> reach h x y -> reach h' x y.
Proof.
  intros S R; induction R; [apply reach_one|eapply reach_more; [|exact IHR]]; eapply same_geom_direct; eauto.
Qed.
Lemma same_geom_under h h' x y : same_geom h h' -> under h x y -> under h' x y.
Proof. intros S [->|R]; [now left|right; eapply same_geom_reach; eauto]. Qed.
Lemma same_geom_range h h' x : same_geom h h' -> in_range ops h x -> in_range ops h' x.
Proof.
  intros S H d U m l p E. apply (H d) with (m := m) (l := l).
  - eapply same_geom_under; [apply same_geom_sym, S|exact U].
  - rewrite <- (same_geom_polys h h'); auto.
Qed.
Lemma range_under h c d : in_range ops h c -> direct h c d -> in_range ops h d.
Proof. intros H D e U. apply H. destruct U as [->|U]; right; [now apply reach_one|eapply reach_more; eauto]. Qed.

Definition fresh (h : heap) (x : nat) (b : option bbox) : Prop :=
  exists m l, polys_fuel ops h m x = Some l /\ b = box_of (concat l).
Definition coherent (h : heap) : Prop := forall x, valid h x = true -> fresh h x (s_bb (stuff_of h x)).

Lemma fresh_geom h h' x b : same_geom h h' -> fresh h x b -> fresh h' x b.
Proof. intros S (m & l & E & F). exists m, l. split; [rewrite (same_geom_polys h h'); auto|auto]. Qed.

Lemma set_bb_stuff h c b y : stuff_of (set_bb h c b) y =
  if Nat.eqb y c then Stuff (s_polys (stuff_of h c)) (s_paths (stuff_of h c)) (s_labels (stuff_of h c)) b true else stuff_of h y.
Proof. unfold stuff_of at 1, set_bb, set_data, set_cell, upd; cbn [h_cell]. destruct (Nat.eqb y c); reflexivity. Qed.
Lemma set_bb_geom h c b : same_geom h (set_bb h c b).
Proof.
  repeat split; rewrite ?set_bb_stuff.
  - unfold crefs at 1, set_bb, set_data, set_cell, upd; cbn [h_cell]. destruct (Nat.eqb y c) eqn:E; [|reflexivity].
    apply Nat.eqb_eq in E; subst. reflexivity.
  - destruct (Nat.eqb y c) eqn:E; [apply Nat.eqb_eq in E; subst|]; reflexivity.
  - destruct (Nat.eqb y c) eqn:E; [apply Nat.eqb_eq in E; subst|]; reflexivity.
Qed.
Lemma set_bb_valid h c b x : valid (set_bb h c b) x = true <-> x = c \/ valid h x = true.
Proof.
  unfold valid. rewrite set_bb_stuff. destruct (Nat.eqb_spec x c); cbn [s_valid]; tauto.
Qed.
Lemma set_bb_coherent h c b : coherent h -> fresh h c b -> coherent (set_bb h c b).
Proof.
  intros C F x V. apply fresh_geom with (h := h); [apply set_bb_geom|]. rewrite set_bb_stuff.
  destruct (Nat.eqb_spec x c) as [->|N]; cbn [s_bb]; [exact F|]. apply C. apply set_bb_valid in V as [?|V]; [contradiction|auto].
Qed.

Lemma polys_fuel_total h c l : get_dependencies h c true = Some l -> exists ps, polys_fuel ops h (S (h_ncell h)) c = Some ps.
Proof.
  intro E. unfold polys_fuel. destruct (tag_total_none ops (fun _ => None) h _ c l E) as [o Ho].
  rewrite flat_tags, Ho. cbn; eauto.
Qed.

Definition good_rec (rec : heap -> nat -> option (heap * option bbox)) : Prop :=
  forall h c h' b, in_range ops h c -> coherent h -> rec h c = Some (h', b) ->
    same_geom h h' /\ coherent h' /\ fresh h' c b /\ (forall x, valid h' x = true -> valid h x = true \/ under h c x).

Lemma box_loop_ok rec pf : good_rec rec -> forall rs h h' pts m r,
  (forall x e, In x rs -> rtarget h x = ToCell e -> in_range ops h e) -> coherent h ->
  box_loop ops rec pf h rs = Some (h', pts) ->
  expand h (iter_fuel (flat_step ops (fun _ => None) h) m) (fun pl l => Some (place_polys pl l)) None rs = Some r ->
  same_geom h h' /\ coherent h' /\ hull pts (concat r) /\
  (forall x, valid h' x = true -> valid h x = true \/ exists y e, In y rs /\ rtarget h y = ToCell e /\ under h e x).
Proof.
  intros GR rs; induction rs as [|x rs IH]; intros h h' pts m r RG C B E; cbn [box_loop] in B.
  - injection B as <- <-. cbn in E. injection E as <-. split; [apply same_geom_refl|]. split; [auto|]. split; [apply hull_refl|auto].
  - unfold expand in E. cbn [collect] in E. destruct (rtarget h x) as [e|nm] eqn:T.
    + destruct (iter_fuel (flat_step ops (fun _ => None) h) m (None, e)) as [le|] eqn:Le; [|discriminate].
      destruct (collect _ rs) as [r2|] eqn:R2; [|discriminate]. injection E as <-. cbn zeta in B.
      destruct (if cardinal (p_rot (place_of h x)) then _ else _) as [[h1 be]|] eqn:One; [|discriminate].
      destruct (box_loop ops rec pf h1 rs) as [[h2 p2]|] eqn:B2; [|discriminate]. injection B as <- <-.
      assert (S1 : same_geom h h1 /\ coherent h1 /\ hull (box_pts be) (concat (place_polys (place_of h x) le)) /\
                   (forall z, valid h1 z = true -> valid h z = true \/ under h e z)).
      { destruct (cardinal (p_rot (place_of h x))) eqn:Cd.
        - destruct (rec h e) as [[h1' bb]|] eqn:Q; [|discriminate].
          destruct (ref_box _ (Some bb) None) as [be'|] eqn:Re; [|discriminate]. injection One as <- <-.
          destruct (GR h e h1' bb (RG x e (or_introl eq_refl) T) C Q) as (A1 & A2 & A3 & A4). split; [auto|]. split; [auto|].
          split; [|auto]. eapply ref_box_hull; [exact Re| |discriminate]. intros b [= <-].
          destruct A3 as (m' & l' & F & ->). f_equal. f_equal.
          rewrite (same_geom_polys h h1') in F by auto. exact (polys_det ops h m' m e l' le F Le).
        - destruct (ref_box _ None _) as [be'|] eqn:Re; [|discriminate]. injection One as <- <-.
          split; [apply same_geom_refl|]. split; [auto|]. split; [|auto].
          eapply ref_box_hull; [exact Re|discriminate|]. intros l' F. exact (polys_det ops h pf m e l' le F Le). }
      destruct S1 as (G1 & C1 & H1 & V1).
      assert (E2 : expand h1 (iter_fuel (flat_step ops (fun _ => None) h1) m) (fun pl l => Some (place_polys pl l)) None rs = Some r2).
      { rewrite <- R2. unfold expand. destruct G1 as (Ga & Gb & Gc).
        clear - Ga Gb Gc. induction rs as [|y ys IHy]; [reflexivity|]. cbn [collect]. rewrite IHy.
        unfold rtarget, place_of. rewrite !Gb. destruct (r_target (h_ref h y)) as [f|]; [|reflexivity].
        pose proof (same_geom_polys h h1 m f (conj Ga (conj Gb Gc))) as Q. unfold polys_fuel, flat_fuel in Q. now rewrite Q. }
      destruct (IH h1 h2 p2 m r2) as (G2 & C2 & H2 & V2); auto.
      { intros y f Hy Tf. apply same_geom_range with (h := h); [auto|]. apply (RG y); [now right|].
        destruct G1 as (_ & Gb & _). unfold rtarget in *. now rewrite <- Gb. }
      split; [eapply same_geom_trans; eauto|]. split; [auto|]. split; [rewrite concat_app; now apply hull_app|].
      intros z Vz. destruct (V2 z Vz) as [V|(y & f & Hy & Tf & U)].
      * destruct (V1 z V) as [?|U]; [auto|]. right. exists x, e. split; [now left|auto].
      * right. exists y, f. split; [now right|]. split.
        { destruct G1 as (_ & Gb & _). unfold rtarget in *. now rewrite <- Gb. }
        { eapply same_geom_under; [apply same_geom_sym, G1|exact U]. }
    + destruct (collect _ rs) as [r2|] eqn:R2; [|discriminate]. injection E as <-.
      destruct (IH h h' pts m r2) as (G2 & C2 & H2 & V2); auto. { intros; eapply RG; eauto; now right. }
      split; [auto|]. split; [auto|]. split; [auto|]. intros z Vz. destruct (V2 z Vz) as [V|(y & f & Hy & Tf & U)]; [auto|].
      right. exists y, f. split; [now right|auto].
Qed.

Lemma measure_ok pf n : good_rec (measure_fuel ops pf n).
Proof.
  induction n as [|n IH]; intros h c h' b RG C M; [discriminate|]. cbn [measure_fuel] in M.
  destruct (get_dependencies h c true) as [ds|] eqn:Ds; [|discriminate].
  destruct (valid h c && forallb (valid h) ds) eqn:V.
  - injection M as <- <-. apply andb_true_iff in V as [V _]. split; [apply same_geom_refl|]. split; [auto|]. split; [now apply C|auto].
  - unfold own_points in M. destruct (existsb _ _); [discriminate|].
    destruct (box_loop ops _ pf h (crefs h c)) as [[h1 pts]|] eqn:B; [|discriminate]. injection M as <- <-.
    destruct (polys_fuel_total h c ds Ds) as [l L]. pose proof L as L0. apply polys_step in L as (r & E & ->).
    destruct (box_loop_ok _ pf IH (crefs h c) h h1 pts (h_ncell h) r) as (G & C1 & H & V1); auto.
    { intros x e Hx T. eapply range_under; [exact RG|]. exists x; auto. }
    set (bb := option_map clamp_box _).
    assert (F : fresh h c bb).
    { exists (S (h_ncell h)). eexists; split; [exact L0|]. unfold bb.
      set (own := concat (own_polys (stuff_of h c)) ++ concat (flat_map (path_flat ops) (s_paths (stuff_of h c)))).
      assert (HH : hull (own ++ pts) (concat (own_polys (stuff_of h c) ++ flat_map (path_flat ops) (s_paths (stuff_of h c)) ++ r))).
      { rewrite app_assoc, concat_app, concat_app. apply hull_app; [apply hull_refl|exact H]. }
      rewrite <- (hull_box _ _ HH). destruct (box_of (own ++ pts)) as [z|] eqn:Z; [cbn [option_map]|reflexivity]. f_equal.
      rewrite (hull_box _ _ HH) in Z. eapply clamp_id; [exact Z|]. intros p Hp.
      eapply (RG c (or_introl eq_refl)); [exact L0|exact Hp]. }
    split; [eapply same_geom_trans; [exact G|apply set_bb_geom]|].
    split; [apply set_bb_coherent; [auto|eapply fresh_geom; eauto]|].
    split; [eapply fresh_geom; [|exact F]; eapply same_geom_trans; [exact G|apply set_bb_geom]|].
    intros x Vx. apply set_bb_valid in Vx as [->|Vx]; [right; now left|].
    destruct (V1 x Vx) as [?|(y & e & Hy & T & U)]; [auto|]. right. right.
    assert (D : direct h c e) by (exists y; auto). destruct U as [->|U]; [now apply reach_one|eapply reach_more; eauto].
Qed.

(** ** Histories *)
Definition sound (h : heap) (M : nat -> Prop) : Prop :=
  heap_wf h /\ coherent h /\ (forall x, valid h x = true -> M x /\ (x < h_ncell h)%nat).

Lemma put_cases h c e : exists rs h1 s, put h c e = set_data h1 c rs s /\ s_valid s = false /\
  (forall y, y <> c -> h_cell h1 y = h_cell h y) /\ (forall r, (r < h_nref h)%nat -> h_ref h1 r = h_ref h r) /\
  h_ncell h1 = h_ncell h /\ (h_nref h <= h_nref h1)%nat.
Proof.
  destruct e as [ps|p|l|t pl]; unfold put.
  1-3: exists (crefs h c), h; eexists; split; [reflexivity|]; auto.
  exists (crefs (add_ref h c t pl) c), (add_ref h c t pl). eexists. split; [reflexivity|]. split; [reflexivity|].
  unfold add_ref, upd; cbn. split; [intros y N; apply Nat.eqb_neq in N; now rewrite N|]. split; [|lia].
  intros r Hr. replace (Nat.eqb r (h_nref h)) with false; [auto|]. symmetry; apply Nat.eqb_neq; lia.
Qed.
Lemma put_wf h c e : heap_wf h -> (c < h_ncell h)%nat -> elem_ok h e -> heap_wf (put h c e).
Proof.
  intros [W1 W2] Hc Ok.
  assert (A : forall s, heap_wf (set_data h c (crefs h c) s)).
  { intro s. split.
    - intros x r Hx. unfold crefs at 1, set_data, set_cell, upd; cbn [h_cell]. destruct (Nat.eqb_spec x c) as [->|N]; cbn [c_refs]; apply W1; auto.
    - intros r d. apply W2. }
  destruct e as [ps|p|l|t pl]; cbn [put]; try apply A.
  split.
  - intros x r Hx. unfold crefs at 1, set_data, set_cell, upd; cbn [h_cell]. destruct (Nat.eqb_spec x c) as [->|N]; cbn [c_refs].
    + unfold crefs, add_ref, upd; cbn. rewrite Nat.eqb_refl. cbn. intro Hr. apply in_app_iff in Hr as [Hr|[<-|[]]]; [|lia].
      specialize (W1 c r Hc Hr). lia.
    + unfold add_ref, upd; cbn. replace (Nat.eqb x c) with false by (symmetry; apply Nat.eqb_neq; auto).
      intro Hr. specialize (W1 x r Hx Hr). lia.
  - intros r d Hr. unfold rtarget, set_data, set_cell, add_ref, upd; cbn. cbn in Hr.
    destruct (Nat.eqb_spec r (h_nref h)) as [->|N]; cbn.
    + intros ->. exact Ok.
    + apply W2. lia.
Qed.
Lemma put_valid h c e x : valid (put h c e) x = true -> x <> c /\ valid h x = true.
Proof.
  destruct (put_cases h c e) as (rs & h1 & s & -> & Vs & Hc & _). unfold valid, stuff_of, set_data, set_cell, upd; cbn [h_cell].
  destruct (Nat.eqb_spec x c) as [->|N]; cbn [c_data]; [congruence|]. rewrite Hc by auto. auto.
Qed.
Lemma sound_put h M c e : sound h M -> (c < h_ncell h)%nat -> elem_ok h e -> (forall a, M a -> ~ reach h a c) ->
  sound (put h c e) M.
Proof.
  intros (W & C & V) Hc Ok H. split; [now apply put_wf|].
  assert (VV : forall x, valid (put h c e) x = true -> x <> c /\ valid h x = true) by apply put_valid.
  destruct (put_cases h c e) as (rs & h1 & s & E & Vs & Hcell & Href & Hn & Hr).
  split.
  - intros x Vx. destruct (VV x Vx) as [N Vh]. destruct (V x Vh) as [Mx Lx]. destruct (C x Vh) as (m & l & Pl & B).
    assert (Bx : s_bb (stuff_of (put h c e) x) = s_bb (stuff_of h x)).
    { rewrite E. unfold stuff_of, set_data, set_cell, upd; cbn [h_cell]. apply Nat.eqb_neq in N. rewrite N.
      apply Nat.eqb_neq in N. now rewrite Hcell. }
    rewrite Bx. exists m, l. split; [|exact B]. rewrite <- Pl. apply polys_local. intros y U.
    assert (Ny : y <> c) by (destruct U as [->|U]; [auto|intros ->; eapply H; eauto]).
    assert (Ly : (y < h_ncell h)%nat) by (destruct U as [->|U]; [auto|eapply reach_lt; eauto]).
    rewrite E. unfold same_at, crefs, stuff_of, set_data, set_cell, upd; cbn [h_cell h_ref].
    apply Nat.eqb_neq in Ny. rewrite Ny. apply Nat.eqb_neq in Ny. rewrite Hcell by auto. repeat split.
    intros r Hrr. apply Href. destruct W as [W1 _]. apply (W1 y); auto.
  - intros x Vx. destruct (VV x Vx) as [N Vh]. destruct (V x Vh) as [Mx Lx]. split; [auto|].
    rewrite E. cbn. now rewrite Hn.
Qed.
Lemma sound_new h M n : sound h M -> sound (new_cell h n) M.
Proof.
  intros (W & C & V). unfold new_cell, alloc_cell; cbn [fst].
  assert (Cx : forall x, x <> h_ncell h -> h_cell (Heap (upd (h_cell h) (h_ncell h) (GCell n [] (Stuff [] [] [] None false)))
       (h_ref h) (S (h_ncell h)) (h_nref h)) x = h_cell h x).
  { intros x N; cbn. unfold upd. apply Nat.eqb_neq in N. now rewrite N. }
  split.
  - destruct W as [W1 W2]; split.
    + intros x r Hx. unfold crefs. cbn in Hx. destruct (Nat.eq_dec x (h_ncell h)) as [->|N].
      * cbn. unfold upd. rewrite Nat.eqb_refl. intros [].
      * rewrite Cx by auto. cbn. apply W1. lia.
    + intros r d Hr T. cbn in *. specialize (W2 r d Hr T). lia.
  - assert (VV : forall x, valid (Heap (upd (h_cell h) (h_ncell h) (GCell n [] (Stuff [] [] [] None false)))
       (h_ref h) (S (h_ncell h)) (h_nref h)) x = true -> x <> h_ncell h /\ valid h x = true).
    { intros x Vx. unfold valid, stuff_of in Vx. destruct (Nat.eq_dec x (h_ncell h)) as [->|N].
      - cbn in Vx. unfold upd in Vx. rewrite Nat.eqb_refl in Vx. discriminate.
      - rewrite Cx in Vx; auto. }
    split.
    + intros x Vx. destruct (VV x Vx) as [N Vh]. destruct (V x Vh) as [Mx Lx]. destruct (C x Vh) as (m & l & Pl & B).
      unfold stuff_of. rewrite Cx by auto. exists m, l. split; [|exact B]. rewrite <- Pl. apply polys_local. intros y U.
      assert (Ly : (y < h_ncell h)%nat) by (destruct U as [->|U]; [auto|eapply reach_lt; eauto]).
      unfold same_at, crefs, stuff_of. rewrite Cx by lia. repeat split.
    + intros x Vx. destruct (VV x Vx) as [N Vh]. destruct (V x Vh). cbn. split; [auto|lia].
Qed.
Lemma sound_measure h M c h1 b : sound h M -> (c < h_ncell h)%nat -> in_range ops h c -> measure ops h c = Some (h1, b) ->
  sound h1 (fun x => M x \/ under h c x) /\ fresh h1 c b.
Proof.
  intros (W & C & V) Hc RG Me. destruct (measure_ok _ _ h c h1 b RG C Me) as (G & C1 & F & V1). split; [|exact F].
  split; [|split; [exact C1|]].
  - destruct G as (Ga & Gb & Gc & Gd). destruct W as [W1 W2]. split.
    + intros x r. destruct (Ga x) as (-> & _). rewrite Gc, Gd. apply W1.
    + intros r d. unfold rtarget. rewrite Gb, Gc, Gd. apply W2.
  - intros x Vx. destruct G as (Ga & Gb & Gc & Gd). rewrite Gc. destruct (V1 x Vx) as [Vh|U].
    + destruct (V x Vh); auto.
    + split; [auto|]. destruct U as [->|U]; [auto|eapply reach_lt; eauto].
Qed.

Lemma careful_sound h M l h' M' : careful ops h M l h' M' -> sound h M -> sound h' M'.
Proof.
  intro H; induction H; intro S; auto.
  - apply IHcareful. now apply sound_new.
  - apply IHcareful. now apply sound_put.
  - apply IHcareful. now apply (sound_measure h M c h1 b).
Qed.

Lemma nothing_sound : sound (@nothing P) (fun _ => False).
Proof.
  split; [split; cbn; intros; lia|]. split; intros x V; discriminate V.
Qed.

(** *** The query is defined *)
Lemma box_loop_total rec pf : good_rec rec ->
  forall rs h, coherent h ->
  (forall x e, In x rs -> rtarget h x = ToCell e -> in_range ops h e) ->
  (forall x e h1, In x rs -> rtarget h x = ToCell e -> same_geom h h1 -> coherent h1 -> exists r, rec h1 e = Some r) ->
  (forall x e, In x rs -> rtarget h x = ToCell e -> exists l, polys_fuel ops h pf e = Some l) ->
  exists r, box_loop ops rec pf h rs = Some r.
Proof.
  intros GR rs; induction rs as [|x rs IH]; intros h C RG RT PT; cbn [box_loop]; [eauto|].
  destruct (rtarget h x) as [e|n] eqn:T.
  2: { apply IH; auto; intros; [eapply RG|eapply RT|eapply PT]; eauto; now right. }
  assert (One : exists h1 b, (if cardinal (p_rot (place_of h x))
            then match rec h e with
                 | Some (h1, bb) => option_map (pair h1) (ref_box (place_of h x) (Some bb) None)
                 | None => None
                 end
            else option_map (pair h) (ref_box (place_of h x) None (polys_fuel ops h pf e))) = Some (h1, b) /\
            same_geom h h1 /\ coherent h1).
  { destruct (cardinal (p_rot (place_of h x))) eqn:Cd.
    - destruct (RT x e h (or_introl eq_refl) T (same_geom_refl h) C) as [[h1 bb] Q]. rewrite Q.
      destruct (GR h e h1 bb (RG x e (or_introl eq_refl) T) C Q) as (G & C1 & _).
      unfold ref_box. rewrite Cd. destruct bb as [bb|]; cbn; eauto 6.
    - destruct (PT x e (or_introl eq_refl) T) as [l L]. rewrite L. unfold ref_box. rewrite Cd. cbn.
      do 2 eexists. split; [reflexivity|]. split; [apply same_geom_refl|auto]. }
  destruct One as (h1 & b & E & G & C1). cbn zeta. rewrite E.
  assert (G' := G). destruct G' as (Ga & Gb & Gc & Gd).
  destruct (IH h1) as [[h2 pts] R]; auto.
  - intros y f Hy Tf. apply same_geom_range with (h := h); [auto|]. apply (RG y); [now right|]. unfold rtarget in *. now rewrite <- Gb.
  - intros y f h2 Hy Tf G2 C2. apply (RT y); [now right| |eapply same_geom_trans; eauto|auto]. unfold rtarget in *. now rewrite <- Gb.
  - intros y f Hy Tf. rewrite (same_geom_polys h h1) by auto. apply (PT y); [now right|]. unfold rtarget in *. now rewrite <- Gb.
  - rewrite R. eauto.
Qed.

(** Every path under the cell has polygons to show. *)
Definition solid (h : heap) (c : nat) : Prop :=
  forall d, under h c d -> existsb (po_empty ops) (s_paths (stuff_of h d)) = false.

Lemma deps_fuel_geom f h h' c : same_geom h h' -> deps_fuel f h' true c = deps_fuel f h true c.
Proof.
  intros (Ga & Gb & _). revert c; induction f as [|f IH]; intro c; [reflexivity|].
  rewrite !deps_fuel_eq. destruct (Ga c) as (-> & _).
  induction (crefs h c) as [|r rs IHr]; [reflexivity|]. cbn [deps_loop]. unfold rtarget. rewrite Gb.
  destruct (r_target (h_ref h r)) as [e|n]; rewrite ?IH, IHr; reflexivity.
Qed.

Lemma measure_total pf n : forall h c l, in_range ops h c -> coherent h -> solid h c ->
  (forall d, under h c d -> get_dependencies h d true <> None) -> (S (h_ncell h) <= pf)%nat ->
  deps_fuel n h true c = Some l -> exists r, measure_fuel ops pf n h c = Some r.
Proof.
  induction n as [|n IH]; intros h c l RG C S GD Hp D; [discriminate|]. cbn [measure_fuel].
  destruct (get_dependencies h c true) as [ds|] eqn:Ds; [|exfalso; apply (GD c); [now left|exact Ds]].
  destruct (_ && _); [eauto|]. unfold own_points. rewrite (S c (or_introl eq_refl)).
  destruct (box_loop_total (measure_fuel ops pf n) pf (measure_ok pf n) (crefs h c) h C) as [[h1 pts] R].
  - intros x e Hx T. eapply range_under; [exact RG|]. exists x; auto.
  - intros x e h1 Hx T G C1. assert (De : direct h c e) by (exists x; auto).
    destruct (deps_direct h n c l D e De) as [l' L'].
    apply (IH h1 e l'); auto.
    + apply same_geom_range with (h := h); [auto|]. now apply range_under with (c := c).
    + intros d U. apply (same_geom_under h1 h) in U; [|apply same_geom_sym, G].
      destruct (same_geom_at h h1 d G) as (_ & _ & -> & _). apply S.
      destruct U as [->|U]; right; [now apply reach_one|eapply reach_more; eauto].
    + intros d U. apply (same_geom_under h1 h) in U; [|apply same_geom_sym, G].
      unfold get_dependencies. destruct G as (Ga & Gb & Gc & Gd) eqn:EG. rewrite Gc, (deps_fuel_geom _ h h1) by exact G. apply GD.
      destruct U as [->|U]; right; [now apply reach_one|eapply reach_more; eauto].
    + destruct G as (_ & _ & -> & _). exact Hp.
    + now rewrite (deps_fuel_geom _ h h1).
  - intros x e Hx T. assert (De : direct h c e) by (exists x; auto).
    destruct (get_dependencies h e true) as [de|] eqn:Ge; [|exfalso; apply (GD e); [right; now apply reach_one|exact Ge]].
    destruct (polys_fuel_total h e de Ge) as [ps Ps]. exists ps.
    unfold polys_fuel, flat_fuel in *. eapply iter_mono; [apply flat_mono|exact Hp|exact Ps].
  - rewrite R. eauto.
Qed.

End CacheProofs.
