(** C38 (Cell.copy) and C53 (gdspy.copy). *)

From Coq Require Import Reals Lra List ZArith Bool Lia Permutation.
From Verif Require Import Graph SpecGraph GraphProofs Plane SpecPlane PlaneProofs Hier SpecHier HierProofs HierQuery
  HierBox HierFlat Cache CacheProofs PropHier PropQuery PropBox PropFlat Copy.
Import ListNotations.
Open Scope R_scope.
Arguments Nat.ltb : simpl never.

(** The map asked for: reflect, scale, rotate, translate. *)
Definition motion_map (m : motion) : pt -> pt := similar (mv m) (mt m) (ms m) (m_x m).
Definition move_poly (m : motion) (sp : spec * poly) : spec * poly := (fst sp, map (motion_map m) (snd sp)).

Lemma no_motion m p : moving m = false -> motion_map m p = p.
Proof.
  destruct m as [[v|] [t|] [s|] [|]]; cbn; try discriminate. intros _. unfold motion_map, similar, turn, smul, flip, padd; cbn.
  rewrite cos_0, sin_0. destruct p; cbn; f_equal; ring.
Qed.
Lemma copy_pos_map m p : copy_pos m p = motion_map m p.
Proof.
  unfold copy_pos, motion_map, similar, turn, smul, flip, padd, mr. destruct (m_x m); cbn [fst snd]; f_equal; ring.
Qed.
Lemma copy_gset_map m g : copy_gset m g = map_pts (motion_map m) g.
Proof.
  assert (C : forall f1 f2 g, map_pts f1 (map_pts f2 g) = map_pts (fun p => f1 (f2 p)) g).
  { intros f1 f2 g0. unfold map_pts. rewrite map_map. apply map_ext; intros [l a b]. unfold on_pts; cbn. now rewrite map_map. }
  assert (E : forall f1 f2 g, (forall p, f1 p = f2 p) -> map_pts f1 g = map_pts f2 g).
  { intros f1 f2 g0 H. unfold map_pts. apply map_ext; intros [l a b]. unfold on_pts; cbn. f_equal. apply map_ext, H. }
  assert (I : g = map_pts (fun p => p) g).
  { unfold map_pts. rewrite <- (map_id g) at 1. apply map_ext; intros [l a b]. unfold on_pts; cbn. now rewrite map_id. }
  rewrite I at 1. generalize g; clear I g; intro g. destruct m as [[v|] [t|] [s|] [|]]; unfold copy_gset; cbn [m_v m_t m_s m_x];
    unfold ps_translate, ps_rotate, ps_scale; rewrite ?C; apply E; intros [x y];
    unfold motion_map, similar, turn, smul, flip, padd, scale_pt, rotate_pt, rot_cs, psub, pmul, padd, mv, mt, ms;
    cbn [m_v m_t m_s m_x fst snd]; rewrite ?cos_0, ?sin_0; f_equal; ring.
Qed.

Lemma copy_angle m pl pl' : copy_place m pl = Some pl' -> angle pl' = mr m * angle pl + mt m.
Proof.
  unfold copy_place. destruct (p_org pl) as [o|]; [|discriminate]. intro E; injection E as <-.
  unfold angle; cbn [p_rot]. unfold copy_rot.
  set (t0 := match p_rot pl with None => 0 | Some d => d * PI / 180 end).
  assert (N : PI <> 0) by apply PI_neq0.
  destruct (Req_EM_T ((mr m * t0 + mt m) * 180 / PI) 0) as [Z|Z].
  - replace (mr m * t0 + mt m) with ((mr m * t0 + mt m) * 180 / PI * PI / 180) by (field; auto). rewrite Z. field.
  - field; auto.
Qed.
Lemma copy_factor m pl pl' : copy_place m pl = Some pl' -> factor pl' = ms m * factor pl.
Proof.
  unfold copy_place. destruct (p_org pl) as [o|]; [|discriminate]. intro E; injection E as <-.
  unfold factor; cbn [p_mag]. unfold copy_mag. destruct (Req_EM_T _ 1) as [Z|Z]; congruence.
Qed.
Lemma copy_refl_m m b : copy_refl m b = m_x m.
Proof. unfold copy_refl, mr. destruct (m_x m), (Rlt_dec _ 0); auto; lra. Qed.
Lemma copy_place_map m pl pl' ij p : copy_place m pl = Some pl' -> p_refl pl = false ->
  (p_arr pl <> None -> ms m = 1) -> inst_map (pl', ij) p = motion_map m (inst_map (pl, ij) p).
Proof.
  intros E R A. pose proof (copy_angle _ _ _ E) as Ea. pose proof (copy_factor _ _ _ E) as Ef.
  assert (Er : p_refl pl' = m_x m /\ origin pl' = motion_map m (origin pl) /\ p_arr pl' = p_arr pl).
  { unfold copy_place in E. destruct (p_org pl) as [o|] eqn:O; [|discriminate]. injection E as <-. cbn [p_refl p_arr].
    split; [apply copy_refl_m|]. split; [|auto]. unfold origin; cbn [p_org]. rewrite O. apply copy_pos_map. }
  destruct Er as (Er & Eo & Ep). unfold inst_map. rewrite Ep. unfold element. rewrite Ea, Ef, Er, Eo, R.
  destruct (p_arr pl) as [[[n k] sp]|].
  - specialize (A ltac:(discriminate)). rewrite A.
    unfold motion_map, similar, turn, flip, smul, padd, mr. rewrite A. destruct (m_x m); cbn [fst snd];
      rewrite ?cos_plus, ?sin_plus; replace (-1 * angle pl) with (- angle pl) by ring; rewrite ?cos_neg, ?sin_neg;
      replace (1 * angle pl) with (angle pl) by ring; f_equal; ring.
  - unfold motion_map, similar, turn, flip, smul, padd, mr. destruct (m_x m); cbn [fst snd];
      rewrite ?cos_plus, ?sin_plus; replace (-1 * angle pl) with (- angle pl) by ring; rewrite ?cos_neg, ?sin_neg;
      replace (1 * angle pl) with (angle pl) by ring; f_equal; ring.
Qed.

Section PropCopy.
Context {P : Type} (ops : pathops P).
Notation heap := (heap place (stuff P)).
Implicit Types h : heap.

(** ** C38: Cell.copy *)

Lemma collect_single {X Y} (f : X -> option Y) l gs :
  collect (fun x => option_map (fun g => [g]) (f x)) l = Some gs -> Forall2 (fun x g => f x = Some g) l gs.
Proof.
  revert gs; induction l as [|x l IH]; intros gs E; cbn in E; [injection E as <-; constructor|].
  destruct (f x) as [y|] eqn:F; [|discriminate]. cbn in E. destruct (collect _ l) as [b|]; [|discriminate].
  injection E as <-. constructor; auto.
Qed.

Lemma F2_length {X Y} (R : X -> Y -> Prop) l l' : Forall2 R l l' -> length l = length l'.
Proof. induction 1; cbn; congruence. Qed.
Lemma expansion_det h : (forall c L, expansion h c L -> forall L', expansion h c L' -> L = L').
Proof.
  apply (expansion_ind2 _ h (fun c L _ => forall L', expansion h c L' -> L = L')
    (fun rs L _ => forall L', exp_refs h rs L' -> L = L')).
  - intros c l X IH L' X'. inversion X'; subst. f_equal. now apply IH.
  - intros L' X'. inversion X'; reflexivity.
  - intros r rs n l T X IH L' X'. inversion X' as [|? ? ? ? T' X2|? ? ? ? ? T' X1 X2]; subst; [now apply IH|congruence].
  - intros r rs d l1 l2 T X1 IH1 X2 IH2 L' X'. inversion X' as [|? ? ? ? T' Y2|? ? d' l1' l2' T' Y1 Y2]; subst; [congruence|].
    rewrite T in T'; injection T' as <-. now rewrite (IH1 _ Y1), (IH2 _ Y2).
Qed.

(** Everything that existed stays as it is, and the copy is one new cell, with
    the given name; its references are new objects for a deep copy, and the same
    objects otherwise. *)
Theorem C38_untouched : forall h c n deep m h', cell_copy ops h c n deep m = Some h' ->
  (forall d, (d < h_ncell h)%nat -> h_cell h' d = h_cell h d) /\
  (forall r, (r < h_nref h)%nat -> h_ref h' r = h_ref h r) /\
  h_ncell h' = S (h_ncell h) /\ cname h' (h_ncell h) = n /\
  length (crefs h' (h_ncell h)) = length (crefs h c) /\
  (if deep || moving m then forall r, In r (crefs h' (h_ncell h)) -> (h_nref h <= r < h_nref h')%nat
   else crefs h' (h_ncell h) = crefs h c).
Proof.
  intros h c n deep m h' E. unfold cell_copy in E. destruct (deep || moving m) eqn:D.
  - destruct (collect _ (crefs h c)) as [gs|] eqn:C; [|discriminate]. injection E as <-.
    apply collect_single, F2_length in C. unfold alloc_cell, alloc_refs, crefs, cname, upd; cbn.
    rewrite Nat.eqb_refl; cbn. repeat split; auto.
    + intros d Hd. destruct (Nat.eqb_spec d (h_ncell h)); [lia|auto].
    + intros r Hr. destruct (Nat.ltb_spec r (h_nref h)); [auto|lia].
    + rewrite seq_length. unfold crefs in C. auto.
    + apply in_seq in H. lia.
    + apply in_seq in H. lia.
  - injection E as <-. unfold alloc_cell, crefs, cname, upd; cbn. rewrite Nat.eqb_refl; cbn. repeat split; auto.
    intros d Hd. destruct (Nat.eqb_spec d (h_ncell h)); [lia|auto].
Qed.

(** The copy succeeds unless a transformation is asked for and some reference
    has no origin. *)
Theorem C38_defined : forall h c n deep m,
  (moving m = true -> forall r, In r (crefs h c) -> p_org (place_of h r) <> None) -> cell_copy ops h c n deep m <> None.
Proof.
  intros h c n deep m O. unfold cell_copy. destruct (deep || moving m); [|discriminate].
  assert (X : exists gs, collect (fun r => option_map (fun g => [g]) (copy_ref m (h_ref h r))) (crefs h c) = Some gs).
  { induction (crefs h c) as [|r l IH]; [now exists []|]. destruct IH as [gs G]; [intros; apply O; auto; now right|].
    cbn [collect]. rewrite G. unfold copy_ref, copy_place. destruct (moving m); cbn; [|eauto].
    specialize (O eq_refl r (or_introl eq_refl)). unfold place_of in O. destruct (p_org (r_data (h_ref h r))); [|congruence]. cbn. eauto. }
  destruct X as [gs ->]. discriminate.
Qed.

(** Queries below old cells do not see the change. *)
Lemma expansion_local h h' : 
  (forall c L, expansion h c L -> all_under h c (same_at h h') -> expansion h' c L) /\
  (forall rs L, exp_refs h rs L -> (forall r, In r rs -> h_ref h' r = h_ref h r) ->
     (forall r d, In r rs -> rtarget h r = ToCell d -> all_under h d (same_at h h')) -> exp_refs h' rs L).
Proof.
  apply (expansion_mutind _ h (fun c L _ => all_under h c (same_at h h') -> expansion h' c L)
    (fun rs L _ => (forall r, In r rs -> h_ref h' r = h_ref h r) ->
     (forall r d, In r rs -> rtarget h r = ToCell d -> all_under h d (same_at h h')) -> exp_refs h' rs L)).
  - intros c l X IH U. constructor. destruct (U c (or_introl eq_refl)) as (E1 & _ & _ & E4). rewrite E1. apply IH; auto.
    intros r d Hr T y [->|Uy]; apply U; right; [apply reach_one; exists r; auto|].
    eapply reach_more; [exists r; eauto|exact Uy].
  - intros _ _. constructor.
  - intros r rs n l T X IH S U. apply exp_name with n.
    + unfold rtarget in *. now rewrite (S r (or_introl eq_refl)).
    + apply IH; intros; [apply S|eapply U]; try right; eauto.
  - intros r rs d l1 l2 T X1 IH1 X2 IH2 S U. rewrite <- (S r (or_introl eq_refl)). apply exp_ref with d.
    + unfold rtarget in *. now rewrite (S r (or_introl eq_refl)).
    + apply IH1. apply (U r); auto. now left.
    + apply IH2; intros; [apply S|eapply U]; try right; eauto.
Qed.

Lemma placed_app f (a b : list (nat * chain)) : placed f (a ++ b) = placed f a ++ placed f b.
Proof. apply flat_map_app. Qed.
Lemma copy_refs_expand h h' (T : spec * poly -> spec * poly) f f' rs rs' l :
  Forall2 (fun r r' => rtarget h' r' = rtarget h r /\
    exists g, insts (place_of h' r') = map g (insts (place_of h r)) /\
      forall x sp ch, In x (insts (place_of h r)) -> place_poly (g x :: ch) sp = T (place_poly (x :: ch) sp)) rs rs' ->
  (forall d L, expansion h d L -> (exists r, In r rs /\ rtarget h r = ToCell d) ->
     expansion h' d L /\ forall ec, In ec L -> f' (fst ec) = f (fst ec)) ->
  exp_refs h rs l -> exists l', exp_refs h' rs' l' /\ placed f' l' = map T (placed f l).
Proof.
  intros F OLD X. revert rs' F. induction X as [|r rs n l Tr X IH|r rs d l1 l2 Tr X1 X2 IH]; intros rs' F.
  - inversion F; subst. exists []. split; [constructor|reflexivity].
  - inversion F as [|? r' ? rs0 [Et _] F0]; subst. destruct IH with (rs' := rs0) as (l' & X' & E); auto.
    { intros d L XL (r0 & I & T0). apply OLD; auto. exists r0; split; auto. now right. }
    exists l'. split; [|auto]. apply exp_name with n; congruence.
  - inversion F as [|? r' ? rs0 [Et (g & Gi & Gp)] F0]; subst. destruct IH with (rs' := rs0) as (l' & X' & E); auto.
    { intros d' L XL (r0 & I & T0). apply OLD; auto. exists r0; split; auto. now right. }
    destruct (OLD d l1 X1) as [O1 O2]; [exists r; split; [now left|auto]|].
    eexists. split; [apply exp_ref with d; [congruence|exact O1|exact X']|].
    rewrite !placed_app, map_app. f_equal; [|exact E]. unfold placed. change (r_data (h_ref h' r')) with (place_of h' r').
    rewrite Gi. change (r_data (h_ref h r)) with (place_of h r). rewrite flat_map_map, !flat_map_flat_map, map_flat_map.
    apply flat_map_ext_in. intros x Ix. rewrite !flat_map_map, map_flat_map. apply flat_map_ext_in. intros [e ch] Ie; cbn [fst snd].
    pose proof (O2 _ Ie) as Oe; cbn [fst] in Oe. rewrite Oe, map_map. apply map_ext. intro sp. apply Gp; auto.
Qed.

Lemma expansion_cells h c L : expansion h c L -> forall ec, In ec L -> under h c (fst ec).
Proof.
  apply (expansion_ind2 _ h (fun c L _ => forall ec, In ec L -> under h c (fst ec))
    (fun rs L _ => forall ec, In ec L -> exists r d, In r rs /\ rtarget h r = ToCell d /\ under h d (fst ec))).
  - intros c0 l X IH ec [<-|I]; [now left|]. destruct (IH ec I) as (r & d & Ir & T & U). right.
    assert (D : direct h c0 d) by (exists r; auto).
    destruct U as [->|U]; [now apply reach_one|eapply reach_more; eauto].
  - intros ec [].
  - intros r rs n l T X IH ec I. destruct (IH ec I) as (r0 & d & Ir & T0 & U). exists r0, d. split; [now right|auto].
  - intros r rs d l1 l2 T X1 IH1 X2 IH2 ec I. apply in_app_iff in I as [I|I].
    + apply in_flat_map in I as (i & _ & I). apply in_map_iff in I as (ec0 & <- & I0). exists r, d. cbn. split; [now left|auto].
    + destruct (IH2 ec I) as (r0 & d0 & Ir & T0 & U). exists r0, d0. split; [now right|auto].
Qed.

Lemma reach_old h : heap_wf h -> forall c d, (c < h_ncell h)%nat -> reach h c d -> (d < h_ncell h)%nat.
Proof.
  intros W c d Hc R. revert Hc. destruct W as [W1 W2].
  induction R as [c d (r & Ir & T)|c d e (r & Ir & T) R IH]; intro Hc; [|apply IH]; eapply W2; eauto.
Qed.
Lemma copy_same_at h c n deep m h' : heap_wf h -> cell_copy ops h c n deep m = Some h' ->
  forall d, (d < h_ncell h)%nat -> same_at h h' d /\ contents ops h' d = contents ops h d.
Proof.
  intros W E d Hd. destruct (C38_untouched _ _ _ _ _ _ E) as (A & B & _). unfold same_at, crefs, stuff_of, contents.
  rewrite (A d Hd). repeat split; auto. intros r Hr. apply B. eapply W; eauto.
Qed.

Lemma contents_moved m h h' c c' : stuff_of h' c' = move_stuff ops m (stuff_of h c) ->
  (moving m = true -> forall p, In p (s_paths (stuff_of h c)) ->
     path_content ops (po_move ops (m_v m) (m_t m) (m_s m) (m_x m) None p) = map (move_poly m) (path_content ops p)) ->
  contents ops h' c' = map (move_poly m) (contents ops h c).
Proof.
  intros E PF. unfold contents. change (c_data (h_cell h' c')) with (stuff_of h' c'). rewrite E.
  change (c_data (h_cell h c)) with (stuff_of h c). unfold move_stuff. destruct (moving m) eqn:M; cbn [s_polys s_paths].
  - rewrite map_app. f_equal.
    + rewrite flat_map_map, map_flat_map. apply flat_map_ext; intro ps. cbn [copy_pset ps_list]. rewrite copy_gset_map.
      unfold map_pts. rewrite !map_map. apply map_ext; intro g. reflexivity.
    + rewrite flat_map_map, map_flat_map. apply flat_map_ext_in. intros p Ip. apply (PF eq_refl p Ip).
  - rewrite <- (map_id (_ ++ _)) at 1. apply map_ext; intros [s l]. unfold move_poly; cbn [fst snd]. f_equal.
    rewrite <- (map_id l) at 1. apply map_ext; intro; symmetry; now apply no_motion.
Qed.

Lemma insts_copied pl pl' : p_arr pl' = p_arr pl -> insts pl' = map (fun x => (pl', snd x)) (insts pl).
Proof.
  intro E. unfold insts. rewrite E. destruct (p_arr pl) as [[[n k] sp]|]; [|reflexivity].
  rewrite map_flat_map. apply flat_map_ext; intro. now rewrite map_map.
Qed.

Lemma insts_fst pl x : In x (insts pl) -> fst x = pl.
Proof.
  unfold insts. destruct (p_arr pl) as [[[n k] sp]|].
  - intro I. apply in_flat_map in I as (i & _ & I). apply in_map_iff in I as (j & <- & _). reflexivity.
  - intros [<-|[]]. reflexivity.
Qed.

(** References the code transforms rightly. *)
Definition copyable (m : motion) (pl : place) : Prop := p_refl pl = false /\ (p_arr pl <> None -> ms m = 1).

(** What the copy shows is what the original shows, moved: the cells found in
    the copy and in the original correspond, and so do all their polygons, with layer
    and datatype.  Provided that the references of the cell itself are not
    reflected, that its arrays are not scaled, and that path.transform moves the
    polygons of its paths. *)
Theorem C38_contents : forall h c n deep m h' L, heap_wf h -> (c < h_ncell h)%nat ->
  cell_copy ops h c n deep m = Some h' -> expansion h c L ->
  (moving m = true -> forall r, In r (crefs h c) -> copyable m (place_of h r)) ->
  (moving m = true -> forall p, In p (s_paths (stuff_of h c)) ->
     path_content ops (po_move ops (m_v m) (m_t m) (m_s m) (m_x m) None p) = map (move_poly m) (path_content ops p)) ->
  exists L', expansion h' (h_ncell h) L' /\
    placed (contents ops h') L' = map (move_poly m) (placed (contents ops h) L).
Proof.
  intros h c n deep m h' L W Hc E X CP PF.
  destruct (C38_untouched _ _ _ _ _ _ E) as (A & B & _ & _ & _ & _).
  assert (St : stuff_of h' (h_ncell h) = move_stuff ops m (stuff_of h c)).
  { unfold cell_copy in E. destruct (deep || moving m); [destruct (collect _ _); [|discriminate]|]; injection E as <-;
      unfold stuff_of, alloc_cell, upd; cbn; now rewrite Nat.eqb_refl. }
  pose proof (contents_moved m h h' c _ St PF) as Co.
  inversion X as [c0 l Xr]; subst.
  destruct (copy_refs_expand h h' (move_poly m) (contents ops h) (contents ops h') (crefs h c) (crefs h' (h_ncell h)) l) as (l' & X' & Pl); auto.
  - unfold cell_copy in E. destruct (deep || moving m) eqn:D.
    + destruct (collect _ (crefs h c)) as [gs|] eqn:C; [|discriminate]. apply collect_single in C.
      injection E as Eh.
      assert (Cr : crefs h' (h_ncell h) = seq (h_nref h) (length gs))
        by (rewrite <- Eh; unfold crefs, alloc_cell, upd; cbn; now rewrite Nat.eqb_refl).
      rewrite Cr.
      assert (Hg : forall i, (i < length gs)%nat -> nth_error gs i = Some (h_ref h' (h_nref h + i)%nat)).
      { intros i Hi. rewrite <- Eh; unfold alloc_refs; cbn. destruct (Nat.ltb_spec (h_nref h + i) (h_nref h)); [lia|].
        replace (h_nref h + i - h_nref h)%nat with i by lia. now apply nth_error_nth'. }
      clear Eh. clear Cr St Co A B X Xr PF D Hc W. revert Hg. generalize (h_nref h).
      induction C as [|r g rs gs Cr C IH]; intros k Hg; cbn [length seq]; [constructor|]. constructor.
      * specialize (Hg 0%nat ltac:(cbn; lia)). cbn in Hg. rewrite Nat.add_0_r in Hg. injection Hg as ->.
        unfold copy_ref in Cr. unfold rtarget, place_of. destruct (moving m) eqn:M.
        -- destruct (copy_place m (r_data (h_ref h r))) as [pl'|] eqn:Cp; [|discriminate]. cbn in Cr. injection Cr as Cr.
           rewrite <- Cr. cbn [r_target r_data]. split; [reflexivity|].
           exists (fun x => (pl', snd x)). assert (Ar : p_arr pl' = p_arr (r_data (h_ref h r))).
           { unfold copy_place in Cp. destruct (p_org _); [|discriminate]. injection Cp as <-. reflexivity. }
           split; [now apply insts_copied|]. intros x [s l0] ch Ix. apply insts_fst in Ix. destruct x as [px ij]; cbn [fst snd] in *. subst px.
           unfold place_poly, move_poly; cbn [fst snd]. f_equal. rewrite map_map. apply map_ext; intro p.
           unfold chain_map; cbn [fold_right]. destruct (CP eq_refl r (or_introl eq_refl)) as [R1 R2]. now apply copy_place_map.
        -- injection Cr as Cr. rewrite <- Cr. split; [reflexivity|]. exists (fun x => x). split; [now rewrite map_id|].
           intros x [s l0] ch _. unfold move_poly; cbn [fst snd place_poly]. unfold place_poly; cbn [fst snd]. f_equal. rewrite map_map.
           apply map_ext; intro p. symmetry. now apply no_motion.
      * apply IH; [intros; apply CP; auto; now right|]. intros i Hi. specialize (Hg (S i) ltac:(cbn; lia)). cbn in Hg.
        now rewrite <- plus_n_Sm in Hg.
    + apply orb_false_iff in D as [_ M]. injection E as Eh.
      assert (Cr : crefs h' (h_ncell h) = crefs h c) by (rewrite <- Eh; unfold crefs, alloc_cell, upd; cbn; now rewrite Nat.eqb_refl).
      rewrite Cr. assert (Hr : forall r, h_ref h' r = h_ref h r) by (rewrite <- Eh; reflexivity). clear - Hr M.
      induction (crefs h c) as [|r rs IH]; constructor; auto. unfold rtarget, place_of. rewrite Hr. split; [reflexivity|].
      exists (fun x => x). split; [now rewrite map_id|]. intros x [s l0] ch _. unfold move_poly, place_poly; cbn [fst snd].
      f_equal. rewrite map_map. apply map_ext; intro p. symmetry. now apply no_motion.
  - intros d L XL (r & Ir & T).
    assert (Hd : (d < h_ncell h)%nat) by (destruct W as [W1 W2]; eapply W2; eauto).
    assert (U : forall y, under h d y -> (y < h_ncell h)%nat) by (intros y [->|U]; [auto|eapply reach_old; eauto]).
    split.
    + apply (expansion_local h h'); auto. intros y Uy. apply (copy_same_at h c n deep m h' W E y (U y Uy)).
    + intros ec Ie. apply (copy_same_at h c n deep m h' W E). apply U. eapply expansion_cells; eauto.
  - exists ((h_ncell h, []) :: l'). split; [now constructor|]. unfold placed in *. cbn [flat_map]. rewrite map_app. f_equal; [|exact Pl].
    cbn [fst snd]. rewrite Co, !map_map. apply map_ext; intros [s q]. unfold move_poly, place_poly, chain_map; cbn [fst snd fold_right].
    now rewrite !map_id.
Qed.

Lemma copy_targets h c n deep m h' : cell_copy ops h c n deep m = Some h' ->
  Forall2 (fun r r' => rtarget h' r' = rtarget h r /\ ((r' < h_nref h')%nat \/ r' = r)) (crefs h c) (crefs h' (h_ncell h)) /\
  (h_nref h <= h_nref h')%nat.
Proof.
  intro E. unfold cell_copy in E. destruct (deep || moving m) eqn:D.
  - destruct (collect _ (crefs h c)) as [gs|] eqn:C; [|discriminate]. apply collect_single in C.
    injection E as Eh. assert (Cr : crefs h' (h_ncell h) = seq (h_nref h) (length gs))
      by (rewrite <- Eh; unfold crefs, alloc_cell, upd; cbn; now rewrite Nat.eqb_refl).
    rewrite Cr.
    assert (Hg : forall i, (i < length gs)%nat -> nth_error gs i = Some (h_ref h' (h_nref h + i)%nat)).
    { intros i Hi. rewrite <- Eh; unfold alloc_refs; cbn. destruct (Nat.ltb_spec (h_nref h + i) (h_nref h)); [lia|].
      replace (h_nref h + i - h_nref h)%nat with i by lia. now apply nth_error_nth'. }
    assert (Hn : (h_nref h + length gs <= h_nref h')%nat) by (rewrite <- Eh; cbn; lia). split; [|lia].
    clear Eh Cr D. revert Hg Hn. generalize (h_nref h).
    induction C as [|r g rs gs Cr C IH]; intros k Hg Hn; cbn [length seq] in *; [constructor|]. constructor.
    + specialize (Hg 0%nat ltac:(cbn; lia)). cbn in Hg. rewrite Nat.add_0_r in Hg. injection Hg as ->. split; [|left; lia].
      unfold copy_ref in Cr. unfold rtarget. destruct (moving m).
      * destruct (copy_place m (r_data (h_ref h r))); [|discriminate]. cbn in Cr. injection Cr as Cr. now rewrite <- Cr.
      * injection Cr as Cr. now rewrite <- Cr.
    + apply IH; [|lia]. intros i Hi. specialize (Hg (S i) ltac:(cbn; lia)). cbn in Hg. now rewrite <- plus_n_Sm in Hg.
  - injection E as <-. unfold crefs, alloc_cell, upd; cbn. rewrite Nat.eqb_refl; cbn. split; [|lia].
    induction (c_refs (h_cell h c)); constructor; auto.
Qed.

(** The copy of a cell without circular references has none. *)
Theorem C38_defined_at : forall h c n deep m h', defined_at h c -> cell_copy ops h c n deep m = Some h' ->
  defined_at h' (h_ncell h).
Proof.
  intros h c n deep m h' (W & Hc & Ac) E. destruct (C38_untouched _ _ _ _ _ _ E) as (A & B & N & _ & _ & _).
  destruct (copy_targets _ _ _ _ _ _ E) as [F Nr].
  assert (T : forall r', In r' (crefs h' (h_ncell h)) -> exists r, In r (crefs h c) /\ rtarget h' r' = rtarget h r /\ (r' < h_nref h')%nat).
  { intros r' I. assert (Wr : forall r, In r (crefs h c) -> (r < h_nref h)%nat) by (intros; eapply W; eauto).
    clear - F I Wr Nr. induction F as [|r x rs xs [T O] F IH]; [destruct I|]. destruct I as [<-|I].
    - exists r. split; [now left|]. split; [auto|]. specialize (Wr r (or_introl eq_refl)). lia.
    - destruct (IH I) as (y & Iy & Ty); [intros; apply Wr; now right|]. exists y. split; [now right|auto]. }
  assert (O : forall d e, (d < h_ncell h)%nat -> direct h' d e -> direct h d e).
  { intros d e Hd (r & Ir & Tr). unfold crefs in Ir. rewrite (A d Hd) in Ir. exists r. split; [exact Ir|].
    unfold rtarget in *. rewrite B in Tr; [exact Tr|]. eapply W; eauto. }
  assert (O2 : forall d e, (d < h_ncell h)%nat -> reach h' d e -> reach h d e).
  { intros d e Hd Rd. induction Rd as [d e D|d e x D Rd IH]; [apply reach_one; auto|].
    pose proof (O d e Hd D) as D'. eapply reach_more; [exact D'|]. apply IH. destruct D' as (r & Ir & Tr). eapply W; eauto.
    eapply (proj1 W); eauto. }
  assert (NW : forall e, direct h' (h_ncell h) e -> direct h c e).
  { intros e (r' & Ir & Tr). destruct (T r' Ir) as (r & I0 & T0 & _). exists r. split; congruence. }
  assert (Lt : forall d e, (d < h_ncell h)%nat -> direct h d e -> (e < h_ncell h)%nat).
  { intros d e Hd (r & Ir & Tr). eapply (proj2 W); eauto. eapply (proj1 W); eauto. }
  split; [|split].
  - split.
    + intros d r Hd Ir. destruct (Nat.eq_dec d (h_ncell h)) as [->|Nd].
      * destruct (T r Ir) as (_ & _ & _ & H). exact H.
      * unfold crefs in Ir. rewrite A in Ir by lia. enough (r < h_nref h)%nat by lia. eapply (proj1 W) with d; [lia|exact Ir].
    + intros r d Hr Tr. rewrite N.
      destruct (Nat.lt_ge_cases r (h_nref h)) as [Lr|Ge].
      * unfold rtarget in Tr. rewrite B in Tr by lia. enough (d < h_ncell h)%nat by lia. eapply (proj2 W); eauto.
      * assert (In r (crefs h' (h_ncell h))) as I.
        { clear - E Hr Ge. unfold cell_copy in E. destruct (deep || moving m).
          - destruct (collect _ _) as [gs|]; [|discriminate]. injection E as <-. cbn in Hr.
            unfold crefs, alloc_cell, upd; cbn. rewrite Nat.eqb_refl; cbn. apply in_seq. lia.
          - injection E as <-. cbn in Hr. lia. }
        destruct (T r I) as (r0 & I0 & T0 & _). rewrite T0 in Tr. enough (d < h_ncell h)%nat by lia.
        eapply (proj2 W); [|exact Tr]. eapply (proj1 W); eauto.
  - lia.
  - intros d [->|Rd] Cy.
    + assert (X : exists e, direct h c e /\ (e = h_ncell h \/ reach h' e (h_ncell h))).
      { inversion Cy as [x y D|x y z D R]; subst; eexists; split; eauto. }
      destruct X as (e & De & [->|R]); pose proof (Lt _ _ Hc De); [lia|].
      apply O2 in R; [|auto]. apply (reach_old h W) in R; auto. lia.
    + assert (X : exists e, direct h c e /\ (d = e \/ reach h' e d)).
      { inversion Rd as [x y D|x y z D R]; subst; eexists; split; eauto. }
      destruct X as (e & De & Or). pose proof (Lt _ _ Hc De) as He.
      assert (Rc : reach h c d /\ (d < h_ncell h)%nat).
      { destruct Or as [->|R]; [split; [now apply reach_one|auto]|]. apply O2 in R; auto.
        split; [eapply reach_more; eauto|]. eapply reach_old; eauto. }
      destruct Rc as [Rc Hd]. apply (Ac d (or_intror Rc)). now apply O2.
Qed.

(** In terms of the query: get_polygons() of the copy is get_polygons() of the
    original, in the same order, with every vertex moved. *)
Theorem C38_get_polygons : forall h c n deep m h', defined_at h c -> cell_copy ops h c n deep m = Some h' ->
  (moving m = true -> forall r, In r (crefs h c) -> copyable m (place_of h r)) ->
  (moving m = true -> forall p, In p (s_paths (stuff_of h c)) ->
     path_content ops (po_move ops (m_v m) (m_t m) (m_s m) (m_x m) None p) = map (move_poly m) (path_content ops p)) ->
  exists l, get_polygons ops h c = Some l /\
    get_polygons ops h' (h_ncell h) = Some (map (map (similar (mv m) (mt m) (ms m) (m_x m))) l).
Proof.
  intros h c n deep m h' D E CP PF. pose proof (C38_defined_at _ _ _ _ _ _ D E) as D'.
  destruct (C39_expansion ops h c D) as (L & l & X & G & El). destruct (C39_expansion ops h' _ D') as (L1 & l1 & X1 & G1 & El1).
  destruct (C38_contents h c n deep m h' L) as (L' & X' & Pl); auto; try apply D.
  exists l. split; [exact G|]. unfold get_polygons in *. rewrite G1. f_equal.
  assert (L1 = L') as -> by (eapply expansion_det; eauto). rewrite El1, El, Pl, !map_map. reflexivity.
Qed.

(** Labels of the cell: moved to the image of their position, turned and scaled. *)
Definition label_angle (l : lbl) : R := match l_rot l with Some d => d * PI / 180 | None => 0 end.
Definition label_factor (l : lbl) : R := match l_mag l with Some k => k | None => 1 end.
Theorem C38_labels : forall h c n deep m h', cell_copy ops h c n deep m = Some h' ->
  Forall2 (fun l l' => l_text l' = l_text l /\ l_layer l' = l_layer l /\ l_tt l' = l_tt l /\
     l_pos l' = similar (mv m) (mt m) (ms m) (m_x m) (l_pos l) /\
     label_factor l' = ms m * label_factor l /\
     label_angle l' = (if m_x m then mt m - label_angle l else mt m + label_angle l) /\
     (l_refl l = false -> l_refl l' = m_x m))
    (s_labels (stuff_of h c)) (s_labels (stuff_of h' (h_ncell h))).
Proof.
  intros h c n deep m h' E.
  assert (St : stuff_of h' (h_ncell h) = move_stuff ops m (stuff_of h c)).
  { unfold cell_copy in E. destruct (deep || moving m); [destruct (collect _ _); [|discriminate]|]; injection E as <-;
      unfold stuff_of, alloc_cell, upd; cbn; now rewrite Nat.eqb_refl. }
  rewrite St. clear. unfold move_stuff. destruct (moving m) eqn:M; cbn [s_labels].
  - induction (s_labels (stuff_of h c)) as [|l ls IH]; cbn [map]; constructor; auto. cbn [copy_label l_text l_layer l_tt l_pos l_refl].
    repeat (split; [reflexivity|]). split; [apply copy_pos_map|].
    pose proof (copy_angle m (Place (Some (0, 0)) (l_rot l) (l_mag l) false None) _ eq_refl) as Ea.
    pose proof (copy_factor m (Place (Some (0, 0)) (l_rot l) (l_mag l) false None) _ eq_refl) as Ef.
    unfold angle, factor in *; cbn [p_rot p_mag] in *.
    split; [exact Ef|]. split; [|intros _; apply copy_refl_m].
    unfold label_angle; cbn [l_rot copy_label]. rewrite Ea. unfold mr. destruct (m_x m); ring.
  - destruct m as [[v|] [t|] [s|] [|]]; try discriminate M. clear M.
    induction (s_labels (stuff_of h c)) as [|l ls IH]; constructor; auto. repeat (split; [reflexivity|]). cbn [m_x ms mt mv m_s m_t m_v].
    repeat split; auto; try ring. symmetry. apply (no_motion (Motion None None None false)). reflexivity.
Qed.

(** ** C53: gdspy.copy *)

Definition shift (v p : pt) : pt := (fst p + fst v, snd p + snd v).

Lemma copied_cases {X} (tr : pt -> X -> option X) v x :
  (v = (0, 0) /\ copy_translated tr v x = Some x) \/ copy_translated tr v x = tr v x.
Proof.
  unfold copy_translated. destruct v as [a b]; cbn [fst snd]. destruct (Req_EM_T a 0); [|auto].
  destruct (Req_EM_T b 0); [left; subst; auto|auto].
Qed.

Theorem C53_polygons : forall v (s : gset),
  copy_polygons v s = Some (map (fun g => GPoly (map (shift v) (g_pts g)) (g_layer g) (g_dt g)) s).
Proof.
  intros v s. unfold copy_polygons. destruct (copied_cases (fun v s => Some (ps_translate v s)) v s) as [[-> ->]| ->]; [f_equal|reflexivity].
  - rewrite <- (map_id s) at 1. apply map_ext; intros [l a b]; cbn. f_equal. rewrite <- (map_id l) at 1.
    apply map_ext; intros [x y]. unfold shift; cbn. f_equal; ring.
Qed.
Theorem C53_label : forall v l, copy_a_label v l =
  Some (Lbl (l_text l) (shift v (l_pos l)) (l_layer l) (l_tt l) (l_rot l) (l_mag l) (l_refl l)).
Proof.
  intros v l. unfold copy_a_label. destruct (copied_cases (fun v l => Some (label_translate v l)) v l) as [[-> ->]| ->]; [f_equal|reflexivity].
  destruct l as [a [x y] b c d e f]; unfold shift; cbn. do 2 f_equal; ring.
Qed.

Lemma deep_polys h fuel c : (c < h_ncell h)%nat -> heap_wf h ->
  polys_fuel ops (deep_heap h) fuel (h_ncell h + c) = polys_fuel ops h fuel c.
Proof.
  intros Hc W. unfold polys_fuel, flat_fuel. revert c Hc; induction fuel as [|f IH]; intros c Hc; [reflexivity|].
  cbn [iter_fuel]. unfold flat_step at 1 3. cbn [below next option_map].
  assert (C : h_cell (deep_heap h) (h_ncell h + c) =
              GCell (c_name (h_cell h c)) (map (fun r => (h_nref h + r)%nat) (crefs h c)) (c_data (h_cell h c))).
  { cbn. destruct (Nat.ltb_spec (h_ncell h + c) (h_ncell h)); [lia|]. now replace (h_ncell h + c - h_ncell h)%nat with c by lia. }
  unfold stuff_of. unfold crefs at 1. rewrite C. cbn [c_refs c_data].
  assert (X : expand (deep_heap h) (iter_fuel (flat_step ops (fun _ => None) (deep_heap h)) f) (fun pl l => Some (place_polys pl l)) None
                (map (fun r => (h_nref h + r)%nat) (crefs h c)) =
              expand h (iter_fuel (flat_step ops (fun _ => None) h) f) (fun pl l => Some (place_polys pl l)) None (crefs h c)).
  { assert (Wr : forall r, In r (crefs h c) -> (r < h_nref h)%nat) by (intros; eapply (proj1 W); eauto).
    clear C. unfold expand. induction (crefs h c) as [|r rs IHr]; [reflexivity|]. cbn [map collect].
    rewrite IHr by (intros; apply Wr; now right). specialize (Wr r (or_introl eq_refl)).
    assert (G : h_ref (deep_heap h) (h_nref h + r) = GRef (deep_target h (rtarget h r)) (place_of h r)).
    { cbn. destruct (Nat.ltb_spec (h_nref h + r) (h_nref h)); [lia|]. now replace (h_nref h + r - h_nref h)%nat with r by lia. }
    unfold place_of at 1. unfold rtarget at 1. rewrite G. cbn [r_target r_data].
    destruct (rtarget h r) as [e|n] eqn:T; cbn [deep_target]; [|reflexivity].
    rewrite IH; [reflexivity|]. eapply (proj2 W); eauto. }
  now rewrite X.
Qed.

(** The polygons of a reference: those of its cell, placed. *)
Definition ref_polygons (h : heap) (fuel r : nat) : option (list poly) :=
  match rtarget h r with
  | ToName _ => Some []
  | ToCell c => option_map (place_polys (place_of h r)) (polys_fuel ops h fuel c)
  end.

Lemma place_translated v pl pl' l : place_translate v pl = Some pl' ->
  place_polys pl' l = map (map (shift v)) (place_polys pl l).
Proof.
  unfold place_translate. destruct pl as [[o|] a m b arr]; cbn [p_org]; [|discriminate]. intro E; injection E as <-.
  unfold place_polys; cbn [p_arr]. destruct arr as [[[n k] sp]|].
  - rewrite map_flat_map. apply flat_map_ext; intro spc. rewrite map_map. apply map_ext; intro q. rewrite map_map. apply map_ext; intro p.
    unfold arr_map, shift, do_org, padd; cbn [p_org p_rot p_mag p_refl fst snd]. f_equal; ring.
  - rewrite map_map. apply map_ext; intro q. rewrite map_map. apply map_ext; intro p.
    unfold ref_map, shift, do_org, padd; cbn [p_org p_rot p_mag p_refl fst snd]. f_equal; ring.
Qed.

Lemma deep_direct h a0 b : direct (deep_heap h) (h_ncell h + a0) b -> exists b0, b = (h_ncell h + b0)%nat /\ direct h a0 b0.
Proof.
  intros (r & Ir & T). unfold crefs in Ir. cbn in Ir. destruct (Nat.ltb_spec (h_ncell h + a0) (h_ncell h)); [lia|]. cbn in Ir.
  replace (h_ncell h + a0 - h_ncell h)%nat with a0 in Ir by lia. apply in_map_iff in Ir as (r0 & <- & Ir).
  unfold rtarget in T. cbn in T. destruct (Nat.ltb_spec (h_nref h + r0) (h_nref h)); [lia|]. cbn in T.
  replace (h_nref h + r0 - h_nref h)%nat with r0 in T by lia.
  destruct (r_target (h_ref h r0)) as [e|n] eqn:Te; cbn in T; [|discriminate]. injection T as <-. exists e. split; [auto|]. exists r0. auto.
Qed.

(** Copying a reference or an array: the copy shows the polygons of the
    original, translated; no existing object has changed, and the copy refers to none
    of them: it has its own copy of the referenced cell and of all below. *)
Theorem C53_reference : forall h r v h', heap_wf h -> (r < h_nref h)%nat ->
  (forall c, rtarget h r = ToCell c -> acyclic h c) -> copy_reference v h r = Some h' ->
  (forall fuel, ref_polygons h' fuel (h_nref h + r) = option_map (map (map (shift v))) (ref_polygons h fuel r)) /\
  (forall c, (c < h_ncell h)%nat -> h_cell h' c = h_cell h c) /\
  (forall x, (x < h_nref h)%nat -> h_ref h' x = h_ref h x) /\
  (forall c, rtarget h r = ToCell c -> exists c', rtarget h' (h_nref h + r) = ToCell c' /\ (h_ncell h <= c')%nat /\
     forall y, under h' c' y -> (h_ncell h <= y)%nat).
Proof.
  intros h r v h' W Hr Ac E. unfold copy_reference in E.
  destruct (copy_translated _ v (place_of (deep_heap h) (h_nref h + r))) as [pl|] eqn:C; [|discriminate]. injection E as <-.
  assert (G : h_ref (deep_heap h) (h_nref h + r) = GRef (deep_target h (rtarget h r)) (place_of h r)).
  { cbn. destruct (Nat.ltb_spec (h_nref h + r) (h_nref h)); [lia|]. now replace (h_nref h + r - h_nref h)%nat with r by lia. }
  set (h2 := set_ref _ _ _).
  assert (Gr : h_ref h2 (h_nref h + r) = GRef (deep_target h (rtarget h r)) pl).
  { unfold h2, set_ref, upd; cbn. rewrite Nat.eqb_refl. unfold rtarget at 1. now rewrite G. }
  assert (Pl : forall l, place_polys pl l = map (map (shift v)) (place_polys (place_of h r) l)).
  { intro l. unfold place_of in C at 1. rewrite G in C. cbn [r_data] in C.
    destruct (copied_cases place_translate v (place_of h r)) as [[-> Ec]|Ec]; rewrite Ec in C.
    - injection C as <-. rewrite <- (map_id (place_polys _ _)) at 1. apply map_ext; intro q. rewrite <- (map_id q) at 1.
      apply map_ext; intros [x y]. unfold shift; cbn. f_equal; ring.
    - now apply place_translated. }
  assert (Old : forall x, x <> (h_nref h + r)%nat -> h_ref h2 x = h_ref (deep_heap h) x).
  { intros x N. unfold h2, set_ref, upd; cbn. destruct (Nat.eqb_spec x (h_nref h + r)); [contradiction|reflexivity]. }
  assert (Tg : forall x, rtarget h2 x = rtarget (deep_heap h) x).
  { intro x. unfold rtarget. destruct (Nat.eq_dec x (h_nref h + r)) as [->|N]; [rewrite Gr, G; reflexivity|now rewrite Old]. }
  assert (Dir : forall y z, (h_ncell h <= y)%nat -> direct h2 y z -> (h_ncell h <= z)%nat).
  { intros y z Hy (x & Ix & Tx). rewrite Tg in Tx. change (crefs h2 y) with (crefs (deep_heap h) y) in Ix.
    unfold crefs in Ix. cbn in Ix. destruct (Nat.ltb_spec y (h_ncell h)); [lia|]. cbn in Ix.
    apply in_map_iff in Ix as (x0 & <- & _). unfold rtarget in Tx. cbn in Tx. destruct (Nat.ltb_spec (h_nref h + x0) (h_nref h)); [lia|].
    cbn in Tx. destruct (r_target _); cbn in Tx; [injection Tx as <-; lia|discriminate]. }
  split; [|split; [|split]].
  - intro fuel. unfold ref_polygons. unfold rtarget at 1, place_of at 1. rewrite Gr. cbn [r_target r_data].
    destruct (rtarget h r) as [c|n] eqn:T; cbn [deep_target]; [|reflexivity].
    assert (Hc : (c < h_ncell h)%nat) by (eapply (proj2 W); eauto).
    assert (Lc : polys_fuel ops h2 fuel (h_ncell h + c) = polys_fuel ops h fuel c).
    2: { rewrite Lc. destruct (polys_fuel ops h fuel c) as [l|]; cbn; [|reflexivity]. f_equal. apply Pl. }
    rewrite <- (deep_polys h fuel c Hc W). apply polys_local. intros y U.
    assert (Y : exists y0, y = (h_ncell h + y0)%nat /\ under h c y0).
    { destruct U as [->|U]; [exists c; split; [auto|now left]|].
      assert (H : forall a b, reach (deep_heap h) a b -> forall a0, a = (h_ncell h + a0)%nat -> exists b0, b = (h_ncell h + b0)%nat /\ reach h a0 b0).
      { intros a b R. induction R as [a b D|a b x D R IH]; intros a0 ->; destruct (deep_direct h a0 b D) as (b0 & -> & D0).
        - exists b0. split; [auto|now apply reach_one].
        - destruct (IH b0 eq_refl) as (x0 & -> & R0). exists x0. split; [auto|eapply reach_more; eauto]. }
      destruct (H _ _ U c eq_refl) as (y0 & -> & R0). exists y0. split; [auto|now right]. }
    destruct Y as (y0 & -> & U0). unfold same_at. repeat split. intros x Ix. apply Old. intros ->.
    unfold crefs in Ix. cbn in Ix. destruct (Nat.ltb_spec (h_ncell h + y0) (h_ncell h)); [lia|]. cbn in Ix.
    replace (h_ncell h + y0 - h_ncell h)%nat with y0 in Ix by lia. apply in_map_iff in Ix as (x0 & Ex & Ix).
    assert (x0 = r) as -> by lia. assert (D : direct h y0 c) by (exists r; auto).
    destruct U0 as [->|U0]; [apply (Ac c eq_refl c (or_introl eq_refl)); now apply reach_one|].
    apply (Ac c eq_refl y0 (or_intror U0)). eapply reach_more; eauto.
  - intros c Hc. unfold h2, set_ref; cbn. destruct (Nat.ltb_spec c (h_ncell h)); [reflexivity|lia].
  - intros x Hx. rewrite Old by lia. cbn. destruct (Nat.ltb_spec x (h_nref h)); [reflexivity|lia].
  - intros c T. exists (h_ncell h + c)%nat. split; [unfold rtarget; rewrite Gr; cbn [r_target]; now rewrite T|]. split; [lia|].
    intros y [->|U]; [lia|]. assert (H : forall a b, reach h2 a b -> (h_ncell h <= a)%nat -> (h_ncell h <= b)%nat).
    { intros a b R. induction R as [a b D|a b x D R IH]; intro Ha; [eauto|]. apply IH. eauto. }
    eapply H; [exact U|lia].
Qed.

(** It succeeds, except that an object whose origin is None cannot be moved. *)
Theorem C53_defined : forall h r v, (p_org (place_of h r) <> None \/ v = (0, 0)) -> copy_reference v h r <> None.
Proof.
  intros h r v O. unfold copy_reference.
  assert (G : place_of (deep_heap h) (h_nref h + r) = place_of h r).
  { unfold place_of. cbn. destruct (Nat.ltb_spec (h_nref h + r) (h_nref h)); [lia|]. now replace (h_nref h + r - h_nref h)%nat with r by lia. }
  rewrite G. unfold copy_translated, place_translate.
  destruct (p_org (place_of h r)) as [o|]; [repeat destruct (Req_EM_T _ _); discriminate|].
  destruct O as [O| ->]; [congruence|]. cbn. destruct (Req_EM_T 0 0); [discriminate|congruence].
Qed.

End PropCopy.

Arguments Nat.ltb : simpl nomatch.

(** ** What the code gets wrong *)

(** Cell 0 holds a triangle; cell 1 holds one reference to it, placed by [pl]. *)
Definition one_ref (pl : place) : heap place (stuff (list (spec * list poly))) :=
  put (put (new_cell (new_cell nothing [65%Z]) [66%Z]) 0 (EPoly (PSet [GPoly tri 1 0] false))) 1 (ERef (ToCell 0) pl).
Lemma one_ref_polys pl : get_polygons toy (one_ref pl) 1 = Some (place_polys pl [tri]).
Proof. unfold get_polygons, polys_fuel, flat_fuel. cbn. now rewrite app_nil_r. Qed.
Lemma one_ref_copy pl pl' m : moving m = true -> copy_place m pl = Some pl' ->
  exists h', cell_copy toy (one_ref pl) 1 [67%Z] true m = Some h' /\ get_polygons toy h' 2 = Some (place_polys pl' [tri]).
Proof.
  intros M C. unfold cell_copy. cbn [orb].
  assert (R : crefs (one_ref pl) 1 = [0%nat] /\ h_ref (one_ref pl) 0%nat = GRef (ToCell 0) pl) by (split; reflexivity).
  destruct R as [R1 R2]. rewrite R1. cbn [collect]. rewrite R2. unfold copy_ref. rewrite M. cbn [r_data r_target]. rewrite C. cbn [option_map].
  eexists. split; [reflexivity|]. unfold get_polygons, polys_fuel, flat_fuel. cbn. unfold move_stuff. rewrite M. cbn. now rewrite app_nil_r.
Qed.

(** A reflected reference loses its reflection, even if the cell is only translated. *)
Theorem C38_reflection_refuted : exists (h : heap place (stuff (list (spec * list poly)))) c m h' l l',
  get_polygons toy h c = Some l /\ cell_copy toy h c [67%Z] true m = Some h' /\
  get_polygons toy h' (h_ncell h) = Some l' /\ m_x m = false /\ m_s m = None /\ l' <> map (map (motion_map m)) l.
Proof.
  set (pl := Place (Some (0, 0)) None None true None). set (m := Motion (Some (0, 0)) None None false).
  destruct (copy_place m pl) as [pl'|] eqn:C; [|discriminate].
  destruct (one_ref_copy pl pl' m eq_refl C) as (h' & E & G).
  exists (one_ref pl), 1%nat, m, h', (place_polys pl [tri]), (place_polys pl' [tri]).
  split; [apply one_ref_polys|]. split; [exact E|]. split; [exact G|]. split; [reflexivity|]. split; [reflexivity|].
  assert (A : p_arr pl' = None) by (unfold copy_place in C; cbn in C; injection C as <-; reflexivity).
  unfold place_polys. rewrite A. cbn [pl p_arr]. rewrite map_map. intro Q.
  assert (Ha : angle pl' = 0) by (rewrite (copy_angle _ _ _ C); unfold angle, mt, mr; cbn; ring).
  assert (Hf : factor pl' = 1) by (rewrite (copy_factor _ _ _ C); unfold factor, ms; cbn; ring).
  assert (Hr : p_refl pl' = false) by (unfold copy_place in C; cbn in C; injection C as <-; cbn; apply (copy_refl_m m)).
  assert (Ho : origin pl' = (0, 0)).
  { unfold copy_place in C; cbn in C; injection C as <-; unfold origin; cbn [p_org]. rewrite copy_pos_map.
    unfold motion_map, similar, turn, smul, flip, padd; cbn. rewrite cos_0, sin_0. f_equal; ring. }
  unfold tri in Q. cbn [map] in Q. apply (f_equal (fun l => snd (nth 2 (nth 0 l []) (0, 0)))) in Q. cbn [nth] in Q.
  rewrite !ref_map_similar in Q by now right. rewrite Ha, Hf, Hr, Ho in Q.
  unfold motion_map, similar, turn, smul, flip, padd, angle, factor, origin, ms, mt, mv in Q. cbn in Q. rewrite cos_0, sin_0 in Q. lra.
Qed.

(** Scaling the copy of a cell with an array leaves the spacing as it was. *)
Theorem C38_spacing_refuted : exists (h : heap place (stuff (list (spec * list poly)))) c m h' l l',
  get_polygons toy h c = Some l /\ cell_copy toy h c [67%Z] true m = Some h' /\
  get_polygons toy h' (h_ncell h) = Some l' /\ m = Motion None None (Some 2) false /\ l' <> map (map (motion_map m)) l.
Proof.
  set (pl := Place (Some (0, 0)) None None false (Some (2%nat, 1%nat, (10, 0)))). set (m := Motion None None (Some 2) false).
  destruct (copy_place m pl) as [pl'|] eqn:C; [|discriminate].
  destruct (one_ref_copy pl pl' m eq_refl C) as (h' & E & G).
  exists (one_ref pl), 1%nat, m, h', (place_polys pl [tri]), (place_polys pl' [tri]).
  split; [apply one_ref_polys|]. split; [exact E|]. split; [exact G|]. split; [reflexivity|].
  assert (A : p_arr pl' = p_arr pl) by (unfold copy_place in C; cbn in C; injection C as <-; reflexivity).
  unfold place_polys. rewrite A. cbn [pl p_arr]. unfold grid; cbn [seq flat_map map app]. unfold tri; cbn [map]. intro Q.
  apply (f_equal (fun l => fst (nth 0 (nth 1 l []) (0, 0)))) in Q. cbn [nth] in Q.
  assert (Ha : angle pl' = 0) by (rewrite (copy_angle _ _ _ C); unfold angle, mt, mr; cbn; ring).
  assert (Hf : factor pl' = 2) by (rewrite (copy_factor _ _ _ C); unfold factor, ms; cbn; ring).
  assert (Hr : p_refl pl' = false) by (unfold copy_place in C; cbn in C; injection C as <-; cbn; apply (copy_refl_m m)).
  assert (Ho : origin pl' = (0, 0)).
  { unfold copy_place in C; cbn in C; injection C as <-; unfold origin; cbn [p_org]. rewrite copy_pos_map.
    unfold motion_map, similar, turn, smul, flip, padd; cbn. rewrite cos_0, sin_0. f_equal; ring. }
  change (10 * INR 1, 0 * INR 0) with (fst (10, 0) * INR 1, snd (10, 0) * INR 0) in Q. rewrite !arr_map_similar in Q.
  unfold element in Q. rewrite Ha, Hf, Hr, Ho in Q.
  unfold motion_map, similar, turn, smul, flip, padd, angle, factor, origin, ms, mt, mv in Q. cbn in Q. rewrite cos_0, sin_0 in Q. lra.
Qed.

(** A cell with a triangle, a path, a label, a turned and doubled reference and an
    array is copied, reflected and turned. *)
Definition cpy : heap place (stuff (list (spec * list poly))) :=
  let h := one_ref (Place (Some (10, 0)) (Some 90) (Some 2) false None) in
  let h := put h 1 (EPoly (PSet [GPoly tri 4 0] false)) in
  let h := put h 1 (EPath [((2%Z, 0%Z), [tri])]) in
  let h := put h 1 (ELabel (Lbl [88%Z] (5, 6) 3 (Some 4%Z) None None false)) in
  put h 1 (ERef (ToCell 0) (Place (Some (0, 0)) (Some 30) None false (Some (2%nat, 3%nat, (100, 50))))).
Definition cpm : motion := Motion (Some (1, 2)) (Some 3) None true.
Lemma toy_moves m p : path_content toy (po_move toy (m_v m) (m_t m) (m_s m) (m_x m) None p) = map (move_poly m) (path_content toy p).
Proof.
  unfold path_content, toy; cbn [po_move po_polys]. rewrite flat_map_map, map_flat_map. apply flat_map_ext; intros [s l]; cbn [fst snd].
  rewrite !map_map. apply map_ext; intro q. unfold move_poly; cbn [fst snd]. f_equal. apply map_ext; intros [x y].
  destruct m as [[v|] [t|] [s0|] [|]]; unfold toy_map, motion_map, similar, turn, smul, flip, padd, do_org, do_refl, do_mag, rot_cs, pmul, padd, mv, mt, ms;
    cbn [m_v m_t m_s m_x fst snd]; rewrite ?cos_0, ?sin_0; f_equal; ring.
Qed.
Example C38_demo : defined_at cpy 1 /\ moving cpm = true /\
  (forall r, In r (crefs cpy 1) -> copyable cpm (place_of cpy r) /\ p_org (place_of cpy r) <> None) /\ length (crefs cpy 1) = 2%nat.
Proof.
  split; [|split; [reflexivity|split; [|reflexivity]]].
  - split; [|split; [cbn; lia|]].
    + assert (W : heap_wf (new_cell (new_cell (@nothing (list (spec * list poly))) [65%Z]) [66%Z])).
      { apply (sound_new toy _ (fun _ => False)), (sound_new toy), nothing_sound. }
      unfold cpy, one_ref. repeat (apply put_wf; [|cbn; lia|cbn; auto; lia]). exact W.
    + assert (D : get_dependencies cpy 1 true <> None) by (vm_compute; discriminate).
      destruct (get_dependencies cpy 1 true) as [l|] eqn:E; [|congruence]. exact (deps_acyclic _ _ _ _ E).
  - assert (R : crefs cpy 1 = [0%nat; 1%nat]) by reflexivity. rewrite R.
    assert (P0 : place_of cpy 0 = Place (Some (10, 0)) (Some 90) (Some 2) false None) by reflexivity.
    assert (P1 : place_of cpy 1 = Place (Some (0, 0)) (Some 30) None false (Some (2%nat, 3%nat, (100, 50)))) by reflexivity.
    intros r [H|[H|[]]]; rewrite <- H; rewrite ?P0, ?P1; unfold copyable; cbn; repeat split; auto; discriminate.
Qed.
Example C53_demo : forall h', copy_reference (3, 4) cpy 0 = Some h' ->
  ref_polygons toy h' 1 2 = Some (map (map (shift (3, 4))) (place_polys (place_of cpy 0) [tri])).
Proof.
  intros h' E. destruct C38_demo as ((W & _ & _) & _).
  destruct (C53_reference toy cpy 0 (3, 4) h' W) as (F & _); auto.
  - cbn; lia.
  - intros c T. assert (T0 : rtarget cpy 0 = ToCell 0) by reflexivity. rewrite T0 in T. injection T as <-.
    assert (D : get_dependencies cpy 0 true <> None) by (vm_compute; discriminate).
    destruct (get_dependencies cpy 0 true) as [l|] eqn:Ed; [|congruence]. exact (deps_acyclic _ _ _ _ Ed).
  - specialize (F 1%nat). assert (N : h_nref cpy = 2%nat) by reflexivity. rewrite N in F. cbn [Nat.add] in F. rewrite F. reflexivity.
Qed.

Print Assumptions C38_untouched.
Print Assumptions C38_defined.
Print Assumptions C38_contents.
Print Assumptions C38_defined_at.
Print Assumptions C38_get_polygons.
Print Assumptions C38_labels.
Print Assumptions C38_reflection_refuted.
Print Assumptions C38_spacing_refuted.
Print Assumptions C53_polygons.
Print Assumptions C53_label.
Print Assumptions C53_reference.
Print Assumptions C53_defined.
