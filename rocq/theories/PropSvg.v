(** C82: what the SVG of a cell shows. *)

From Coq Require String.
From Coq Require Import Reals Lra List ZArith Bool Lia.
From Verif Require Import Graph SpecGraph GraphProofs Plane SpecPlane PlaneProofs Hier SpecHier HierProofs HierQuery
  HierBox HierFlat Cache CacheProofs PropHier PropQuery PropBox Text SpecText PropText Svg SpecSvg.
Import ListNotations.
Open Scope R_scope.
Open Scope list_scope.

(** ** Transforms *)
Lemma tfs_app a b p : tfs_map (a ++ b) p = tfs_map a (tfs_map b p).
Proof. apply fold_right_app. Qed.
Lemma pt_eta (p q : pt) : fst p = fst q -> snd p = snd q -> p = q.
Proof. destruct p, q; cbn; congruence. Qed.
Lemma turn_0 p : turn 0 p = p.
Proof. unfold turn. rewrite cos_0, sin_0. apply pt_eta; cbn; ring. Qed.
Lemma rot_tf_map a p : tfs_map (rot_tf a) p = turn (match a with Some d => d * PI / 180 | None => 0 end) p.
Proof. destruct a; cbn; [reflexivity|]. symmetry. apply turn_0. Qed.
Lemma refl_tf_map b p : tfs_map (refl_tf b) p = flip b p.
Proof. destruct b; cbn; [|reflexivity]. apply pt_eta; cbn; ring. Qed.
Lemma mag_tf_map m p : tfs_map (mag_tf m) p = smul (match m with Some k => k | None => 1 end) p.
Proof. destruct m; cbn; [reflexivity|]. apply pt_eta; cbn; ring. Qed.
Lemma flip_smul b k p : flip b (smul k p) = smul k (flip b p).
Proof. destruct b; [|reflexivity]. apply pt_eta; cbn; ring. Qed.
Lemma turn_smul t k p : turn t (smul k p) = smul k (turn t p).
Proof. apply pt_eta; cbn; ring. Qed.
Lemma turn_padd t p q : turn t (padd p q) = padd (turn t p) (turn t q).
Proof. apply pt_eta; cbn; ring. Qed.
Lemma flip_padd b p q : flip b (padd p q) = padd (flip b p) (flip b q).
Proof. destruct b; [|reflexivity]. apply pt_eta; cbn; ring. Qed.

(** The transform of one instance. *)
Definition use_tfs (s : R) (x : inst) : list tf :=
  let (pl, ij) := x in
  let o := origin pl in
  Translate (s * fst o) (s * snd o) :: (rot_tf (p_rot pl) ++ refl_tf (p_refl pl)) ++
    match p_arr pl with
    | None => []
    | Some (_, _, sp) => [Translate (s * fst sp * INR (fst ij)) (s * snd sp * INR (snd ij))]
    end ++ mag_tf (p_mag pl).
Lemma use_tfs_map s x p : tfs_map (use_tfs s x) (smul s p) = smul s (inst_map x p).
Proof.
  destruct x as [pl [i j]]. unfold use_tfs, inst_map.
  change (tfs_map (?a :: ?l)) with (fun p => tf_map a (tfs_map l p)). cbv beta.
  rewrite !tfs_app, rot_tf_map, refl_tf_map, mag_tf_map. fold (angle pl). fold (factor pl).
  destruct (p_arr pl) as [[[n m] sp]|].
  - change (tfs_map [?a]) with (tf_map a). unfold element, similar. cbn [fst snd].
    assert (Q : tf_map (Translate (s * fst sp * INR i) (s * snd sp * INR j)) (smul (factor pl) (smul s p)) =
      smul s (padd (smul (factor pl) p) (INR i * fst sp, INR j * snd sp))) by (apply pt_eta; cbn; ring).
    rewrite Q, flip_smul, turn_smul, flip_padd, turn_padd, flip_smul.
    apply pt_eta; cbn; ring.
  - change (tfs_map []) with (fun p : pt => p). cbv beta. unfold similar. cbn [tf_map].
    replace (smul (factor pl) (smul s p)) with (smul s (smul (factor pl) p)) by (apply pt_eta; cbn; ring).
    rewrite flip_smul, turn_smul, flip_smul. apply pt_eta; cbn; ring.
Qed.
Lemma use_svg_eq {P} (h : heap place (stuff P)) s r o : p_org (place_of h r) = Some o ->
  use_svg s h r = Some (map (fun x => NUse (use_tfs s x) (plain (tname h (rtarget h r)))) (insts (place_of h r))).
Proof.
  intro E. unfold use_svg. rewrite E. f_equal. set (pl := place_of h r) in *.
  unfold insts, use_tfs, origin. destruct (p_arr pl) as [[[n m] sp]|] eqn:A.
  - induction (seq 0 n) as [|i l IH]; [reflexivity|]. cbn [flat_map]. rewrite map_app. f_equal; [|exact IH].
    rewrite map_map. apply map_ext; intro j. rewrite A, E. cbn [fst snd]. reflexivity.
  - cbn [map]. rewrite A, E. reflexivity.
Qed.

(** The transform of a label. *)
Lemma label_tfs s (l : lbl) u v : s <> 0 ->
  tfs_map ([ScaleXY 1 (-1); Translate (s * fst (l_pos l)) (- s * snd (l_pos l))]
           ++ rot_tf (option_map Ropp (l_rot l)) ++ refl_tf (l_refl l) ++ mag_tf (l_mag l)) (u, - v) =
  smul s (writing s l (u, v)).
Proof.
  intro S. rewrite !tfs_app, rot_tf_map, refl_tf_map, mag_tf_map. unfold writing, similar.
  set (k := match l_mag l with Some m => m | None => 1 end).
  assert (T : forall p, turn (match option_map Ropp (l_rot l) with Some d => d * PI / 180 | None => 0 end) p =
     let t := match l_rot l with Some d => d * PI / 180 | None => 0 end in
     (fst p * cos t + snd p * sin t, - (fst p * sin t) + snd p * cos t)).
  { intro p. destruct (l_rot l) as [d|]; cbn [option_map].
    - cbv zeta. unfold turn. replace (- d * PI / 180) with (- (d * PI / 180)) by field. rewrite cos_neg, sin_neg.
      apply pt_eta; cbn; ring.
    - cbv zeta. rewrite turn_0, cos_0, sin_0. apply pt_eta; cbn; ring. }
  rewrite T. cbv zeta. generalize (match l_rot l with Some d => d * PI / 180 | None => 0 end). intro t.
  destruct (l_refl l); apply pt_eta; cbn; field; exact S.
Qed.

(** ** Pictures *)
Lemma moved_moved f g m : moved f (moved g m) = moved (fun p => f (g p)) m.
Proof. unfold moved; cbn. f_equal. apply map_map. Qed.
Lemma moved_ext f g m : (forall p, f p = g p) -> moved f m = moved g m.
Proof. intro E. unfold moved. f_equal. apply map_ext, E. Qed.
Lemma maps_moved f g l : map (moved f) (map (moved g) l) = map (moved (fun p => f (g p))) l.
Proof. rewrite map_map. apply map_ext. intro; apply moved_moved. Qed.
Lemma maps_ext f g l : (forall p, f p = g p) -> map (moved f) l = map (moved g) l.
Proof. intro E. apply map_ext. intro; now apply moved_ext. Qed.

Lemma shows_det gs ns m1 : shows gs ns m1 -> forall m2, shows gs ns m2 -> m1 = m2.
Proof.
  intro H; induction H as [|k pts r m H IH|k ha va t data text r m E H IH|t n g r ma mb E H1 IH1 H2 IH2|t n r m E H IH];
    intros m2 G; inversion G; subst; try congruence.
  - f_equal. now apply IH.
  - replace text0 with text by congruence. f_equal. now apply IH.
  - replace g0 with g in * by congruence. f_equal; [|now apply IH2]. f_equal. now apply IH1.
  - now apply IH.
Qed.
Lemma shows_app gs a b ma mb : shows gs a ma -> shows gs b mb -> shows gs (a ++ b) (ma ++ mb).
Proof.
  intros H G; induction H; cbn; auto.
  - now constructor.
  - now constructor.
  - rewrite <- app_assoc. econstructor; eauto.
  - now constructor.
Qed.
Lemma shows_polys gs (l : list (spec * poly)) s :
  shows gs (map (fun sp => NPoly (fst sp) (map (smul s) (snd sp))) l)
    (map (moved (smul s)) (map (fun sp => (Area (fst sp), snd sp)) l)).
Proof. induction l as [|sp l IH]; cbn; [constructor|]. unfold moved at 1; cbn. now constructor. Qed.
Lemma shows_uses gs n g m (l : list inst) s : by_id gs n = Some g -> grp_tf g = [] ->
  shows gs (grp_nodes g) (map (moved (smul s)) m) ->
  shows gs (map (fun x => NUse (use_tfs s x) n) l)
    (flat_map (fun x => map (moved (smul s)) (map (moved (inst_map x)) m)) l).
Proof.
  intros E T H. induction l as [|x l IH]; cbn [map flat_map]; [constructor|].
  replace (map (moved (smul s)) (map (moved (inst_map x)) m)) with
    (map (moved (fun p => tfs_map (use_tfs s x) (tfs_map (grp_tf g) p))) (map (moved (smul s)) m)).
  { now apply sh_use. }
  rewrite !maps_moved. apply maps_ext; intro p. rewrite T. apply use_tfs_map.
Qed.
Lemma shows_dangling gs n (l : list inst) s : by_id gs n = None -> shows gs (map (fun x => NUse (use_tfs s x) n) l) [].
Proof. intro E. induction l; cbn; [constructor|]. now apply sh_dangling. Qed.

Section PropSvg.
Context {P : Type} (ops : pathops P) (anchor : lbl -> Z).
Notation heap := (heap place (stuff P)).

Lemma each_nth {X Y} (f : X -> option Y) l r : each f l = Some r -> Forall2 (fun x y => f x = Some y) l r.
Proof.
  revert r; induction l as [|x l IH]; cbn; intros r E; [injection E as <-; constructor|].
  destruct (f x) eqn:F, (each f l) eqn:G; try discriminate. injection E as <-. constructor; auto.
Qed.
Lemma each_total {X Y} (f : X -> option Y) l : (forall x, In x l -> exists y, f x = Some y) -> exists r, each f l = Some r.
Proof.
  induction l as [|x l IH]; intro H; [eexists; reflexivity|]. destruct (H x (or_introl eq_refl)) as [y F].
  destruct IH as [r G]; [intros; apply H; now right|]. cbn. rewrite F, G. eauto.
Qed.

Lemma all_marks_app s h A B ma mb : all_marks ops anchor s h A ma -> all_marks ops anchor s h B mb ->
  all_marks ops anchor s h (A ++ B) (ma ++ mb).
Proof. intros H G; induction H; cbn; [auto|]. rewrite <- app_assoc. now constructor. Qed.
Lemma all_marks_push s h x L m : all_marks ops anchor s h L m ->
  all_marks ops anchor s h (map (fun ec => (fst ec, x :: snd ec)) L) (map (moved (inst_map x)) m).
Proof.
  intro H; induction H as [|c ch L m1 m2 O H IH]; cbn; [constructor|]. rewrite map_app, maps_moved.
  change (fun p => inst_map x (chain_map ch p)) with (chain_map (x :: ch)). now constructor.
Qed.
Lemma all_marks_insts s h xs L m : all_marks ops anchor s h L m ->
  all_marks ops anchor s h (flat_map (fun x => map (fun ec => (fst ec, x :: snd ec)) L) xs)
    (flat_map (fun x => map (moved (inst_map x)) m) xs).
Proof.
  intro H. induction xs as [|x xs IH]; cbn; [constructor|]. apply all_marks_app; [now apply all_marks_push|exact IH].
Qed.

(** The marks of the cell itself. *)
Lemma own_ok gs (h : heap) s c ls : s <> 0 -> each (label_svg anchor s) (s_labels (stuff_of h c)) = Some ls ->
  exists m, own_marks ops anchor s h c m /\
    shows gs (flat_map (set_svg s) (s_polys (stuff_of h c)) ++ flat_map (path_svg ops s) (s_paths (stuff_of h c)) ++ ls)
      (map (moved (smul s)) m).
Proof.
  intros S E.
  assert (T : exists texts, Forall2 (fun l t => exists ha va, aligned (anchor l) = Some (ha, va) /\
      t = (Words (l_layer l, l_tt l) ha va (l_text l), map (writing s l) [(0, 0); (1, 0); (0, 1)]))
    (s_labels (stuff_of h c)) texts /\ shows gs ls (map (moved (smul s)) texts)).
  { apply each_nth in E. induction E as [|l y L ls E _ (texts & F & G)]; [exists []; split; constructor|].
    unfold label_svg in E. destruct (aligned (anchor l)) as [[ha va]|] eqn:A; [|discriminate]. injection E as <-.
    exists ((Words (l_layer l, l_tt l) ha va (l_text l), map (writing s l) [(0, 0); (1, 0); (0, 1)]) :: texts). split.
    - constructor; [|exact F]. exists ha, va. auto.
    - cbn [map]. unfold moved at 1. cbn [fst snd map].
      pose proof (label_tfs s l 0 0 S) as Q0. pose proof (label_tfs s l 1 0 S) as Q1. pose proof (label_tfs s l 0 1 S) as Q2.
      replace (- 0) with 0 in Q0, Q1 by ring. replace (- (1)) with (-1) in Q2 by ring. rewrite <- Q0, <- Q1, <- Q2.
      apply (sh_text gs _ ha va _ _ (l_text l)); [apply C43_text|exact G]. }
  destruct T as (texts & F & G).
  exists (map (fun sp => (Area (fst sp), snd sp)) (contents ops h c) ++ texts). split; [now exists texts|].
  rewrite map_app, app_assoc. apply shows_app; [|exact G].
  replace (flat_map (set_svg s) (s_polys (stuff_of h c)) ++ flat_map (path_svg ops s) (s_paths (stuff_of h c))) with
    (map (fun sp : spec * poly => NPoly (fst sp) (map (smul s) (snd sp))) (contents ops h c)); [apply shows_polys|].
  unfold contents, set_svg, path_svg. rewrite map_app, !map_flat_map. f_equal.
  - apply flat_map_ext; intro ps. rewrite map_map. reflexivity.
  - apply flat_map_ext; intro p. rewrite map_flat_map. apply flat_map_ext; intro kv. rewrite map_map. reflexivity.
Qed.

(** Every cell of the expansion. *)
Lemma cells_ok gs (h : heap) s top : s <> 0 -> origins_given h top -> anchors_given anchor h top ->
  (forall d, reach h top d -> exists g, by_id gs (plain (cname h d)) = Some g /\ cell_svg ops anchor s h d [] = Some g) ->
  (forall d r n, under h top d -> In r (crefs h d) -> rtarget h r = ToName n -> by_id gs (plain n) = None) ->
  (forall c L, expansion h c L -> under h top c -> exists m, all_marks ops anchor s h L m /\
     forall t g, cell_svg ops anchor s h c t = Some g -> shows gs (grp_nodes g) (map (moved (smul s)) m)) /\
  (forall rs L, exp_refs h rs L -> forall d, under h top d -> (forall r, In r rs -> In r (crefs h d)) ->
     exists m, all_marks ops anchor s h L m /\
     forall us, collect (use_svg s h) rs = Some us -> shows gs us (map (moved (smul s)) m)).
Proof.
  intros S O A G N.
  apply expansion_mutind.
  - intros c l X IH U. destruct (IH c U (fun r H => H)) as (m2 & M2 & Sh).
    assert (E : exists ls, each (label_svg anchor s) (s_labels (stuff_of h c)) = Some ls).
    { apply each_total. intros y Hy. destruct (A c y U Hy) as [n An]. unfold label_svg.
      assert (Al : exists x, aligned (anchor y) = Some x).
      { unfold anchor_code in An. destruct (find _ _) as [e|] eqn:F; [|discriminate]. apply find_some in F as [F _].
        injection An as <-. cbn in F. repeat (destruct F as [<-|F]; [eexists; reflexivity|]). destruct F. }
      destruct Al as [[ha va] ->]. eauto. }
    destruct E as [ls E]. destruct (own_ok gs h s c ls S E) as (m1 & O1 & Sh1).
    exists (map (moved (chain_map [])) m1 ++ m2). split; [now constructor|].
    intros t g Eg. unfold cell_svg in Eg. rewrite E in Eg. destruct (collect _ _) as [us|] eqn:Us; [|discriminate].
    injection Eg as <-. cbn [grp_nodes]. rewrite map_app, maps_moved.
    rewrite (maps_ext (fun p => smul s (chain_map [] p)) (smul s)) by reflexivity.
    rewrite !app_assoc. apply shows_app; [rewrite <- app_assoc; exact Sh1|now apply Sh].
  - intros d U _. exists []. split; [constructor|]. intros us E. cbn in E. injection E as <-. constructor.
  - intros r rs n l T X IH d U I. destruct (IH d U (fun x H => I x (or_intror H))) as (m & M & Sh).
    exists m. split; [exact M|]. intros us E. cbn [collect] in E.
    assert (Ir : In r (crefs h d)) by (apply I; now left).
    destruct (p_org (place_of h r)) as [o|] eqn:Or; [|exfalso; exact (O d r U Ir Or)].
    rewrite (use_svg_eq h s r o Or) in E. destruct (collect _ rs) as [b|]; [|discriminate]. injection E as <-.
    change (map (moved (smul s)) m) with ([] ++ map (moved (smul s)) m). apply shows_app; [|now apply Sh].
    rewrite T. cbn [tname]. apply shows_dangling. exact (N d r n U Ir T).
  - intros r rs e l1 l2 T X1 IH1 X2 IH2 d U I. destruct (IH2 d U (fun x H => I x (or_intror H))) as (m2 & M2 & Sh2).
    assert (Ir : In r (crefs h d)) by (apply I; now left).
    assert (De : direct h d e) by (exists r; auto).
    assert (Re : reach h top e).
    { destruct U as [->|U]; [now apply reach_one|]. eapply reach_trans; [exact U|now apply reach_one]. }
    destruct (IH1 (or_intror Re)) as (m1 & M1 & Sh1).
    destruct (G e Re) as (g & Bg & Cg).
    exists (flat_map (fun x => map (moved (inst_map x)) m1) (insts (r_data (h_ref h r))) ++ m2). split.
    { apply all_marks_app; [|exact M2]. now apply all_marks_insts. }
    intros us E. cbn [collect] in E. destruct (p_org (place_of h r)) as [o|] eqn:Or; [|exfalso; exact (O d r U Ir Or)].
    rewrite (use_svg_eq h s r o Or) in E. destruct (collect _ rs) as [b|]; [|discriminate]. injection E as <-.
    rewrite map_app. apply shows_app; [|now apply Sh2]. rewrite T. cbn [tname]. rewrite map_flat_map.
    apply (shows_uses gs _ g); [exact Bg| |exact (Sh1 [] g Cg)].
    unfold cell_svg in Cg. destruct (each _ _) as [?|]; [|discriminate].
    destruct (collect (use_svg s h) (crefs h e)); [|discriminate]. injection Cg as <-. reflexivity.
Qed.

(** ** Measuring changes caches only *)
Definition keeps (h h' : heap) : Prop :=
  (forall y, cname h' y = cname h y /\ crefs h' y = crefs h y /\ s_polys (stuff_of h' y) = s_polys (stuff_of h y) /\
     s_paths (stuff_of h' y) = s_paths (stuff_of h y) /\ s_labels (stuff_of h' y) = s_labels (stuff_of h y)) /\
  (forall r, h_ref h' r = h_ref h r) /\ h_ncell h' = h_ncell h /\ h_nref h' = h_nref h.
Lemma keeps_refl h : keeps h h. Proof. repeat split. Qed.
Lemma keeps_sym a b : keeps a b -> keeps b a.
Proof.
  intros (A & B & C & D). split; [|repeat split; auto].
  intro y. destruct (A y) as (? & ? & ? & ? & ?). repeat split; auto.
Qed.
Lemma keeps_trans a b c : keeps a b -> keeps b c -> keeps a c.
Proof.
  intros (A & B & C & D) (A' & B' & C' & D'). split; [|repeat split; congruence].
  intro y. destruct (A y) as (? & ? & ? & ? & ?), (A' y) as (? & ? & ? & ? & ?). repeat split; congruence.
Qed.
Lemma keeps_geom a b : keeps a b -> same_geom a b.
Proof.
  intros (A & B & C & D). split; [|repeat split; auto]. intro y. destruct (A y) as (? & ? & ? & ? & ?). auto.
Qed.
Lemma set_bb_keeps (h : heap) c b : keeps h (set_bb h c b).
Proof.
  split; [|repeat split]. intro y. unfold set_bb, set_data, set_cell, cname, crefs, stuff_of; cbn. unfold upd.
  destruct (Nat.eqb_spec y c) as [->|N]; cbn; auto.
Qed.
Lemma box_loop_keeps rec pf rs : (forall h e h1 b, rec h e = Some (h1, b) -> keeps h h1) ->
  forall h h1 pts, box_loop ops rec pf h rs = Some (h1, pts) -> keeps h h1.
Proof.
  intro K. induction rs as [|r rs IH]; cbn [box_loop]; intros h h1 pts E; [injection E as <- <-; apply keeps_refl|].
  destruct (rtarget h r) as [e|n]; [|eauto].
  assert (Q : forall ho b, (if cardinal (p_rot (place_of h r))
            then match rec h e with
                 | Some (h1, bb) => option_map (pair h1) (ref_box (place_of h r) (Some bb) None)
                 | None => None
                 end
            else option_map (pair h) (ref_box (place_of h r) None (polys_fuel ops h pf e))) = Some (ho, b) -> keeps h ho).
  { intros ho b. destruct (cardinal _).
    - destruct (rec h e) as [[h2 bb]|] eqn:Re; [|discriminate]. destruct (ref_box _ _ _); cbn; [|discriminate].
      intro Q; injection Q as <- _. eauto.
    - destruct (ref_box _ _ _); cbn; [|discriminate]. intro Q; injection Q as <- _. apply keeps_refl. }
  destruct (if cardinal _ then _ else _) as [[h2 b]|]; [|discriminate]. specialize (Q h2 b eq_refl).
  destruct (box_loop ops rec pf h2 rs) as [[h3 ps]|] eqn:Eb; [|discriminate]. injection E as <- <-.
  eapply keeps_trans; [exact Q|eauto].
Qed.
Lemma measure_keeps pf n : forall h c h1 b, measure_fuel ops pf n h c = Some (h1, b) -> keeps h h1.
Proof.
  induction n as [|n IH]; intros h c h1 b E; [discriminate|]. cbn [measure_fuel] in E.
  destruct (get_dependencies h c true); [|discriminate].
  destruct (_ && _); [injection E as <- <-; apply keeps_refl|].
  destruct (own_points _ _); [|discriminate]. destruct (box_loop _ _ _ _ _) as [[h2 pts]|] eqn:B; [|discriminate].
  injection E as <- _. eapply keeps_trans; [|apply set_bb_keeps]. eapply box_loop_keeps; [|exact B]. exact IH.
Qed.

Lemma keeps_under h h' c d : keeps h h' -> under h c d -> under h' c d.
Proof. intros K. apply same_geom_under, keeps_geom, K. Qed.
Lemma keeps_acyclic h h' c : keeps h h' -> acyclic h c -> acyclic h' c.
Proof.
  intros K A d U R. apply keeps_sym in K. apply (A d); [exact (keeps_under h' h c d K U)|].
  eapply same_geom_reach; [apply keeps_geom, K|exact R].
Qed.
Lemma keeps_defined h h' c : keeps h h' -> defined_at h c -> defined_at h' c.
Proof.
  intros K ((W1 & W2) & Hc & A). split; [|split; [destruct K as (_ & _ & -> & _); exact Hc|now apply (keeps_acyclic h)]].
  destruct K as (K1 & K2 & K3 & K4). split.
  - intros y r Hy Hr. rewrite K4. destruct (K1 y) as (_ & Er & _). rewrite Er in Hr. apply (W1 y r); [now rewrite <- K3|auto].
  - intros r d Hr Ht. rewrite K3. apply (W2 r d); [now rewrite <- K4|]. unfold rtarget in *. now rewrite <- K2.
Qed.
Lemma keeps_expansion h h' : keeps h h' ->
  (forall c L, expansion h c L -> expansion h' c L) /\ (forall rs L, exp_refs h rs L -> exp_refs h' rs L).
Proof.
  intros (K1 & K2 & _). apply expansion_mutind.
  - intros c l _ IH. constructor. destruct (K1 c) as (_ & -> & _). exact IH.
  - constructor.
  - intros r rs n l T _ IH. apply exp_name with n; [|exact IH]. unfold rtarget in *. now rewrite K2.
  - intros r rs d l1 l2 T _ I1 _ I2. rewrite <- K2. apply exp_ref with d; auto. unfold rtarget in *. now rewrite K2.
Qed.
Lemma keeps_marks h h' s L m : keeps h h' -> all_marks ops anchor s h' L m -> all_marks ops anchor s h L m.
Proof.
  intros (K1 & _) H. induction H as [|c ch L m1 m2 (texts & -> & F) H IH]; constructor; [|exact IH].
  exists texts. destruct (K1 c) as (_ & _ & Ep & Eq & El). rewrite El in F. split; [|exact F].
  f_equal. unfold contents. unfold stuff_of in Ep, Eq. now rewrite Ep, Eq.
Qed.

(** ** The document *)
Lemma by_id_find (gs : list group) n g : In g gs -> grp_id g = n ->
  (forall g', In g' gs -> grp_id g' = n -> g' = g) -> by_id gs n = Some g.
Proof.
  intros I E U. unfold by_id. destruct (find _ gs) as [g'|] eqn:F.
  - apply find_some in F as [I' E']. apply name_eqb_eq in E'. f_equal. now apply U.
  - exfalso. pose proof (find_none _ _ F g I) as Q. cbn in Q. rewrite E in Q.
    assert (T : name_eqb n n = true) by now apply name_eqb_eq. congruence.
Qed.
Lemma by_id_none (gs : list group) n : (forall g, In g gs -> grp_id g <> n) -> by_id gs n = None.
Proof.
  intro H. unfold by_id. destruct (find _ gs) as [g|] eqn:F; [|reflexivity].
  apply find_some in F as [I E]. apply name_eqb_eq in E. destruct (H g I E).
Qed.
Lemma cell_svg_id s (h : heap) c t g : cell_svg ops anchor s h c t = Some g ->
  grp_id g = plain (cname h c) /\ grp_tf g = t /\ cell_svg ops anchor s h c [] = Some (Group (grp_id g) [] (grp_nodes g)).
Proof.
  unfold cell_svg. destruct (each _ _); [|discriminate]. destruct (collect _ _); [|discriminate].
  intro E; injection E as <-. auto.
Qed.
Lemma each_in {X Y} (f : X -> option Y) l r : each f l = Some r -> forall y, In y r <-> exists x, In x l /\ f x = Some y.
Proof.
  intro E. apply each_nth in E. induction E as [|x y l r E _ IH]; intro z; [cbn; firstorder|]. cbn [In]. rewrite IH. split.
  - intros [<-|(w & I & F)]; [exists x|exists w]; auto.
  - intros (w & [<-|I] & F); [left; congruence|right; eauto].
Qed.

Section Write.
Context {V B : Type} (s : R) (style : spec -> option V) (fontstyle : Z * option Z -> option V)
  (background : option B) (pad : padding)
  (any_specs : list spec -> list spec) (any_texts : list (Z * option Z) -> list (Z * option Z))
  (any_cells : list nat -> list nat).
Notation write := (write_svg ops anchor s style fontstyle background pad any_specs any_texts any_cells).
(** Going through a set misses nothing and invents nothing. *)
Definition visits {X} (f : list X -> list X) : Prop := forall l x, In x (f l) <-> In x l.

Lemma write_parts (h : heap) c h1 d : write h c = Some (h1, Some d) ->
  exists b ld lt ds defs top, measure ops h c = Some (h1, Some b) /\ keeps h h1 /\
    svg_specs ops h1 (S (h_ncell h1)) c = Some ld /\ svg_texts h1 (S (h_ncell h1)) c = Some lt /\
    get_dependencies h1 c true = Some ds /\ each (fun d => cell_svg ops anchor s h1 d []) (any_cells ds) = Some defs /\
    cell_svg ops anchor s h1 c [ScaleXY 1 (-1)] = Some top /\
    d = Doc (view s b (match background with Some _ => true | None => false end) pad)
          (map (fun k => (k, style k)) (any_specs ld)) (map (fun k => (k, fontstyle k)) (any_texts lt)) defs
          (option_map (pair (view s b (match background with Some _ => true | None => false end) pad)) background) top.
Proof.
  unfold write_svg. intro E. destruct (measure ops h c) as [[h2 [b|]]|] eqn:M; [|discriminate|discriminate].
  destruct (svg_specs ops h2 _ c) as [ld|] eqn:E1; [|discriminate].
  destruct (svg_texts h2 _ c) as [lt|] eqn:E2; [|discriminate].
  destruct (get_dependencies h2 c true) as [ds|] eqn:E3; [|discriminate].
  destruct (each _ _) as [defs|] eqn:E4; [|discriminate].
  destruct (cell_svg _ _ _ h2 c _) as [top|] eqn:E5; [|discriminate]. injection E as <- <-.
  exists b, ld, lt, ds, defs, top. split; [reflexivity|]. split; [eapply measure_keeps; exact M|]. auto 10.
Qed.

(** C82: the document shows all that the cell holds, itself and through references and
    arrays, every polygon and every text in the place that the expansion of the cell gives
    it, in the same order, [s] pixels per unit, y upwards; and nothing else. *)
Theorem C82_drawing : forall (h : heap) c h1 d L, s <> 0 -> defined_at h c -> visits any_cells ->
  ids_differ h c -> names_outside h c -> origins_given h c -> anchors_given anchor h c -> expansion h c L ->
  write h c = Some (h1, Some d) ->
  exists m, all_marks ops anchor s h L m /\ forall m', picture d m' <-> m' = map (moved (screen s)) m.
Proof.
  intros h c h1 d L S D Vi I N O A X W.
  destruct (write_parts h c h1 d W) as (b & ld & lt & ds & defs & top & _ & K & _ & _ & Ds & Defs & Top & ->).
  pose proof (keeps_sym _ _ K) as K'.
  assert (R : forall x, In x (any_cells ds) <-> reach h1 c x).
  { intro x. rewrite (Vi ds x). exact (deps_fuel_reach _ _ _ _ Ds x). }
  pose proof (each_in _ _ _ Defs) as DI.
  destruct K as (K1 & K2 & _).
  assert (IDs : forall g, In g (defs ++ [top]) -> exists x t, under h1 c x /\ cell_svg ops anchor s h1 x t = Some g /\
                  (t = [] /\ reach h1 c x \/ x = c)).
  { intros g Hg. apply in_app_iff in Hg as [Hg|[<-|[]]].
    - apply DI in Hg as (x & Hx & E). exists x, []. rewrite R in Hx. split; [now right|auto].
    - exists c, [ScaleXY 1 (-1)]. split; [now left|auto]. }
  assert (Id : ids_differ h1 c).
  { intros x y Ux Uy. destruct (K1 x) as (-> & _), (K1 y) as (-> & _). apply I; eapply keeps_under; eauto. }
  assert (G : forall x, reach h1 c x -> exists g, by_id (defs ++ [top]) (plain (cname h1 x)) = Some g /\
                cell_svg ops anchor s h1 x [] = Some g).
  { intros x Rx. assert (Hg : exists g, In g defs /\ cell_svg ops anchor s h1 x [] = Some g).
    { apply R in Rx. apply each_nth in Defs. clear -Rx Defs. induction Defs as [|y g l r E _ IH]; [destruct Rx|].
      destruct Rx as [<-|Rx]; [exists g; split; [now left|auto]|]. destruct (IH Rx) as (g' & ? & ?). exists g'. split; [now right|auto]. }
    destruct Hg as (g & Ig & Eg). exists g. split; [|exact Eg]. apply by_id_find.
    - apply in_app_iff; auto.
    - exact (proj1 (cell_svg_id s h1 x [] g Eg)).
    - intros g' Ig' Eid. destruct (IDs g' Ig') as (y & t & Uy & Ey & Ty).
      pose proof (proj1 (cell_svg_id s h1 y t g' Ey)) as Ey'. assert (y = x).
      { apply Id; [exact Uy|now right|congruence]. }
      subst y. destruct Ty as [[-> _]| -> ]; [congruence|]. exfalso.
      destruct (keeps_defined h h1 c (keeps_sym _ _ K') D) as (_ & _ & Ac). apply (Ac c); [now left|exact Rx]. }
  assert (Nn : forall x r n, under h1 c x -> In r (crefs h1 x) -> rtarget h1 r = ToName n -> by_id (defs ++ [top]) (plain n) = None).
  { intros x r n Ux Hr Ht. apply by_id_none. intros g Hg E. destruct (IDs g Hg) as (y & t & Uy & Ey & _).
    pose proof (proj1 (cell_svg_id s h1 y t g Ey)) as Ey'. destruct (K1 y) as (Ny & _). rewrite Ny in Ey'.
    apply (N x y r n).
    - eapply keeps_under; eauto.
    - eapply keeps_under; eauto.
    - destruct (K1 x) as (_ & E1 & _). rewrite <- E1. exact Hr.
    - unfold rtarget in *. now rewrite <- K2.
    - congruence. }
  assert (O1 : origins_given h1 c).
  { intros x r Ux Hr. unfold place_of. rewrite K2. apply (O x r); [eapply keeps_under; eauto|].
    destruct (K1 x) as (_ & E1 & _). rewrite <- E1. exact Hr. }
  assert (A1 : anchors_given anchor h1 c).
  { intros x l Ux Hl. apply (A x l); [eapply keeps_under; eauto|]. destruct (K1 x) as (_ & _ & _ & _ & E1). rewrite <- E1. exact Hl. }
  destruct (cells_ok (defs ++ [top]) h1 s c S O1 A1 G Nn) as [Main _].
  destruct (Main c L (proj1 (keeps_expansion h h1 (keeps_sym _ _ K')) c L X) (or_introl eq_refl)) as (m & M & Sh).
  specialize (Sh _ _ Top). exists m. split; [eapply keeps_marks; [|exact M]; now apply keeps_sym|].
  destruct (cell_svg_id s h1 c _ top Top) as (_ & Tt & _).
  assert (Sc : map (moved (tfs_map (grp_tf top))) (map (moved (smul s)) m) = map (moved (screen s)) m).
  { rewrite maps_moved. apply maps_ext. intro p. rewrite Tt. apply pt_eta; cbn; ring. }
  intro m'. unfold picture. cbn [doc_defs doc_top]. split.
  - intros (m0 & Sh' & ->). now rewrite (shows_det _ _ _ Sh' _ Sh).
  - intros ->. exists (map (moved (smul s)) m). split; [exact Sh|now rewrite Sc].
Qed.

(** The polygons shown are those of get_polygons. *)
Definition areas (m : list mark) : list (list pt) :=
  flat_map (fun k => match fst k with Area _ => [snd k] | _ => [] end) m.
Lemma areas_app a b : areas (a ++ b) = areas a ++ areas b. Proof. apply flat_map_app. Qed.
Lemma areas_moved f m : areas (map (moved f) m) = map (map f) (areas m).
Proof.
  induction m as [|[k l] m IH]; [reflexivity|]. cbn [map areas flat_map]. unfold areas in IH. rewrite IH, map_app.
  destruct k; reflexivity.
Qed.
Lemma all_marks_areas h L m : all_marks ops anchor s h L m -> areas m = map snd (placed (contents ops h) L).
Proof.
  intro H. induction H as [|c ch L m1 m2 (texts & -> & F) H IH]; [reflexivity|].
  rewrite areas_app, areas_moved, areas_app. unfold placed in *. cbn [flat_map]. etransitivity; [|symmetry; apply map_app]. apply (f_equal2 (@app (list pt))); [|exact IH]. cbn [fst snd].
  assert (T : areas texts = []).
  { clear -F. induction F as [|l t ls ts (ha & va & _ & ->) _ IH]; [reflexivity|exact IH]. }
  rewrite T; cbn [app]; rewrite app_nil_r. induction (contents ops h c) as [|sp l IHl]; [reflexivity|]. cbn [map areas flat_map fst snd app].
  f_equal. exact IHl.
Qed.
Theorem C82_polygons : forall (h : heap) c h1 d, s <> 0 -> defined_at h c -> visits any_cells ->
  ids_differ h c -> names_outside h c -> origins_given h c -> anchors_given anchor h c ->
  write h c = Some (h1, Some d) ->
  exists l m, get_polygons ops h c = Some l /\ picture d m /\ areas m = map (map (screen s)) l.
Proof.
  intros h c h1 d S D Vi I N O A W. destruct (C39_expansion ops h c D) as (L & l & X & E & El).
  destruct (C82_drawing h c h1 d L S D Vi I N O A X W) as (m & M & Pm).
  exists l, (map (moved (screen s)) m). split; [exact E|]. split; [now apply Pm|].
  now rewrite areas_moved, (all_marks_areas h L m M), El.
Qed.

(** ** The frame

    [margin] is what [pad] asks for: nothing without a background, a number of pixels, or a
    percentage of the larger side. *)
Definition margin (b : bbox) : R :=
  match background, pad with
  | None, _ => 0
  | Some _, Exactly a => a
  | Some _, Percent a => a / 100 * Rmax (s * (fst (snd b) - fst (fst b))) (s * (snd (snd b) - snd (fst b)))
  end.
(** In a history without additions below a measured cell, the frame is the box of all the
    polygons, on the screen, with the margin around it; so is the background. *)
Theorem C82_frame : forall acts (h : heap) M c h1 d l, careful ops nothing (fun _ => False) acts h M ->
  (c < h_ncell h)%nat -> in_range ops h c -> get_polygons ops h c = Some l -> write h c = Some (h1, Some d) ->
  exists b, is_box b (concat l) /\
    doc_view d = (s * fst (fst b) - margin b, - (s * snd (snd b)) - margin b,
                  s * (fst (snd b) - fst (fst b)) + 2 * margin b, s * (snd (snd b) - snd (fst b)) + 2 * margin b) /\
    doc_back d = option_map (pair (doc_view d)) background.
Proof.
  intros acts h M c h1 d l Ca Hc RG El W.
  destruct (write_parts h c h1 d W) as (b & ld & lt & ds & defs & top & Me & _ & _ & _ & _ & _ & _ & ->).
  destruct (C20_cached ops acts h M c h1 (Some b) Ca Hc RG Me) as (l' & E' & Rb & _).
  replace l' with l in Rb by congruence. exists b. split; [exact Rb|]. cbn [doc_view doc_back]. split; [|reflexivity].
  unfold view, margin, padded. destruct background as [bg|].
  - destruct pad as [a|a].
    + f_equal; [f_equal; [f_equal|]|]; ring.
    + replace (fst (snd b) * s - fst (fst b) * s) with (s * (fst (snd b) - fst (fst b))) by ring.
      replace (snd (snd b) * s - snd (fst b) * s) with (s * (snd (snd b) - snd (fst b))) by ring.
      f_equal; [f_equal; [f_equal|]|]; field.
  - f_equal; [f_equal; [f_equal|]|]; ring.
Qed.
(** So everything lies in the frame. *)
Theorem C82_visible : forall acts (h : heap) M c h1 d l, careful ops nothing (fun _ => False) acts h M ->
  (c < h_ncell h)%nat -> in_range ops h c -> get_polygons ops h c = Some l -> write h c = Some (h1, Some d) ->
  0 < s -> match pad with Exactly a => 0 <= a | Percent a => 0 <= a end ->
  forall p, In p (concat l) -> inside_view (doc_view d) (screen s p).
Proof.
  intros acts h M c h1 d l Ca Hc RG El W S Pa p Hp.
  destruct (C82_frame acts h M c h1 d l Ca Hc RG El W) as (b & (Bx & B1 & B2 & B3 & B4) & -> & _).
  destruct (Bx p Hp) as ((X1 & X2) & Y1 & Y2).
  assert (Mg : 0 <= margin b).
  { unfold margin. destruct background; [|lra]. destruct pad as [a|a]; [exact Pa|].
    apply Rmult_le_pos; [lra|]. eapply Rle_trans; [|apply Rmax_l]. apply Rmult_le_pos; lra. }
  unfold inside_view, screen. cbn [fst snd].
  pose proof (Rmult_le_compat_l s _ _ (Rlt_le _ _ S) X1). pose proof (Rmult_le_compat_l s _ _ (Rlt_le _ _ S) X2).
  pose proof (Rmult_le_compat_l s _ _ (Rlt_le _ _ S) Y1). pose proof (Rmult_le_compat_l s _ _ (Rlt_le _ _ S) Y2). lra.
Qed.

(** ** When something is written *)
Lemma use_total (h : heap) r : p_org (place_of h r) <> None -> exists us, use_svg s h r = Some us.
Proof.
  intro O. destruct (p_org (place_of h r)) as [o|] eqn:E; [|congruence]. rewrite (use_svg_eq h s r o E). eauto.
Qed.
Lemma aligned_total y : (exists n, anchor_code n = Some y) -> exists x, aligned y = Some x.
Proof.
  intros [n An]. unfold anchor_code in An. destruct (find _ _) as [e|] eqn:F; [|discriminate]. apply find_some in F as [F _].
  injection An as <-. cbn in F. repeat (destruct F as [<-|F]; [eexists; reflexivity|]). destruct F.
Qed.
Lemma cell_total (h : heap) top c t : under h top c -> origins_given h top -> anchors_given anchor h top ->
  exists g, cell_svg ops anchor s h c t = Some g.
Proof.
  intros U O A. unfold cell_svg. destruct (each_total (label_svg anchor s) (s_labels (stuff_of h c))) as [ls ->].
  { intros l Hl. unfold label_svg. destruct (aligned_total (anchor l) (A c l U Hl)) as [[ha va] ->]. eauto. }
  destruct (collect (use_svg s h) (crefs h c)) as [us|] eqn:E; [eauto|]. exfalso. revert E. apply collect_total.
  intros r Hr. destruct (use_total h r (O c r U Hr)) as [us ->]. discriminate.
Qed.
(** A document is written when there is something to see, and nothing when there is no
    vertex at all. *)
Theorem C82_written : forall acts (h : heap) M c l, careful ops nothing (fun _ => False) acts h M ->
  defined_at h c -> in_range ops h c -> solid ops h c -> visits any_cells ->
  origins_given h c -> anchors_given anchor h c -> get_polygons ops h c = Some l ->
  exists h1, (concat l <> [] -> exists d, write h c = Some (h1, Some d)) /\
    (concat l = [] -> write h c = Some (h1, None)).
Proof.
  intros acts h M c l Ca (Wf & Hc & Ac) RG So Vi O A El.
  destruct (C20_defined ops acts h M c Ca Hc Ac RG So) as (h1 & b & Me). exists h1.
  destruct (C20_cached ops acts h M c h1 b Ca Hc RG Me) as (l' & E' & Rb & _). replace l' with l in Rb by congruence.
  unfold write_svg. rewrite Me. destruct b as [b|].
  - split; [|intro E; rewrite E in Rb; destruct Rb as (_ & (p & [] & _) & _)]. intros _.
    pose proof (measure_keeps _ _ _ _ _ _ Me) as K. pose proof (keeps_sym _ _ K) as K'.
    pose proof (keeps_defined h h1 c K (conj Wf (conj Hc Ac))) as D1.
    destruct (C58_svg_classes ops h1 c D1) as (ld & lt & -> & -> & _).
    destruct (defined_deps h1 c D1) as [ds Ds]. unfold get_dependencies. rewrite Ds.
    destruct K as (K1 & K2 & _).
    assert (O1 : origins_given h1 c).
    { intros x r Ux Hr. unfold place_of. rewrite K2. apply (O x r); [eapply keeps_under; eauto|].
      destruct (K1 x) as (_ & E1 & _). rewrite <- E1. exact Hr. }
    assert (A1 : anchors_given anchor h1 c).
    { intros x y Ux Hl. apply (A x y); [eapply keeps_under; eauto|]. destruct (K1 x) as (_ & _ & _ & _ & E1). rewrite <- E1. exact Hl. }
    destruct (each_total (fun d => cell_svg ops anchor s h1 d []) (any_cells ds)) as [defs ->].
    { intros x Hx. apply (cell_total h1 c x []); auto. right. apply (proj1 (Vi _ _)) in Hx. exact (proj1 (deps_fuel_reach _ _ _ _ Ds x) Hx). }
    destruct (cell_total h1 c c [ScaleXY 1 (-1)] (or_introl eq_refl) O1 A1) as [top ->]. eauto.
  - split; [intro E; now rewrite Rb in E|reflexivity].
Qed.

(** ** Styles *)
Lemma expansion_under (h : heap) :
  (forall c L, expansion h c L -> forall e ch, In (e, ch) L -> under h c e) /\
  (forall rs L, exp_refs h rs L -> forall c, (forall r, In r rs -> In r (crefs h c)) -> forall e ch, In (e, ch) L -> reach h c e).
Proof.
  apply expansion_mutind.
  - intros c l X IH e ch [E|H]; [injection E as <- _; now left|]. right. eapply IH; eauto.
  - intros c _ e ch [].
  - intros r rs n l T X IH c I e ch H. apply (IH c) with ch; auto. intros x Hx. apply I. now right.
  - intros r rs d l1 l2 T X1 IH1 X2 IH2 c I e ch H. apply in_app_iff in H as [H|H].
    + apply in_flat_map in H as (i & _ & H). apply in_map_iff in H as ([e' ch'] & E & H). injection E as -> _.
      assert (De : direct h c d) by (exists r; split; [apply I; now left|auto]).
      destruct (IH1 _ _ H) as [->|R]; [now apply reach_one|eapply reach_more; eauto].
    + apply (IH2 c) with ch; auto. intros x Hx. apply I. now right.
Qed.
Lemma all_marks_in (h : heap) L m k pts : all_marks ops anchor s h L m -> In (k, pts) m ->
  exists c ch m0 q, In (c, ch) L /\ own_marks ops anchor s h c m0 /\ In (k, q) m0 /\ pts = map (chain_map ch) q.
Proof.
  intros H I. induction H as [|c ch L m1 m2 O H IH]; [destruct I|]. apply in_app_iff in I as [I|I].
  - apply in_map_iff in I as ([k' q] & E & I). unfold moved in E; cbn in E. injection E as -> <-.
    exists c, ch, m1, q. split; [now left|auto].
  - destruct (IH I) as (c' & ch' & m0 & q & ? & ?). exists c', ch', m0, q. split; [now right|auto].
Qed.
(** Every class shown has a rule, with the user's style if there is one; there are no rules
    for classes not in use. *)
Theorem C82_styles : forall (h : heap) c h1 d m, s <> 0 -> defined_at h c -> visits any_cells ->
  visits any_specs -> visits any_texts -> all_under h c (paths_wf ops h) ->
  ids_differ h c -> names_outside h c -> origins_given h c -> anchors_given anchor h c ->
  write h c = Some (h1, Some d) -> picture d m ->
  (forall k pts, In (Area k, pts) m -> In (k, style k) (doc_rules d)) /\
  (forall k ha va t pts, In (Words k ha va t, pts) m -> In (k, fontstyle k) (doc_fonts d)) /\
  (forall k v, In (k, v) (doc_rules d) -> v = style k /\ exists e, under h c e /\
     ((exists ps g, In ps (s_polys (stuff_of h e)) /\ In g (ps_list ps) /\ (g_layer g, g_dt g) = k) \/
      (exists p, In p (s_paths (stuff_of h e)) /\ In k (po_specs ops p)))) /\
  (forall k v, In (k, v) (doc_fonts d) -> v = fontstyle k /\ exists e l, under h c e /\
     In l (s_labels (stuff_of h e)) /\ (l_layer l, l_tt l) = k).
Proof.
  intros h c h1 d m S D Vi Vs Vt Pw I N O A W Pm.
  destruct (C39_expansion ops h c D) as (L & _ & X & _).
  destruct (C82_drawing h c h1 d L S D Vi I N O A X W) as (m0 & M & Q). apply Q in Pm. subst m. clear Q.
  destruct (write_parts h c h1 d W) as (b & ld & lt & ds & defs & top & _ & K & Eld & Elt & _ & _ & _ & ->).
  pose proof (keeps_sym _ _ K) as K'.
  destruct (C58_svg_classes ops h1 c (keeps_defined h h1 c K D)) as (ss & ts & Es & Et & Hs & Ht).
  replace ss with ld in Hs by congruence. replace ts with lt in Ht by congruence. clear Es Et ss ts.
  destruct K as (K1 & K2 & _). cbn [doc_rules doc_fonts].
  assert (Back : forall k f pts l, In (k, pts) (map (moved f) l) -> exists q, In (k, q) l).
  { intros k f pts l H. apply in_map_iff in H as ([k' q] & E & H). injection E as -> _. eauto. }
  split; [|split; [|split]].
  - intros k pts H. destruct (Back _ _ _ _ H) as (q & Hq).
    destruct (all_marks_in h L m0 _ _ M Hq) as (e & ch & m1 & q1 & Ie & (texts & -> & F) & I1 & _).
    apply in_map_iff. exists k. split; [reflexivity|]. apply (proj2 (Vs _ _)). apply Hs.
    pose proof (proj1 (expansion_under h) c L X e ch Ie) as Ue. exists e. split; [eapply keeps_under; [exact (keeps_sym _ _ K')|exact Ue]|].
    destruct (K1 e) as (_ & _ & Ep & Eq & _). rewrite Ep, Eq.
    apply in_app_iff in I1 as [I1|I1].
    + apply in_map_iff in I1 as ([k' q'] & E & I1). cbn in E. injection E as -> _.
      unfold contents in I1. apply in_app_iff in I1 as [I1|I1].
      * apply in_flat_map in I1 as (ps & Ips & I1). apply in_map_iff in I1 as (g & E & I1). injection E as <- _. left. eauto 6.
      * apply in_flat_map in I1 as (p & Ip & I1). apply in_flat_map in I1 as (kv & Ik & I1).
        apply in_map_iff in I1 as (q2 & E & I1). injection E as <- _. right. exists p. split; [exact Ip|].
        specialize (Pw e Ue). unfold paths_wf in Pw. rewrite Forall_forall in Pw. apply (proj2 (Pw p Ip)). now apply in_map.
    + exfalso. clear -F I1. induction F as [|l t ls ts (ha & va & _ & ->) _ IH]; [destruct I1|]. destruct I1 as [E|I1]; [discriminate|auto].
  - intros k ha va t pts H. destruct (Back _ _ _ _ H) as (q & Hq).
    destruct (all_marks_in h L m0 _ _ M Hq) as (e & ch & m1 & q1 & Ie & (texts & -> & F) & I1 & _).
    apply in_map_iff. exists k. split; [reflexivity|]. apply (proj2 (Vt _ _)). apply Ht.
    pose proof (proj1 (expansion_under h) c L X e ch Ie) as Ue.
    apply in_app_iff in I1 as [I1|I1]; [apply in_map_iff in I1 as ([k' q'] & E & I1); discriminate|].
    assert (G : exists l, In l (s_labels (stuff_of h e)) /\ (l_layer l, l_tt l) = k).
    { clear -F I1. induction F as [|l t' ls ts (ha' & va' & _ & ->) _ IH]; [destruct I1|]. destruct I1 as [E|I1].
      - injection E as <- _ _ _. exists l. split; [now left|auto].
      - destruct (IH I1) as (l' & ? & ?). exists l'. split; [now right|auto]. }
    destruct G as (l & Il & Ek). exists e, l. split; [eapply keeps_under; [exact (keeps_sym _ _ K')|exact Ue]|].
    destruct (K1 e) as (_ & _ & _ & _ & El). rewrite El. auto.
  - intros k v H. apply in_map_iff in H as (k' & E & H). injection E as -> <-. split; [reflexivity|]. apply (proj1 (Vs _ _)) in H. apply Hs in H.
    destruct H as (e & Ue & H). exists e. split; [eapply keeps_under; [exact K'|exact Ue]|].
    destruct (K1 e) as (_ & _ & Ep & Eq & _). now rewrite Ep, Eq in H.
  - intros k v H. apply in_map_iff in H as (k' & E & H). injection E as -> <-. split; [reflexivity|]. apply (proj1 (Vt _ _)) in H. apply Ht in H.
    destruct H as (e & l & Ue & Il & Ek). exists e, l. split; [eapply keeps_under; [exact K'|exact Ue]|].
    destruct (K1 e) as (_ & _ & _ & _ & El). now rewrite El in Il.
Qed.
End Write.
End PropSvg.

(** ** Anchors and colours *)
Theorem C82_anchors : forall n, match anchor_code n with Some a => aligned a | None => None end = anchor_of n /\
  (anchor_code n = None <-> anchor_of n = None).
Proof.
  intro n. destruct (in_dec String.string_dec n (map fst anchor_table)) as [I|I].
  - cbn [anchor_table map fst In] in I. repeat (destruct I as [<-|I]; [split; [reflexivity|split; discriminate]|]). destruct I.
  - assert (F : forall x, In x (map fst anchor_table) -> String.eqb n x = false).
    { intros x Hx. apply String.eqb_neq. intros ->. exact (I Hx). }
    assert (A : anchor_code n = None).
    { unfold anchor_code. destruct (find _ _) as [e|] eqn:E; [|reflexivity]. exfalso. apply find_some in E as [E Q].
      apply String.eqb_eq in Q. apply I. subst n. now apply in_map. }
    assert (B : anchor_of n = None).
    { unfold anchor_of. destruct (find _ _) as [e|] eqn:E; [|reflexivity]. exfalso. apply find_some in E as [E Q].
      apply existsb_exists in Q as (x & Hx & Q). rewrite F in Q; [discriminate|]. clear Q F A I.
      cbn [anchors In] in E. repeat (destruct E as [<-|E]; [cbn [fst In] in Hx; cbn [anchor_table map fst In]; tauto|]). destruct E. }
    rewrite A, B. split; [reflexivity|tauto].
Qed.

Lemma int_of_range x k : 0 <= x < IZR k -> (0 <= int_of x < k)%Z.
Proof.
  intros [X0 X1]. unfold int_of. destruct (Rle_dec 0 x); [|lra]. destruct (base_Int_part x) as [B1 B2]. split.
  - apply Z.lt_succ_r. apply lt_IZR. unfold Z.succ. rewrite plus_IZR. lra.
  - apply lt_IZR. lra.
Qed.
Lemma mod6_val d m f : (0 <= m <= 5)%Z -> 0 <= f < 1 -> mod6 (6 * IZR d + IZR m + f) = IZR m + f.
Proof.
  intros [M0 M1] F. unfold mod6. apply IZR_le in M0, M1.
  assert (E : Int_part ((6 * IZR d + IZR m + f) / 6) = d); [|rewrite E; ring].
  destruct (base_Int_part ((6 * IZR d + IZR m + f) / 6)) as [B1 B2]. set (k := Int_part _) in *. clearbody k.
  apply Z.le_antisymm; apply Z.lt_succ_r; apply lt_IZR; unfold Z.succ; rewrite plus_IZR; lra.
Qed.
(** Hue, saturation and value are turned into red, green and blue. *)
Theorem C82_hsv : forall h s v, 0 <= h ->
  hsv_to_rgb h s v = (channel 5 h s v, channel 3 h s v, channel 1 h s v).
Proof.
  intros h s v H. unfold hsv_to_rgb. destruct (Req_EM_T s 0) as [->|_].
  { unfold channel. f_equal; [f_equal|]; ring. }
  assert (I : exists i f, int_of (h * 6) = i /\ 6 * h = IZR i + f /\ 0 <= f < 1).
  { exists (int_of (h * 6)), (h * 6 - IZR (int_of (h * 6))). split; [reflexivity|]. split; [ring|].
    unfold int_of. destruct (Rle_dec 0 (h * 6)); [|lra]. destruct (base_Int_part (h * 6)). lra. }
  destruct I as (i & f & -> & E & F). cbv zeta.
  replace (h * 6 - IZR i) with f by lra.
  pose proof (Z.div_mod i 6 ltac:(lia)) as D. pose proof (Z.mod_pos_bound i 6 eq_refl) as B.
  set (d := (i / 6)%Z) in *. set (j := (i mod 6)%Z) in *. clearbody d j. subst i.
  unfold channel. rewrite E, plus_IZR, mult_IZR.
  assert (J : (j = 0 \/ j = 1 \/ j = 2 \/ j = 3 \/ j = 4 \/ j = 5)%Z) by lia.
  assert (V : forall n e m, (0 <= m <= 5)%Z -> n + IZR j = 6 * IZR e + IZR m ->
              mod6 (n + (6 * IZR d + IZR j + f)) = IZR m + f).
  { intros n e m M N. rewrite <- (mod6_val (d + e) m f M F). f_equal. rewrite plus_IZR. lra. }
  assert (K : forall k, 0 <= k ->
     Rmax 0 (Rmin (Rmin k (4 - k)) 1) = if Rle_dec k 1 then k else if Rle_dec k 3 then 1 else if Rle_dec k 4 then 4 - k else 0).
  { intros k K0. unfold Rmin. destruct (Rle_dec k (4 - k));
      match goal with |- context [Rmax 0 (if Rle_dec ?a 1 then _ else _)] => destruct (Rle_dec a 1) end;
      unfold Rmax; repeat (destruct (Rle_dec _ _)); lra. }
  destruct J as [-> |[-> |[-> |[-> |[-> | ->]]]]];
    [ rewrite (V 5 0%Z 5%Z), (V 3 0%Z 3%Z), (V 1 0%Z 1%Z) by (try lia; lra)
    | rewrite (V 5 1%Z 0%Z), (V 3 0%Z 4%Z), (V 1 0%Z 2%Z) by (try lia; lra)
    | rewrite (V 5 1%Z 1%Z), (V 3 0%Z 5%Z), (V 1 0%Z 3%Z) by (try lia; lra)
    | rewrite (V 5 1%Z 2%Z), (V 3 1%Z 0%Z), (V 1 0%Z 4%Z) by (try lia; lra)
    | rewrite (V 5 1%Z 3%Z), (V 3 1%Z 1%Z), (V 1 0%Z 5%Z) by (try lia; lra)
    | rewrite (V 5 1%Z 4%Z), (V 3 1%Z 2%Z), (V 1 1%Z 0%Z) by (try lia; lra) ];
    rewrite !K by lra; clear V K;
    repeat (destruct (Rle_dec _ _); try (exfalso; lra)); (f_equal; [f_equal|]); try ring;
    (assert (f = 0) by lra; subst f; ring).
Qed.
(** The default colours are colours: three numbers from 0 to 255. *)
Theorem C82_colours : forall l d, (0 <= l)%Z -> let '(r, g, b) := colour l d in
  (0 <= r <= 255 /\ 0 <= g <= 255 /\ 0 <= b <= 255)%Z.
Proof.
  intros l d Hl. unfold colour.
  set (h := IZR (l mod 3) / 3 + _ + _). set (sa := 1 - _ / 12). set (v := 1 - _ / 4).
  assert (H0 : 0 <= h).
  { unfold h. assert (0 <= IZR (l mod 3)) by (apply IZR_le, Z.mod_pos_bound; lia).
    assert (0 <= IZR (l mod 6 / 3)) by (apply IZR_le, Z.div_pos; [apply Z.mod_pos_bound; lia|lia]).
    assert (0 <= IZR (l / 6)) by (apply IZR_le, Z.div_pos; lia). lra. }
  assert (S0 : 0 < sa <= 1).
  { unfold sa. pose proof (Z.mod_pos_bound (l + d) 8 eq_refl) as [A B].
    apply IZR_le in A. apply IZR_lt in B. lra. }
  assert (V0 : 0 <= v <= 1).
  { unfold v. pose proof (Z.mod_pos_bound d 3 eq_refl) as [A B]. apply IZR_le in A. apply IZR_lt in B. lra. }
  clearbody h sa v.
  assert (C : forall x, 0 <= x <= 1 -> (0 <= int_of (255 * x + 1 / 2) <= 255)%Z).
  { intros x Hx. assert (0 <= int_of (255 * x + 1 / 2) < 256)%Z; [|lia]. apply int_of_range. lra. }
  unfold hsv_to_rgb. destruct (Req_EM_T sa 0); [lra|].
  set (i := int_of (h * 6)).
  assert (Fr : 0 <= h * 6 - IZR i < 1).
  { unfold i, int_of. destruct (Rle_dec 0 (h * 6)); [|lra]. destruct (base_Int_part (h * 6)). lra. }
  set (f := h * 6 - IZR i) in *. clearbody f.
  assert (Bp : 0 <= v * (1 - sa) <= 1) by (split; nra).
  assert (Sf : 0 <= sa * f <= 1) by (split; nra). assert (Sg : 0 <= sa * (1 - f) <= 1) by (split; nra).
  assert (Bq : 0 <= v * (1 - sa * f) <= 1) by (split; nra).
  assert (Bt : 0 <= v * (1 - sa * (1 - f)) <= 1) by (split; nra).
  destruct (i mod 6)%Z as [|[[[]|[]|]|[[]|[]|]|]|]; auto.
Qed.

(** ** A cell with a label and a triangle, and one with a reflected, doubled array of it *)
Definition pic_label : lbl := Lbl [60%Z] (5, 6) 3 (Some 4%Z) (Some 45) None false.
Definition pic_place : place := Place (Some (10, 0)) None (Some 2) true (Some (2%nat, 3%nat, (100, 50))).
Definition pic : heap place (stuff (list (spec * list poly))) :=
  let h := new_cell (new_cell nothing [65%Z]) [66%Z] in
  let h := Cache.put h 0 (EPoly (PSet [GPoly tri 1 0] false)) in
  let h := Cache.put h 0 (ELabel pic_label) in
  Cache.put h 1 (ERef (ToCell 0) pic_place).
Definition some_write (h : heap place (stuff (list (spec * list poly)))) (c : nat) :=
  write_svg (V := unit) toy (fun _ => 5%Z) 10 (fun _ => None) (fun _ => None) (Some tt) (Percent 5)
    (fun l => l) (fun l => l) (fun l => l) h c.
Lemma same_visits {X} : visits (fun l : list X => l). Proof. intros l x; tauto. Qed.
Lemma found_under {P} (h : heap place (stuff P)) c ds : get_dependencies h c true = Some ds ->
  forall d, under h c d -> d = c \/ In d ds.
Proof. intros E d [->|R]; [now left|right]. now apply (deps_fuel_reach _ _ _ _ E d). Qed.
Lemma pic_wf : heap_wf pic.
Proof.
  repeat (apply put_wf; [|cbn; lia|cbn; auto; lia]). apply (sound_new toy _ (fun _ => False)), (sound_new toy), nothing_sound.
Qed.
Example C82_case : defined_at pic 1 /\ ids_differ pic 1 /\ names_outside pic 1 /\ origins_given pic 1 /\
  anchors_given (fun _ => 5%Z) pic 1 /\ all_under pic 1 (paths_wf toy pic) /\
  (exists h1 d, some_write pic 1 = Some (h1, Some d)) /\ exists L, expansion pic 1 L /\ length L = 7%nat.
Proof.
  assert (E : get_dependencies pic 1 true = Some [0%nat]) by reflexivity.
  assert (U : forall d, under pic 1 d -> d = 1%nat \/ d = 0%nat).
  { intros d H. destruct (found_under pic 1 _ E d H) as [->|[<-|[]]]; auto. }
  split; [split; [exact pic_wf|split; [cbn; lia|exact (deps_acyclic _ _ _ _ E)]]|].
  split. { intros d e Ud Ue. destruct (U d Ud) as [->| ->], (U e Ue) as [->| ->]; cbn; congruence. }
  split. { intros d e r n Ud _ Hr Ht. destruct (U d Ud) as [->| ->]; [|destruct Hr]. destruct Hr as [<-|[]]. discriminate. }
  split. { intros d r Ud Hr. destruct (U d Ud) as [->| ->]; [|destruct Hr]. destruct Hr as [<-|[]]. discriminate. }
  split. { intros d l _ _. exists (fst (nth 11 anchor_table (String.EmptyString, 0%Z))). reflexivity. }
  split. { intros d Ud. destruct (U d Ud) as [->| ->]; constructor. }
  split; [do 2 eexists; reflexivity|].
  eexists. split.
  - constructor. change (crefs pic 1) with [0%nat]. eapply exp_ref; [reflexivity| |constructor]. constructor.
    change (crefs pic 0) with (@nil nat). constructor.
  - reflexivity.
Qed.

(** ** Ids

    'A#' and 'A_' are different cells with the same id: the first one is shown for both. *)
Definition sq : poly := [(0, 0); (1, 0); (1, 1); (0, 1)].
Definition at0 : place := Place (Some (0, 0)) None None false None.
Definition clash : heap place (stuff (list (spec * list poly))) :=
  let h := new_cell (new_cell (new_cell nothing [65; 35]%Z) [65; 95]%Z) [84%Z] in
  let h := Cache.put h 0 (EPoly (PSet [GPoly tri 1 0] false)) in
  let h := Cache.put h 1 (EPoly (PSet [GPoly sq 1 0] false)) in
  Cache.put (Cache.put h 2 (ERef (ToCell 0) at0)) 2 (ERef (ToCell 1) at0).
Ltac run := repeat first
  [ apply sh_nil | apply sh_poly | eapply sh_use; [reflexivity| |] | eapply sh_dangling; [reflexivity|] ].
Definition use0 (n : name) : node := NUse [Translate (10 * 0) (10 * 0)] n.
Definition shape (id : name) (p : poly) : group := Group id [] [NPoly (1, 0)%Z (map (smul 10) p)].
Lemma clash_doc : exists h1 v ru fo ba, some_write clash 2 = Some (h1, Some (Doc v ru fo
  [shape [65; 95]%Z tri; shape [65; 95]%Z sq] ba
  (Group [84%Z] [ScaleXY 1 (-1)] [use0 [65; 95]%Z; use0 [65; 95]%Z]))).
Proof. do 5 eexists. reflexivity. Qed.
Theorem C82_ids_refuted : exists h1 d l m, (forall a b, cname clash a = cname clash b -> (a < 3)%nat -> (b < 3)%nat -> a = b) /\
  some_write clash 2 = Some (h1, Some d) /\ get_polygons toy clash 2 = Some l /\ picture d m /\
  map (@length pt) l = [3; 4]%nat /\ map (@length pt) (areas m) = [3; 3]%nat.
Proof.
  destruct clash_doc as (h1 & v & ru & fo & ba & W). do 4 eexists. split.
  { intros a b E Ha Hb. destruct a as [|[|[|a]]], b as [|[|[|b]]]; try lia; discriminate E. }
  split; [exact W|]. split; [reflexivity|]. clear W.
  split; [eexists; split; [cbn [doc_defs doc_top grp_nodes]; run|reflexivity]|]. split; reflexivity.
Qed.

(** A reference by name shows the cell of that name, if it is in the document;
    get_polygons shows nothing for it. *)
Definition named : heap place (stuff (list (spec * list poly))) :=
  let h := new_cell (new_cell nothing [65%Z]) [66%Z] in
  let h := Cache.put h 0 (EPoly (PSet [GPoly tri 1 0] false)) in
  Cache.put (Cache.put h 1 (ERef (ToCell 0) at0)) 1 (ERef (ToName [65%Z]) at0).
Lemma named_doc : exists h1 v ru fo ba, some_write named 1 = Some (h1, Some (Doc v ru fo
  [shape [65%Z] tri] ba (Group [66%Z] [ScaleXY 1 (-1)] [use0 [65%Z]; use0 [65%Z]]))).
Proof. do 5 eexists. reflexivity. Qed.
Theorem C82_by_name_refuted : exists h1 d l m, some_write named 1 = Some (h1, Some d) /\
  get_polygons toy named 1 = Some l /\ picture d m /\ length l = 1%nat /\ length (areas m) = 2%nat.
Proof.
  destruct named_doc as (h1 & v & ru & fo & ba & W). do 4 eexists. split; [exact W|]. split; [reflexivity|]. clear W.
  split; [eexists; split; [cbn [doc_defs doc_top grp_nodes]; run|reflexivity]|]. split; reflexivity.
Qed.

(** No file is written for a cell with labels only. *)
Theorem C82_labels_refuted : exists h, some_write (Cache.put (new_cell nothing [65%Z]) 0 (ELabel pic_label)) 0 = Some (h, None) /\
  s_labels (stuff_of h 0) = [pic_label].
Proof. eexists. split; reflexivity. Qed.
(** An origin of None, which the other methods take as (0, 0), raises. *)
Theorem C82_origin_refuted : exists l,
  let h := Cache.put (Cache.put (new_cell (new_cell nothing [65%Z]) [66%Z]) 0 (EPoly (PSet [GPoly tri 1 0] false))) 1 (ERef (ToCell 0) here) in
  get_polygons toy h 1 = Some l /\ some_write h 1 = None.
Proof. eexists. split; reflexivity. Qed.

Print Assumptions C82_drawing.
Print Assumptions C82_polygons.
Print Assumptions C82_frame.
Print Assumptions C82_visible.
Print Assumptions C82_written.
Print Assumptions C82_styles.
Print Assumptions C82_anchors.
Print Assumptions C82_hsv.
Print Assumptions C82_colours.
Print Assumptions C82_ids_refuted.
Print Assumptions C82_by_name_refuted.
Print Assumptions C82_labels_refuted.
Print Assumptions C82_origin_refuted.
