(** C21 (flatten) and C40 (removals). *)

From Coq Require Import Reals Lra List ZArith Bool Lia Permutation.
From Verif Require Import Graph SpecGraph GraphProofs Plane SpecPlane PlaneProofs Hier SpecHier HierProofs HierQuery
  HierBox HierFlat Cache CacheProofs PropHier PropQuery PropBox.
Import ListNotations.
Open Scope R_scope.

Section PropFlat.
Context {P : Type} (ops : pathops P).
Notation heap := (heap place (stuff P)).

(** ** C21: flatten *)

(** The polygons of a path with their specifications. *)
Definition path_content (p : P) : list (spec * poly) := flat_map (fun kv => map (pair (fst kv)) (snd kv)) (po_polys ops p).
(** On the paths in [G] and under the placements in [Q], transforming the path
    transforms its polygons. *)
Definition paths_follow (G : P -> Prop) (Q : inst -> Prop) : Prop :=
  forall p x, G p -> Q x ->
    G (path_moved ops [x] p) /\ path_content (path_moved ops [x] p) = map (place_poly [x]) (path_content p).
(** The paths found in the cells of an expansion are in [G], the placements in [Q]. *)
Definition holds (h : heap) (L : list (nat * chain)) (G : P -> Prop) (Q : inst -> Prop) : Prop :=
  forall e ch, In (e, ch) L -> (forall p, In p (s_paths (stuff_of h e)) -> G p) /\ (forall x, In x ch -> Q x).
(** Replacing layer and datatype. *)
Definition respec (sl sd : option Z) (sp : spec * poly) : spec * poly :=
  ((match sl with Some l => l | None => fst (fst sp) end, match sd with Some d => d | None => snd (fst sp) end), snd sp).

Lemma path_tags_content p : path_tags ops p = map ktag (path_content p).
Proof. unfold path_tags, path_content. rewrite map_flat_map. apply flat_map_ext; intro. rewrite map_map. reflexivity. Qed.
Lemma act_ktag x sp : act_key x (ktag sp) = ktag (place_poly [x] sp).
Proof. destruct sp as [s p]. apply (chain_key [x]). Qed.
Lemma follow_moves G Q : paths_follow G Q -> moves_well ops G Q.
Proof.
  intros F p x Gp Qx. destruct (F p x Gp Qx) as [A B]. split; [exact A|]. rewrite !path_tags_content.
  change (act_path ops x p) with (path_moved ops [x] p). rewrite B, !map_map. apply map_ext; intro; symmetry; apply act_ktag.
Qed.
Lemma retag_ktag sl sd sp : retag sl sd (ktag sp) = ktag (respec sl sd sp).
Proof. destruct sp as [[l d] p]; reflexivity. Qed.
Definition unk (kp : keyed_poly) : spec * poly := (match fst kp with KSpec s => s | _ => (0%Z, 0%Z) end, snd kp).
Lemma unk_ktag l : map unk (map ktag l) = l.
Proof. rewrite map_map. rewrite <- (map_id l) at 2. apply map_ext; intros [s p]; reflexivity. Qed.

(** After flatten, the cell has no references; nothing else has changed; its
    polygons are, with multiplicities, those it showed before, each with its layer
    and datatype, or with the given ones. *)
Theorem C21_polygons : forall (h : heap) fuel c sl sd st h' L G Q,
  flatten ops h fuel c sl sd st = Some h' -> expansion h c L -> paths_follow G Q -> holds h L G Q ->
  (forall p, G p -> sl <> None \/ sd <> None -> path_content (po_setspec ops sl sd p) = map (respec sl sd) (path_content p)) ->
  crefs h' c = [] /\ only_cell h h' c /\
  Permutation (contents ops h' c) (map (respec sl sd) (placed (contents ops h) L)).
Proof.
  intros h fuel c sl sd st h' L G Q F X PF HO RS.
  destruct (flatten_stuff ops h fuel c sl sd st h' F) as (_ & _ & _ & _ & _ & _ & R & O & _).
  split; [exact R|]. split; [exact O|].
  assert (T : Permutation (cell_tags ops h' c) (map (retag sl sd) (gather act_key (fun _ e => cell_tags ops h e) L))).
  { apply (flatten_tags ops h fuel c sl sd st h' G Q L F X).
    - now apply follow_moves.
    - apply Forall_forall. intros [e ch] I. apply Forall_forall. apply (HO e ch I).
    - apply Forall_forall. intros [e ch] I. apply Forall_forall. apply (HO e ch I).
    - destruct sl as [l|], sd as [d|]; [right|right|right|left; auto]; intros p Gp; rewrite !path_tags_content;
        rewrite RS by (auto; (left; discriminate) || (right; discriminate)); rewrite !map_map; apply map_ext; intro; symmetry; apply retag_ktag. }
  rewrite gather_placed, <- ktag_contents, map_map in T.
  apply (Permutation_map unk) in T. rewrite unk_ktag, map_map in T.
  erewrite map_ext in T; [exact T|]. intros [[a b] p]; reflexivity.
Qed.

(** In terms of the queries: get_polygons(), by (layer, datatype) too, gives the
    same polygons before and after, up to order. *)
Theorem C21_queries : forall (h : heap) c h' G Q L, defined_at h c ->
  flatten ops h (S (h_ncell h)) c None None None = Some h' -> expansion h c L -> paths_follow G Q -> holds h L G Q ->
  exists l l', get_polygons ops h c = Some l /\ get_polygons ops h' c = Some l' /\ Permutation l' l /\
   (all_under h c (paths_wf ops h) -> paths_wf ops h' c -> forall s, exists a a',
      tuple_fuel ops s h (S (h_ncell h)) None c = Some a /\ tuple_fuel ops s h' (S (h_ncell h')) None c = Some a' /\ Permutation a' a).
Proof.
  intros h c h' G Q L D F X PF HO.
  destruct (C21_polygons h _ c None None None h' L G Q F X PF HO) as (R & O & T); [intros p _ [N|N]; congruence|].
  assert (I : map (respec None None) (placed (contents ops h) L) = placed (contents ops h) L).
  { rewrite <- (map_id (placed _ _)) at 2. apply map_ext; intros [[a b] p]; reflexivity. }
  rewrite I in T. destruct (defined_deps h c D) as [dl E].
  destruct (tag_total_none ops (fun _ => None) h _ c dl E) as [t Tt].
  assert (Et : t = map ktag (placed (contents ops h) L)).
  { rewrite (tag_expansion ops _ h _ _ c t L Tt X).
    now rewrite (gather_ext _ _ _ _ (fun n e => shown_none ops (fun _ => None) h n e)), gather_placed. }
  pose proof (alone_tags ops (fun _ => None) h' (h_ncell h') c R) as T'. rewrite <- ktag_contents in T'.
  exists (map snd t), (map snd (map ktag (contents ops h' c))). split; [unfold get_polygons, polys_fuel; now rewrite flat_tags, Tt|].
  split; [unfold get_polygons, polys_fuel; now rewrite flat_tags, T'|]. split.
  - subst t. rewrite !ktag_snd. now apply Permutation_map.
  - intros W W' s. exists (pick s t), (pick s (map ktag (contents ops h' c))). split; [apply (tuple_tags ops s (fun _ => None) h _ _ c t W Tt)|].
    split; [|subst t; rewrite !ktag_pick; unfold of_spec; apply Permutation_map, filter_perm, T].
    apply (tuple_tags ops s (fun _ => None) h' _ _ c _); [|exact T'].
    intros d [->|U]; [exact W'|]. destruct (reach_nothing _ _ _ R U).
Qed.

(** Labels: one for every placement, moved to its place. *)
Theorem C21_labels : forall (h : heap) c sl st h' L, defined_at h c ->
  flatten ops h (S (h_ncell h)) c sl None st = Some h' -> expansion h c L ->
  s_labels (stuff_of h' c) =
  flat_map (fun ec => map (fun l => let m := moved (chain_map (snd ec)) l in
      Lbl (l_text m) (l_pos m) (match sl with Some z => z | None => l_layer m end) (l_tt m) (l_rot m) (l_mag m) (l_refl m))
    (s_labels (stuff_of h (fst ec)))) L.
Proof.
  intros h c sl st h' L D F X. destruct (flatten_stuff ops h _ c sl None st h' F) as (ls & _ & _ & A & _ & _ & _ & _ & _ & _ & S).
  rewrite S. rewrite (C54_labels h c None L D X) in A. injection A as <-.
  replace (filter (in_depth None) L) with L.
  - rewrite map_flat_map. apply flat_map_ext; intros [e ch]. rewrite map_map. apply map_ext; intro l. reflexivity.
  - clear. induction L as [|[e [|x ch]] L IH]; [reflexivity| |]; cbn [filter]; unfold in_depth at 1; cbn [snd]; now rewrite <- IH.
Qed.

(** Flattening again changes nothing. *)
Theorem C21_idempotent : forall (h : heap) fuel c sl sd st h', flatten ops h fuel c sl sd st = Some h' ->
  (sl = None /\ sd = None \/ forall p, po_setspec ops sl sd (po_setspec ops sl sd p) = po_setspec ops sl sd p) ->
  exists h'', flatten ops h' fuel c sl sd st = Some h'' /\
    (forall d, stuff_of h'' d = stuff_of h' d /\ crefs h'' d = crefs h' d /\ cname h'' d = cname h' d) /\
    (forall r, h_ref h'' r = h_ref h' r) /\ h_ncell h'' = h_ncell h' /\ h_nref h'' = h_nref h'.
Proof.
  intros h fuel c sl sd st h' F HP. destruct fuel as [|n].
  { unfold flatten in F. cbn in F. discriminate. }
  pose proof (flatten_stuff ops h (S n) c sl sd st h' F) as (ls & ps & qs & _ & _ & _ & R & O & S1 & S2 & S3).
  unfold flatten.
  assert (A : labels_fuel false h' (S n) None c = Some (s_labels (stuff_of h' c))).
  { exact (alone_gen h' (fun e => s_labels (stuff_of h' e)) (place_labels false) n None c R). }
  assert (B : sets_fuel h' (S n) None c = Some (s_polys (stuff_of h' c))).
  { exact (alone_gen h' (fun e => s_polys (stuff_of h' e)) place_sets n None c R). }
  assert (C : paths_fuel ops h' (S n) None c = Some (s_paths (stuff_of h' c))).
  { exact (alone_gen h' (fun e => s_paths (stuff_of h' e)) (place_paths ops) n None c R). }
  rewrite A, B, C. eexists. split; [reflexivity|].
  assert (Q1 : map (set_pset sl sd) (s_polys (stuff_of h' c)) = s_polys (stuff_of h' c)).
  { rewrite S1, map_map. apply map_ext; intro p. unfold set_pset; cbn. f_equal. rewrite map_map. apply map_ext; intro g.
    unfold set_spec; cbn. destruct sl, sd; reflexivity. }
  assert (Q3 : map (set_label sl sd st) (s_labels (stuff_of h' c)) = s_labels (stuff_of h' c)).
  { rewrite S3, map_map. apply map_ext; intro l. unfold set_label; cbn. destruct sl, sd; reflexivity. }
  assert (Q2 : match sl, sd with None, None => s_paths (stuff_of h' c) | _, _ => map (po_setspec ops sl sd) (s_paths (stuff_of h' c)) end
    = s_paths (stuff_of h' c)).
  { rewrite S2. destruct HP as [[-> ->]|HP]; [reflexivity|].
    destruct sl, sd; try reflexivity; rewrite map_map; apply map_ext; intro; apply HP. }
  rewrite Q1, Q2, Q3. split; [|split; [|split]]; try reflexivity.
  intro d. unfold stuff_of, crefs, cname, set_data, set_cell, upd; cbn [h_cell].
  destruct (Nat.eqb_spec d c) as [->|N]; [|auto]. cbn [c_data c_refs c_name].
  unfold crefs in R. rewrite R. destruct (c_data (h_cell h' c)); repeat split.
Qed.

(** flatten is defined on every acyclic cell, provided no polygon set below has
    been through remove_polygons. *)
Lemma existsb_app_false {X} (f : X -> bool) a b : existsb f a = false -> existsb f b = false -> existsb f (a ++ b) = false.
Proof. intros A B. now rewrite existsb_app, A, B. Qed.
Definition no_tuples (h : heap) (e : nat) : Prop := existsb set_fails (s_polys (stuff_of h e)) = false.
Lemma fails_on_set f l : existsb set_fails (map (on_set f) l) = existsb set_fails l.
Proof. induction l as [|p l IH]; [reflexivity|]. cbn [map existsb]. rewrite IH. f_equal. unfold set_fails, on_set; cbn. now destruct (ps_list p). Qed.
Lemma sets_total (h : heap) n d : forall c l, deps_fuel n h true c = Some l -> all_under h c (no_tuples h) ->
  exists ps, sets_fuel h n d c = Some ps /\ existsb set_fails ps = false.
Proof.
  unfold sets_fuel. revert d; induction n as [|n IH]; intros d c l D NT; [discriminate|]. cbn [iter_fuel]. unfold sets_step at 1.
  pose proof (NT c (or_introl eq_refl)) as N0. unfold no_tuples in N0.
  destruct (deeper d); [|rewrite app_nil_r; eauto].
  assert (HD : forall e, direct h c e -> exists ys, iter_fuel (sets_step h) n (next d, e) = Some ys /\ existsb set_fails ys = false).
  { intros e De. destruct (deps_direct h n c l D e De) as [l' L']. apply (IH (next d) e l' L').
    intros x U. apply NT. right. destruct U as [->|U]; [now apply reach_one|eapply reach_more; eauto]. }
  destruct (expand_total h (iter_fuel (sets_step h) n) place_sets (next d) c) as [o Ho].
  - intros e De. destruct (HD e De) as (ys & Y & _). eauto.
  - intros r e ys Hr T E. destruct (HD e) as (ys' & Y & Fy); [exists r; auto|]. rewrite E in Y. injection Y as <-.
    unfold place_sets. rewrite Fy, andb_false_r. destruct (p_arr _) as [[[a b] sp]|]; [|discriminate]. destruct (grid a b sp); discriminate.
  - rewrite Ho. eexists. split; [reflexivity|]. apply existsb_app_false; [exact N0|].
    assert (K : forall rs o, (forall r, In r rs -> In r (crefs h c)) -> expand h (iter_fuel (sets_step h) n) place_sets (next d) rs = Some o -> existsb set_fails o = false).
    { clear - HD. induction rs as [|r rs IHr]; intros o HS E; unfold expand in E; cbn [collect] in E; [now injection E as <-|].
      destruct (match rtarget h r with ToName _ => _ | ToCell _ => _ end) as [a|] eqn:A; [|discriminate].
      destruct (collect _ rs) as [b|] eqn:B; [|discriminate]. injection E as <-.
      apply existsb_app_false; [|apply (IHr b (fun x Hx => HS x (or_intror Hx)) B)].
      destruct (rtarget h r) as [e|nm] eqn:T; [|now injection A as <-].
      destruct (HD e) as (ys & Y & Fy); [exists r; split; [apply HS; now left|auto]|]. rewrite Y in A.
      rewrite (place_sets_insts _ _ _ A). clear - Fy. induction (insts (place_of h r)) as [|x g IH]; [reflexivity|].
      simpl. apply existsb_app_false; [now rewrite fails_on_set|exact IH]. }
    apply (K (crefs h c) o); auto.
Qed.
Theorem C21_defined : forall (h : heap) c sl sd st, defined_at h c -> all_under h c (no_tuples h) ->
  exists h', flatten ops h (S (h_ncell h)) c sl sd st = Some h'.
Proof.
  intros h c sl sd st D NT. destruct (labels_total false h c None D) as [ls A]. destruct (paths_total ops h c None D) as [qs C].
  destruct (defined_deps h c D) as [dl E]. destruct (sets_total h _ None c dl E NT) as (ps & B & _).
  unfold flatten. rewrite A, B, C. eauto.
Qed.

(** ** C40: removals *)

Definition kept (test : poly -> Z -> Z -> bool) (g : gpoly) : bool := negb (test (g_pts g) (g_layer g) (g_dt g)).
Definition nonempty {X} (l : list X) : bool := match l with [] => false | _ => true end.

(** The sets left are the old ones, in order, without the polygons that satisfy
    the test, and without the sets that have become empty.  Nothing else changes. *)
Theorem C40_polygons : forall (h : heap) c test, let h' := cell_remove_polygons h c test in
  map ps_list (s_polys (stuff_of h' c)) = filter nonempty (map (filter (kept test)) (map ps_list (s_polys (stuff_of h c)))) /\
  s_paths (stuff_of h' c) = s_paths (stuff_of h c) /\ s_labels (stuff_of h' c) = s_labels (stuff_of h c) /\
  crefs h' c = crefs h c /\ only_cell h h' c.
Proof.
  intros h c test h'. unfold h', cell_remove_polygons. unfold only_cell, stuff_of, crefs, cname, set_data, set_cell, upd; cbn [h_cell h_ref h_ncell h_nref].
  rewrite Nat.eqb_refl. cbn [c_data c_refs c_name s_polys s_paths s_labels]. split; [|repeat split].
  - unfold remove_polygons. rewrite map_flat_map. induction (s_polys _) as [|ps l IH]; [reflexivity|]. simpl. rewrite IH. unfold kept at 3.
    destruct (filter _ (ps_list ps)); reflexivity.
  - intros d N. apply Nat.eqb_neq in N. now rewrite N.
Qed.
(** As a list of polygons: a filter. *)
Theorem C40_list : forall (h : heap) c test,
  flat_map ps_list (s_polys (stuff_of (cell_remove_polygons h c test) c)) = filter (kept test) (flat_map ps_list (s_polys (stuff_of h c))).
Proof.
  intros h c test. destruct (C40_polygons h c test) as (E & _). cbn zeta in E. unfold gset in E.
  rewrite (flat_map_concat_map _ (s_polys (stuff_of h c))), (flat_map_concat_map _ (s_polys _)), E.
  clear E. induction (s_polys (stuff_of h c)) as [|a l IH]; [reflexivity|]. cbn [map filter concat].
  rewrite filter_app. destruct (filter (kept test) (ps_list a)) eqn:F; cbn [nonempty concat app]; rewrite IH; reflexivity.
Qed.
Theorem C40_elements : forall (h : heap) c (tp : P -> bool) (tl : lbl -> bool),
  let h1 := cell_remove_paths h c tp in let h2 := cell_remove_labels h c tl in
  s_paths (stuff_of h1 c) = filter (fun p => negb (tp p)) (s_paths (stuff_of h c)) /\
  s_polys (stuff_of h1 c) = s_polys (stuff_of h c) /\ s_labels (stuff_of h1 c) = s_labels (stuff_of h c) /\
  crefs h1 c = crefs h c /\ only_cell h h1 c /\
  s_labels (stuff_of h2 c) = filter (fun l => negb (tl l)) (s_labels (stuff_of h c)) /\
  s_polys (stuff_of h2 c) = s_polys (stuff_of h c) /\ s_paths (stuff_of h2 c) = s_paths (stuff_of h c) /\
  crefs h2 c = crefs h c /\ only_cell h h2 c.
Proof.
  intros h c tp tl h1 h2. unfold h1, h2, cell_remove_paths, cell_remove_labels.
  unfold only_cell, stuff_of, crefs, cname, set_data, set_cell, upd; cbn [h_cell h_ref h_ncell h_nref].
  rewrite Nat.eqb_refl. cbn [c_data c_refs c_name s_polys s_paths s_labels]. rewrite !remove_where_filter.
  repeat split; intros d N; apply Nat.eqb_neq in N; now rewrite N.
Qed.

(** Removals leave the cached box: after measuring, a removal never changes the
    answer. *)
Theorem C40_stale_box_refuted : forall (h : heap) c test h1 b, measure ops h c = Some (h1, b) ->
  crefs h c = [] -> measure ops (cell_remove_polygons h1 c test) c = Some (cell_remove_polygons h1 c test, b).
Proof.
  intros h c test h1 b M R.
  assert (V : valid h1 c = true /\ s_bb (stuff_of h1 c) = b /\ crefs h1 c = []).
  { unfold measure in M. cbn [measure_fuel] in M. unfold get_dependencies in M. cbn [deps_fuel] in M.
    rewrite R in M. cbn in M. destruct (valid h c) eqn:Vc; cbn [andb] in M.
    - injection M as <- <-. auto.
    - destruct (own_points ops (stuff_of h c)); [|discriminate]. injection M as <- <-.
      unfold valid. rewrite set_bb_stuff, Nat.eqb_refl. cbn. split; [auto|split; [auto|]].
      destruct (set_bb_geom h c (option_map clamp_box (box_of (l ++ [])))) as (G & _). destruct (G c) as (-> & _). exact R. }
  destruct V as (V & Bq & R1). set (h2 := cell_remove_polygons h1 c test).
  assert (R2 : crefs h2 c = []).
  { unfold h2. destruct (C40_polygons h1 c test) as (_ & _ & _ & -> & _). exact R1. }
  assert (V2 : valid h2 c = true /\ s_bb (stuff_of h2 c) = b).
  { unfold h2, cell_remove_polygons, valid, stuff_of, set_data, set_cell, upd; cbn [h_cell]. rewrite Nat.eqb_refl. cbn. auto. }
  destruct V2 as [V2 B2]. unfold measure. cbn [measure_fuel]. unfold get_dependencies. cbn [deps_fuel]. rewrite R2. cbn. rewrite V2. cbn. now rewrite B2.
Qed.

End PropFlat.

(** With single_datatype, the texttype of every label becomes single_texttype, even
    when that is not given. *)
Theorem C21_texttype_refuted : exists (h h' : heap place (stuff (list (spec * list poly)))) l,
  defined_at h 0 /\ s_labels (stuff_of h 0) = [l] /\ l_tt l = Some 4%Z /\
  flatten toy h 2 0 None (Some 7%Z) None = Some h' /\ map l_tt (s_labels (stuff_of h' 0)) = [None].
Proof.
  set (l := Lbl [88%Z] (5, 6) 3 (Some 4%Z) None None false).
  set (h := put (new_cell (@nothing (list (spec * list poly))) [65%Z]) 0 (ELabel l)).
  assert (F : exists h', flatten toy h 2 0 None (Some 7%Z) None = Some h' /\ map l_tt (s_labels (stuff_of h' 0)) = [None]).
  { eexists. split; reflexivity. }
  destruct F as (h' & F & T). exists h, h', l. split; [|split; [reflexivity|split; [reflexivity|split; [exact F|exact T]]]].
  split; [|split; [cbn; lia|]].
  - apply put_wf; [|cbn; lia|exact I]. apply (sound_new toy _ (fun _ => False)), nothing_sound.
  - intros d U R. assert (E : forall x y, direct h x y -> False).
    { intros x y (r & Hr & _). destruct x; cbn in Hr; destruct Hr. }
    inversion R; subst; eauto.
Qed.

(** A cell whose sets have been through remove_polygons can no longer be flattened
    through a displaced reference. *)
Definition tup0 : heap place (stuff (list (spec * list poly))) :=
  put (put (new_cell (new_cell nothing [65%Z]) [66%Z]) 1 (EPoly (PSet [GPoly tri 1 0; GPoly tri 2 0] false)))
    0 (ERef (ToCell 1) far).
Definition tup1 := cell_remove_polygons tup0 1 (fun _ l _ => Z.eqb l 1).
Theorem C21_after_removal_refuted : (exists h', flatten toy tup0 3 0 None None None = Some h') /\
  (exists l, get_polygons toy tup1 0 = Some l /\ length l = 1%nat) /\ forall fuel, flatten toy tup1 fuel 0 None None None = None.
Proof.
  split; [eexists; reflexivity|]. split; [eexists; split; reflexivity|].
  intros [|[|n]]; [reflexivity|reflexivity|]. unfold flatten.
  assert (E : sets_fuel tup1 (S (S n)) None 0 = None) by reflexivity. rewrite E.
  destruct (labels_fuel _ _ _ _ _); reflexivity.
Qed.

(** *** The hypotheses are met *)
Lemma demo_tuples : all_under demo 2 (no_tuples demo).
Proof. apply (demo_under_all (no_tuples demo)); reflexivity. Qed.
Lemma toy_map_ok x p : toy_map (p_org (fst x)) (rads (p_rot (fst x))) (p_mag (fst x)) (p_refl (fst x))
      (match p_arr (fst x) with
       | None => None
       | Some (_, _, sp) => Some (fst sp * INR (fst (snd x)), snd sp * INR (snd (snd x)))
       end) p = inst_map x p.
Proof.
  rewrite <- code_map_ok. destruct x as [pl [i j]]; cbn [fst snd]. unfold code_map, toy_map, rads; cbn [fst snd].
  assert (C : do_refl (p_refl pl) (do_mag (p_mag pl) p) = do_mag (p_mag pl) (do_refl (p_refl pl) p)).
  { destruct (p_refl pl), (p_mag pl); try reflexivity. unfold do_refl, do_mag, pmul; cbn. f_equal; ring. }
  destruct (p_arr pl) as [[[n m] sp]|]; cbn [option_map do_org].
  - unfold arr_map, do_rot. destruct (p_rot pl); reflexivity.
  - unfold ref_map, do_rot. rewrite C. destruct (p_rot pl); reflexivity.
Qed.
Lemma toy_follow : paths_follow toy (fun _ => True) (fun _ => True).
Proof.
  intros p x _ _. split; [exact I|]. unfold path_content, path_moved, toy; cbn [fold_right po_move po_polys].
  rewrite flat_map_map, map_flat_map. apply flat_map_ext; intros [s l]; cbn [fst snd]. rewrite !map_map.
  apply map_ext; intro q. unfold place_poly; cbn [fst snd]. f_equal. apply map_ext; intro v. apply toy_map_ok.
Qed.
Example C21_demo : exists h', flatten toy demo 4 2 None None None = Some h' /\ (forall L, holds demo L (fun _ => True) (fun _ => True)) /\
  all_under demo 2 (no_tuples demo) /\ paths_follow toy (fun _ => True) (fun _ => True).
Proof.
  destruct (C21_defined toy demo 2 None None None demo_defined demo_tuples) as [h' F].
  exists h'. split; [|split; [intros L e ch _; auto|split; [exact demo_tuples|exact toy_follow]]].
  destruct demo_ok as (_ & _ & N). now rewrite N in F.
Qed.
(** Two of four polygons are removed, one set disappears. *)
Example C40_demo : let h := put (put (new_cell (@nothing unit) [65%Z]) 0 (EPoly (PSet [GPoly tri 1 0; GPoly tri 2 5; GPoly tri 3 6] false)))
    0 (EPoly (PSet [GPoly tri 1 7] false)) in
  map ps_list (s_polys (stuff_of (cell_remove_polygons h 0 (fun _ l _ => Z.eqb l 1)) 0)) = [[GPoly tri 2 5; GPoly tri 3 6]].
Proof. reflexivity. Qed.

Print Assumptions C21_polygons.
Print Assumptions C21_queries.
Print Assumptions C21_labels.
Print Assumptions C21_idempotent.
Print Assumptions C21_defined.
Print Assumptions C21_texttype_refuted.
Print Assumptions C21_after_removal_refuted.
Print Assumptions C40_polygons.
Print Assumptions C40_list.
Print Assumptions C40_elements.
Print Assumptions C40_stale_box_refuted.
