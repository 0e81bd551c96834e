(** get_polygonsets, get_paths, get_labels, flatten, removals and class sets. *)

From Coq Require Import Reals Lra List ZArith Bool Lia Permutation.
From Verif Require Import Graph SpecGraph GraphProofs Plane SpecPlane PlaneProofs Hier SpecHier HierProofs HierQuery.
Import ListNotations.
Open Scope R_scope.

(** ** Placing elements *)

Lemma place_sets_insts pl l l' : place_sets pl l = Some l' ->
  l' = flat_map (fun x => map (on_set (code_map x)) l) (insts pl).
Proof.
  unfold place_sets. destruct (p_arr pl) as [[[n m] sp]|] eqn:E.
  - intro H. assert (H' : l' = flat_map (fun spc => map (on_set (arr_map pl spc)) l) (grid n m sp)).
    { destruct (grid n m sp) as [|q g]; [injection H as <-; reflexivity|].
      destruct (existsb set_fails l); [discriminate|]. now injection H as <-. }
    rewrite H', (grid_insts _ pl n m sp E). apply flat_map_ext_in. intros [q ij] Hx.
    apply insts_place in Hx. cbn in Hx; subst q. cbn [code_map fst snd]. now rewrite E.
  - destruct (_ && _); [discriminate|]. intros [= <-]. unfold insts. rewrite E. simpl. now rewrite E, app_nil_r.
Qed.

Definition act_label (x : inst) (l : lbl) : lbl := label_at (code_map x) l.
Definition act_label_t (x : inst) (l : lbl) : lbl := label_attrs (fst x) (label_at (code_map x) l).
Lemma place_labels_insts (st : bool) pl l l' : place_labels st pl l = Some l' ->
  l' = flat_map (fun x => map (if st then act_label_t x else act_label x) l) (insts pl).
Proof.
  unfold place_labels. destruct (p_arr pl) as [[[n m] sp]|] eqn:E; intros [= <-].
  - rewrite (grid_insts _ pl n m sp E). apply flat_map_ext_in. intros [q ij] Hx.
    apply insts_place in Hx. cbn in Hx; subst q. destruct st; unfold act_label_t, act_label; cbn [code_map fst snd]; now rewrite E.
  - unfold insts. rewrite E. simpl. rewrite app_nil_r. destruct st; unfold act_label_t, act_label; cbn [code_map fst]; now rewrite E.
Qed.

Section Flat.
Context {P : Type} (ops : pathops P).
Notation heap := (heap place (stuff P)).
Implicit Types h : heap.

Definition act_path (x : inst) : P -> P :=
  let pl := fst x in
  po_move ops (p_org pl) (rads (p_rot pl)) (p_mag pl) (p_refl pl)
    (match p_arr pl with
     | None => None
     | Some (_, _, sp) => Some (fst sp * INR (fst (snd x)), snd sp * INR (snd (snd x)))
     end).
Lemma place_paths_insts pl l l' : place_paths ops pl l = Some l' ->
  l' = flat_map (fun x => map (act_path x) l) (insts pl).
Proof.
  unfold place_paths. destruct (p_arr pl) as [[[n m] sp]|] eqn:E; intros [= <-].
  - rewrite (grid_insts _ pl n m sp E). apply flat_map_ext_in. intros [q ij] Hx.
    apply insts_place in Hx. cbn in Hx; subst q. unfold act_path; cbn [fst snd]. now rewrite E.
  - unfold insts. rewrite E. simpl. rewrite app_nil_r. unfold act_path; cbn [fst]. now rewrite E.
Qed.

Lemma sets_expansion h fuel d c ys L : sets_fuel h fuel d c = Some ys -> expansion h c L ->
  ys = gather (fun x => on_set (code_map x)) (gen_sel (fun e => s_polys (stuff_of h e)) d) L.
Proof. intros E X. eapply (gen_expansion h (fun e => s_polys (stuff_of h e)) _ place_sets); [apply place_sets_insts|exact E|exact X]. Qed.
Lemma paths_expansion h fuel d c ys L : paths_fuel ops h fuel d c = Some ys -> expansion h c L ->
  ys = gather act_path (gen_sel (fun e => s_paths (stuff_of h e)) d) L.
Proof. intros E X. eapply (gen_expansion h (fun e => s_paths (stuff_of h e)) _ (place_paths ops)); [apply place_paths_insts|exact E|exact X]. Qed.
Lemma labels_expansion (st : bool) h fuel d c ys L : labels_fuel st h fuel d c = Some ys -> expansion h c L ->
  ys = gather (fun x => if st then act_label_t x else act_label x) (gen_sel (fun e => s_labels (stuff_of h e)) d) L.
Proof. intros E X. eapply (gen_expansion h (fun e => s_labels (stuff_of h e)) _ (place_labels st)); [apply place_labels_insts|exact E|exact X]. Qed.

(** Through a whole chain. *)
Lemma chain_set ch ps : fold_right (fun x => on_set (code_map x)) ps ch = on_set (chain_map ch) ps.
Proof.
  induction ch as [|x ch IH]; cbn [fold_right].
  - destruct ps as [l b]; unfold on_set, map_pts; cbn. f_equal. symmetry. rewrite <- (map_id l) at 2.
    apply map_ext; intros [p a b']; unfold on_pts; cbn. f_equal. apply map_id.
  - rewrite IH. unfold on_set, map_pts; cbn. f_equal. rewrite map_map. apply map_ext; intros [p a b']; unfold on_pts; cbn. f_equal.
    rewrite map_map. apply map_ext; intro q. apply code_map_ok.
Qed.
Lemma chain_label ch l : fold_right act_label l ch = label_at (chain_map ch) l.
Proof.
  induction ch as [|x ch IH]; cbn [fold_right]; [destruct l; reflexivity|]. rewrite IH. unfold act_label, label_at; cbn. f_equal. apply code_map_ok.
Qed.
Lemma chain_key ch k p : fold_right act_key (k, p) ch = (k, map (chain_map ch) p).
Proof.
  induction ch as [|x ch IH]; cbn [fold_right]; [unfold chain_map; cbn; now rewrite map_id|].
  rewrite IH. unfold act_key; cbn. f_equal. rewrite map_map. apply map_ext; intro; apply code_map_ok.
Qed.

(** ** flatten *)

(** Moving a path moves its polygons, and so on through any instances. *)
Definition moves_well (G : P -> Prop) (Q : inst -> Prop) : Prop :=
  forall p x, G p -> Q x -> G (act_path x p) /\ path_tags ops (act_path x p) = map (act_key x) (path_tags ops p).

Lemma chain_path G Q : moves_well G Q -> forall ch p, G p -> Forall Q ch ->
  G (fold_right act_path p ch) /\ path_tags ops (fold_right act_path p ch) = map (fun kp => fold_right act_key kp ch) (path_tags ops p).
Proof.
  intros MW ch; induction ch as [|x ch IH]; intros p Gp F; cbn [fold_right]; [split; [auto|now rewrite map_id]|].
  inversion F; subst. destruct (IH p Gp H2) as [G1 T1]. destruct (MW _ x G1 H1) as [G2 T2]. split; [auto|].
  rewrite T2, T1, map_map. reflexivity.
Qed.

Lemma Permutation_flat_map_app {X Y} (f g : X -> list Y) l :
  Permutation (flat_map f l ++ flat_map g l) (flat_map (fun x => f x ++ g x) l).
Proof.
  induction l as [|x l IH]; [constructor|]. simpl. rewrite <- !app_assoc. apply Permutation_app_head.
  rewrite app_assoc. eapply Permutation_trans; [apply Permutation_app_tail, Permutation_app_comm|].
  rewrite <- app_assoc. apply Permutation_app_head, IH.
Qed.

Definition set_tags (ps : pset) : list keyed_poly := map (fun g => (KSpec (g_spec g), g_pts g)) (ps_list ps).
Lemma own_tags_sets (s : stuff P) : own_tags s = flat_map set_tags (s_polys s).
Proof. reflexivity. Qed.
Lemma set_tags_act ch ps : set_tags (fold_right (fun x => on_set (code_map x)) ps ch)
  = map (fun kp => fold_right act_key kp ch) (set_tags ps).
Proof.
  rewrite chain_set. unfold set_tags, on_set, map_pts; cbn. rewrite !map_map. apply map_ext; intro g.
  rewrite chain_key. reflexivity.
Qed.

(** The instances used in an expansion satisfy [Q]. *)
Definition chains_in (Q : inst -> Prop) (L : list (nat * chain)) : Prop := Forall (fun ec => Forall Q (snd ec)) L.

Lemma flat_tags_perm h (G : P -> Prop) Q L :
  moves_well G Q -> chains_in Q L -> Forall (fun ec => Forall G (s_paths (stuff_of h (fst ec)))) L ->
  Permutation
    (flat_map set_tags (gather (fun x => on_set (code_map x)) (fun _ e => s_polys (stuff_of h e)) L)
     ++ flat_map (path_tags ops) (gather act_path (fun _ e => s_paths (stuff_of h e)) L))
    (gather act_key (fun _ e => cell_tags ops h e) L).
Proof.
  intros MW CI GP. unfold gather. rewrite !flat_map_flat_map.
  eapply Permutation_trans; [apply Permutation_flat_map_app|].
  rewrite (flat_map_ext_in _ (fun ec => map (fun y => fold_right act_key y (snd ec)) (cell_tags ops h (fst ec)))); [apply Permutation_refl|].
  intros [e ch] H. cbn [fst snd]. unfold cell_tags. rewrite map_app. f_equal.
  - rewrite flat_map_map, own_tags_sets, map_flat_map. apply flat_map_ext; intro ps. apply set_tags_act.
  - rewrite flat_map_map, map_flat_map. apply flat_map_ext_in. intros p Hp.
    unfold chains_in in CI. rewrite Forall_forall in CI, GP. specialize (CI _ H). specialize (GP _ H). cbn in CI, GP.
    rewrite Forall_forall in GP. apply (chain_path G Q MW ch p (GP p Hp) CI).
Qed.

Lemma gen_sel_none {Y} (own : nat -> list Y) n e : gen_sel own None n e = own e.
Proof. unfold gen_sel, level_ok, within. now rewrite orb_true_r. Qed.
Lemma shown_none bx h n e : shown ops bx h None n e = cell_tags ops h e.
Proof. reflexivity. Qed.

(** What the flattened cell holds. *)
Lemma flatten_stuff h fuel c sl sd st h' : flatten ops h fuel c sl sd st = Some h' ->
  exists ls ps qs, labels_fuel false h fuel None c = Some ls /\ sets_fuel h fuel None c = Some ps /\
    paths_fuel ops h fuel None c = Some qs /\ crefs h' c = [] /\ only_cell h h' c /\
    s_polys (stuff_of h' c) = map (set_pset sl sd) ps /\
    s_paths (stuff_of h' c) = (match sl, sd with None, None => qs | _, _ => map (po_setspec ops sl sd) qs end) /\
    s_labels (stuff_of h' c) = map (set_label sl sd st) ls.
Proof.
  unfold flatten. destruct (labels_fuel _ _ _ _ _) as [ls|] eqn:A; [|discriminate].
  destruct (sets_fuel _ _ _ _) as [ps|] eqn:B; [|discriminate].
  destruct (paths_fuel _ _ _ _ _) as [qs|] eqn:C; [|discriminate]. intros [= <-].
  exists ls, ps, qs. repeat split; auto; unfold set_data, set_cell, crefs, stuff_of, cname, upd; cbn [h_cell]; rewrite ?Nat.eqb_refl; auto.
  intros d N. apply Nat.eqb_neq in N. now rewrite N.
Qed.
Lemma alone_tags bx h n c : crefs h c = [] -> tag_fuel ops bx h (S n) None c = Some (cell_tags ops h c).
Proof. intro E. unfold tag_fuel. cbn [iter_fuel]. unfold tag_step at 1. cbn [below]. rewrite E. cbn. now rewrite app_nil_r. Qed.
Lemma alone_gen {Y} h (own : nat -> list Y) pf n d c : crefs h c = [] -> iter_fuel (gen_step h own pf) (S n) (d, c) = Some (own c).
Proof. intro E. cbn [iter_fuel]. unfold gen_step at 1. rewrite E. destruct (deeper d); cbn; now rewrite app_nil_r. Qed.

Definition retag (sl sd : option Z) (kp : keyed_poly) : keyed_poly :=
  (match fst kp with KSpec s => KSpec (or_old sl (fst s), or_old sd (snd s)) | k => k end, snd kp).
Lemma set_tags_retag sl sd ps : set_tags (set_pset sl sd ps) = map (retag sl sd) (set_tags ps).
Proof. unfold set_tags, set_pset; cbn. rewrite !map_map. reflexivity. Qed.
Lemma retag_none kp : retag None None kp = kp.
Proof. destruct kp as [[[a b]|n] p]; reflexivity. Qed.
Lemma map_retag_none l : map (retag None None) l = l.
Proof. induction l as [|kp l IH]; [reflexivity|]. cbn [map]. now rewrite IH, retag_none. Qed.
Lemma map_flat_retag {X Y Z W} (f : Y -> list Z) (g : X -> Y) (f' : X -> list W) (k : W -> Z) l :
  (forall x, In x l -> f (g x) = map k (f' x)) -> flat_map f (map g l) = map k (flat_map f' l).
Proof. intro H. rewrite flat_map_map, map_flat_map. now apply flat_map_ext_in. Qed.

(** Setting layers and datatypes retags a path's polygons. *)
Definition respecs_well (G : P -> Prop) (sl sd : option Z) : Prop :=
  forall p, G p -> path_tags ops (po_setspec ops sl sd p) = map (retag sl sd) (path_tags ops p).

Lemma flatten_tags h fuel c sl sd st h' G Q L :
  flatten ops h fuel c sl sd st = Some h' -> expansion h c L ->
  moves_well G Q -> chains_in Q L -> Forall (fun ec => Forall G (s_paths (stuff_of h (fst ec)))) L ->
  (sl = None /\ sd = None) \/ respecs_well G sl sd ->
  Permutation (cell_tags ops h' c) (map (retag sl sd) (gather act_key (fun _ e => cell_tags ops h e) L)).
Proof.
  intros F X MW CI GP RW. apply flatten_stuff in F as (ls & ps & qs & _ & B & C & _ & _ & S1 & S2 & _).
  rewrite (sets_expansion _ _ _ _ _ _ B X) in S1. rewrite (paths_expansion _ _ _ _ _ _ C X) in *.
  rewrite (gather_ext _ _ _ _ (gen_sel_none _)) in S1. rewrite (gather_ext _ _ _ _ (gen_sel_none _)) in S2.
  eapply Permutation_trans; [|apply Permutation_map, (flat_tags_perm h G Q L MW CI GP)].
  unfold cell_tags. rewrite own_tags_sets, S1, S2, map_app. apply Permutation_app.
  - rewrite (map_flat_retag set_tags (set_pset sl sd) set_tags (retag sl sd)); [apply Permutation_refl|]. intros; apply set_tags_retag.
  - assert (GG : forall p, In p (gather act_path (fun _ e => s_paths (stuff_of h e)) L) -> G p).
    { intros p Hp. unfold gather in Hp. apply in_flat_map in Hp as ([e ch] & He & Hp). apply in_map_iff in Hp as (q & <- & Hq).
      unfold chains_in in CI. rewrite Forall_forall in CI, GP. specialize (CI _ He). specialize (GP _ He). cbn in *.
      rewrite Forall_forall in GP. apply (chain_path G Q MW ch q (GP q Hq) CI). }
    assert (D : flat_map (path_tags ops) (map (po_setspec ops sl sd) (gather act_path (fun _ e => s_paths (stuff_of h e)) L))
        = map (retag sl sd) (flat_map (path_tags ops) (gather act_path (fun _ e => s_paths (stuff_of h e)) L)) \/ (sl = None /\ sd = None)).
    { destruct RW as [?|RW]; [auto|]. left. apply map_flat_retag. intros p Hp. apply RW, GG, Hp. }
    destruct D as [D|[-> ->]].
    + destruct sl as [l|], sd as [d|]; rewrite ?D; try apply Permutation_refl.
      rewrite map_retag_none. apply Permutation_refl.
    + rewrite map_retag_none. apply Permutation_refl.
Qed.

(** Grouping a permutation gives permuted groups. *)
Lemma filter_perm {X} (f : X -> bool) l l' : Permutation l l' -> Permutation (filter f l) (filter f l').
Proof.
  induction 1; cbn; auto.
  - destruct (f x); auto.
  - destruct (f x), (f y); auto using perm_swap.
  - eapply Permutation_trans; eauto.
Qed.
Lemma pickk_perm2 k l l' : Permutation l l' -> Permutation (pickk k l) (pickk k l').
Proof. intro H. unfold pickk. apply Permutation_map, filter_perm, H. Qed.

(** ** Removals *)

Lemma pop_loop_filter {X} (test : X -> bool) f pre l : (length l <= f)%nat ->
  pop_loop test f (length pre) (pre ++ l) = pre ++ filter (fun x => negb (test x)) l.
Proof.
  revert pre l; induction f as [|f IH]; intros pre l H.
  - destruct l; [cbn; auto|cbn in H; lia].
  - cbn [pop_loop]. destruct l as [|x l].
    + rewrite app_nil_r. rewrite (proj2 (nth_error_None pre (length pre))) by lia. cbn. now rewrite app_nil_r.
    + rewrite nth_error_app2 by lia. rewrite Nat.sub_diag. cbn [nth_error]. cbn in H. destruct (test x) eqn:T; cbn [filter negb].
      * rewrite T. cbn [negb].
        replace (firstn (length pre) (pre ++ x :: l)) with pre.
        2: { rewrite firstn_app, Nat.sub_diag, firstn_all. cbn. now rewrite app_nil_r. }
        replace (skipn (S (length pre)) (pre ++ x :: l)) with l.
        2: { rewrite skipn_app. replace (S (length pre) - length pre)%nat with 1%nat by lia.
             rewrite (skipn_all2 pre) by lia. reflexivity. }
        apply IH. lia.
      * rewrite T. cbn [negb]. change (pre ++ x :: l) with (pre ++ [x] ++ l). rewrite app_assoc.
        replace (S (length pre)) with (length (pre ++ [x])) by (rewrite app_length; cbn; lia).
        rewrite IH by lia. now rewrite <- app_assoc.
Qed.
Lemma remove_where_filter {X} (test : X -> bool) l : remove_where test l = filter (fun x => negb (test x)) l.
Proof. unfold remove_where. apply (pop_loop_filter test (length l) [] l). auto. Qed.

(** ** Class sets *)

Lemma classes_mono {Y} strict (own : stuff P -> list Y) h : monotone (classes_step strict own h).
Proof.
  intros f g M c x. unfold classes_step. destruct (collect _ (crefs h c)) as [l|] eqn:E; [|discriminate].
  match goal with |- _ -> match collect ?k _ with _ => _ end = _ => assert (E' : collect k (crefs h c) = Some l) end.
  { eapply collect_mono; [|exact E]. cbn beta. intros r ys. destruct (rtarget h r); auto. }
  now rewrite E'.
Qed.
Lemma classes_in {Y} strict (own : stuff P -> list Y) h n c l : classes_fuel strict own h n c = Some l ->
  forall y, In y l <-> exists d, under h c d /\ In y (own (stuff_of h d)).
Proof.
  unfold classes_fuel. revert c l; induction n as [|n IH]; intros c l E y; [discriminate|]. cbn [iter_fuel] in E.
  unfold classes_step at 1 in E. destruct (collect _ (crefs h c)) as [r|] eqn:C; [|discriminate]. injection E as <-.
  rewrite in_app_iff.
  assert (R : In y r <-> exists x e, In x (crefs h c) /\ rtarget h x = ToCell e /\ exists d, under h e d /\ In y (own (stuff_of h d))).
  { revert r C. induction (crefs h c) as [|x xs IHx]; intros r C; cbn [collect] in C.
    - injection C as <-. split; [intros []|intros (x & e & [] & _)].
    - destruct (rtarget h x) as [e|nm] eqn:T.
      + destruct (iter_fuel (classes_step strict own h) n e) as [a|] eqn:A; [|discriminate].
        destruct (collect _ xs) as [b|] eqn:B; [|discriminate]. injection C as <-. rewrite in_app_iff, (IH e a A y), (IHx b eq_refl).
        split.
        * intros [H|(x' & e' & H1 & H2 & H3)]; [exists x, e; split; [now left|auto]|exists x', e'; split; [now right|auto]].
        * intros (x' & e' & [<-|H1] & H2 & H3); [left; rewrite T in H2; injection H2 as <-; auto|right; eauto].
      + destruct strict; [discriminate|]. destruct (collect _ xs) as [b|] eqn:B; [|discriminate]. injection C as <-. cbn [app].
        rewrite (IHx b eq_refl). split.
        * intros (x' & e' & H1 & H2); exists x', e'; split; [now right|auto].
        * intros (x' & e' & [<-|H1] & H2); [destruct H2 as [H2 _]; congruence|eauto]. }
  rewrite R. split.
  - intros [H|(x & e & H1 & H2 & d & U & H3)]; [exists c; split; [now left|auto]|]. exists d; split; [|auto].
    assert (D : direct h c e) by (exists x; auto). right. destruct U as [->|U]; [now apply reach_one|eapply reach_more; eauto].
  - intros (d & [->|U] & H); [auto|]. right. inversion U; subst.
    + destruct H0 as (x & H1 & H2). exists x, d. repeat split; auto. exists d; split; [now left|auto].
    + destruct H0 as (x & H2 & H3). exists x, d0. repeat split; auto. exists d; split; [now right|auto].
Qed.
Lemma classes_total {Y} (strict : bool) (own : stuff P -> list Y) h n c l : deps_fuel n h true c = Some l ->
  (strict = true -> forall d r m, under h c d -> In r (crefs h d) -> rtarget h r <> ToName m) ->
  exists l, classes_fuel strict own h n c = Some l.
Proof.
  unfold classes_fuel. revert c l; induction n as [|n IH]; intros c l D S; [discriminate|]. cbn [iter_fuel]. unfold classes_step at 1.
  destruct (collect _ (crefs h c)) as [o|] eqn:C; [eauto|]. exfalso. revert C. apply collect_total.
  intros r Hr. destruct (rtarget h r) as [e|m] eqn:T.
  - assert (De : direct h c e) by (exists r; auto). destruct (deps_direct h n c l D e De) as [l' L'].
    destruct (IH e l' L') as [o Ho]; [|rewrite Ho; discriminate].
    intros Hs d r' m' U. apply S; auto. right. destruct U as [->|U]; [now apply reach_one|eapply reach_more; eauto].
  - destruct strict; [|discriminate]. exfalso. eapply S; eauto. now left.
Qed.
Lemma classes_by_name {Y} (own : stuff P -> list Y) h n c d r m : under h c d -> In r (crefs h d) -> rtarget h r = ToName m ->
  classes_fuel true own h n c = None.
Proof.
  intros U Hr T. unfold classes_fuel. revert c U; induction n as [|n IH]; intros c U; [reflexivity|]. cbn [iter_fuel]. unfold classes_step at 1.
  destruct (collect _ (crefs h c)) as [o|] eqn:C; [|reflexivity]. exfalso.
  assert (E : forall x, In x (crefs h c) -> (match rtarget h x with ToName _ => None | ToCell e => iter_fuel (classes_step true own h) n e end) <> None).
  { clear - C. revert o C. induction (crefs h c) as [|y ys IHy]; intros o C x Hx; [destruct Hx|]. cbn [collect] in C.
    destruct (match rtarget h y with ToName _ => None | ToCell e => iter_fuel (classes_step true own h) n e end) as [a|] eqn:A; [|discriminate].
    destruct (collect _ ys) as [b|] eqn:B; [|discriminate]. destruct Hx as [<-|Hx]; [congruence|eauto]. }
  destruct U as [->|U].
  - apply (E r Hr). now rewrite T.
  - inversion U; subst; destruct H as (x & H1 & H2); apply (E x H1); rewrite H2; apply IH; [now left|now right].
Qed.

End Flat.
