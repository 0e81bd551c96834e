(** Queries over hierarchies: C22 (areas), C39 (get_polygons), C54 and C55
    (get_labels, get_polygonsets, get_paths), C58 (layers and types). *)

From Coq Require Import Reals Lra List ZArith Bool Lia Permutation.
From Verif Require Import Graph SpecGraph GraphProofs Plane SpecPlane PlaneProofs Hier SpecHier HierProofs HierQuery
  HierBox HierFlat Cache CacheProofs PropHier.
Import ListNotations.
Open Scope R_scope.

Section PropQuery.
Context {P : Type} (ops : pathops P).
Notation heap := (heap place (stuff P)).

Definition ktag (sp : spec * poly) : keyed_poly := (KSpec (fst sp), snd sp).
Lemma ktag_contents h c : map ktag (contents ops h c) = cell_tags ops h c.
Proof.
  unfold contents, cell_tags, own_tags, path_tags. rewrite map_app, !map_flat_map. f_equal.
  - apply flat_map_ext; intro ps. rewrite map_map. reflexivity.
  - apply flat_map_ext; intro p. rewrite map_flat_map. apply flat_map_ext; intro kv. rewrite map_map. reflexivity.
Qed.
Lemma gather_placed h L : gather act_key (fun _ e => cell_tags ops h e) L = map ktag (placed (contents ops h) L).
Proof.
  unfold gather, placed. rewrite map_flat_map. apply flat_map_ext; intros [e ch]; cbn [fst snd].
  rewrite <- ktag_contents, !map_map. apply map_ext; intros [s p]. unfold ktag at 1; cbn [fst snd]. now rewrite chain_key.
Qed.
Lemma ktag_snd l : map snd (map ktag l) = map snd l. Proof. rewrite map_map. reflexivity. Qed.
Lemma ktag_pick s l : pick s (map ktag l) = of_spec s l.
Proof. unfold pick, of_spec. rewrite filter_map_comm, map_map. reflexivity. Qed.
Lemma ktag_pickk s l : pickk (KSpec s) (map ktag l) = of_spec s l.
Proof. unfold pickk, of_spec. rewrite filter_map_comm, map_map. reflexivity. Qed.

Definition defined_at (h : heap) (c : nat) : Prop := heap_wf h /\ (c < h_ncell h)%nat /\ acyclic h c.
Lemma defined_deps h c : defined_at h c -> exists l, deps_fuel (S (h_ncell h)) h true c = Some l.
Proof.
  intros (W & Hc & A). pose proof (deps_total h c W Hc A) as D. unfold get_dependencies in D.
  destruct (deps_fuel (S (h_ncell h)) h true c) as [l|]; [eauto|congruence].
Qed.

(** ** C39: the views of get_polygons *)

(** Every acyclic cell has an expansion, and get_polygons() lists the contents of
    the cells in it, each in its place. *)
Theorem C39_expansion : forall (h : heap) c, defined_at h c -> exists L l,
  expansion h c L /\ polys_fuel ops h (S (h_ncell h)) c = Some l /\
  l = map snd (placed (contents ops h) L).
Proof.
  intros h c D. destruct (defined_deps h c D) as [dl E]. destruct (expansion_total h _ c dl E) as [L X].
  destruct (tag_total_none ops (fun _ => None) h _ c dl E) as [t T].
  exists L, (map snd t). split; [auto|]. split; [unfold polys_fuel; now rewrite flat_tags, T|].
  rewrite (tag_expansion ops _ h _ _ c t L T X).
  rewrite (gather_ext _ _ _ _ (fun n e => shown_none ops (fun _ => None) h n e)), gather_placed. apply ktag_snd.
Qed.

(** The same for by_spec=True and by_spec=(layer, datatype). *)
Theorem C39_by_spec : forall bx (h : heap) c L, defined_at h c -> expansion h c L ->
  all_under h c (no_zero_mag h) -> all_under h c (paths_wf ops h) ->
  exists di, dict_fuel ops bx h (S (h_ncell h)) None c = Some di /\ NoDup (map fst di) /\
    (forall s, lookup di (KSpec s) = of_spec s (placed (contents ops h) L)) /\
    (forall s, tuple_fuel ops s h (S (h_ncell h)) None c = Some (of_spec s (placed (contents ops h) L))).
Proof.
  intros bx h c L D X Z W. destruct (defined_deps h c D) as [dl E].
  destruct (tag_total_none ops bx h _ c dl E) as [t T].
  destruct (dict_tags ops bx h _ _ c t Z T) as (di & Di & N & G & _).
  assert (Et : t = map ktag (placed (contents ops h) L)).
  { rewrite (tag_expansion ops _ h _ _ c t L T X).
    now rewrite (gather_ext _ _ _ _ (fun n e => shown_none ops bx h n e)), gather_placed. }
  exists di. split; [auto|]. split; [auto|]. split.
  - intro s. now rewrite G, Et, ktag_pickk.
  - intro s. rewrite (tuple_tags ops s bx h _ _ c t W T), Et. now rewrite ktag_pick.
Qed.

(** At any depth the three forms show the same polygons: the lists of the
    dictionary put together are a permutation of the flat list, and the tuple query
    is the entry of the dictionary. *)
Theorem C39_views : forall bx (h : heap) fuel d c l,
  all_under h c (no_zero_mag h) -> all_under h c (paths_wf ops h) ->
  flat_fuel ops bx h fuel d c = Some l ->
  exists di, dict_fuel ops bx h fuel d c = Some di /\ NoDup (map fst di) /\
    Permutation (flat_map snd di) l /\
    forall s, tuple_fuel ops s h fuel d c = Some (lookup di (KSpec s)).
Proof.
  intros bx h fuel d c l Z W F. rewrite flat_tags in F. destruct (tag_fuel ops bx h fuel d c) as [t|] eqn:T; [|discriminate].
  injection F as <-. destruct (dict_tags ops bx h _ _ c t Z T) as (di & Di & G). exists di. split; [auto|].
  split; [apply G|]. split.
  - apply groups_perm in G. eapply Permutation_trans; [|apply Permutation_map, G]. unfold untag.
    rewrite map_flat_map. apply Permutation_refl'. apply flat_map_ext. intros [k v]; unfold tag1; cbn [fst snd].
    rewrite map_map. symmetry. apply map_id.
  - intro s. rewrite (tuple_tags ops s bx h _ _ c t W T). destruct G as (_ & G & _). now rewrite G.
Qed.

(** With depth [d]: cells nested at most [d] deep show their contents, cells
    nested [d] + 1 deep show their bounding box, deeper ones nothing. *)
Definition rectangle (b : bbox) : poly := let '((x0, y0), (x1, y1)) := b in [(x0, y0); (x0, y1); (x1, y1); (x1, y0)].
Lemma box_rectangle : forall b, box_poly b = rectangle b.
Proof. intros [[x0 y0] [x1 y1]]. reflexivity. Qed.
(** The rectangle has the area of the box. *)
Theorem C39_rectangle : forall x0 y0 x1 y1, (x0 <= x1 -> y0 <= y1 ->
  / 2 * Rabs (shoelace (box_poly ((x0, y0), (x1, y1)))) = (x1 - x0) * (y1 - y0))%R.
Proof.
  intros x0 y0 x1 y1 Hx Hy.
  replace (shoelace (box_poly ((x0, y0), (x1, y1)))) with (- (2 * ((x1 - x0) * (y1 - y0))))%R.
  - rewrite Rabs_Ropp, Rabs_pos_eq; [field|]. assert (0 <= (x1 - x0) * (y1 - y0))%R by (apply Rmult_le_pos; lra). lra.
  - unfold shoelace, box_poly. cbn [open_cross app fst snd]. unfold cross. cbn [fst snd]. ring.
Qed.
Definition at_depth (boxes : nat -> option bbox) (h : heap) (d : Z) (ec : nat * chain) : list poly :=
  let level := Z.of_nat (length (snd ec)) in
  map (map (chain_map (snd ec)))
    (if (level <=? d)%Z then map snd (contents ops h (fst ec))
     else if (level =? d + 1)%Z
     then match boxes (fst ec) with Some b => [rectangle b] | None => [] end
     else []).
Theorem C39_depth : forall boxes (h : heap) c d L, defined_at h c -> (-1 <= d)%Z -> expansion h c L ->
  flat_fuel ops (fun e => Some (boxes e)) h (S (h_ncell h)) (Some d) c = Some (flat_map (at_depth boxes h d) L).
Proof.
  intros boxes h c d L D Hd X. destruct (defined_deps h c D) as [dl E].
  destruct (tag_total ops (fun e => Some (boxes e)) h (S (h_ncell h)) (Some d) c dl) as [t T]; [discriminate|exact E|].
  rewrite flat_tags, T. cbn [option_map]. f_equal. rewrite (tag_expansion ops _ h _ _ c t L T X).
  unfold gather. rewrite map_flat_map. apply flat_map_ext; intros [e ch]; unfold at_depth; cbn [fst snd].
  rewrite map_map. unfold shown, within. destruct (Z.leb_spec (Z.of_nat (length ch)) d) as [Le|Gt].
  - rewrite <- ktag_contents, !map_map. apply map_ext; intros [s p]. unfold ktag; cbn [fst snd]. now rewrite chain_key.
  - replace (Nat.eqb (length ch) 0 || (Z.of_nat (length ch) =? d + 1)%Z) with (Z.of_nat (length ch) =? d + 1)%Z.
    2: { destruct (Nat.eqb_spec (length ch) 0) as [E0|]; cbn [orb]; [|reflexivity]. rewrite E0 in *. apply Z.eqb_eq. cbn in *. lia. }
    destruct (Z.of_nat (length ch) =? d + 1)%Z; [|reflexivity]. destruct (boxes e) as [b|]; [|reflexivity]. rewrite <- box_rectangle. cbn. now rewrite chain_key.
Qed.

(** ** C22: areas *)

(** The area is the sum of half the absolute shoelace sums of the polygons of
    get_polygons(). *)
Theorem C22_area : forall (h : heap) c, defined_at h c -> solid_cells ops h c ->
  exists a l, area_fuel ops h (S (h_ncell h)) c = Some a /\ polys_fuel ops h (S (h_ncell h)) c = Some l /\
    a = fold_right Rplus 0 (map (fun p => / 2 * Rabs (shoelace p)) l).
Proof.
  intros h c D S. destruct (defined_deps h c D) as [dl E]. destruct (area_total ops h _ c dl E S) as [[a A] _].
  destruct (C39_expansion h c D) as (L & l & _ & Hl & _). exists a, l. split; [auto|]. split; [auto|].
  rewrite (area_ok ops h _ _ c a l A Hl). unfold asum. f_equal. apply map_ext; intro; apply area_shoelace.
Qed.
(** by_spec=True: distinct keys; each value is the area of the polygons of its
    (layer, datatype); all specifications present are keys; the values sum to the
    total. *)
Theorem C22_by_spec : forall (h : heap) c, defined_at h c -> solid_cells ops h c -> all_under h c (paths_wf ops h) ->
  exists a d, area_fuel ops h (S (h_ncell h)) c = Some a /\ area_spec_fuel ops h (S (h_ncell h)) c = Some d /\
    NoDup (map fst d) /\ fold_right Rplus 0 (map snd d) = a /\
    (forall s, exists ls, tuple_fuel ops s h (S (h_ncell h)) None c = Some ls /\
       (forall v, In (s, v) d -> v = fold_right Rplus 0 (map (fun p => / 2 * Rabs (shoelace p)) ls)) /\
       (ls <> [] -> In s (map fst d))).
Proof.
  intros h c D S W. destruct (defined_deps h c D) as [dl E]. destruct (area_total ops h _ c dl E S) as [[a A] [d Ad]].
  destruct (tag_total_none ops (fun _ => None) h _ c dl E) as [t T].
  destruct (area_spec_ok ops _ h _ _ c d t Ad T) as (N & G & K & To). exists a, d. split; [auto|]. split; [auto|]. split; [auto|].
  assert (Hl : polys_fuel ops h (Datatypes.S (h_ncell h)) c = Some (map snd t)).
  { unfold polys_fuel. now rewrite flat_tags, T. }
  split; [rewrite (area_ok ops h _ _ c a _ A Hl); exact To|].
  intro s. exists (pick s t). split; [apply (tuple_tags ops s (fun _ => None) h _ _ c t W T)|]. split.
  - intros v H.
    assert (Ev : acc_get d s = v).
    { clear - N H. induction d as [|[k w] d IH]; [destruct H|]. cbn [acc_get]. inversion N; subst. destruct H as [[= -> ->]|H].
      - now rewrite spec_eqb_refl.
      - destruct (spec_eqb k s) eqn:E; [|auto]. apply spec_eqb_eq in E; subst. exfalso; apply H2. now apply (in_map fst) in H. }
    rewrite <- Ev, G. unfold asums, asum. f_equal. apply map_ext; intro; apply area_shoelace.
  - intro Ne. apply K. unfold pick in Ne. destruct (filter (fun kp => key_eqb (fst kp) (KSpec s)) t) as [|[k p] r] eqn:F; [now cbn in Ne|].
    assert (I : In (k, p) (filter (fun kp => key_eqb (fst kp) (KSpec s)) t)) by (rewrite F; now left).
    apply filter_In in I as [I Q]. cbn in Q. apply key_eqb_eq in Q; subst. now apply (in_map fst) in I.
Qed.

(** ** C54, C55: get_labels, get_polygonsets, get_paths *)

(** Labels nested under at most [d] references (the cell's own always), each moved
    to its place, everything else unchanged. *)
Definition in_depth (d : option Z) (ec : nat * chain) : bool :=
  match snd ec with [] => true | ch => match d with None => true | Some z => (Z.of_nat (length ch) <=? z)%Z end end.
Lemma in_depth_ok d (ec : nat * chain) : level_ok d (length (snd ec)) = in_depth d ec.
Proof. destruct ec as [e [|x ch]]; reflexivity. Qed.

Definition moved (f : pt -> pt) (l : lbl) : lbl :=
  Lbl (l_text l) (f (l_pos l)) (l_layer l) (l_tt l) (l_rot l) (l_mag l) (l_refl l).
Lemma labels_total (st : bool) (h : heap) c d : defined_at h c -> exists o, labels_fuel st h (S (h_ncell h)) d c = Some o.
Proof.
  intro D. destruct (defined_deps h c D) as [dl E].
  apply (gen_total h (fun e => s_labels (stuff_of h e)) (place_labels st) _ d c dl); [|exact E]. intros; discriminate.
Qed.
Lemma paths_total (h : heap) c d : defined_at h c -> exists o, paths_fuel ops h (S (h_ncell h)) d c = Some o.
Proof.
  intro D. destruct (defined_deps h c D) as [dl E].
  apply (gen_total h (fun e => s_paths (stuff_of h e)) (place_paths ops) _ d c dl); [|exact E]. intros; discriminate.
Qed.
Lemma gather_depth {X Y} (act : inst -> X -> X) (own : nat -> list X) (img : chain -> X -> Y) (post : X -> Y) d L :
  (forall ch x, post (fold_right act x ch) = img ch x) ->
  map post (gather act (gen_sel own d) L) = flat_map (fun ec => map (img (snd ec)) (own (fst ec))) (filter (in_depth d) L).
Proof.
  intro H. unfold gather. rewrite map_flat_map. induction L as [|ec L IH]; [reflexivity|]. simpl. rewrite IH. clear IH.
  unfold gen_sel. rewrite in_depth_ok. destruct (in_depth d ec); cbn [map]; simpl; [|reflexivity].
  f_equal. rewrite map_map. now apply map_ext.
Qed.

Theorem C54_labels : forall (h : heap) c d L, defined_at h c -> expansion h c L ->
  labels_fuel false h (S (h_ncell h)) d c =
  Some (flat_map (fun ec => map (moved (chain_map (snd ec))) (s_labels (stuff_of h (fst ec)))) (filter (in_depth d) L)).
Proof.
  intros h c d L D X. destruct (labels_total false h c d D) as [o O]. rewrite O. f_equal.
  rewrite (labels_expansion false h _ d c o L O X). rewrite <- (map_id (gather _ _ _)).
  apply (gather_depth (fun x : inst => act_label x) (fun e => s_labels (stuff_of h e)) (fun ch => moved (chain_map ch)) (fun x => x)). intros ch x. apply chain_label.
Qed.

(** With set_transform=True: positions as before; magnifications are multiplied
    along the way, rotations are added, and x_reflection is toggled once for
    every reference passed, reflected or not. *)
Definition total_mag (ch : chain) : R := fold_right (fun x r => factor (fst x) * r) 1 ch.
Definition total_rot (ch : chain) : R := fold_right (fun x r => deg_of (fst x) + r) 0 ch.
Definition text_mag (l : lbl) : R := match l_mag l with Some m => m | None => 1 end.
Definition text_rot (l : lbl) : R := match l_rot l with Some a => a | None => 0 end.
Theorem C54_set_transform : forall (h : heap) c d L, defined_at h c -> expansion h c L -> exists ls,
  labels_fuel true h (S (h_ncell h)) d c = Some ls /\
  map (fun l => (l_text l, l_pos l, l_layer l, l_tt l, text_mag l, text_rot l, l_refl l)) ls =
  flat_map (fun ec => map (fun l => (l_text l, chain_map (snd ec) (l_pos l), l_layer l, l_tt l,
                                     total_mag (snd ec) * text_mag l, total_rot (snd ec) + text_rot l,
                                     xorb (Nat.odd (length (snd ec))) (l_refl l)))
                          (s_labels (stuff_of h (fst ec)))) (filter (in_depth d) L).
Proof.
  intros h c d L D X. destruct (labels_total true h c d D) as [o O]. exists o. split; [auto|].
  rewrite (labels_expansion true h _ d c o L O X).
  apply (gather_depth act_label_t (fun e => s_labels (stuff_of h e))
    (fun ch l => (l_text l, chain_map ch (l_pos l), l_layer l, l_tt l, total_mag ch * text_mag l, total_rot ch + text_rot l,
                  xorb (Nat.odd (length ch)) (l_refl l)))
    (fun l => (l_text l, l_pos l, l_layer l, l_tt l, text_mag l, text_rot l, l_refl l))).
  intros ch x; induction ch as [|y ch IH].
  - cbn [fold_right]. unfold total_mag, total_rot; cbn. f_equal; [f_equal; [f_equal|]|]; try ring. destruct (l_refl x); reflexivity.
  - cbn [fold_right]. injection IH as I1 I2 I3 I4 I5 I6 I7.
    set (l := fold_right act_label_t x ch) in *. fold (act_label_t y l).
    assert (Em : text_mag (act_label_t y l) = factor (fst y) * text_mag l).
    { unfold text_mag, act_label_t, label_attrs, label_at, factor; cbn. destruct (p_mag (fst y)), (l_mag l); ring. }
    assert (Er : text_rot (act_label_t y l) = deg_of (fst y) + text_rot l).
    { unfold text_rot, act_label_t, label_attrs, label_at, deg_of; cbn. destruct (p_rot (fst y)), (l_rot l); ring. }
    rewrite Em, Er, I5, I6. unfold act_label_t, label_attrs, label_at; cbn [l_text l_pos l_layer l_tt l_refl].
    rewrite I1, I2, I3, I4, I7. cbn [chain_map fold_right total_mag total_rot]. fold (total_mag ch) (total_rot ch).
    rewrite code_map_ok, Rmult_assoc, Rplus_assoc.
    f_equal. change (length (y :: ch)) with (Datatypes.S (length ch)). rewrite Nat.odd_succ, <- Nat.negb_odd.
    destruct (Nat.odd (length ch)), (l_refl x); reflexivity.
Qed.

Theorem C55_polygonsets : forall (h : heap) c d L ps, expansion h c L ->
  sets_fuel h (S (h_ncell h)) d c = Some ps ->
  map ps_list ps =
  flat_map (fun ec => map (fun s => map (fun g => GPoly (map (chain_map (snd ec)) (g_pts g)) (g_layer g) (g_dt g)) (ps_list s))
                          (s_polys (stuff_of h (fst ec)))) (filter (in_depth d) L).
Proof.
  intros h c d L ps X E. rewrite (sets_expansion h _ d c ps L E X).
  apply (gather_depth (fun x => on_set (code_map x)) (fun e => s_polys (stuff_of h e)) (fun ch s => map (fun g => GPoly (map (chain_map ch) (g_pts g)) (g_layer g) (g_dt g)) (ps_list s)) ps_list).
  intros ch s. rewrite chain_set. reflexivity.
Qed.
(** Each path is transformed by every instance on the way, innermost first. *)
Definition path_moved (ch : chain) (p : P) : P :=
  fold_right (fun x q =>
    po_move ops (p_org (fst x)) (rads (p_rot (fst x))) (p_mag (fst x)) (p_refl (fst x))
      (match p_arr (fst x) with
       | None => None
       | Some (_, _, sp) => Some (fst sp * INR (fst (snd x)), snd sp * INR (snd (snd x)))
       end) q) p ch.
Theorem C55_paths : forall (h : heap) c d L, defined_at h c -> expansion h c L ->
  paths_fuel ops h (S (h_ncell h)) d c =
  Some (flat_map (fun ec => map (path_moved (snd ec)) (s_paths (stuff_of h (fst ec)))) (filter (in_depth d) L)).
Proof.
  intros h c d L D X. destruct (paths_total h c d D) as [o O]. rewrite O. f_equal.
  rewrite (paths_expansion ops h _ d c o L O X). rewrite <- (map_id (gather _ _ _)).
  apply (gather_depth (act_path ops) (fun e => s_paths (stuff_of h e)) path_moved (fun x => x)). reflexivity.
Qed.
(** A depth reaching every cell returns everything. *)
Theorem C55_deep_enough : forall (L : list (nat * chain)) d,
  Forall (fun ec => (Z.of_nat (length (snd ec)) <= d)%Z) L -> filter (in_depth (Some d)) L = L /\ filter (in_depth None) L = L.
Proof.
  intros L d H. induction H as [|[e ch] L Hx _ [I1 I2]]; [auto|]. cbn [filter]. unfold in_depth at 1 3. cbn [snd] in *.
  rewrite I1, I2. destruct ch; [auto|]. split; [|reflexivity]. apply Z.leb_le in Hx. now rewrite Hx.
Qed.

(** ** C58: layers and types in use *)

Definition layer_of_label (l : lbl) := l_layer l.
Theorem C58_layers : forall (h : heap) c, defined_at h c ->
  (forall d r n, under h c d -> In r (crefs h d) -> rtarget h r <> ToName n) ->
  exists ls ds, get_layers ops h (S (h_ncell h)) c = Some ls /\ get_datatypes ops h (S (h_ncell h)) c = Some ds /\
  (forall z, In z ls <-> exists d, under h c d /\
     ((exists ps g, In ps (s_polys (stuff_of h d)) /\ In g (ps_list ps) /\ g_layer g = z) \/
      (exists p s, In p (s_paths (stuff_of h d)) /\ In s (po_specs ops p) /\ fst s = z) \/
      (exists l, In l (s_labels (stuff_of h d)) /\ l_layer l = z))) /\
  (forall z, In z ds <-> exists d, under h c d /\
     ((exists ps g, In ps (s_polys (stuff_of h d)) /\ In g (ps_list ps) /\ g_dt g = z) \/
      (exists p s, In p (s_paths (stuff_of h d)) /\ In s (po_specs ops p) /\ snd s = z))).
Proof.
  intros h c D S. destruct (defined_deps h c D) as [dl E].
  destruct (classes_total true (own_layers ops) h _ c dl E (fun _ => S)) as [ls Ls].
  destruct (classes_total true (own_datatypes ops) h _ c dl E (fun _ => S)) as [ds Ds].
  exists ls, ds. split; [auto|]. split; [auto|]. split; intro z.
  - rewrite (classes_in true _ h _ c ls Ls z).
    assert (Q : forall d, In z (own_layers ops (stuff_of h d)) <->
      ((exists ps g, In ps (s_polys (stuff_of h d)) /\ In g (ps_list ps) /\ g_layer g = z) \/
      (exists p s, In p (s_paths (stuff_of h d)) /\ In s (po_specs ops p) /\ fst s = z) \/
      (exists l, In l (s_labels (stuff_of h d)) /\ l_layer l = z))).
    { intro d. unfold own_layers. rewrite !in_app_iff, !in_flat_map, in_map_iff. split.
      - intros [(ps & A & B)|[(p & A & B)|(l & A & B)]].
        + apply in_map_iff in B as (g & <- & B). left; eauto.
        + apply in_map_iff in B as (g & <- & B). right; left; eauto.
        + right; right; eauto.
      - intros [(ps & g & A & B & <-)|[(p & s & A & B & <-)|(l & A & <-)]].
        + left. exists ps; split; auto. now apply in_map.
        + right; left. exists p; split; auto. now apply in_map.
        + right; right. eauto. }
    split; intros (d & U & H); exists d; (split; [auto|]); now apply Q.
  - rewrite (classes_in true _ h _ c ds Ds z).
    assert (Q : forall d, In z (own_datatypes ops (stuff_of h d)) <->
      ((exists ps g, In ps (s_polys (stuff_of h d)) /\ In g (ps_list ps) /\ g_dt g = z) \/
      (exists p s, In p (s_paths (stuff_of h d)) /\ In s (po_specs ops p) /\ snd s = z))).
    { intro d. unfold own_datatypes. rewrite in_app_iff, !in_flat_map. split.
      - intros [(ps & A & B)|(p & A & B)]; apply in_map_iff in B as (g & <- & B); [left|right]; eauto.
      - intros [(ps & g & A & B & <-)|(p & s & A & B & <-)]; [left; exists ps|right; exists p]; split; auto; now apply in_map. }
    split; intros (d & U & H); exists d; (split; [auto|]); now apply Q.
Qed.
Theorem C58_svg_classes : forall (h : heap) c, defined_at h c ->
  exists ss ts, svg_specs ops h (S (h_ncell h)) c = Some ss /\ svg_texts h (S (h_ncell h)) c = Some ts /\
  (forall s, In s ss <-> exists d, under h c d /\
     ((exists ps g, In ps (s_polys (stuff_of h d)) /\ In g (ps_list ps) /\ (g_layer g, g_dt g) = s) \/
      (exists p, In p (s_paths (stuff_of h d)) /\ In s (po_specs ops p)))) /\
  (forall t, In t ts <-> exists d l, under h c d /\ In l (s_labels (stuff_of h d)) /\ (l_layer l, l_tt l) = t).
Proof.
  intros h c D. destruct (defined_deps h c D) as [dl E].
  destruct (classes_total false (own_specs ops) h _ c dl E) as [ss Ss]; [discriminate|].
  destruct (classes_total false (@own_texts P) h _ c dl E) as [ts Ts]; [discriminate|].
  exists ss, ts. split; [auto|]. split; [auto|]. split.
  - intro s. rewrite (classes_in false _ h _ c ss Ss s).
    assert (Q : forall d, In s (own_specs ops (stuff_of h d)) <->
      ((exists ps g, In ps (s_polys (stuff_of h d)) /\ In g (ps_list ps) /\ (g_layer g, g_dt g) = s) \/
      (exists p, In p (s_paths (stuff_of h d)) /\ In s (po_specs ops p)))).
    { intro d. unfold own_specs. rewrite in_app_iff, !in_flat_map. split.
      - intros [(ps & A & B)|(p & A & B)]; [apply in_map_iff in B as (g & <- & B); left|right]; eauto.
      - intros [(ps & g & A & B & <-)|(p & A & B)]; [left; exists ps|right; exists p]; split; auto. now apply (in_map g_spec). }
    split; intros (d & U & H); exists d; (split; [auto|]); now apply Q.
  - intro t. rewrite (classes_in false _ h _ c ts Ts t). unfold own_texts. split.
    + intros (d & U & H). apply in_map_iff in H as (l & <- & H). eauto 6.
    + intros (d & l & U & H & <-). exists d; split; [auto|]. now apply (in_map (fun l => (l_layer l, l_tt l))).
Qed.
(** A reference by name anywhere below makes get_layers and get_datatypes raise;
    any reference at all makes get_texttypes raise. *)
Theorem C58_by_name_refuted : forall (h : heap) fuel c d r n,
  under h c d -> In r (crefs h d) -> rtarget h r = ToName n ->
  get_layers ops h fuel c = None /\ get_datatypes ops h fuel c = None.
Proof. intros; split; eapply classes_by_name; eauto. Qed.
Theorem C58_texttypes_refuted : forall (h : heap) c,
  get_texttypes h c = match crefs h c with [] => Some (map l_tt (s_labels (stuff_of h c))) | _ => None end.
Proof. reflexivity. Qed.

End PropQuery.

(** An unreflected reference to a cell with an unreflected label shows the label
    reflected. *)
Theorem C54_reflection_refuted : exists (h : heap place (stuff unit)) l,
  defined_at h 0 /\ p_refl (place_of h 0) = false /\ labels_fuel true h 2 None 0 = Some [l] /\
  s_labels (stuff_of h 1) = [Lbl [65%Z] (0, 0) 0 (Some 0%Z) None None false] /\ l_refl l = true.
Proof.
  set (h := put (put (new_cell (new_cell (@nothing unit) []) [66%Z]) 1 (ELabel (Lbl [65%Z] (0, 0) 0 (Some 0%Z) None None false)))
                0 (ERef (ToCell 1) here)).
  exists h. eexists. split.
  - split; [|split].
    + set (uops := PathOps (fun _ : unit => []) (fun _ => []) (fun _ => false) (fun _ _ _ _ _ p => p) (fun _ _ p => p)).
      apply put_wf; [|cbn; lia|cbn; lia]. apply put_wf; [|cbn; lia|exact I].
      apply (sound_new uops _ (fun _ => False)), (sound_new uops), nothing_sound.
    + cbn; lia.
    + assert (E : exists l, get_dependencies h 0 true = Some l) by (eexists; vm_compute; reflexivity).
      destruct E as [l E]. exact (deps_acyclic _ _ _ _ E).
  - split; [reflexivity|]. split; [reflexivity|]. split; reflexivity.
Qed.
(** The same for get_texttypes: a cell with a reference to a cell. *)
Theorem C58_texttypes_demo_refuted : defined_at demo 1 /\ get_texttypes demo 1 = None.
Proof.
  destruct demo_ok as (W & A & N). split; [|reflexivity]. split; [auto|]. rewrite N. split; [lia|]. apply A. rewrite N; lia.
Qed.

(** *** The hypotheses are met *)
Lemma demo_under_all (Q : nat -> Prop) : Q 0%nat -> Q 1%nat -> Q 2%nat -> all_under demo 2 Q.
Proof.
  intros Q0 Q1 Q2 d U. destruct demo_ok as (W & A & N).
  assert (L : (d < 3)%nat) by (rewrite <- N; destruct U as [->|U]; [rewrite N; lia|eapply reach_lt; eauto; rewrite N; lia]).
  destruct d as [|[|[|d]]]; auto. lia.
Qed.
Lemma demo_defined : defined_at demo 2.
Proof. destruct demo_ok as (W & A & N). split; [auto|]. rewrite N. split; [lia|]. apply A. rewrite N; lia. Qed.
Lemma demo_crefs : crefs demo 0 = [] /\ crefs demo 1 = [0%nat] /\ crefs demo 2 = [1; 2; 3]%nat.
Proof. split; [|split]; reflexivity. Qed.
Lemma demo_places : p_arr (place_of demo 0) = None /\ p_mag (place_of demo 1) = None /\
  p_arr (place_of demo 2) = None /\ p_arr (place_of demo 3) = None.
Proof. repeat split. Qed.
Lemma demo_mag : all_under demo 2 (no_zero_mag demo).
Proof.
  destruct demo_crefs as (R0 & R1 & R2). destruct demo_places as (P0 & P1 & P2 & P3).
  assert (H : forall r, (r < 4)%nat -> p_arr (place_of demo r) = None \/ p_mag (place_of demo r) = None).
  { intros [|[|[|[|r]]]] Hr; [left; exact P0|right; exact P1|left; exact P2|left; exact P3|lia]. }
  assert (K : forall c r, (c < 3)%nat -> In r (crefs demo c) -> (r < 4)%nat).
  { intros [|[|[|c]]] r Hc; rewrite ?R0, ?R1, ?R2; try lia; cbn [In]; lia. }
  assert (G : forall c, (c < 3)%nat -> no_zero_mag demo c).
  { intros c Hc r Hr Hp E. destruct (H r (K c r Hc Hr)) as [Q|Q]; [exact (Hp Q)|]. rewrite Q in E. discriminate. }
  apply demo_under_all; apply G; lia.
Qed.
Lemma demo_paths : all_under demo 2 (paths_wf toy demo).
Proof.
  apply demo_under_all; unfold paths_wf; cbn; constructor; [|constructor]. split.
  - cbn. constructor; [easy|constructor].
  - intros x Hx. exact Hx.
Qed.
Lemma demo_solid : solid_cells toy demo 2.
Proof. apply (demo_under_all (fun d => existsb (po_empty toy) (s_paths (stuff_of demo d)) = false)); reflexivity. Qed.
Lemma demo_targets : rtarget demo 0 = ToCell 0 /\ rtarget demo 1 = ToCell 1 /\ rtarget demo 2 = ToCell 0 /\
  rtarget demo 3 = ToName [90%Z].
Proof. repeat split. Qed.
Lemma demo_arr : p_arr (place_of demo 1) = Some (2%nat, 3%nat, (100, 50)).
Proof. reflexivity. Qed.
Lemma demo_expansion : exists L, expansion demo 2 L /\ length L = 14%nat /\
  length (filter (in_depth (Some 1%Z)) L) = 8%nat /\ length (filter (in_depth (Some 2%Z)) L) = 14%nat.
Proof.
  destruct demo_crefs as (R0 & R1 & R2). destruct demo_targets as (T0 & T1 & T2 & T3). destruct demo_places as (P0 & _ & P2 & _).
  pose proof demo_arr as P1.
  assert (X0 : expansion demo 0 [(0%nat, [])]) by (constructor; rewrite R0; constructor).
  eexists. split.
  - constructor. rewrite R2. eapply exp_ref; [exact T1| |eapply exp_ref; [exact T2|exact X0|eapply exp_name; [exact T3|constructor]]].
    constructor. rewrite R1. eapply exp_ref; [exact T0|exact X0|constructor].
  - unfold insts. unfold place_of in *. rewrite P0, P1, P2. clear. split; [reflexivity|]. split; reflexivity.
Qed.
(** Without the reference by name, get_layers is defined. *)
Example C58_demo : get_layers toy demo 4 1 = Some [3; 1; 2]%Z /\ svg_texts demo 4 2 = Some [(3, Some 4)]%Z /\
  get_layers toy demo 4 2 = None.
Proof. split; [|split]; vm_compute; reflexivity. Qed.

Print Assumptions C22_area.
Print Assumptions C22_by_spec.
Print Assumptions C39_expansion.
Print Assumptions C39_by_spec.
Print Assumptions C39_views.
Print Assumptions C39_depth.
Print Assumptions C39_rectangle.
Print Assumptions C54_labels.
Print Assumptions C54_set_transform.
Print Assumptions C54_reflection_refuted.
Print Assumptions C55_polygonsets.
Print Assumptions C55_paths.
Print Assumptions C55_deep_enough.
Print Assumptions C58_layers.
Print Assumptions C58_svg_classes.
Print Assumptions C58_by_name_refuted.
Print Assumptions C58_texttypes_refuted.
