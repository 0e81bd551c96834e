(** The queries against the expansion of a cell. *)

From Coq Require Import Reals Lra List ZArith Bool Lia Permutation.
From Verif Require Import Graph SpecGraph GraphProofs Plane SpecPlane PlaneProofs Hier SpecHier HierProofs.
Import ListNotations.
Open Scope R_scope.

Lemma flat_map_flat_map {X Y Z} (f : Y -> list Z) (g : X -> list Y) l :
  flat_map f (flat_map g l) = flat_map (fun x => flat_map f (g x)) l.
Proof. induction l as [|x l IH]; [reflexivity|]. simpl. now rewrite flat_map_app, IH. Qed.
Lemma flat_map_map {X Y Z} (f : Y -> list Z) (g : X -> Y) l :
  flat_map f (map g l) = flat_map (fun x => f (g x)) l.
Proof. induction l as [|x l IH]; [reflexivity|]. simpl. now rewrite IH. Qed.
Lemma map_flat_map {X Y Z} (f : Y -> Z) (g : X -> list Y) l :
  map f (flat_map g l) = flat_map (fun x => map f (g x)) l.
Proof. induction l as [|x l IH]; [reflexivity|]. simpl. now rewrite map_app, IH. Qed.
Lemma flat_map_ext_in {X Y} (f g : X -> list Y) l : (forall x, In x l -> f x = g x) -> flat_map f l = flat_map g l.
Proof.
  induction l as [|x l IH]; intro H; [reflexivity|]. simpl. rewrite IH, (H x); auto; [now left|]. intros; apply H; now right.
Qed.
Lemma flat_map_nil {X Y} (l : list X) : flat_map (fun _ => @nil Y) l = [].
Proof. induction l as [|x l IH]; [reflexivity|]. simpl. exact IH. Qed.

Scheme expansion_ind2 := Induction for expansion Sort Prop
  with exp_refs_ind2 := Induction for exp_refs Sort Prop.
Combined Scheme expansion_mutind from expansion_ind2, exp_refs_ind2.

Section Query.
Context {P : Type}.
Notation heap := (heap place (stuff P)).

Lemma expand_mono {Y} (h : heap) (f g : option Z * nat -> option (list Y)) pf d rs out :
  le_opt f g -> expand h f pf d rs = Some out -> expand h g pf d rs = Some out.
Proof.
  intro M; apply collect_mono. intros r ys. destruct (rtarget h r) as [c|n]; [|auto].
  destruct (f (d, c)) as [l|] eqn:E; [|discriminate]. rewrite (M _ _ E). auto.
Qed.

(** What is collected at a level: [sel level cell] of the cells in the
    expansion, acted upon by the instances on the way. *)
Definition gather {Y} (act : inst -> Y -> Y) (sel : nat -> nat -> list Y) (L : list (nat * chain)) : list Y :=
  flat_map (fun ec => map (fun y => fold_right act y (snd ec)) (sel (length (snd ec)) (fst ec))) L.

Lemma gather_app {Y} (act : inst -> Y -> Y) sel a b : gather act sel (a ++ b) = gather act sel a ++ gather act sel b.
Proof. apply flat_map_app. Qed.
Lemma gather_ext {Y} (act : inst -> Y -> Y) s1 s2 L : (forall n e, s1 n e = s2 n e) -> gather act s1 L = gather act s2 L.
Proof. intro H; apply flat_map_ext; intros; now rewrite H. Qed.
Lemma gather_push {Y} (act : inst -> Y -> Y) sel X L1 :
  gather act sel (flat_map (fun i => map (fun ec => (fst ec, i :: snd ec)) L1) X) =
  flat_map (fun i => map (act i) (gather act (fun n e => sel (S n) e) L1)) X.
Proof.
  unfold gather. rewrite flat_map_flat_map. apply flat_map_ext; intro i.
  rewrite flat_map_map, map_flat_map. apply flat_map_ext; intros [e ch]; cbn [fst snd length fold_right].
  now rewrite map_map.
Qed.

(** References expanded one level down. *)
Lemma expand_gather {Y} (h : heap) (rec : option Z * nat -> option (list Y)) pf act d sel rs L out :
  (forall pl l l', pf pl l = Some l' -> l' = flat_map (fun x => map (act x) l) (insts pl)) ->
  (forall c L ys, rec (d, c) = Some ys -> expansion h c L -> ys = gather act (fun n e => sel (S n) e) L) ->
  expand h rec pf d rs = Some out -> exp_refs h rs L -> out = gather act sel L.
Proof.
  intros PF REC. revert L out; induction rs as [|r rs IH]; intros L out E X.
  - inversion X; subst. cbn in E; injection E as <-. reflexivity.
  - cbn in E. inversion X as [|r' rs' n l T X1|r' rs' e l1 l2 T X1 X2]; subst; rewrite T in E.
    + destruct (collect _ rs) as [b|] eqn:G; [|discriminate]. injection E as <-. cbn. apply IH; auto.
    + destruct (rec (d, e)) as [l|] eqn:A; [|discriminate].
      destruct (pf (place_of h r) l) as [a|] eqn:B; [|discriminate].
      destruct (collect _ rs) as [b|] eqn:G; [|discriminate]. injection E as <-.
      rewrite gather_app, gather_push. rewrite (IH l2 b G X2). f_equal.
      rewrite (PF _ _ _ B), (REC _ _ _ A X1). reflexivity.
Qed.

Lemma exp_refs_deep (h : heap) rs l : exp_refs h rs l -> forall ec, In ec l -> snd ec <> [].
Proof.
  intro X; induction X as [|r rs n l T X IH|r rs d l1 l2 T X1 X2 IH]; cbn; try tauto; auto.
  intros ec H. apply in_app_iff in H as [H|H]; [|auto].
  apply in_flat_map in H as (i & _ & H). apply in_map_iff in H as ([e ch] & <- & _). cbn; discriminate.
Qed.

(** *** get_polygonsets, get_paths, get_labels *)
Section Gen.
Context {Y : Type} (h : heap) (own : nat -> list Y) (act : inst -> Y -> Y)
  (pf : place -> list Y -> option (list Y)).

Definition gen_step (rec : option Z * nat -> option (list Y)) (dc : option Z * nat) : option (list Y) :=
  let (d, c) := dc in
  match (if deeper d then expand h rec pf (next d) (crefs h c) else Some []) with
  | Some l => Some (own c ++ l)
  | None => None
  end.
Lemma gen_mono : monotone gen_step.
Proof.
  intros f g M [d c] x; unfold gen_step. destruct (deeper d); [|auto].
  destruct (expand h f _ _ _) as [l|] eqn:E; [|discriminate]. now rewrite (expand_mono h f g _ _ _ _ M E).
Qed.

Definition level_ok (d : option Z) (n : nat) : bool := Nat.eqb n 0 || within d n.
Definition gen_sel (d : option Z) (n e : nat) : list Y := if level_ok d n then own e else [].

Hypothesis PF : forall pl l l', pf pl l = Some l' -> l' = flat_map (fun x => map (act x) l) (insts pl).

Lemma gen_expansion fuel d c ys L :
  iter_fuel gen_step fuel (d, c) = Some ys -> expansion h c L -> ys = gather act (gen_sel d) L.
Proof.
  revert d c ys L; induction fuel as [|f IH]; intros d c ys L E X; [discriminate|].
  cbn [iter_fuel] in E. unfold gen_step at 1 in E.
  inversion X as [c' l X1]; subst.
  assert (O : gather act (gen_sel d) [(c, [])] = own c).
  { unfold gather, gen_sel; cbn. now rewrite app_nil_r, map_id. }
  change ((c, []) :: l) with ([(c, [])] ++ l). rewrite gather_app, O.
  destruct (deeper d) eqn:D.
  - destruct (expand h _ pf (next d) (crefs h c)) as [r|] eqn:G; [|discriminate]. injection E as <-. f_equal.
    eapply expand_gather; [exact PF| |exact G|exact X1].
    intros e L' zs A B. rewrite (IH _ _ _ _ A B). apply gather_ext. intros n e'. unfold gen_sel.
    replace (level_ok d (S n)) with (level_ok (next d) n); [auto|].
    unfold level_ok, within, next, deeper in *. destruct d as [z|]; cbn [option_map].
    + apply Z.ltb_lt in D. destruct n; cbn [Nat.eqb orb].
      * symmetry; apply Z.leb_le; lia.
      * replace (Z.of_nat (S (S n)))%Z with (Z.of_nat (S n) + 1)%Z by lia.
        destruct (Z.leb_spec (Z.of_nat (S n)) (z - 1)), (Z.leb_spec (Z.of_nat (S n) + 1) z); auto; lia.
    + now rewrite orb_true_r.
  - injection E as <-. rewrite app_nil_r. cut (gather act (gen_sel d) l = []); [intros ->; now rewrite app_nil_r|].
    pose proof (exp_refs_deep _ _ _ X1) as NZ.
    unfold gather. rewrite (flat_map_ext_in _ (fun _ => [])); [apply flat_map_nil|].
    intros [e ch] H. pose proof (NZ _ H) as N. cbn [fst snd] in *. unfold gen_sel.
    replace (level_ok d (length ch)) with false; [reflexivity|].
    destruct ch as [|x ch]; [congruence|]. unfold level_ok; cbn [length Nat.eqb orb].
    unfold deeper in D. destruct d as [z|]; [|discriminate]. apply Z.ltb_ge in D.
    unfold within. symmetry; apply Z.leb_gt; lia.
Qed.
End Gen.

(** *** get_polygons as a list with keys

    [tag_step] is get_polygons with every polygon kept beside its key. *)
Context (ops : pathops P).

Definition keyed_poly := (key * poly)%type.
Definition act_key (x : inst) (kp : keyed_poly) : keyed_poly := (fst kp, map (code_map x) (snd kp)).
Definition own_tags (s : stuff P) : list keyed_poly :=
  flat_map (fun ps => map (fun g => (KSpec (g_spec g), g_pts g)) (ps_list ps)) (s_polys s).
Definition path_tags (p : P) : list keyed_poly :=
  flat_map (fun kv => map (pair (KSpec (fst kv))) (snd kv)) (po_polys ops p).
Definition cell_tags (h : heap) (c : nat) : list keyed_poly :=
  own_tags (stuff_of h c) ++ flat_map path_tags (s_paths (stuff_of h c)).
Definition place_tags (pl : place) (l : list keyed_poly) : option (list keyed_poly) :=
  Some (flat_map (fun x => map (act_key x) l) (insts pl)).
Definition tag_step (bx : nat -> option (option bbox)) (h : heap)
    (rec : option Z * nat -> option (list keyed_poly)) (dc : option Z * nat) : option (list keyed_poly) :=
  let (d, c) := dc in
  if below d then
    match bx c with
    | None => None
    | Some None => Some []
    | Some (Some b) => Some [(KName (cname h c), box_poly b)]
    end
  else
    match expand h rec place_tags (next d) (crefs h c) with
    | Some l => Some (cell_tags h c ++ l)
    | None => None
    end.
Definition tag_fuel bx h fuel d c := iter_fuel (tag_step bx h) fuel (d, c).

Lemma tag_mono bx h : monotone (tag_step bx h).
Proof.
  intros f g M [d c] x; unfold tag_step. destruct (below d); [auto|].
  destruct (expand h f _ _ _) as [l|] eqn:E; [|discriminate]. now rewrite (expand_mono h f g _ _ _ _ M E).
Qed.
Lemma flat_mono bx h : monotone (flat_step ops bx h).
Proof.
  intros f g M [d c] x; unfold flat_step. destruct (below d); [auto|].
  destruct (expand h f _ _ _) as [l|] eqn:E; [|discriminate]. now rewrite (expand_mono h f g _ _ _ _ M E).
Qed.

Lemma own_tags_snd s : map snd (own_tags s) = own_polys s.
Proof.
  unfold own_tags, own_polys. rewrite map_flat_map. apply flat_map_ext; intro ps. now rewrite map_map.
Qed.
Lemma path_tags_snd p : map snd (path_tags p) = path_flat ops p.
Proof.
  unfold path_tags, path_flat. rewrite map_flat_map. apply flat_map_ext; intro kv. rewrite map_map. cbn. apply map_id.
Qed.

Definition odef {X} (o : option X) (d : X) : X := match o with Some x => x | None => d end.

Lemma expand_map {Y Z} (h : heap) (rec1 : option BinNums.Z * nat -> option (list Y)) (rec2 : option BinNums.Z * nat -> option (list Z))
    (pf1 : place -> list Y -> option (list Y)) (pf2 : place -> list Z -> option (list Z)) (F : list Y -> list Z) d rs :
  F [] = [] -> (forall a b, F (a ++ b) = F a ++ F b) ->
  (forall c, rec2 (d, c) = option_map F (rec1 (d, c))) ->
  (forall p l, pf2 p (F l) = option_map F (pf1 p l)) ->
  expand h rec2 pf2 d rs = option_map F (expand h rec1 pf1 d rs).
Proof.
  intros F0 FA R PFs. unfold expand. induction rs as [|r rs IH]; [cbn; now rewrite F0|]. cbn [collect].
  rewrite IH. clear IH. destruct (rtarget h r) as [c|n].
  - rewrite R. destruct (rec1 (d, c)) as [l|]; [cbn [option_map]|reflexivity].
    rewrite PFs. destruct (pf1 _ l) as [a|]; cbn [option_map]; [|reflexivity].
    destruct (collect _ rs); cbn; [now rewrite FA|reflexivity].
  - destruct (collect _ rs); cbn; [reflexivity|reflexivity].
Qed.

(** The plain list is the tagged one without tags. *)
Lemma flat_tags bx h fuel d c : flat_fuel ops bx h fuel d c = option_map (map snd) (tag_fuel bx h fuel d c).
Proof.
  unfold flat_fuel, tag_fuel. revert d c; induction fuel as [|f IH]; intros d c; [reflexivity|].
  cbn [iter_fuel]. unfold flat_step at 1, tag_step at 1.
  destruct (below d); [destruct (bx c) as [[b|]|]; reflexivity|].
  rewrite (expand_map h (iter_fuel (tag_step bx h) f) (iter_fuel (flat_step ops bx h) f) place_tags _ (map snd)).
  - destruct (expand h _ place_tags _ _) as [l|]; cbn [option_map]; [|reflexivity]. f_equal.
    rewrite !map_app. unfold cell_tags. rewrite map_app, own_tags_snd, map_flat_map.
    rewrite <- app_assoc. do 2 f_equal. apply flat_map_ext; intro; symmetry; apply path_tags_snd.
  - reflexivity.
  - apply map_app.
  - intro; apply IH.
  - intros p l. unfold place_tags; cbn [option_map]. f_equal. rewrite place_polys_insts, map_flat_map.
    apply flat_map_ext; intro x. rewrite !map_map. reflexivity.
Qed.

(** The tuple query picks one key. *)
Definition pick (s : spec) (l : list keyed_poly) : list poly :=
  map snd (filter (fun kp => key_eqb (fst kp) (KSpec s)) l).
Lemma pick_app s a b : pick s (a ++ b) = pick s a ++ pick s b.
Proof. unfold pick. now rewrite filter_app, map_app. Qed.
Lemma filter_flat_map {X Y} (t : Y -> bool) (f : X -> list Y) l :
  filter t (flat_map f l) = flat_map (fun x => filter t (f x)) l.
Proof. induction l as [|x l IH]; [reflexivity|]. simpl. now rewrite filter_app, IH. Qed.
Lemma filter_map_comm {X Y} (t : Y -> bool) (f : X -> Y) l : filter t (map f l) = map f (filter (fun x => t (f x)) l).
Proof. induction l as [|x l IH]; [reflexivity|]. simpl. destruct (t (f x)); simpl; now rewrite IH. Qed.

(** A path's dictionary: distinct keys, all among its specifications. *)
Definition path_wf (p : P) : Prop :=
  NoDup (map fst (po_polys ops p)) /\ incl (map fst (po_polys ops p)) (po_specs ops p).
Definition paths_wf (h : heap) (c : nat) : Prop := Forall path_wf (s_paths (stuff_of h c)).

Lemma pick_path s p : path_wf p -> pick s (path_tags p) = path_spec ops s p.
Proof.
  intros [N I]. unfold pick, path_tags, path_spec.
  rewrite filter_flat_map, map_flat_map.
  assert (G : forall l : list (spec * list poly), NoDup (map fst l) ->
     flat_map (fun kv => map snd (filter (fun kp => key_eqb (fst kp) (KSpec s)) (map (pair (KSpec (fst kv))) (snd kv)))) l
     = match find (fun kv => spec_eqb (fst kv) s) l with Some kv => snd kv | None => [] end).
  { assert (A : forall kv : spec * list poly,
        map snd (filter (fun kp => key_eqb (fst kp) (KSpec s)) (map (pair (KSpec (fst kv))) (snd kv)))
        = if spec_eqb (fst kv) s then snd kv else []).
    { intros [k v]; cbn [fst snd]. rewrite filter_map_comm. cbn [fst key_eqb].
      destruct (spec_eqb k s); rewrite map_map; cbn.
      - rewrite map_id. induction v as [|x v IH]; [reflexivity|]. simpl. now rewrite IH.
      - induction v as [|x v IH]; [reflexivity|]. simpl. exact IH. }
    intro l; rewrite (flat_map_ext _ _ A). induction l as [|[k v] l IH]; intro N'; [reflexivity|].
    simpl flat_map. inversion N'; subst. cbn [find fst].
    destruct (spec_eqb k s) eqn:E.
    - apply spec_eqb_eq in E; subst. rewrite IH by auto. cbn [snd].
      destruct (find _ l) as [[k' v']|] eqn:Fd; [|now rewrite app_nil_r].
      apply find_some in Fd as [Fi Fe]. cbn in Fe. apply spec_eqb_eq in Fe; subst.
      exfalso; apply H1. now apply (in_map fst) in Fi.
    - cbn. now apply IH. }
  rewrite G by exact N.
  destruct (existsb (fun k => spec_eqb k s) (po_specs ops p)) eqn:X; [reflexivity|].
  destruct (find _ (po_polys ops p)) as [[k v]|] eqn:Fd; [|reflexivity].
  apply find_some in Fd as [Fi Fe]. cbn in Fe. apply spec_eqb_eq in Fe; subst.
  exfalso. apply (in_map fst) in Fi. apply I in Fi. cbn in Fi.
  assert (existsb (fun k => spec_eqb k s) (po_specs ops p) = true); [|congruence].
  apply existsb_exists. exists s; split; auto. apply spec_eqb_refl.
Qed.

Lemma pick_own s st : pick s (own_tags st) =
  flat_map (fun ps => map g_pts (filter (fun g => Z.eqb (g_layer g) (fst s) && Z.eqb (g_dt g) (snd s)) (ps_list ps))) (s_polys st).
Proof.
  unfold pick, own_tags. rewrite filter_flat_map, map_flat_map. apply flat_map_ext; intro ps.
  rewrite filter_map_comm, map_map. reflexivity.
Qed.

Lemma pick_place s pl l : pick s (flat_map (fun x => map (act_key x) l) (insts pl)) = place_polys pl (pick s l).
Proof.
  rewrite place_polys_insts. unfold pick at 1. rewrite filter_flat_map, map_flat_map.
  apply flat_map_ext; intro x. rewrite filter_map_comm, map_map. unfold pick. now rewrite map_map.
Qed.

Lemma under_step (h : heap) c d (Q : nat -> Prop) : direct h c d -> all_under h c Q -> all_under h d Q.
Proof.
  intros D H e [->|R]; apply H; right; [now apply reach_one|eapply reach_more; eauto].
Qed.
Lemma under_self (h : heap) c (Q : nat -> Prop) : all_under h c Q -> Q c.
Proof. intro H; apply H; now left. Qed.

Lemma tuple_tags s bx h fuel d c l : all_under h c (paths_wf h) ->
  tag_fuel bx h fuel d c = Some l -> tuple_fuel ops s h fuel d c = Some (pick s l).
Proof.
  unfold tuple_fuel, tag_fuel. revert d c l; induction fuel as [|f IH]; intros d c l W E; [discriminate|].
  cbn [iter_fuel] in *. unfold tag_step at 1 in E. unfold tuple_step at 1.
  destruct (below d).
  { destruct (bx c) as [[b|]|]; try discriminate; injection E as <-; reflexivity. }
  destruct (expand h _ place_tags (next d) (crefs h c)) as [r|] eqn:G; [|discriminate]. injection E as <-.
  assert (X : expand h (iter_fuel (tuple_step ops s h) f) (fun pl0 l0 => Some (place_polys pl0 l0)) (next d) (crefs h c)
              = Some (pick s r)).
  { assert (DD : forall x, In x (crefs h c) -> forall e, rtarget h x = ToCell e -> direct h c e)
      by (intros x Hx e He; exists x; auto).
    revert r G DD. unfold expand. induction (crefs h c) as [|x rs IHr]; intros r G DD; cbn [collect] in *.
    - injection G as <-. reflexivity.
    - destruct (rtarget h x) as [e|n] eqn:T.
      + destruct (iter_fuel (tag_step bx h) f (next d, e)) as [a|] eqn:A; [|discriminate].
        unfold place_tags at 1 in G. destruct (collect _ rs) as [b|] eqn:B; [|discriminate]. injection G as <-.
        rewrite (IH _ _ _ (under_step h c e _ (DD x (or_introl eq_refl) e T) W) A).
        rewrite (IHr b eq_refl) by (intros; eapply DD; eauto; now right).
        rewrite pick_app, pick_place. reflexivity.
      + destruct (collect _ rs) as [b|] eqn:B; [|discriminate]. injection G as <-.
        rewrite (IHr b eq_refl) by (intros; eapply DD; eauto; now right). reflexivity. }
  rewrite X. f_equal. unfold cell_tags. rewrite !pick_app, pick_own, <- app_assoc. do 2 f_equal.
  pose proof (under_self _ _ _ W) as Wc. unfold paths_wf in Wc.
  induction Wc as [|p ps Wp _ IHp]; [reflexivity|]. simpl. rewrite pick_app, pick_path by exact Wp. now rewrite IHp.
Qed.

(** *** The dictionary *)

Lemma key_eqb_eq a b : key_eqb a b = true <-> a = b.
Proof.
  destruct a as [s|n], b as [t|m]; cbn; try (split; discriminate).
  - rewrite spec_eqb_eq. split; congruence.
  - rewrite name_eqb_eq. split; congruence.
Qed.
Lemma key_eqb_refl a : key_eqb a a = true. Proof. now apply key_eqb_eq. Qed.

Definition lookup (d : pdict) (k : key) : list poly :=
  match find (fun kv => key_eqb (fst kv) k) d with Some kv => snd kv | None => [] end.
Definition pickk (k : key) (l : list keyed_poly) : list poly :=
  map snd (filter (fun kp => key_eqb (fst kp) k) l).
Lemma pickk_app k a b : pickk k (a ++ b) = pickk k a ++ pickk k b.
Proof. unfold pickk. now rewrite filter_app, map_app. Qed.

(** [d] groups the tagged list [l] by key. *)
Definition groups (d : pdict) (l : list keyed_poly) : Prop :=
  NoDup (map fst d) /\ (forall k, lookup d k = pickk k l) /\
  (forall k, In k (map fst l) -> In k (map fst d)).

Lemma dext_keys d k v x : In x (map fst (dext d k v)) <-> In x (map fst d) \/ x = k.
Proof.
  induction d as [|[k' w] d IH]; cbn [dext map fst In]; [intuition auto|].
  destruct (key_eqb k' k) eqn:E; cbn [map fst In].
  - apply key_eqb_eq in E; subst. intuition auto.
  - rewrite IH. tauto.
Qed.
Lemma dext_nodup d k v : NoDup (map fst d) -> NoDup (map fst (dext d k v)).
Proof.
  induction d as [|[k' w] d IH]; cbn [dext map fst]; intro H; [constructor; auto|].
  destruct (key_eqb k' k) eqn:E; cbn [map fst]; [exact H|].
  inversion H; subst. constructor; auto. rewrite dext_keys. intros [?|?]; [auto|subst].
  rewrite key_eqb_refl in E; discriminate.
Qed.
Lemma dext_lookup d k v x : lookup (dext d k v) x = lookup d x ++ if key_eqb k x then v else [].
Proof.
  unfold lookup. induction d as [|[k' w] d IH]; cbn [dext find fst].
  - destruct (key_eqb k x); reflexivity.
  - destruct (key_eqb k' k) eqn:E; cbn [find fst].
    + apply key_eqb_eq in E; subst. destruct (key_eqb k x); cbn [snd]; [auto|now rewrite app_nil_r].
    + destruct (key_eqb k' x) eqn:F; cbn [snd]; [|exact IH].
      apply key_eqb_eq in F; subst. destruct (key_eqb k x) eqn:G; [|now rewrite app_nil_r].
      apply key_eqb_eq in G; subst. rewrite key_eqb_refl in E; discriminate.
Qed.
Definition tag1 (k : key) (v : list poly) : list keyed_poly := map (pair k) v.
Lemma pickk_tag1 k v x : pickk x (tag1 k v) = if key_eqb k x then v else [].
Proof.
  unfold pickk, tag1. rewrite filter_map_comm, map_map. cbn [fst]. destruct (key_eqb k x).
  - cbn. rewrite map_id. induction v as [|y v IH]; [reflexivity|]. simpl. now rewrite IH.
  - induction v as [|y v IH]; [reflexivity|]. simpl. exact IH.
Qed.
Lemma dext_groups d l k v : groups d l -> groups (dext d k v) (l ++ tag1 k v).
Proof.
  intros (N & L & I). split; [now apply dext_nodup|]. split.
  - intro x. now rewrite dext_lookup, pickk_app, pickk_tag1, L.
  - intro x. rewrite map_app, in_app_iff, dext_keys. intros [H|H]; [left; auto|right].
    unfold tag1 in H. rewrite map_map in H. apply in_map_iff in H as (y & <- & _). reflexivity.
Qed.
Definition untag (d : pdict) : list keyed_poly := flat_map (fun kv => tag1 (fst kv) (snd kv)) d.
Lemma dmerge_groups e d l : groups d l -> groups (dmerge d e) (l ++ untag e).
Proof.
  unfold dmerge, untag. revert d l; induction e as [|[k v] e IH]; intros d l G.
  - simpl. now rewrite app_nil_r.
  - simpl. rewrite app_assoc. apply IH. now apply dext_groups.
Qed.
Lemma groups_same d l l' : groups d l -> (forall k, pickk k l = pickk k l') -> groups d l'.
Proof.
  intros (N & L & I) E. split; [auto|]. split; [intro k; now rewrite <- E|].
  intros k H. apply I. apply in_map_iff in H as ([k' p] & <- & H). cbn.
  assert (In p (pickk k' l)).
  { rewrite E. unfold pickk. apply in_map_iff. exists (k', p); split; auto. apply filter_In; split; auto. apply key_eqb_refl. }
  unfold pickk in H0. apply in_map_iff in H0 as ([k2 q] & <- & H0). apply filter_In in H0 as [H0 K]. cbn in *.
  apply key_eqb_eq in K; subst. now apply (in_map fst) in H0.
Qed.
(** Untagging a grouping gives a permutation. *)
Lemma pickk_perm k l : Permutation l (tag1 k (pickk k l) ++ filter (fun kp => negb (key_eqb (fst kp) k)) l).
Proof.
  induction l as [|[k' p] l IH]; [constructor|]. unfold pickk in *. cbn [filter fst].
  destruct (key_eqb k' k) eqn:E; cbn [negb map snd].
  - apply key_eqb_eq in E; subst. simpl. now constructor.
  - eapply Permutation_trans; [|apply Permutation_middle]. now constructor.
Qed.
Lemma groups_perm d l : groups d l -> Permutation (untag d) l.
Proof.
  revert l; induction d as [|[k v] d IH]; intros l (N & L & I).
  - destruct l as [|[k p] l]; [constructor|]. exfalso. apply (I k). now left.
  - inversion N; subst. simpl. eapply Permutation_trans; [|symmetry; apply (pickk_perm k)].
    assert (E : pickk k l = v).
    { rewrite <- L. unfold lookup; cbn [find fst]. now rewrite key_eqb_refl. }
    rewrite E. apply Permutation_app_head. apply IH. split; [auto|]. split.
    + intro x. specialize (L x). unfold lookup in *. cbn [find fst] in L.
      destruct (key_eqb k x) eqn:K.
      * apply key_eqb_eq in K; subst.
        destruct (find _ d) as [[k' w]|] eqn:Fd.
        { apply find_some in Fd as [Fi Fe]. cbn in Fe. apply key_eqb_eq in Fe; subst.
          exfalso; apply H1. now apply (in_map fst) in Fi. }
        unfold pickk. clear. induction l as [|[k p] l IH]; [reflexivity|]. cbn [filter fst].
        destruct (key_eqb k x) eqn:K; cbn [negb]; [exact IH|]. cbn [filter fst]. now rewrite K.
      * rewrite L. unfold pickk. clear - K. induction l as [|[k' p] l IH]; [reflexivity|]. cbn [filter fst].
        destruct (key_eqb k' x) eqn:K1.
        { apply key_eqb_eq in K1; subst. replace (key_eqb x k) with false.
          - cbn [negb filter fst]. rewrite key_eqb_refl. cbn [map]. now rewrite IH.
          - destruct (key_eqb x k) eqn:Q; [|auto]. apply key_eqb_eq in Q; subst. rewrite key_eqb_refl in K; discriminate. }
        { destruct (key_eqb k' k); cbn [negb filter fst]; [exact IH|]. now rewrite K1. }
    + intros x H. apply in_map_iff in H as ([x' p] & <- & H). apply filter_In in H as [H K]. cbn [fst] in *.
      destruct (I x'); [now apply (in_map fst) in H| |auto]. cbn in H0; subst. rewrite key_eqb_refl in K; discriminate.
Qed.

(** No array is magnified by zero. *)
Definition no_zero_mag (h : heap) (c : nat) : Prop :=
  forall r, In r (crefs h c) -> p_arr (place_of h r) <> None -> p_mag (place_of h r) <> Some 0.

Lemma place_entry_ok pl l : (p_arr pl <> None -> p_mag pl <> Some 0) -> place_entry pl l = place_polys pl l.
Proof.
  unfold place_entry, place_polys. destruct (p_arr pl) as [[[n m] sp]|]; [|auto]. intro H.
  apply flat_map_ext; intro q. apply map_ext; intro ps. apply map_ext; intro p.
  unfold arr_map_dict, arr_map. replace (truthy (p_mag pl)) with (p_mag pl); [auto|].
  unfold truthy. destruct (p_mag pl) as [k|]; [|auto]. destruct (Req_EM_T k 0) as [->|]; [|auto].
  exfalso; apply H; [discriminate|reflexivity].
Qed.

Lemma pickk_place k pl l : pickk k (flat_map (fun x => map (act_key x) l) (insts pl)) = place_polys pl (pickk k l).
Proof.
  rewrite place_polys_insts. unfold pickk at 1. rewrite filter_flat_map, map_flat_map.
  apply flat_map_ext; intro x. rewrite filter_map_comm, map_map. unfold pickk. now rewrite map_map.
Qed.
Lemma pickk_untag k d : NoDup (map fst d) -> pickk k (untag d) = lookup d k.
Proof.
  intro N. unfold untag, lookup. induction d as [|[k' v] d IH]; [reflexivity|]. simpl. rewrite pickk_app, pickk_tag1.
  inversion N; subst. destruct (key_eqb k' k) eqn:E; cbn [snd].
  - apply key_eqb_eq in E; subst. rewrite IH by auto. destruct (find _ d) as [[k2 w]|] eqn:Fd; [|apply app_nil_r].
    apply find_some in Fd as [Fi Fe]. cbn in Fe. apply key_eqb_eq in Fe; subst.
    exfalso; apply H1. now apply (in_map fst) in Fi.
  - now rewrite IH.
Qed.

Lemma own_groups s : groups (own_dict ops s) (own_tags s ++ flat_map path_tags (s_paths s)).
Proof.
  unfold own_dict.
  assert (A : forall gs d l, groups d l ->
     groups (fold_left (fun d g => dext d (KSpec (g_spec g)) [g_pts g]) gs d)
            (l ++ map (fun g => (KSpec (g_spec g), g_pts g)) gs)).
  { intro gs; induction gs as [|g gs IH]; intros d l G; simpl; [now rewrite app_nil_r|].
    change ((KSpec (g_spec g), g_pts g) :: map (fun g0 => (KSpec (g_spec g0), g_pts g0)) gs)
      with (tag1 (KSpec (g_spec g)) [g_pts g] ++ map (fun g0 => (KSpec (g_spec g0), g_pts g0)) gs).
    rewrite app_assoc. apply IH. now apply dext_groups. }
  assert (B : forall ps d l, groups d l ->
     groups (fold_left (fun d p => dmerge d (map (fun kv => (KSpec (fst kv), snd kv)) (po_polys ops p))) ps d)
            (l ++ flat_map path_tags ps)).
  { intro ps; induction ps as [|p ps IH]; intros d l G; simpl; [now rewrite app_nil_r|].
    rewrite app_assoc. apply IH. replace (path_tags p) with (untag (map (fun kv => (KSpec (fst kv), snd kv)) (po_polys ops p))).
    - now apply dmerge_groups.
    - unfold untag. rewrite flat_map_map. reflexivity. }
  apply B. replace (own_tags s) with ([] ++ map (fun g => (KSpec (g_spec g), g_pts g)) (flat_map ps_list (s_polys s))).
  - apply A. repeat split; [constructor|]. intros k [].
  - simpl. unfold own_tags. now rewrite map_flat_map.
Qed.

Lemma dict_tags bx h fuel d c l : all_under h c (no_zero_mag h) ->
  tag_fuel bx h fuel d c = Some l -> exists di, dict_fuel ops bx h fuel d c = Some di /\ groups di l.
Proof.
  unfold dict_fuel, tag_fuel. revert d c l; induction fuel as [|f IH]; intros d c l W E; [discriminate|].
  cbn [iter_fuel] in *. unfold tag_step at 1 in E. unfold dict_step at 1.
  destruct (below d).
  { destruct (bx c) as [[b|]|]; try discriminate; injection E as <-; eexists; split; try reflexivity.
    - split; [constructor; [auto|constructor]|]. split.
      + intro k. unfold lookup, pickk; cbn [find fst filter]. destruct (key_eqb _ k); reflexivity.
      + intros k [<-|[]]; now left.
    - repeat split; [constructor|]. intros k []. }
  destruct (expand h _ place_tags (next d) (crefs h c)) as [r|] eqn:G; [|discriminate]. injection E as <-.
  assert (DD : forall x, In x (crefs h c) -> forall e, rtarget h x = ToCell e -> direct h c e)
    by (intros x Hx e He; exists x; auto).
  pose proof (under_self _ _ _ W) as Wc. unfold no_zero_mag in Wc.
  pose proof (own_groups (stuff_of h c)) as G0. fold (cell_tags h c) in G0.
  generalize dependent (cell_tags h c). generalize (own_dict ops (stuff_of h c)).
  revert r G. unfold expand. induction (crefs h c) as [|x rs IHr]; intros r G acc l0 G0; cbn [collect] in G.
  - injection G as <-. rewrite app_nil_r. eauto.
  - destruct (rtarget h x) as [e|n] eqn:T.
    + destruct (iter_fuel (tag_step bx h) f (next d, e)) as [a|] eqn:A; [|discriminate].
      unfold place_tags at 1 in G. destruct (collect _ rs) as [b|] eqn:B; [|discriminate]. injection G as <-.
      destruct (IH _ _ _ (under_step h c e _ (DD x (or_introl eq_refl) e T) W) A) as (de & De & Ge).
      rewrite De. rewrite app_assoc. apply IHr; auto.
      * intros; eapply DD; eauto; now right.
      * intros; apply Wc; auto; now right.
      * eapply groups_same; [apply dmerge_groups, G0|]. intro k. rewrite !pickk_app. f_equal.
        rewrite pickk_place. destruct Ge as (N & L & _). rewrite <- L.
        rewrite pickk_untag by (rewrite map_map; cbn [fst]; exact N).
        unfold lookup. clear - Wc. induction de as [|[k' v] de IHd]; cbn [map find fst snd].
        { unfold place_polys. destruct (p_arr (place_of h x)) as [[[n m] sp]|]; [|reflexivity]. simpl. now rewrite flat_map_nil. }
        destruct (key_eqb k' k); [|exact IHd]. cbn [snd]. apply place_entry_ok. apply Wc; now left.
    + destruct (collect _ rs) as [b|] eqn:B; [|discriminate]. injection G as <-. simpl.
      apply IHr; auto. { intros; eapply DD; eauto; now right. } { intros; apply Wc; auto; now right. }
Qed.

(** *** The tagged list against the expansion *)
Definition shown (bx : nat -> option (option bbox)) (h : heap) (d : option Z) (n e : nat) : list keyed_poly :=
  if within d n then cell_tags h e
  else if (Nat.eqb n 0 || match d with Some z => Z.eqb (Z.of_nat n) (z + 1) | None => false end) then
    match bx e with Some (Some b) => [(KName (cname h e), box_poly b)] | _ => [] end
  else [].

Lemma tag_expansion bx h fuel d c l L : tag_fuel bx h fuel d c = Some l -> expansion h c L ->
  l = gather act_key (shown bx h d) L.
Proof.
  unfold tag_fuel. revert d c l L; induction fuel as [|f IH]; intros d c l L E X; [discriminate|].
  cbn [iter_fuel] in E. unfold tag_step at 1 in E. inversion X as [c' l1 X1]; subst.
  change ((c, []) :: l1) with ([(c, [])] ++ l1). rewrite gather_app.
  assert (O : gather act_key (shown bx h d) [(c, [])] = shown bx h d 0 c).
  { unfold gather; cbn. now rewrite app_nil_r, map_id. }
  rewrite O. destruct (below d) eqn:Bd.
  - destruct d as [z|]; [|discriminate]. unfold below in Bd. apply Z.ltb_lt in Bd.
    assert (Z0 : gather act_key (shown bx h (Some z)) l1 = []).
    { unfold gather. rewrite (flat_map_ext_in _ (fun _ => [])); [apply flat_map_nil|].
      intros [e ch] H. pose proof (exp_refs_deep _ _ _ X1 _ H) as N. cbn [fst snd] in *. unfold shown, within.
      destruct ch as [|x ch]; [congruence|]. cbn [length Nat.eqb orb].
      replace (Z.of_nat (S (length ch)) <=? z)%Z with false by (symmetry; apply Z.leb_gt; lia).
      replace (Z.of_nat (S (length ch)) =? z + 1)%Z with false; [reflexivity|].
      symmetry; apply Z.eqb_neq; lia. }
    rewrite Z0, app_nil_r. unfold shown, within. replace (Z.of_nat 0 <=? z)%Z with false by (symmetry; apply Z.leb_gt; lia).
    cbn [Nat.eqb orb]. destruct (bx c) as [[b|]|]; congruence.
  - destruct (expand h _ place_tags (next d) (crefs h c)) as [r|] eqn:G; [|discriminate]. injection E as <-.
    f_equal.
    + unfold shown. replace (within d 0) with true; [auto|]. unfold within, below in *. destruct d as [z|]; [|auto].
      apply Z.ltb_ge in Bd. symmetry; apply Z.leb_le; lia.
    + eapply expand_gather; [| |exact G|exact X1].
      * intros pl l l' H. unfold place_tags in H. congruence.
      * intros e L' zs A B. rewrite (IH _ _ _ _ A B). apply gather_ext. intros n e'. unfold shown, within, next, below in *.
        destruct d as [z|]; cbn [option_map]; [|reflexivity]. apply Z.ltb_ge in Bd.
        replace (Z.of_nat (S n) <=? z)%Z with (Z.of_nat n <=? z - 1)%Z.
        2: { destruct (Z.leb_spec (Z.of_nat n) (z - 1)), (Z.leb_spec (Z.of_nat (S n)) z); auto; lia. }
        destruct (Z.of_nat n <=? z - 1)%Z eqn:Q; [auto|]. apply Z.leb_gt in Q. cbn [Nat.eqb orb].
        replace (Nat.eqb n 0 || (Z.of_nat n =? z - 1 + 1)%Z) with (Z.of_nat (S n) =? z + 1)%Z; [auto|].
        destruct (Nat.eqb_spec n 0) as [->|Nz]; cbn [orb].
        { apply Z.eqb_eq. lia. }
        destruct (Z.eqb_spec (Z.of_nat (S n)) (z + 1)), (Z.eqb_spec (Z.of_nat n) (z - 1 + 1)); auto; lia.
Qed.

(** *** Totality *)

Lemma deps_direct (h : heap) f c l : deps_fuel (S f) h true c = Some l ->
  forall d, direct h c d -> exists l', deps_fuel f h true d = Some l'.
Proof.
  cbn [deps_fuel]. intros E d (r & Hr & T). revert l E. induction (crefs h c) as [|x rs IH]; intros l E; [easy|].
  destruct Hr as [->|Hr].
  - rewrite T in E. destruct (deps_fuel f h true d) as [s|]; [eauto|discriminate].
  - destruct (rtarget h x) as [e|n].
    + destruct (deps_fuel f h true e); [|discriminate].
      match type of E with context [match ?o with _ => _ end] => destruct o as [q|] eqn:G end; [|discriminate].
      eapply IH; eauto.
    + eapply IH; eauto.
Qed.
Lemma expansion_total (h : heap) f c l : deps_fuel f h true c = Some l -> exists L, expansion h c L.
Proof.
  revert c l; induction f as [|f IH]; intros c l E; [discriminate|].
  pose proof (deps_direct h f c l E) as D.
  assert (X : exists L, exp_refs h (crefs h c) L); [|destruct X as [L X]; eexists; constructor; exact X].
  assert (D' : forall r, In r (crefs h c) -> forall d, rtarget h r = ToCell d -> exists l', deps_fuel f h true d = Some l')
    by (intros r Hr d T; apply D; exists r; auto).
  clear D E l. induction (crefs h c) as [|r rs IHr]; [eexists; constructor|].
  destruct IHr as [L2 X2]; [intros; eapply D'; eauto; now right|].
  destruct (rtarget h r) as [d|n] eqn:T.
  - destruct (D' r (or_introl eq_refl) d T) as [l' E']. destruct (IH _ _ E') as [L1 X1].
    eexists; eapply exp_ref; eauto.
  - eexists; eapply exp_name; eauto.
Qed.
Lemma expand_total {Y} (h : heap) (rec : option Z * nat -> option (list Y)) pf d c :
  (forall e, direct h c e -> exists ys, rec (d, e) = Some ys) ->
  (forall r e ys, In r (crefs h c) -> rtarget h r = ToCell e -> rec (d, e) = Some ys -> pf (place_of h r) ys <> None) ->
  exists out, expand h rec pf d (crefs h c) = Some out.
Proof.
  intros A B. destruct (expand h rec pf d (crefs h c)) as [o|] eqn:E; [eauto|]. exfalso.
  eapply (collect_total (fun r => match rtarget h r with
    | ToName _ => Some []
    | ToCell c => match rec (d, c) with Some l => pf (place_of h r) l | None => None end end) (crefs h c)); [|exact E].
  intros r Hr. destruct (rtarget h r) as [e|n] eqn:T; [|discriminate].
  destruct (A e) as [ys Hy]; [exists r; auto|]. rewrite Hy. eapply B; eauto.
Qed.
Lemma tag_total bx (h : heap) f d c l : (forall e, bx e <> None) -> deps_fuel f h true c = Some l ->
  exists o, tag_fuel bx h f d c = Some o.
Proof.
  intro BX. unfold tag_fuel. revert d c l; induction f as [|f IH]; intros d c l E; [discriminate|].
  cbn [iter_fuel]. unfold tag_step at 1. destruct (below d).
  - specialize (BX c). destruct (bx c) as [[b|]|]; eauto. congruence.
  - destruct (expand_total h (iter_fuel (tag_step bx h) f) place_tags (next d) c) as [o Ho].
    + intros e De. destruct (deps_direct h f c l E e De) as [l' E']. eapply IH; eauto.
    + intros; discriminate.
    + rewrite Ho. eauto.
Qed.
Lemma tag_total_none bx (h : heap) f c l : deps_fuel f h true c = Some l ->
  exists o, tag_fuel bx h f None c = Some o.
Proof.
  unfold tag_fuel. revert c l; induction f as [|f IH]; intros c l E; [discriminate|].
  cbn [iter_fuel]. unfold tag_step at 1. cbn [below next option_map].
  destruct (expand_total h (iter_fuel (tag_step bx h) f) place_tags None c) as [o Ho].
  - intros e De. destruct (deps_direct h f c l E e De) as [l' E']. eapply IH; eauto.
  - intros; discriminate.
  - rewrite Ho. eauto.
Qed.
Lemma gen_total {Y} (h : heap) (own : nat -> list Y) pf f d c l : (forall p ys, pf p ys <> None) ->
  deps_fuel f h true c = Some l -> exists o, iter_fuel (gen_step h own pf) f (d, c) = Some o.
Proof.
  intro PFT. revert d c l; induction f as [|f IH]; intros d c l E; [discriminate|].
  cbn [iter_fuel]. unfold gen_step at 1. destruct (deeper d); [|eauto].
  destruct (expand_total h (iter_fuel (gen_step h own pf) f) pf (next d) c) as [o Ho].
  - intros e De. destruct (deps_direct h f c l E e De) as [l' E']. eapply IH; eauto.
  - intros; apply PFT.
  - rewrite Ho. eauto.
Qed.

End Query.
