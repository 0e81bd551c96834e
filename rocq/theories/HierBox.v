(** Areas and bounding boxes of hierarchies. *)

From Coq Require Import Reals Lra List ZArith Bool Lia Permutation.
From Verif Require Import Graph SpecGraph GraphProofs Plane SpecPlane PlaneProofs Hier SpecHier HierProofs HierQuery.
Import ListNotations.
Open Scope R_scope.

(** ** Sums of areas *)
Definition asum (l : list poly) : R := fold_right Rplus 0 (map poly_area l).
Lemma asum_app a b : asum (a ++ b) = asum a + asum b.
Proof. unfold asum. rewrite map_app. induction (map poly_area a) as [|x l IH]; cbn; [lra|rewrite IH; lra]. Qed.
Lemma asum_cons x l : asum (x :: l) = poly_area x + asum l. Proof. reflexivity. Qed.
Lemma asum_similar o t k b l : asum (map (map (similar o t k b)) l) = k * k * asum l.
Proof.
  induction l as [|x l IH]; [cbn; lra|]. cbn [map]. rewrite !asum_cons, IH, similar_area. lra.
Qed.
Lemma asum_ext (f g : pt -> pt) l : (forall p, f p = g p) -> asum (map (map f) l) = asum (map (map g) l).
Proof. intro H; f_equal. apply map_ext; intro; now apply map_ext. Qed.
Lemma asum_perm l l' : Permutation l l' -> asum l = asum l'.
Proof. induction 1; rewrite ?asum_cons in *; lra. Qed.

Lemma ref_factor_ok pl : ref_factor pl = INR (length (insts pl)) * (factor pl * factor pl).
Proof.
  unfold ref_factor, factor. rewrite insts_length. destruct (p_arr pl) as [[[n m] sp]|].
  - rewrite mult_INR. destruct (p_mag pl); cbn; ring.
  - cbn. destruct (p_mag pl); ring.
Qed.
Lemma asum_place pl l : asum (place_polys pl l) = asum l * ref_factor pl.
Proof.
  rewrite ref_factor_ok, place_polys_insts.
  assert (E : forall x, In x (insts pl) -> fst x = pl) by apply insts_place.
  induction (insts pl) as [|x g IH]; [cbn; lra|].
  simpl flat_map. rewrite asum_app, IH by (intros; apply E; now right).
  rewrite (asum_ext _ (inst_map x)) by apply code_map_ok.
  destruct (inst_similar x) as [o Ho]. rewrite (asum_ext _ _ l Ho), asum_similar.
  rewrite (E x (or_introl eq_refl)). change (length (x :: g)) with (S (length g)). rewrite S_INR. ring.
Qed.

Lemma ps_area_asum s : ps_area s = asum (map g_pts s).
Proof. unfold ps_area, asum. now rewrite map_map. Qed.

Section Box.
Context {P : Type} (ops : pathops P).
Notation heap := (heap place (stuff P)).

Lemma path_area_asum p : path_area ops p = asum (path_flat ops p).
Proof. unfold path_area. rewrite ps_area_asum, map_map. cbn. now rewrite map_id. Qed.

Lemma fold_add {X} (f : X -> R) l a : fold_left (fun a x => a + f x) l a = a + fold_right Rplus 0 (map f l).
Proof. revert a; induction l as [|x l IH]; intro a; cbn; [lra|]. rewrite IH; lra. Qed.

Lemma own_area s : fold_left (fun a p => a + path_area ops p) (s_paths s)
    (fold_left (fun a ps => a + ps_area (ps_list ps)) (s_polys s) 0)
  = asum (own_polys s ++ flat_map (path_flat ops) (s_paths s)).
Proof.
  rewrite !fold_add, asum_app. rewrite Rplus_0_l. f_equal.
  - unfold own_polys. induction (s_polys s) as [|p l IH]; [reflexivity|]. cbn [map fold_right].
    simpl flat_map. rewrite asum_app, <- IH, ps_area_asum. reflexivity.
  - induction (s_paths s) as [|p l IH]; [reflexivity|]. cbn [map fold_right].
    simpl flat_map. rewrite asum_app, <- IH, path_area_asum. reflexivity.
Qed.

Lemma polys_step (h : heap) m c l : polys_fuel ops h (S m) c = Some l -> exists r,
  expand h (iter_fuel (flat_step ops (fun _ => None) h) m) (fun pl l => Some (place_polys pl l)) None (crefs h c) = Some r /\
  l = own_polys (stuff_of h c) ++ flat_map (path_flat ops) (s_paths (stuff_of h c)) ++ r.
Proof.
  unfold polys_fuel, flat_fuel. cbn [iter_fuel]. unfold flat_step at 1. cbn [below next option_map].
  destruct (expand _ _ _ _ _) as [r|]; [|discriminate]. intros [= <-]. eauto.
Qed.
Lemma polys_det (h : heap) n m c a b : polys_fuel ops h n c = Some a -> polys_fuel ops h m c = Some b -> a = b.
Proof. apply iter_det, flat_mono. Qed.

Lemma area_ok (h : heap) n m c a l :
  area_fuel ops h n c = Some a -> polys_fuel ops h m c = Some l -> a = asum l.
Proof.
  revert m c a l; induction n as [|n IH]; intros m c a l A B; [discriminate|].
  destruct m as [|m]; [discriminate|]. apply polys_step in B as (r & E & ->).
  unfold area_fuel in A. cbn [iter_fuel] in A. unfold area_step at 1 in A.
  destruct (existsb _ _); [discriminate|]. rewrite own_area in A. rewrite app_assoc, asum_app.
  revert A. generalize (asum (own_polys (stuff_of h c) ++ flat_map (path_flat ops) (s_paths (stuff_of h c)))).
  revert r E. unfold expand. induction (crefs h c) as [|x rs IHr]; intros r E acc A; cbn [collect] in E.
  - injection E as <-. injection A as <-. cbn; lra.
  - destruct (rtarget h x) as [e|nm] eqn:T.
    + destruct (iter_fuel (area_step ops h) n e) as [ae|] eqn:Ae; [|discriminate].
      destruct (iter_fuel (flat_step ops (fun _ => None) h) m (None, e)) as [le|] eqn:Le; [|discriminate].
      destruct (collect _ rs) as [b|] eqn:B; [|discriminate]. injection E as <-.
      rewrite (IHr b eq_refl _ A), asum_app, asum_place. rewrite (IH m e ae le Ae Le). lra.
    + destruct (collect _ rs) as [b|] eqn:B; [|discriminate]. injection E as <-.
      rewrite (IHr b eq_refl _ A). cbn. lra.
Qed.

(** *** Areas by specification *)
Definition asums (s : spec) (l : list keyed_poly) : R := asum (pick s l).
Lemma asums_app s a b : asums s (a ++ b) = asums s a + asums s b.
Proof. unfold asums. now rewrite pick_app, asum_app. Qed.
(** A dictionary of areas for a tagged list. *)
Definition weighs (d : list (spec * R)) (l : list keyed_poly) : Prop :=
  NoDup (map fst d) /\ (forall k, acc_get d k = asums k l) /\
  (forall k, In (KSpec k) (map fst l) -> In k (map fst d)) /\ acc_total d = asum (map snd l).

Lemma amerge_nodup d e : NoDup (map fst d) -> NoDup (map fst (amerge d e)).
Proof.
  unfold amerge. revert d; induction e as [|[k v] e IH]; intros d N; cbn [fold_left]; [auto|].
  apply IH, acc_add_nodup, N.
Qed.
Lemma amerge_keys d e x : In x (map fst (amerge d e)) <-> In x (map fst d) \/ In x (map fst e).
Proof.
  unfold amerge. revert d; induction e as [|[k v] e IH]; intros d; cbn [fold_left map fst In]; [tauto|].
  rewrite IH, acc_add_keys. intuition auto.
Qed.
Lemma amerge_total d e : acc_total (amerge d e) = acc_total d + acc_total e.
Proof.
  unfold amerge. revert d; induction e as [|[k v] e IH]; intros d; cbn [fold_left]; [unfold acc_total; cbn; lra|].
  rewrite IH, acc_add_total. unfold acc_total; cbn. lra.
Qed.
Lemma acc_get_out d k : ~ In k (map fst d) -> acc_get d k = 0.
Proof.
  induction d as [|[k' v] d IH]; cbn [acc_get map fst In]; intro H; [reflexivity|].
  destruct (spec_eqb k' k) eqn:E; [apply spec_eqb_eq in E; tauto|]. apply IH; tauto.
Qed.
Lemma amerge_get d e k : NoDup (map fst e) -> acc_get (amerge d e) k = acc_get d k + acc_get e k.
Proof.
  unfold amerge. revert d; induction e as [|[k' v] e IH]; intros d N; cbn [fold_left acc_get]; [lra|].
  inversion N; subst. rewrite IH by auto. rewrite acc_add_get. cbn [fst snd].
  destruct (spec_eqb k' k) eqn:E; [|lra]. apply spec_eqb_eq in E; subst. rewrite (acc_get_out e k); [lra|auto].
Qed.
Lemma weighs_merge d l e m : weighs d l -> weighs e m -> weighs (amerge d e) (l ++ m).
Proof.
  intros (N & G & K & T) (N' & G' & K' & T'). split; [now apply amerge_nodup|]. split; [|split].
  - intro k. rewrite amerge_get by auto. now rewrite G, G', asums_app.
  - intro k. rewrite amerge_keys, map_app, in_app_iff. intuition.
  - rewrite amerge_total, map_app, asum_app, T, T'. reflexivity.
Qed.
Definition gtags (s : gset) : list keyed_poly := map (fun g => (KSpec (g_spec g), g_pts g)) s.
Lemma weighs_nil : weighs [] [].
Proof. split; [constructor|]. split; [reflexivity|]. split; [intros k []|]. reflexivity. Qed.
Lemma weighs_set s : weighs (ps_area_spec s) (gtags s).
Proof.
  unfold ps_area_spec.
  assert (G : forall s d l, weighs d l ->
     weighs (fold_left (fun d g => acc_add d (g_spec g) (poly_area (g_pts g))) s d) (l ++ gtags s)).
  { clear s; intro s; induction s as [|g s IH]; intros d l W; cbn [fold_left gtags map]; [now rewrite app_nil_r|].
    change (weighs (fold_left (fun d g => acc_add d (g_spec g) (poly_area (g_pts g))) s (acc_add d (g_spec g) (poly_area (g_pts g))))
             (l ++ [(KSpec (g_spec g), g_pts g)] ++ gtags s)).
    rewrite app_assoc. apply IH. destruct W as (N & A & K & T). split; [now apply acc_add_nodup|]. split; [|split].
    - intro k. rewrite acc_add_get, A, asums_app. f_equal. unfold asums, pick; cbn [filter fst key_eqb].
      destruct (spec_eqb (g_spec g) k); cbn; lra.
    - intro k. rewrite acc_add_keys, map_app, in_app_iff. cbn. intros [?|[E|[]]]; [auto|]. right; congruence.
    - rewrite acc_add_total, map_app, asum_app, T. cbn [map snd]. rewrite asum_cons. change (asum []) with 0. lra. }
  apply (G s [] []), weighs_nil.
Qed.
Lemma path_gtags p : gtags (flat_map (fun kv => map (fun l => GPoly l (fst (fst kv)) (snd (fst kv))) (snd kv)) (po_polys ops p))
  = path_tags ops p.
Proof.
  unfold gtags, path_tags. rewrite map_flat_map. apply flat_map_ext; intros [[a b] v]; cbn [fst snd]. now rewrite map_map.
Qed.
Lemma weighs_own s :
  weighs (fold_left (fun a p => amerge a (path_area_spec ops p)) (s_paths s)
        (fold_left (fun a ps => amerge a (ps_area_spec (ps_list ps))) (s_polys s) []))
    (own_tags s ++ flat_map (path_tags ops) (s_paths s)).
Proof.
  assert (A : forall gs d l, weighs d l -> weighs (fold_left (fun a ps => amerge a (ps_area_spec (ps_list ps))) gs d)
      (l ++ flat_map (fun ps => gtags (ps_list ps)) gs)).
  { intro gs; induction gs as [|g gs IH]; intros d l W; simpl; [now rewrite app_nil_r|].
    rewrite app_assoc. apply IH, weighs_merge; [auto|apply weighs_set]. }
  assert (B : forall ps d l, weighs d l -> weighs (fold_left (fun a p => amerge a (path_area_spec ops p)) ps d)
      (l ++ flat_map (path_tags ops) ps)).
  { intro ps; induction ps as [|p ps IH]; intros d l W; simpl; [now rewrite app_nil_r|].
    rewrite app_assoc. apply IH, weighs_merge; [auto|]. rewrite <- path_gtags. apply weighs_set. }
  apply B. apply (A (s_polys s) [] []), weighs_nil.
Qed.

Lemma scaled_weighs pl d l : weighs d l ->
  weighs (map (fun kv => (fst kv, snd kv * ref_factor pl)) d) (flat_map (fun x => map (act_key x) l) (insts pl)).
Proof.
  intros (N & G & K & T). split; [now rewrite map_map|]. split; [|split].
  - intro k. unfold asums. rewrite pick_place, asum_place. fold (asums k l). rewrite <- G.
    clear. induction d as [|[k' v] d IH]; cbn [map acc_get fst snd]; [lra|]. destruct (spec_eqb k' k); [auto|exact IH].
  - intro k. rewrite map_map. cbn [fst]. rewrite map_flat_map, in_flat_map. intros (x & _ & Hk). rewrite map_map in Hk. apply K, Hk.
  - transitivity (acc_total d * ref_factor pl).
    + clear. unfold acc_total. induction d as [|[k v] d IH]; cbn in *; [lra|]. rewrite IH; lra.
    + rewrite T, <- asum_place, place_polys_insts, map_flat_map. f_equal. apply flat_map_ext; intro x. rewrite !map_map. reflexivity.
Qed.

Lemma area_spec_ok bx (h : heap) n m c d l :
  area_spec_fuel ops h n c = Some d -> tag_fuel ops bx h m None c = Some l -> weighs d l.
Proof.
  revert m c d l; induction n as [|n IH]; intros m c d l A B; [discriminate|].
  destruct m as [|m]; [discriminate|]. unfold tag_fuel in B. cbn [iter_fuel] in B. unfold tag_step at 1 in B.
  cbn [below next option_map] in B.
  destruct (expand h _ place_tags None (crefs h c)) as [r|] eqn:E; [|discriminate]. injection B as <-.
  unfold area_spec_fuel in A. cbn [iter_fuel] in A. unfold area_spec_step at 1 in A.
  destruct (existsb _ _); [discriminate|].
  pose proof (weighs_own (stuff_of h c)) as G0. fold (cell_tags ops h c) in G0.
  revert A G0. generalize (cell_tags ops h c).
  generalize (fold_left (fun a p => amerge a (path_area_spec ops p)) (s_paths (stuff_of h c))
        (fold_left (fun a ps => amerge a (ps_area_spec (ps_list ps))) (s_polys (stuff_of h c)) [])).
  revert r E. unfold expand. induction (crefs h c) as [|x rs IHr]; intros r E acc l0 A G0; cbn [collect] in E.
  - injection E as <-. injection A as <-. now rewrite app_nil_r.
  - destruct (rtarget h x) as [e|nm] eqn:T.
    + destruct (iter_fuel (area_spec_step ops h) n e) as [ae|] eqn:Ae; [|discriminate].
      destruct (iter_fuel (tag_step ops bx h) m (None, e)) as [le|] eqn:Le; [|discriminate].
      unfold place_tags at 1 in E. destruct (collect _ rs) as [b|] eqn:B; [|discriminate]. injection E as <-.
      rewrite app_assoc. eapply IHr; [reflexivity|exact A|].
      apply weighs_merge; [auto|]. apply scaled_weighs. apply (IH m e ae le Ae Le).
    + destruct (collect _ rs) as [b|] eqn:B; [|discriminate]. injection E as <-.
      eapply IHr; eauto.
Qed.

(** *** Areas are defined *)
Definition solid_cells (h : heap) (c : nat) : Prop :=
  forall d, under h c d -> existsb (po_empty ops) (s_paths (stuff_of h d)) = false.
Lemma area_total (h : heap) n c l : deps_fuel n h true c = Some l -> solid_cells h c ->
  (exists a, area_fuel ops h n c = Some a) /\ (exists d, area_spec_fuel ops h n c = Some d).
Proof.
  revert c l; induction n as [|n IH]; intros c l D S; [discriminate|].
  unfold area_fuel, area_spec_fuel. cbn [iter_fuel]. unfold area_step at 1, area_spec_step at 1.
  rewrite (S c (or_introl eq_refl)).
  generalize (fold_left (fun a p => a + path_area ops p) (s_paths (stuff_of h c))
        (fold_left (fun a ps => a + ps_area (ps_list ps)) (s_polys (stuff_of h c)) 0)).
  generalize (fold_left (fun a p => amerge a (path_area_spec ops p)) (s_paths (stuff_of h c))
        (fold_left (fun a ps => amerge a (ps_area_spec (ps_list ps))) (s_polys (stuff_of h c)) [])).
  assert (R : forall x e, In x (crefs h c) -> rtarget h x = ToCell e ->
    (exists a, area_fuel ops h n e = Some a) /\ (exists d, area_spec_fuel ops h n e = Some d)).
  { intros x e Hx T. assert (De : direct h c e) by (exists x; auto). destruct (deps_direct h n c l D e De) as [l' L'].
    apply (IH e l' L'). intros d U. apply S. right. destruct U as [->|U]; [now apply reach_one|eapply reach_more; eauto]. }
  unfold area_fuel, area_spec_fuel in R. clear - R. induction (crefs h c) as [|x rs IHr]; intros d a; [split; eauto|].
  destruct (rtarget h x) as [e|nm] eqn:T.
  - destruct (R x e (or_introl eq_refl) T) as [[a' ->] [d' ->]]. apply IHr. intros; eapply R; eauto; now right.
  - apply IHr. intros; eapply R; eauto; now right.
Qed.

(** ** Boxes *)

(** Two lists of points with the same bounds. *)
Definition hull (X Y : list pt) : Prop :=
  (X = [] <-> Y = []) /\
  forall b, ((forall p, In p X -> fst p <= b) <-> (forall p, In p Y -> fst p <= b)) /\
            ((forall p, In p X -> b <= fst p) <-> (forall p, In p Y -> b <= fst p)) /\
            ((forall p, In p X -> snd p <= b) <-> (forall p, In p Y -> snd p <= b)) /\
            ((forall p, In p X -> b <= snd p) <-> (forall p, In p Y -> b <= snd p)).
Lemma hull_refl X : hull X X. Proof. split; [tauto|]. intro; repeat split; auto. Qed.
Lemma hull_sym X Y : hull X Y -> hull Y X.
Proof. intros [A B]; split; [tauto|]. intro b. destruct (B b) as (? & ? & ? & ?). tauto. Qed.
Lemma hull_trans X Y Z : hull X Y -> hull Y Z -> hull X Z.
Proof.
  intros [A B] [A' B']; split; [tauto|]. intro b. destruct (B b) as (? & ? & ? & ?), (B' b) as (? & ? & ? & ?). tauto.
Qed.
Lemma in_app_all {X} (Q : X -> Prop) a b : (forall p, In p (a ++ b) -> Q p) <-> (forall p, In p a -> Q p) /\ (forall p, In p b -> Q p).
Proof.
  split; [intro H; split; intros; apply H, in_app_iff; auto|]. intros [A B] p H. apply in_app_iff in H as [H|H]; auto.
Qed.
Lemma hull_app X Y X' Y' : hull X Y -> hull X' Y' -> hull (X ++ X') (Y ++ Y').
Proof.
  intros [A B] [A' B']; split.
  - split; intro H; apply app_eq_nil in H as [H1 H2]; rewrite (proj1 A H1), (proj1 A' H2) || rewrite (proj2 A H1), (proj2 A' H2); auto.
  - intro b. destruct (B b) as (a1 & a2 & a3 & a4), (B' b) as (b1 & b2 & b3 & b4).
    rewrite !in_app_all. tauto.
Qed.
Lemma hull_box X Y : hull X Y -> box_of X = box_of Y.
Proof.
  intros [A B]. pose proof (box_of_right X) as RX. pose proof (box_of_right Y) as RY.
  destruct (box_of X) as [[[a1 a2] [a3 a4]]|] eqn:EX, (box_of Y) as [[[b1 b2] [b3 b4]]|] eqn:EY; cbn [right_box] in *; auto.
  - f_equal. destruct RX as (I & (p1 & P1 & E1) & (p2 & P2 & E2) & (p3 & P3 & E3) & (p4 & P4 & E4)).
    destruct RY as (J & (q1 & Q1 & F1) & (q2 & Q2 & F2) & (q3 & Q3 & F3) & (q4 & Q4 & F4)). cbn [fst snd] in *.
    assert (a3 = b3).
    { apply Rle_antisym.
      - rewrite <- E3. apply (proj2 (proj1 (B b3))); [|auto]. intros p Hp; apply J; auto.
      - rewrite <- F3. apply (proj1 (proj1 (B a3))); [|auto]. intros p Hp; apply I; auto. }
    assert (a1 = b1).
    { apply Rle_antisym.
      - rewrite <- F1. apply (proj1 (proj1 (proj2 (B a1)))); [|auto]. intros p Hp; apply I; auto.
      - rewrite <- E1. apply (proj2 (proj1 (proj2 (B b1)))); [|auto]. intros p Hp; apply J; auto. }
    assert (a4 = b4).
    { apply Rle_antisym.
      - rewrite <- E4. apply (proj2 (proj1 (proj2 (proj2 (B b4))))); [|auto]. intros p Hp; apply J; auto.
      - rewrite <- F4. apply (proj1 (proj1 (proj2 (proj2 (B a4))))); [|auto]. intros p Hp; apply I; auto. }
    assert (a2 = b2).
    { apply Rle_antisym.
      - rewrite <- F2. apply (proj1 (proj2 (proj2 (proj2 (B a2))))); [|auto]. intros p Hp; apply I; auto.
      - rewrite <- E2. apply (proj2 (proj2 (proj2 (proj2 (B b2))))); [|auto]. intros p Hp; apply J; auto. }
    congruence.
  - apply A in RY. subst. destruct RX as (_ & (p & [] & _) & _).
  - apply A in RX. subst. destruct RY as (_ & (p & [] & _) & _).
Qed.
(** The two corners of a box stand for all the points. *)
Lemma hull_corners b X : box_of X = Some b -> hull X [fst b; snd b].
Proof.
  intro E. pose proof (box_of_right X) as R. rewrite E in R. cbn in R.
  destruct R as (I & (p1 & P1 & E1) & (p2 & P2 & E2) & (p3 & P3 & E3) & (p4 & P4 & E4)).
  split; [split; [intros ->; destruct P1|discriminate]|].
  intro k. repeat split; intros H p Hp.
  - destruct Hp as [<-|[<-|[]]]; [destruct (I _ P3); specialize (H _ P3); lra|specialize (H _ P3); lra].
  - destruct (I _ Hp) as [[_ L] _]. specialize (H (snd b)). cbn in H. assert (fst (snd b) <= k) by (apply H; auto). lra.
  - destruct Hp as [<-|[<-|[]]]; [specialize (H _ P1); lra|destruct (I _ P1); specialize (H _ P1); lra].
  - destruct (I _ Hp) as [[L _] _]. specialize (H (fst b)). cbn in H. assert (k <= fst (fst b)) by (apply H; auto). lra.
  - destruct Hp as [<-|[<-|[]]]; [destruct (I _ P4); specialize (H _ P4); lra|specialize (H _ P4); lra].
  - destruct (I _ Hp) as [_ [_ L]]. specialize (H (snd b)). cbn in H. assert (snd (snd b) <= k) by (apply H; auto). lra.
  - destruct Hp as [<-|[<-|[]]]; [specialize (H _ P2); lra|destruct (I _ P2); specialize (H _ P2); lra].
  - destruct (I _ Hp) as [_ [L _]]. specialize (H (fst b)). cbn in H. assert (k <= snd (fst b)) by (apply H; auto). lra.
Qed.

(** Bounds under [x -> a x + c]. *)
Lemma bounds_affine {T} (u : T -> R) X Y a c :
  (forall b, ((forall p, In p X -> u p <= b) <-> (forall p, In p Y -> u p <= b)) /\
             ((forall p, In p X -> b <= u p) <-> (forall p, In p Y -> b <= u p))) -> (X = [] <-> Y = []) ->
  forall b, ((forall p, In p X -> a * u p + c <= b) <-> (forall p, In p Y -> a * u p + c <= b)) /\
            ((forall p, In p X -> b <= a * u p + c) <-> (forall p, In p Y -> b <= a * u p + c)).
Proof.
  intros H N b. destruct (total_order_T a 0) as [[L|E]|G].
  - assert (K1 : forall x, a * x + c <= b <-> (b - c) / a <= x).
    { intro x; split; intro K.
      - assert (/ a < 0) by (apply Rinv_lt_0_compat; lra). replace x with (a * x * / a) by (field; lra). unfold Rdiv. nra.
      - assert (Q : (b - c) / a * a = b - c) by (field; lra). nra. }
    assert (K2 : forall x, b <= a * x + c <-> x <= (b - c) / a).
    { intro x; split; intro K.
      - assert (/ a < 0) by (apply Rinv_lt_0_compat; lra). replace x with (a * x * / a) by (field; lra). unfold Rdiv. nra.
      - assert (Q : (b - c) / a * a = b - c) by (field; lra). nra. }
    destruct (H ((b - c) / a)) as [H1 H2]. split; split; intros Hh p Hp.
    + apply K1. apply (proj1 H2); auto. intros; apply K1; auto.
    + apply K1. apply (proj2 H2); auto. intros; apply K1; auto.
    + apply K2. apply (proj1 H1); auto. intros; apply K2; auto.
    + apply K2. apply (proj2 H1); auto. intros; apply K2; auto.
  - subst a. split; split; intros Hh p Hp.
    + destruct X as [|q X]; [rewrite (proj1 N eq_refl) in Hp; destruct Hp|]. specialize (Hh q (or_introl eq_refl)). lra.
    + destruct Y as [|q Y]; [rewrite (proj2 N eq_refl) in Hp; destruct Hp|]. specialize (Hh q (or_introl eq_refl)). lra.
    + destruct X as [|q X]; [rewrite (proj1 N eq_refl) in Hp; destruct Hp|]. specialize (Hh q (or_introl eq_refl)). lra.
    + destruct Y as [|q Y]; [rewrite (proj2 N eq_refl) in Hp; destruct Hp|]. specialize (Hh q (or_introl eq_refl)). lra.
  - assert (K1 : forall x, a * x + c <= b <-> x <= (b - c) / a).
    { intro x; split; intro K.
      - assert (0 < / a) by (apply Rinv_0_lt_compat; lra). replace x with (a * x * / a) by (field; lra). unfold Rdiv. nra.
      - assert (Q : (b - c) / a * a = b - c) by (field; lra). nra. }
    assert (K2 : forall x, b <= a * x + c <-> (b - c) / a <= x).
    { intro x; split; intro K.
      - assert (0 < / a) by (apply Rinv_0_lt_compat; lra). replace x with (a * x * / a) by (field; lra). unfold Rdiv. nra.
      - assert (Q : (b - c) / a * a = b - c) by (field; lra). nra. }
    destruct (H ((b - c) / a)) as [H1 H2]. split; split; intros Hh p Hp.
    + apply K1. apply (proj1 H1); auto. intros; apply K1; auto.
    + apply K1. apply (proj2 H1); auto. intros; apply K1; auto.
    + apply K2. apply (proj1 H2); auto. intros; apply K2; auto.
    + apply K2. apply (proj2 H2); auto. intros; apply K2; auto.
Qed.

(** Maps that keep the axes, or swap them. *)
Definition axial (f : pt -> pt) : Prop :=
  exists a c b d, (forall p, f p = (a * fst p + c, b * snd p + d)) \/ (forall p, f p = (a * snd p + c, b * fst p + d)).
Lemma hull_map f X Y : axial f -> hull X Y -> hull (map f X) (map f Y).
Proof.
  intros (a & c & b & d & F) [N B].
  split; [split; intro H; apply map_eq_nil in H; [rewrite (proj1 N H)|rewrite (proj2 N H)]; reflexivity|].
  assert (BX : forall b, ((forall p, In p X -> fst p <= b) <-> (forall p, In p Y -> fst p <= b)) /\
             ((forall p, In p X -> b <= fst p) <-> (forall p, In p Y -> b <= fst p)))
    by (intro k; destruct (B k) as (? & ? & ? & ?); tauto).
  assert (BY : forall b, ((forall p, In p X -> snd p <= b) <-> (forall p, In p Y -> snd p <= b)) /\
             ((forall p, In p X -> b <= snd p) <-> (forall p, In p Y -> b <= snd p)))
    by (intro k; destruct (B k) as (? & ? & ? & ?); tauto).
  assert (M : forall (Q : pt -> Prop) Z, (forall p, In p (map f Z) -> Q p) <-> (forall p, In p Z -> Q (f p))).
  { intros Q Z; split; intros H p Hp; [apply H, in_map, Hp|]. apply in_map_iff in Hp as (q & <- & Hq); auto. }
  intro k. rewrite !M. destruct F as [F|F].
  - destruct (bounds_affine fst X Y a c BX N k) as [U1 U2], (bounds_affine snd X Y b d BY N k) as [V1 V2].
    repeat split; intros H p Hp; rewrite F; cbn [fst snd];
      [apply (proj1 U1)|apply (proj2 U1)|apply (proj1 U2)|apply (proj2 U2)|apply (proj1 V1)|apply (proj2 V1)|apply (proj1 V2)|apply (proj2 V2)]; auto;
      intros q Hq; specialize (H q Hq); rewrite F in H; exact H.
  - destruct (bounds_affine snd X Y a c BY N k) as [U1 U2], (bounds_affine fst X Y b d BX N k) as [V1 V2].
    repeat split; intros H p Hp; rewrite F; cbn [fst snd];
      [apply (proj1 U1)|apply (proj2 U1)|apply (proj1 U2)|apply (proj2 U2)|apply (proj1 V1)|apply (proj2 V1)|apply (proj1 V2)|apply (proj2 V2)]; auto;
      intros q Hq; specialize (H q Hq); rewrite F in H; exact H.
Qed.

Lemma cardinal_axes pl : cardinal (p_rot pl) = true -> cos (angle pl) = 0 \/ sin (angle pl) = 0.
Proof.
  unfold cardinal, angle. destruct (p_rot pl) as [d|]; [|right; apply sin_0].
  destruct (Req_EM_T _ _) as [E|]; [|discriminate]. intros _.
  set (k := Int_part (d / 90)) in *. set (x := d * PI / 180).
  assert (S : sin (2 * x) = 0).
  { apply sin_eq_0_1. exists k. unfold x. rewrite E. field. }
  rewrite sin_2a in S. destruct (Rmult_integral _ _ S) as [S1|S1]; [|auto]. right. lra.
Qed.
Lemma inst_axial x : cardinal (p_rot (fst x)) = true -> axial (code_map x).
Proof.
  intro C. apply cardinal_axes in C. destruct (inst_similar x) as [o Ho]. unfold axial.
  assert (E : forall p, code_map x p = similar o (angle (fst x)) (factor (fst x)) (p_refl (fst x)) p)
    by (intro; now rewrite code_map_ok).
  set (t := angle (fst x)) in *. set (k := factor (fst x)) in *.
  destruct C as [C|C].
  - exists (if p_refl (fst x) then k * sin t else - (k * sin t)), (fst o), (k * sin t), (snd o). right.
    intro p. rewrite E. unfold similar, turn, flip, padd, smul. rewrite C. destruct (p_refl (fst x)); cbn [fst snd]; f_equal; ring.
  - exists (k * cos t), (fst o), (if p_refl (fst x) then - (k * cos t) else k * cos t), (snd o). left.
    intro p. rewrite E. unfold similar, turn, flip, padd, smul. rewrite C. destruct (p_refl (fst x)); cbn [fst snd]; f_equal; ring.
Qed.

Lemma concat_place pl l : concat (place_polys pl l) = flat_map (fun x => map (code_map x) (concat l)) (insts pl).
Proof.
  rewrite place_polys_insts. induction (insts pl) as [|x g IH]; [reflexivity|]. simpl.
  rewrite concat_app, IH. f_equal. rewrite concat_map. reflexivity.
Qed.
Lemma hull_place pl l l' : cardinal (p_rot pl) = true -> hull (concat l) (concat l') ->
  hull (concat (place_polys pl l)) (concat (place_polys pl l')).
Proof.
  intros C H. rewrite !concat_place.
  assert (E : forall x, In x (insts pl) -> fst x = pl) by apply insts_place.
  induction (insts pl) as [|x g IH]; [apply hull_refl|]. simpl. apply hull_app.
  - apply hull_map; [|exact H]. apply inst_axial. now rewrite (E x (or_introl eq_refl)).
  - apply IH. intros; apply E; now right.
Qed.

Lemma box_mono (h : heap) polys : monotone (box_step ops h polys).
Proof.
  intros f g M c x. unfold box_step. destruct (own_points ops (stuff_of h c)) as [own|]; [|discriminate].
  destruct (collect _ (crefs h c)) as [r|] eqn:E; [|discriminate].
  match goal with |- _ -> match collect ?k _ with _ => _ end = _ => assert (E' : collect k (crefs h c) = Some r) end.
  { eapply collect_mono; [|exact E]. cbn beta.
    intros r0 ys. destruct (rtarget h r0) as [e|n]; [|auto]. unfold ref_box.
    destruct (cardinal _); [|auto]. destruct (f e) as [b|] eqn:F; [|discriminate]. now rewrite (M _ _ F). }
  now rewrite E'.
Qed.

(** Coordinates within the range the code's initial box presupposes. *)
Definition modest (h : heap) (c : nat) : Prop :=
  forall m l p, polys_fuel ops h m c = Some l -> In p (concat l) ->
    Rabs (fst p) <= huge /\ Rabs (snd p) <= huge.

Lemma clamp_id b X : box_of X = Some b -> (forall p, In p X -> Rabs (fst p) <= huge /\ Rabs (snd p) <= huge) -> clamp_box b = b.
Proof.
  intros E M. pose proof (box_of_right X) as R. rewrite E in R. cbn in R.
  destruct R as (I & (p1 & P1 & E1) & (p2 & P2 & E2) & (p3 & P3 & E3) & (p4 & P4 & E4)).
  destruct b as [[a1 a2] [a3 a4]]; unfold clamp_box; cbn [fst snd] in *.
  assert (G : forall r, Rabs r <= huge -> - huge <= r <= huge).
  { intros r H. split; [|eapply Rle_trans; [apply Rle_abs|exact H]].
    pose proof (Rle_abs (- r)) as A. rewrite Rabs_Ropp in A. lra. }
  pose proof (G _ (proj1 (M _ P1))); pose proof (G _ (proj2 (M _ P2))).
  pose proof (G _ (proj1 (M _ P3))); pose proof (G _ (proj2 (M _ P4))).
  rewrite !Rmin_right, !Rmax_right by lra. reflexivity.
Qed.

(** The box of a reference stands for the points of its polygons. *)
Lemma ref_box_hull pl bb polys be le : ref_box pl bb polys = Some be ->
  (forall b, bb = Some b -> b = box_of (concat le)) -> (forall l, polys = Some l -> l = le) ->
  hull (box_pts be) (concat (place_polys pl le)).
Proof.
  intros Re HB HP. unfold ref_box in Re. destruct (cardinal (p_rot pl)) eqn:Cd.
  - destruct bb as [[bb|]|]; [| |discriminate].
    + injection Re as <-. pose proof (HB _ eq_refl) as Hb. symmetry in Hb. pose proof (hull_corners _ _ Hb) as HC.
      assert (HQ : hull (concat (place_polys pl [[fst bb; snd bb]])) (concat (place_polys pl le))).
      { apply hull_place; [auto|]. apply hull_sym. simpl. exact HC. }
      destruct (box_of (concat (place_polys pl [[fst bb; snd bb]]))) as [z|] eqn:Z; cbn [box_pts].
      * apply hull_sym, (hull_trans _ _ _ (hull_sym _ _ HQ)). now apply hull_corners.
      * pose proof (box_of_right (concat (place_polys pl [[fst bb; snd bb]]))) as R0. rewrite Z in R0.
        cbn in R0. rewrite R0 in HQ. exact HQ.
    + injection Re as <-. pose proof (HB _ eq_refl) as Hb.
      pose proof (box_of_right (concat le)) as R0. rewrite <- Hb in R0. cbn in R0.
      rewrite concat_place, R0. simpl. rewrite flat_map_nil. apply hull_refl.
  - destruct polys as [lp|]; [|discriminate]. injection Re as <-. rewrite (HP _ eq_refl).
    destruct (box_of (concat (place_polys pl le))) as [z|] eqn:Z; cbn [box_pts].
    + apply hull_sym. now apply hull_corners.
    + pose proof (box_of_right (concat (place_polys pl le))) as R0. rewrite Z in R0. cbn in R0.
      rewrite R0. apply hull_refl.
Qed.

Lemma box_ok (h : heap) pf n m c b l : all_under h c (modest h) ->
  box_fuel ops h pf n c = Some b -> polys_fuel ops h m c = Some l -> b = box_of (concat l).
Proof.
  revert m c b l; induction n as [|n IH]; intros m c b l W A B; [discriminate|].
  destruct m as [|m]; [discriminate|]. pose proof B as B0. apply polys_step in B as (r & E & ->).
  unfold box_fuel in A. cbn [iter_fuel] in A. unfold box_step at 1 in A.
  unfold own_points in A. destruct (existsb _ _); [discriminate|].
  destruct (collect _ (crefs h c)) as [bs|] eqn:C; [|discriminate]. injection A as <-.
  assert (DD : forall x, In x (crefs h c) -> forall e, rtarget h x = ToCell e -> direct h c e)
    by (intros x Hx e He; exists x; auto).
  assert (H : hull bs (concat r)).
  { clear B0. revert r bs E C. unfold expand. induction (crefs h c) as [|x rs IHr]; intros r bs E C; cbn [collect] in *.
    - injection E as <-. injection C as <-. apply hull_refl.
    - destruct (rtarget h x) as [e|nm] eqn:T.
      + destruct (iter_fuel (flat_step ops (fun _ => None) h) m (None, e)) as [le|] eqn:Le; [|discriminate].
        destruct (collect _ rs) as [r2|] eqn:B in E; [|discriminate]. injection E as <-.
        destruct (ref_box _ _ _) as [be|] eqn:Re; [|discriminate]. cbn [option_map] in C.
        destruct (collect _ rs) as [b2|] eqn:B' in C; [|discriminate]. injection C as <-.
        rewrite concat_app. apply hull_app.
        * eapply ref_box_hull; [exact Re| |].
          -- intros bb Q. apply (IH m e _ le (under_step h c e _ (DD x (or_introl eq_refl) e T) W) Q Le).
          -- intros lp Q. exact (polys_det h pf m e lp le Q Le).
        * apply IHr; auto. intros; eapply DD; eauto; now right.
      + destruct (collect _ rs) as [r2|] eqn:B in E; [|discriminate]. injection E as <-.
        destruct (collect _ rs) as [b2|] eqn:B' in C; [|discriminate]. injection C as <-.
        simpl. apply IHr; auto. intros; eapply DD; eauto; now right. }
  rewrite app_assoc, concat_app. set (own := concat (own_polys (stuff_of h c)) ++ concat (flat_map (path_flat ops) (s_paths (stuff_of h c)))).
  assert (HH : hull (own ++ bs) (concat (own_polys (stuff_of h c) ++ flat_map (path_flat ops) (s_paths (stuff_of h c))) ++ concat r)).
  { rewrite concat_app. apply hull_app; [apply hull_refl|exact H]. }
  rewrite <- (hull_box _ _ HH). destruct (box_of (own ++ bs)) as [z|] eqn:Z; [cbn [option_map]|reflexivity]. f_equal.
  rewrite (hull_box _ _ HH) in Z. eapply clamp_id; [exact Z|]. intros p Hp.
  eapply (under_self _ _ _ W); [exact B0|]. now rewrite app_assoc, concat_app.
Qed.

End Box.
