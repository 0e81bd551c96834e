(** The record sequences of the writers follow the grammar of SpecFormat.v. *)

From Coq Require Import List ZArith Lia Bool.
From Coq Require Import ZifyBool ZifyNat.
From Verif Require Import Bytes Real8 Records Writer Reader Stream SpecFormat RoundTrip ReadBack.
Import ListNotations.
Open Scope Z_scope.

Definition words (rs : list raw) : list Z := map r_word rs.

Lemma words_app : forall a b, words (a ++ b) = words a ++ words b.
Proof. intros. apply map_app. Qed.

Lemma props_words : forall ps b, props_to_gds ps = Some b ->
  words (props_raws ps) = prop_words (length ps).
Proof.
  induction ps as [|[a ov] ps IH]; intros b H; [reflexivity|].
  unfold props_to_gds in H. cbn [map oconcat] in H. apply oapp_Some in H.
  destruct H as (y & z & Hy & Hz & ->). unfold prop_to_gds in Hy. cbn [fst snd] in Hy.
  destruct ov as [v|]; [|discriminate].
  unfold props_raws. cbn [flat_map]. rewrite words_app.
  change (flat_map prop_raws ps) with (props_raws ps). rewrite (IH _ Hz). reflexivity.
Qed.

Lemma words_xys : forall cs, words (map xy_raw cs) = repeat XY (length cs).
Proof. induction cs as [|c cs IH]; [reflexivity|]. cbn [map words length repeat] in *. f_equal. exact IH. Qed.

Lemma repeat_nonempty : forall A (x : A) n, n <> O -> repeat x n = repeat x (S (pred n)).
Proof. intros A x [|n] H; [contradiction|reflexivity]. Qed.

Lemma poly_words : forall ps p b, poly_to_gds ps p = Some b -> element_words (words (poly_raws ps p)).
Proof.
  intros ps p b H. unfold poly_to_gds in H.
  apply oapp_Some in H. destruct H as (y & z & Hy & H & ->).
  apply oapp_Some in H. destruct H as (z1 & z2 & Hp & _ & ->).
  unfold poly_raws, poly_xy. destruct (pg_pts p) as [|first l] eqn:E; [discriminate|].
  rewrite !words_app, (props_words _ _ Hp).
  destruct (8190 <? zlen (first :: l)).
  - rewrite words_xys, repeat_nonempty; [apply ew_boundary|].
    intros H0. apply length_zero_iff_nil in H0. revert H0. apply chunks_nonempty. discriminate.
  - apply (ew_boundary 0).
Qed.

Lemma polyset_words : forall s b, polyset_to_gds s = Some b -> elements_words (words (polyset_raws s)).
Proof.
  intros s b H. unfold polyset_to_gds in H. unfold polyset_raws. revert b H.
  induction (ps_polys s) as [|p l IH]; intros b H; [constructor|].
  cbn [map oconcat] in H. apply oapp_Some in H. destruct H as (y & z & Hy & Hz & ->).
  cbn [flat_map]. rewrite words_app. constructor; [eapply poly_words; eassumption|eapply IH; eassumption].
Qed.

Lemma path1_words : forall wt ps p b, path1_to_gds wt ps p = Some b ->
  element_words (words (path1_raws wt ps p)).
Proof.
  intros wt ps p b H. unfold path1_to_gds in H. cbv zeta in H.
  apply oapp_Some in H. destruct H as (b1 & z & H1 & H & ->).
  apply oapp_Some in H. destruct H as (b2 & z1 & H2 & H & ->).
  apply oapp_Some in H. destruct H as (b3 & z2 & H3 & H & ->).
  apply oapp_Some in H. destruct H as (b4 & b5 & H4 & H5 & ->).
  unfold path1_raws, path_xy. rewrite !words_app, (props_words _ _ H4).
  replace (words (ext_raws (pt_end p)))
    with (if match pt_end p with ETuple _ _ => true | _ => false end then [0x3003; 0x3103] else [])
    by (destruct (pt_end p); reflexivity).
  destruct (8191 <? zlen (pt_pts p)) eqn:E.
  - rewrite words_xys, repeat_nonempty; [apply ew_path|].
    intros H0. apply length_zero_iff_nil in H0. revert H0. apply chunks_nonempty.
    intros H0. rewrite H0 in E. cbn in E. discriminate E.
  - apply (ew_path _ 0).
Qed.

Lemma elements_words_app : forall a b, elements_words a -> elements_words b -> elements_words (a ++ b).
Proof.
  intros a b Ha Hb. induction Ha as [|x y Hx _ IH]; [assumption|].
  rewrite <- app_assoc. constructor; assumption.
Qed.

Lemma element_elements : forall a, element_words a -> elements_words a.
Proof. intros a H. rewrite <- (app_nil_r a). constructor; [assumption|constructor]. Qed.

Lemma elements_flat : forall A (f : A -> option bytes) (g : A -> list raw),
  (forall x b, f x = Some b -> elements_words (words (g x))) ->
  forall l b, oconcat (map f l) = Some b -> elements_words (words (flat_map g l)).
Proof.
  intros A f g H. induction l as [|x l IH]; intros b Hb; [constructor|].
  cbn [map oconcat] in Hb. apply oapp_Some in Hb. destruct Hb as (y & z & Hy & Hz & ->).
  cbn [flat_map]. rewrite words_app. apply elements_words_app; [eapply H|eapply IH]; eassumption.
Qed.

Lemma pathel_words : forall p b, pathel_to_gds p = Some b -> elements_words (words (pathel_raws p)).
Proof.
  intros [g|s] b H; cbn [pathel_to_gds pathel_raws] in *.
  - unfold gpath_to_gds in H. unfold gpath_raws. eapply elements_flat; [|exact H].
    intros. apply element_elements. eapply path1_words; eassumption.
  - eapply polyset_words; eassumption.
Qed.

Section WithLog2.
Variable log2f : dy -> dy.

Lemma strans_words_ok : forall t b, strans_to_gds log2f t = Some b ->
  strans_words (words (strans_raws log2f t)).
Proof.
  intros [[r|] [m|] f] b _; destruct f; unfold strans_raws; cbn [st_rot st_mag st_refl];
    first [ apply sw_none | apply (sw_some true true) | apply (sw_some true false)
          | apply (sw_some false true) | apply (sw_some false false) ].
Qed.

Lemma label_words : forall l b, label_to_gds log2f l = Some b -> element_words (words (label_raws log2f l)).
Proof.
  intros l b H. unfold label_to_gds in H. destruct (lb_text l) as [t|] eqn:Et; [|discriminate].
  cbv zeta in H.
  apply oapp_Some in H. destruct H as (b1 & z & H1 & H & ->).
  apply oapp_Some in H. destruct H as (b2 & z1 & H2 & H & ->).
  apply oapp_Some in H. destruct H as (b3 & z2 & H3 & H & ->).
  apply oapp_Some in H. destruct H as (b4 & z3 & H4 & H & ->).
  apply oapp_Some in H. destruct H as (b5 & b6 & H5 & H6 & ->).
  unfold label_raws. rewrite !words_app, (props_words _ _ H5).
  apply ew_text. eapply strans_words_ok; eassumption.
Qed.

Lemma refel_words : forall r b, refel_to_gds log2f r = Some b -> element_words (words (refel_raws log2f r)).
Proof.
  intros [r|r] b H; cbn [refel_to_gds refel_raws] in *.
  - unfold sref_to_gds in H. cbv zeta in H.
    apply oapp_Some in H. destruct H as (b1 & z & H1 & H & ->).
    apply oapp_Some in H. destruct H as (b2 & z1 & H2 & H & ->).
    apply oapp_Some in H. destruct H as (b3 & z2 & H3 & H & ->).
    apply oapp_Some in H. destruct H as (b4 & z3 & H4 & H & ->).
    apply oapp_Some in H. destruct H as (b5 & b6 & H5 & H6 & ->).
    unfold sref_raws. rewrite !words_app, (props_words _ _ H5).
    apply ew_sref. eapply strans_words_ok; eassumption.
  - unfold aref_to_gds in H. cbv zeta in H.
    destruct (ar_xy r) as [[[x1 y1] [x2 y2]] [x3 y3]].
    apply oapp_Some in H. destruct H as (b1 & z & H1 & H & ->).
    apply oapp_Some in H. destruct H as (b2 & z1 & H2 & H & ->).
    apply oapp_Some in H. destruct H as (b3 & z2 & H3 & H & ->).
    apply oapp_Some in H. destruct H as (b4 & z3 & H4 & H & ->).
    apply oapp_Some in H. destruct H as (b5 & b6 & H5 & H6 & ->).
    unfold aref_raws. rewrite !words_app, (props_words _ _ H5).
    apply ew_aref. eapply strans_words_ok; eassumption.
Qed.

Lemma elems_words : forall ts c b, cell_to_gds log2f ts c = Some b ->
  elements_words (words (elems_raws log2f c)).
Proof.
  intros ts c b H. unfold cell_to_gds in H. cbv zeta in H.
  apply oapp_Some in H. destruct H as (b1 & z & H1 & H & ->).
  apply oapp_Some in H. destruct H as (b2 & z1 & H2 & H & ->).
  apply oapp_Some in H. destruct H as (b3 & z2 & H3 & H & ->).
  apply oapp_Some in H. destruct H as (b4 & z3 & H4 & H & ->).
  apply oapp_Some in H. destruct H as (b5 & z4 & H5 & H & ->).
  apply oapp_Some in H. destruct H as (b6 & b7 & H6 & H7 & ->).
  unfold elems_raws. rewrite !words_app.
  repeat apply elements_words_app; (eapply elements_flat; [|eassumption]); intros x bx Hx.
  - eapply polyset_words; eassumption.
  - eapply pathel_words; eassumption.
  - apply element_elements. eapply label_words; eassumption.
  - apply element_elements. eapply refel_words; eassumption.
Qed.

Lemma library_words : forall ts l b, write_gds log2f ts l = Some b ->
  file_words (words (library_raws log2f ts l)).
Proof.
  intros ts l b H. unfold write_gds in H.
  apply oapp_Some in H. destruct H as (b1 & z & H1 & H & ->).
  apply oapp_Some in H. destruct H as (b2 & b3 & H2 & H3 & ->).
  unfold library_raws. rewrite !words_app.
  change (words (header_raws log2f ts (lib_name l) (lib_dbu l) (lib_prec l)))
    with [0x0002; 0x0102; 0x0206; 0x0305].
  apply fw. clear - H2. revert b2 H2. induction (lib_cells l) as [|c cs IH]; intros b H; [constructor|].
  cbn [map oconcat] in H. apply oapp_Some in H. destruct H as (y & z & Hy & Hz & ->).
  cbn [flat_map]. unfold cell_raws at 1. rewrite !words_app, <- !app_assoc.
  apply cs_cons; [eapply elems_words; eassumption|eapply IH; eassumption].
Qed.

End WithLog2.

(** Words that occur inside elements. *)
Definition inner_words : list Z :=
  [0x0800; 0x0D02; 0x0E02; 0x1003; 0x2B02; 0x2C06; 0x1100; 0x0900; 0x2102; 0x0F03; 0x3003; 0x3103;
   0x0C00; 0x1602; 0x1701; 0x1A01; 0x1B05; 0x1C05; 0x1906; 0x0A00; 0x1206; 0x0B00; 0x1302].

Lemma inner_props : forall n, Forall (fun w => In w inner_words) (prop_words n).
Proof.
  induction n as [|n IH]; [constructor|]. unfold prop_words in *. cbn [repeat concat].
  apply Forall_app. split; [|assumption].
  repeat (apply Forall_cons; [cbn [In inner_words]; tauto|]). apply Forall_nil.
Qed.

Lemma inner_xys : forall n, Forall (fun w => In w inner_words) (repeat XY n).
Proof.
  intros n. apply Forall_forall. intros x H. apply repeat_spec in H. subst.
  cbn [In inner_words]. unfold XY. tauto.
Qed.

Lemma inner_strans : forall st, strans_words st -> Forall (fun w => In w inner_words) st.
Proof.
  intros st [|[] []]; [apply Forall_nil| | | |]; cbn [app];
    repeat (apply Forall_cons; [cbn [In inner_words]; tauto|]); apply Forall_nil.
Qed.

Ltac inner :=
  repeat first
    [ apply Forall_nil
    | apply inner_props
    | apply inner_xys
    | (apply inner_strans; assumption)
    | (apply Forall_app; split)
    | (apply Forall_cons; [cbn [In inner_words]; unfold XY; tauto|]) ].

Lemma element_inner : forall ws, element_words ws -> Forall (fun w => In w inner_words) ws.
Proof.
  intros ws [n m|ext n m|st m Hs|st m Hs|st m Hs].
  - inner.
  - apply Forall_app. split; [inner|]. apply Forall_app. split; [destruct ext; inner|inner].
  - inner.
  - inner.
  - inner.
Qed.

Lemma elements_inner : forall ws, elements_words ws -> Forall (fun w => In w inner_words) ws.
Proof.
  induction 1 as [|a b Ha _ IH]; [constructor|]. apply Forall_app.
  split; [apply element_inner; assumption|assumption].
Qed.

(** Consequence used by the file tools: the record types 2, 5, 6, 7 never occur
    inside elements. *)
Lemma inner_types : forall w, In w inner_words ->
  w / 256 <> 3 /\ w / 256 <> 5 /\ w / 256 <> 6 /\ w / 256 <> 7 /\ w <> 0x0102 /\ w <> 0x0502 /\ w <> 0x0700.
Proof.
  intros w H. cbn [In inner_words] in H.
  repeat (destruct H as [<-|H]; [repeat split; discriminate|]). contradiction.
Qed.
