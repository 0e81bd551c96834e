(** When does writing succeed?  Every range condition of the GDSII format,
    stated on the objects, and a proof that they suffice. *)

From Coq Require Import List ZArith Lia Bool.
From Coq Require Import ZifyBool ZifyNat.
From Verif Require Import Bytes Real8 Records Writer Stream.
Import ListNotations.
Open Scope Z_scope.

(** ** Specification *)

Definition i16 (v : Z) : Prop := -32768 <= v < 32768.
Definition u16 (v : Z) : Prop := 0 <= v < 65536.
Definition i32 (v : Z) : Prop := -2147483648 <= v < 2147483648.
Definition pt32 (p : Z * Z) : Prop := i32 (fst p) /\ i32 (snd p).

(** ASCII, and short enough for a record. *)
Definition str_fits (s : str) : Prop := Forall (fun c => 0 <= c < 128) s /\ zlen s <= 65530.

Definition props_fit (ps : props) : Prop :=
  Forall (fun av => u16 (fst av) /\ exists v, snd av = Some v /\ str_fits v) ps.

Definition poly_fits (p : poly) : Prop :=
  pg_pts p <> [] /\ Forall pt32 (pg_pts p) /\ i16 (pg_layer p) /\ i16 (pg_dt p).
Definition polyset_fits (s : polyset) : Prop := Forall poly_fits (ps_polys s) /\ props_fit (ps_props s).

Definition path1_fits (p : path1) : Prop :=
  Forall pt32 (pt_pts p) /\ 0 <= pt_width p < 2147483648 /\ i16 (pt_layer p) /\ i16 (pt_dt p) /\
  match pt_end p with ETuple b e => i32 b /\ i32 e | _ => True end.
Definition pathel_fits (p : pathel) : Prop :=
  match p with
  | PGds g => Forall path1_fits (gp_paths g) /\ props_fit (gp_props g)
  | PPoly s => polyset_fits s
  end.

(** A double that fits the 8-byte real format. *)
Definition real_fits (v : dy) : Prop := is_f64 v /\ exp_fits v.
Definition tr_fits (t : strans) : Prop :=
  (forall v, st_rot t = Some v -> real_fits v) /\ (forall v, st_mag t = Some v -> real_fits v).

Definition label_fits (l : label) : Prop :=
  i16 (lb_layer l) /\ i16 (lb_texttype l) /\ i16 (lb_anchor l) /\ tr_fits (lb_tr l) /\
  pt32 (lb_pos l) /\ (exists t, lb_text l = Some t /\ str_fits t) /\ props_fit (lb_props l).

Definition refel_fits (r : refel) : Prop :=
  match r with
  | RS s => str_fits (target_name (sr_target s)) /\ tr_fits (sr_tr s) /\ pt32 (sr_org s) /\ props_fit (sr_props s)
  | RA a => str_fits (target_name (ar_target a)) /\ tr_fits (ar_tr a) /\ i16 (ar_cols a) /\ i16 (ar_rows a) /\
            pt32 (fst (fst (ar_xy a))) /\ pt32 (snd (fst (ar_xy a))) /\ pt32 (snd (ar_xy a)) /\ props_fit (ar_props a)
  end.

Definition cell_fits (c : cell) : Prop :=
  str_fits (c_name c) /\ Forall polyset_fits (c_polys c) /\ Forall pathel_fits (c_paths c) /\
  Forall label_fits (c_labels c) /\ Forall refel_fits (c_refs c).

Definition ts_fits (t : tstamp) : Prop := Forall i16 (ts_ints t).

Definition library_fits (l : library) : Prop :=
  str_fits (lib_name l) /\ real_fits (lib_dbu l) /\ real_fits (lib_prec l) /\ Forall cell_fits (lib_cells l).

(** ** Proofs *)

Definition ok {A} (x : option A) : Prop := x <> None.

Lemma ok_app : forall a b, ok a -> ok b -> ok (a +++ b).
Proof. intros [a|] [b|] Ha Hb; cbn; try discriminate; congruence. Qed.

Lemma ok_nil : ok (Some ([] : bytes)).
Proof. discriminate. Qed.

Lemma ok_concat : forall l, Forall ok l -> ok (oconcat l).
Proof.
  induction 1; cbn [oconcat]; [discriminate|]. apply ok_app; assumption.
Qed.

Lemma ok_map : forall A (f : A -> option bytes) (P : A -> Prop) l,
  (forall x, P x -> ok (f x)) -> Forall P l -> ok (oconcat (map f l)).
Proof.
  intros A f P l H F. apply ok_concat. apply Forall_map. eapply Forall_impl; [|exact F]. exact H.
Qed.

Definition field_fits (f : field) : Prop :=
  match f with FH v => u16 v | Fh v => i16 v | FL v => 0 <= v < 4294967296 | Fl v => i32 v end.

Lemma ok_field : forall f, field_fits f -> ok (pack_field f).
Proof.
  intros [v|v|v|v] H; unfold ok, pack_field, pack_H, pack_h, pack_L, pack_l; cbn in H; unfold u16, i16, i32 in H.
  - replace ((0 <=? v) && (v <? 65536)) with true by lia. discriminate.
  - replace ((-32768 <=? v) && (v <? 32768)) with true by lia. discriminate.
  - replace ((0 <=? v) && (v <? 4294967296)) with true by lia. discriminate.
  - replace ((-2147483648 <=? v) && (v <? 2147483648)) with true by lia. discriminate.
Qed.

Lemma ok_pack : forall fs, Forall field_fits fs -> ok (pack fs).
Proof. intros. eapply ok_map; [apply ok_field|assumption]. Qed.

Ltac okapp := repeat match goal with |- ok (_ +++ _) => apply ok_app end.
Ltac okpack := apply ok_pack; repeat apply Forall_cons; try apply Forall_nil; cbn [field_fits]; unfold u16, i16, i32 in *; try lia.

Lemma ok_ascii : forall s, str_fits s -> ok (encode_ascii (pad s)).
Proof.
  intros s (H & _). unfold ok, encode_ascii.
  rewrite forallb_ascii; [discriminate|]. unfold pad. destruct (Z.odd (zlen s)); [|assumption].
  apply Forall_app. split; [assumption|]. constructor; [lia|constructor].
Qed.

Lemma pad_zlen : forall s, zlen s <= zlen (pad s) <= zlen s + 1.
Proof.
  intros s. unfold pad. destruct (Z.odd _); rewrite ?zlen_app, ?zlen_cons, ?zlen_nil; lia.
Qed.

Lemma ok_props : forall ps, props_fit ps -> ok (props_to_gds ps).
Proof.
  intros ps H. unfold props_to_gds. eapply ok_map; [|exact H].
  intros [a ov] (Ha & v & Ev & Hv). cbn [fst snd] in *. subst ov. unfold prop_to_gds. cbn [fst snd].
  pose proof (pad_zlen v). pose proof (zlen_nonneg _ v). destruct Hv as (Hv1 & Hv2).
  apply ok_app; [okpack|]. apply ok_ascii. split; assumption.
Qed.

Lemma ok_endel : ok endel.
Proof. discriminate. Qed.

Lemma ok_tobytes : forall pts, Forall pt32 pts -> ok (tobytes pts).
Proof.
  intros pts H. unfold tobytes. apply ok_pack. apply Forall_map. unfold coords.
  induction H as [|p pts [H1 H2] _ IH]; [constructor|]. cbn [flat_map app].
  constructor; [exact H1|]. constructor; [exact H2|exact IH].
Qed.

Lemma Forall_firstn : forall A (P : A -> Prop) n l, Forall P l -> Forall P (firstn n l).
Proof. induction n; intros [|x l] H; cbn; try constructor; inversion H; auto. Qed.
Lemma Forall_skipn : forall A (P : A -> Prop) n l, Forall P l -> Forall P (skipn n l).
Proof. induction n; intros [|x l] H; cbn; auto. inversion H; auto. Qed.

Lemma ok_xy_records : forall n, 0 < n <= 8191 -> forall f pts, Forall pt32 pts -> ok (xy_records f n pts).
Proof.
  intros n Hn. induction f as [|f IH]; intros pts H; [discriminate|].
  cbn [xy_records]. destruct pts as [|p pts]; [discriminate|]. cbv zeta.
  apply ok_app; [|apply ok_app].
  - assert (0 <= zlen (firstn (Z.to_nat n) (p :: pts)) <= n).
    { unfold zlen. rewrite firstn_length. lia. }
    okpack.
  - apply ok_tobytes. apply Forall_firstn. exact H.
  - apply IH. apply Forall_skipn. exact H.
Qed.

Lemma ok_poly : forall ps p, props_fit ps -> poly_fits p -> ok (poly_to_gds ps p).
Proof.
  intros ps p Hps (Hne & Hp & Hl & Hd). unfold poly_to_gds. apply ok_app.
  - destruct (pg_pts p) as [|x pts] eqn:E; [contradiction|].
    assert (Hx : Forall pt32 [x]) by (constructor; [exact (Forall_inv Hp)|constructor]).
    destruct (8190 <? zlen (x :: pts)) eqn:E8.
    + apply ok_app; [okpack|]. apply ok_xy_records; [lia|].
      apply Forall_app. split; assumption.
    + pose proof (zlen_nonneg _ (x :: pts)).
      apply ok_app; [okpack|]. apply ok_app; apply ok_tobytes; assumption.
  - apply ok_app; [apply ok_props; assumption|apply ok_endel].
Qed.

Lemma ok_polyset : forall s, polyset_fits s -> ok (polyset_to_gds s).
Proof.
  intros s (H1 & H2). unfold polyset_to_gds. eapply ok_map; [|exact H1].
  intros p Hp. apply ok_poly; assumption.
Qed.

Lemma ok_path1 : forall wt ps p, props_fit ps -> path1_fits p -> ok (path1_to_gds wt ps p).
Proof.
  intros wt ps p Hps (Hp & Hw & Hl & Hd & He). unfold path1_to_gds. cbv zeta.
  okapp.
  - okpack; destruct wt, (pt_end p); cbn [pathtype]; try lia.
  - destruct (pt_end p); try discriminate. destruct He. okpack.
  - destruct (8191 <? zlen (pt_pts p)) eqn:E.
    + apply ok_xy_records; [lia|assumption].
    + pose proof (zlen_nonneg _ (pt_pts p)). apply ok_app; [okpack|apply ok_tobytes; assumption].
  - apply ok_props. assumption.
  - apply ok_endel.
Qed.

Lemma ok_pathel : forall p, pathel_fits p -> ok (pathel_to_gds p).
Proof.
  intros [g|s] H; cbn [pathel_to_gds pathel_fits] in *; [|apply ok_polyset; assumption].
  destruct H as (H1 & H2). unfold gpath_to_gds. eapply ok_map; [|exact H1].
  intros p Hp. apply ok_path1; assumption.
Qed.

Section WithLog2.
Variable log2f : dy -> dy.
(** numpy.log2 finds the true base-16 exponent (see C02). *)
Hypothesis log2_exact : forall v, exp_exact log2f v.

Lemma ok_real : forall v, real_fits v -> ok (eight_byte_real log2f v).
Proof.
  intros v (H1 & H2). destruct (real8_total log2f v H1 (log2_exact v) H2) as (b & ->). discriminate.
Qed.

Lemma ok_strans : forall t, tr_fits t -> ok (strans_to_gds log2f t).
Proof.
  intros t (Hr & Hm).
  assert (K : ok (pack [FH 6; FH 0x1A01; FH (if st_refl t then 0x8000 else 0)]
     +++ (match st_mag t with None => Some [] | Some m => pack [FH 12; FH 0x1B05] +++ eight_byte_real log2f m end)
     +++ (match st_rot t with None => Some [] | Some r => pack [FH 12; FH 0x1C05] +++ eight_byte_real log2f r end))).
  { okapp.
    - destruct (st_refl t); discriminate.
    - destruct (st_mag t) as [m|]; [|discriminate]. apply ok_app; [discriminate|]. apply ok_real. auto.
    - destruct (st_rot t) as [m|]; [|discriminate]. apply ok_app; [discriminate|]. apply ok_real. auto. }
  unfold strans_to_gds. destruct (st_rot t), (st_mag t), (st_refl t); first [exact K|discriminate].
Qed.

Lemma ok_label : forall l, label_fits l -> ok (label_to_gds log2f l).
Proof.
  intros l (H1 & H2 & H3 & H4 & (H5 & H6) & (t & Et & Ht) & H7). unfold label_to_gds. rewrite Et. cbv zeta.
  pose proof (pad_zlen t). pose proof (zlen_nonneg _ t). destruct Ht as (Hta & Htl).
  okapp.
  - okpack.
  - apply ok_strans. assumption.
  - okpack.
  - apply ok_ascii. split; assumption.
  - apply ok_props. assumption.
  - apply ok_endel.
Qed.

Lemma ok_refel : forall r, refel_fits r -> ok (refel_to_gds log2f r).
Proof.
  intros [r|r]; cbn [refel_to_gds refel_fits].
  - intros (Hn & Ht & (H5 & H6) & Hp). unfold sref_to_gds. cbv zeta.
    pose proof (pad_zlen (target_name (sr_target r))). pose proof (zlen_nonneg _ (target_name (sr_target r))).
    pose proof Hn as (Hna & Hnl).
    okapp.
    + okpack.
    + apply ok_ascii. assumption.
    + apply ok_strans. assumption.
    + okpack.
    + apply ok_props. assumption.
    + apply ok_endel.
  - intros (Hn & Ht & Hc & Hr & H1 & H2 & H3 & Hp). unfold aref_to_gds. cbv zeta.
    destruct (ar_xy r) as [[[x1 y1] [x2 y2]] [x3 y3]]. cbn [fst snd] in *.
    destruct H1 as [A1 A2]. destruct H2 as [B1 B2]. destruct H3 as [C1 C2]. cbn [fst snd] in *.
    pose proof (pad_zlen (target_name (ar_target r))). pose proof (zlen_nonneg _ (target_name (ar_target r))).
    pose proof Hn as (Hna & Hnl).
    okapp.
    + okpack.
    + apply ok_ascii. assumption.
    + apply ok_strans. assumption.
    + okpack.
    + apply ok_props. assumption.
    + apply ok_endel.
Qed.

Lemma ok_cell : forall ts c, ts_fits ts -> cell_fits c -> ok (cell_to_gds log2f ts c).
Proof.
  intros ts c Hts (Hn & H1 & H2 & H3 & H4). unfold cell_to_gds. cbv zeta.
  pose proof (pad_zlen (c_name c)). pose proof (zlen_nonneg _ (c_name c)). pose proof Hn as (Hna & Hnl).
  okapp.
  - apply ok_pack. repeat (apply Forall_app; split).
    + repeat apply Forall_cons; try apply Forall_nil; cbn [field_fits]; unfold u16; lia.
    + rewrite ts_fields_ints. apply Forall_map. exact Hts.
    + repeat apply Forall_cons; try apply Forall_nil; cbn [field_fits]; unfold u16; lia.
  - apply ok_ascii. assumption.
  - eapply ok_map; [apply ok_polyset|assumption].
  - eapply ok_map; [apply ok_pathel|assumption].
  - eapply ok_map; [apply ok_label|assumption].
  - eapply ok_map; [apply ok_refel|assumption].
  - discriminate.
Qed.

Lemma write_total : forall ts l, ts_fits ts -> library_fits l -> exists b, write_gds log2f ts l = Some b.
Proof.
  intros ts l Hts (Hn & Hd & Hp & Hc).
  enough (K : ok (write_gds log2f ts l)).
  { destruct (write_gds log2f ts l) as [b|]; [exists b; reflexivity|exfalso; apply K; reflexivity]. }
  unfold write_gds, header_to_gds. cbv zeta.
  pose proof (pad_zlen (lib_name l)). pose proof (zlen_nonneg _ (lib_name l)). pose proof Hn as (Hna & Hnl).
  okapp.
  - apply ok_pack. repeat (apply Forall_app; split).
    + repeat apply Forall_cons; try apply Forall_nil; cbn [field_fits]; unfold u16; lia.
    + rewrite ts_fields_ints. apply Forall_map. exact Hts.
    + repeat apply Forall_cons; try apply Forall_nil; cbn [field_fits]; unfold u16; lia.
  - apply ok_ascii. assumption.
  - discriminate.
  - apply ok_real. assumption.
  - apply ok_real. assumption.
  - eapply ok_map; [|exact Hc]. intros c Hx. apply ok_cell; assumption.
  - discriminate.
Qed.

End WithLog2.
