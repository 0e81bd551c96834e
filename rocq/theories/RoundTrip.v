(** Reading back what was written. *)

From Coq Require Import List ZArith Lia Bool.
From Coq Require Import ZifyBool ZifyNat.
From Verif Require Import Bytes Real8 Records Writer Reader Stream SpecFormat.
Import ListNotations.
Open Scope Z_scope.

(** ** Decoded records of each object *)

Definition prop_recs (av : Z * ostr) : list record :=
  match snd av with
  | Some v => [(0x2B, DInts [fst av]); (0x2C, DStr v)]
  | None => []
  end.
Definition props_recs (ps : props) : list record := flat_map prop_recs ps.

Definition xy_rec (pts : list (Z * Z)) : record := (0x10, DInts (coords pts)).

Definition decodes (rs : list raw) (ds : list record) : Prop := omap dec_raw rs = Some ds.

Lemma decodes_app : forall a b x y, decodes a x -> decodes b y -> decodes (a ++ b) (x ++ y).
Proof. intros. apply omap_app; assumption. Qed.

Lemma decodes_nil : decodes [] [].
Proof. reflexivity. Qed.

Lemma decodes_one : forall r d, dec_raw r = Some d -> decodes [r] [d].
Proof. intros r d H. unfold decodes. cbn [omap]. rewrite H. reflexivity. Qed.

Lemma decodes_cons : forall r d rs ds, dec_raw r = Some d -> decodes rs ds -> decodes (r :: rs) (d :: ds).
Proof. intros r d rs ds H H1. unfold decodes in *. cbn [omap]. rewrite H, H1. reflexivity. Qed.

Lemma decodes_flat : forall A (f : A -> list raw) (g : A -> list record) l,
  Forall (fun x => decodes (f x) (g x)) l -> decodes (flat_map f l) (flat_map g l).
Proof.
  induction 1 as [|x l H _ IH]; [apply decodes_nil|]. cbn [flat_map]. apply decodes_app; assumption.
Qed.

Lemma dec_rNone : forall w, dec_raw (rNone w) = Some (w / 256, DNone).
Proof. reflexivity. Qed.

Lemma dec_rI2 : forall w vs, w mod 256 = 2 -> vs <> [] -> Forall (fun v => -32768 <= v < 32768) vs ->
  dec_raw (rI2 w vs) = Some (w / 256, DInts vs).
Proof. intros. unfold dec_raw, rI2. cbn [r_word r_payload]. rewrite dec_h by assumption. reflexivity. Qed.

Lemma dec_rI4 : forall w vs, w mod 256 = 3 -> vs <> [] ->
  Forall (fun v => -2147483648 <= v < 2147483648) vs ->
  dec_raw (rI4 w vs) = Some (w / 256, DInts vs).
Proof. intros. unfold dec_raw, rI4. cbn [r_word r_payload]. rewrite dec_l by assumption. reflexivity. Qed.

Lemma dec_rStr : forall w s, w mod 256 = 6 -> text_ok s -> Forall (fun c => 0 <= c < 128) (pad s) ->
  dec_raw (rStr w s) = Some (w / 256, DStr s).
Proof.
  intros w s Hw [Hn Hl] Ha. unfold dec_raw, rStr. cbn [r_word r_payload].
  rewrite dec_str; [reflexivity| |assumption|assumption|].
  - rewrite Hw. reflexivity.
  - unfold pad in Ha. destruct (Z.odd (zlen s)); [|assumption].
    apply Forall_app in Ha. tauto.
Qed.

(** Ranges guaranteed by a successful write. *)
Definition short_ok (v : Z) : Prop := -32768 <= v < 32768.
Definition long_ok (v : Z) : Prop := -2147483648 <= v < 2147483648.
Definition ascii_ok (s : str) : Prop := Forall (fun c => 0 <= c < 128) (pad s).

Lemma prop_decodes : forall av b,
  prop_to_gds av = Some b ->
  (fst av < 32768 /\ exists v, snd av = Some v /\ text_ok v) ->
  decodes (prop_raws av) (prop_recs av).
Proof.
  intros [a ov] b H (Ha & v & Hv & Ht). cbn [fst snd] in *. subst ov.
  unfold prop_to_gds in H. cbn [fst snd] in H. repeat unpack1.
  unfold prop_raws, prop_recs. cbn [fst snd].
  apply decodes_cons.
  - apply (dec_rI2 0x2B02); [reflexivity|discriminate|].
    repeat constructor; lia.
  - apply decodes_one. apply (dec_rStr 0x2C06); [reflexivity|assumption|assumption].
Qed.

Lemma props_decodes : forall ps b,
  props_to_gds ps = Some b -> props_ok ps -> decodes (props_raws ps) (props_recs ps).
Proof.
  intros ps b H [_ Hok]. unfold props_to_gds in H. unfold props_raws, props_recs.
  revert b H. induction Hok as [|av ps Hav Hok IH]; intros b H; [apply decodes_nil|].
  cbn [map oconcat] in H. apply oapp_Some in H. destruct H as (y & z & Hy & Hz & ->).
  cbn [flat_map]. apply decodes_app; [eapply prop_decodes; eassumption | eapply IH; eassumption].
Qed.

Lemma xy_decodes : forall pts b, tobytes pts = Some b -> pts <> [] ->
  dec_raw (xy_raw pts) = Some (xy_rec pts).
Proof.
  intros pts b H Hne. unfold tobytes in H. apply pack_ints in H. destruct H as [_ H].
  apply (dec_rI4 0x1003); [reflexivity| |assumption].
  destruct pts; [contradiction|]. discriminate.
Qed.

Lemma xy_records_decodes : forall n, 0 < n -> forall fuel pts b,
  xy_records fuel n pts = Some b ->
  decodes (map xy_raw (chunks_fuel fuel (Z.to_nat n) pts))
          (map xy_rec (chunks_fuel fuel (Z.to_nat n) pts)).
Proof.
  intros n Hn. induction fuel as [|f IH]; intros pts b H; [apply decodes_nil|].
  cbn [xy_records] in H. destruct pts as [|p pts]; [apply decodes_nil|].
  cbv zeta in H. set (l := p :: pts) in *.
  apply oapp_Some in H. destruct H as (h & z & Hh & H & ->).
  apply oapp_Some in H. destruct H as (t & rest & Ht & Hr & ->).
  change (chunks_fuel (S f) (Z.to_nat n) l) with
      (firstn (Z.to_nat n) l :: chunks_fuel f (Z.to_nat n) (skipn (Z.to_nat n) l)).
  cbn [map]. apply decodes_cons; [|eapply IH; eassumption].
  eapply xy_decodes; [eassumption|].
  unfold l. destruct (Z.to_nat n) eqn:E; [lia|]. discriminate.
Qed.

Definition poly_xy_recs (p : poly) : list record :=
  match pg_pts p with
  | [] => []
  | first :: _ =>
      if 8190 <? zlen (pg_pts p)
      then map xy_rec (chunks (Z.to_nat 8190) (pg_pts p ++ [first]))
      else [xy_rec (pg_pts p ++ [first])]
  end.

Definition poly_recs (ps : props) (p : poly) : list record :=
  [(0x08, DNone); (0x0D, DInts [pg_layer p]); (0x0E, DInts [pg_dt p])]
  ++ poly_xy_recs p ++ props_recs ps ++ [(0x11, DNone)].

Lemma tobytes_app : forall a b x y, tobytes a = Some x -> tobytes b = Some y ->
  tobytes (a ++ b) = Some (x ++ y).
Proof.
  intros a b x y H1 H2. unfold tobytes in *. rewrite coords_app, map_app. unfold pack in *.
  rewrite map_app.
  revert x H1. generalize (map pack_field (map Fl (coords a))).
  intros l. induction l as [|u l IH]; intros t1 H; cbn [app oconcat] in *.
  - inversion H. exact H2.
  - apply oapp_Some in H. destruct H as (u1 & v & -> & Hv & ->).
    rewrite (IH _ Hv). cbn. rewrite app_assoc. reflexivity.
Qed.

Ltac oapp_split H b1 H1 := apply oapp_Some in H; destruct H as (b1 & ? & H1 & H & ->).

Lemma one_short : forall w v, w mod 256 = 2 -> -32768 <= v < 32768 ->
  dec_raw (rI2 w [v]) = Some (w / 256, DInts [v]).
Proof. intros. apply dec_rI2; [assumption|discriminate|]. repeat constructor; lia. Qed.

Lemma one_long : forall w v, w mod 256 = 3 -> -2147483648 <= v < 2147483648 ->
  dec_raw (rI4 w [v]) = Some (w / 256, DInts [v]).
Proof. intros. apply dec_rI4; [assumption|discriminate|]. repeat constructor; lia. Qed.

Lemma poly_decodes : forall ps p b, poly_to_gds ps p = Some b -> props_ok ps ->
  decodes (poly_raws ps p) (poly_recs ps p) /\ pg_pts p <> [].
Proof.
  intros ps p b H Hps. unfold poly_to_gds in H. unfold poly_raws, poly_recs, poly_xy, poly_xy_recs.
  apply oapp_Some in H. destruct H as (y & z & Hy & H & ->).
  apply oapp_Some in H. destruct H as (z1 & z2 & Hp & _ & ->).
  destruct (pg_pts p) as [|first rest] eqn:Ep; [discriminate|]. rewrite <- Ep in *.
  assert (Hne : pg_pts p <> []) by (rewrite Ep; discriminate).
  split; [|assumption].
  assert (K : forall xs ds, decodes xs ds -> short_ok (pg_layer p) -> short_ok (pg_dt p) ->
     decodes ([rNone 2048; rI2 3330 [pg_layer p]; rI2 3586 [pg_dt p]] ++ xs ++ props_raws ps ++ [rNone 4352])
             ([(8, DNone); (13, DInts [pg_layer p]); (14, DInts [pg_dt p])] ++ ds ++ props_recs ps ++ [(17, DNone)])).
  { intros xs ds Hd Hl Ht.
    apply decodes_app; [|apply decodes_app; [assumption|apply decodes_app]].
    - apply decodes_cons; [reflexivity|].
      apply decodes_cons; [apply (one_short 3330); [reflexivity|assumption]|].
      apply decodes_one. apply (one_short 3586); [reflexivity|assumption].
    - eapply props_decodes; eassumption.
    - apply decodes_one. reflexivity. }
  destruct (8190 <? zlen (pg_pts p)) eqn:E.
  - apply oapp_Some in Hy. destruct Hy as (h & t & Hh & Ht & ->).
    apply xy_records_decodes in Ht; [|lia]. repeat unpack1.
    apply K; [|assumption|assumption].
    unfold chunks. erewrite chunks_fuel_enough; [exact Ht| | |];
      [lia | lia | rewrite app_length; cbn [length]; lia].
  - apply oapp_Some in Hy. destruct Hy as (h & t & Hh & Ht & ->).
    apply oapp_Some in Ht. destruct Ht as (t1 & t2 & Ht1 & Ht2 & ->).
    repeat unpack1. apply K; [|assumption|assumption].
    apply decodes_one. eapply xy_decodes; [eapply tobytes_app; eassumption|].
    destruct (pg_pts p); discriminate.
Qed.

Definition path_xy_recs (p : path1) : list record :=
  if 8191 <? zlen (pt_pts p) then map xy_rec (chunks (Z.to_nat 8191) (pt_pts p))
  else [xy_rec (pt_pts p)].

Definition ext_recs (e : pend) : list record :=
  match e with
  | ETuple b e => [(0x30, DInts [b]); (0x31, DInts [e])]
  | _ => []
  end.

Definition path1_recs (wt : bool) (ps : props) (p : path1) : list record :=
  [(0x09, DNone); (0x0D, DInts [pt_layer p]); (0x0E, DInts [pt_dt p]);
   (0x21, DInts [pathtype (pt_end p)]); (0x0F, DInts [(if wt then 1 else -1) * pt_width p])]
  ++ ext_recs (pt_end p) ++ path_xy_recs p ++ props_recs ps ++ [(0x11, DNone)].

Lemma path1_decodes : forall wt ps p b, path1_to_gds wt ps p = Some b -> props_ok ps ->
  pt_pts p <> [] -> decodes (path1_raws wt ps p) (path1_recs wt ps p).
Proof.
  intros wt ps p b H Hps Hne. unfold path1_to_gds in H. cbv zeta in H.
  unfold path1_raws, path1_recs.
  apply oapp_Some in H. destruct H as (b1 & z & H1 & H & ->).
  apply oapp_Some in H. destruct H as (b2 & z1 & H2 & H & ->).
  apply oapp_Some in H. destruct H as (b3 & z2 & H3 & H & ->).
  apply oapp_Some in H. destruct H as (b4 & b5 & H4 & H5 & ->).
  apply decodes_app.
  { repeat unpack1.
    apply decodes_cons; [reflexivity|].
    apply decodes_cons; [apply (one_short 0x0D02); [reflexivity|assumption]|].
    apply decodes_cons; [apply (one_short 0x0E02); [reflexivity|assumption]|].
    apply decodes_cons; [apply (one_short 0x2102); [reflexivity|assumption]|].
    apply decodes_one. apply (one_long 0x0F03); [reflexivity|assumption]. }
  apply decodes_app.
  { destruct (pt_end p); try apply decodes_nil. cbn [ext_raws ext_recs]. repeat unpack1.
    apply decodes_cons; [apply (one_long 0x3003); [reflexivity|assumption]|].
    apply decodes_one. apply (one_long 0x3103); [reflexivity|assumption]. }
  apply decodes_app.
  { unfold path_xy, path_xy_recs. destruct (8191 <? zlen (pt_pts p)).
    - apply xy_records_decodes in H3; [|lia]. exact H3.
    - apply oapp_Some in H3. destruct H3 as (h & t & Hh & Ht & ->).
      apply decodes_one. eapply xy_decodes; eassumption. }
  apply decodes_app; [eapply props_decodes; eassumption|apply decodes_one; reflexivity].
Qed.

Section WithLog2.
Variable log2f : dy -> dy.
Notation rt := (real_rt log2f).

Definition strans_recs (t : strans) : list record :=
  match st_rot t, st_mag t, st_refl t with
  | None, None, false => []
  | _, _, _ =>
      [(0x1A, DInts [if st_refl t then 0x8000 else 0])]
      ++ (match st_mag t with None => [] | Some m => [(0x1B, DReals [rt m])] end)
      ++ (match st_rot t with None => [] | Some r => [(0x1C, DReals [rt r])] end)
  end.

Lemma real_bytes_rt : forall v b, eight_byte_real log2f v = Some b ->
  real_bytes log2f v = b /\ length b = 8%nat /\ eight_byte_real_to_float b = Some (rt v).
Proof.
  intros v b H. pose proof (real_bytes_ok log2f v b H) as (E & L & _).
  split; [exact E|split; [exact L|]].
  unfold real_rt. rewrite H. cbn [obind].
  destruct (eight_byte_real_to_float b) eqn:D; [reflexivity|].
  exfalso. destruct b as [|b0 [|b1 [|b2 [|b3 [|b4 [|b5 [|b6 [|b7 [|b8 b]]]]]]]]]; try discriminate L.
  unfold eight_byte_real_to_float in D. cbv zeta in D. destruct (round53 _). destruct (_ =? _) in D; discriminate D.
Qed.

Lemma dec_real : forall w v b, w mod 256 = 5 -> eight_byte_real log2f v = Some b ->
  dec_raw (Raw w (real_bytes log2f v)) = Some (w / 256, DReals [rt v]).
Proof.
  intros w v b Hw H. apply real_bytes_rt in H. destruct H as (E & L & D).
  unfold dec_raw. cbn [r_word r_payload]. rewrite E, (dec_real1 _ _ _ Hw L D). reflexivity.
Qed.

Lemma strans_decodes : forall t b, strans_to_gds log2f t = Some b ->
  decodes (strans_raws log2f t) (strans_recs t).
Proof.
  intros t b H. unfold strans_to_gds in H. unfold strans_raws, strans_recs.
  assert (K : forall b, (pack [FH 6; FH 0x1A01; FH (if st_refl t then 0x8000 else 0)]
       +++ (match st_mag t with
                 | None => Some []
                 | Some m => pack [FH 12; FH 0x1B05] +++ eight_byte_real log2f m
                 end)
       +++ (match st_rot t with
                 | None => Some []
                 | Some r => pack [FH 12; FH 0x1C05] +++ eight_byte_real log2f r
                 end)) = Some b ->
    decodes ([Raw 0x1A01 (be16 (if st_refl t then 0x8000 else 0))]
      ++ (match st_mag t with None => [] | Some m => [Raw 0x1B05 (real_bytes log2f m)] end)
      ++ (match st_rot t with None => [] | Some r => [Raw 0x1C05 (real_bytes log2f r)] end))
     ([(0x1A, DInts [if st_refl t then 0x8000 else 0])]
      ++ (match st_mag t with None => [] | Some m => [(0x1B, DReals [rt m])] end)
      ++ (match st_rot t with None => [] | Some r => [(0x1C, DReals [rt r])] end))).
  { clear b H. intros b H.
    apply oapp_Some in H. destruct H as (b1 & z & H1 & H & ->).
    apply oapp_Some in H. destruct H as (b2 & b3 & H2 & H3 & ->).
    apply decodes_app; [|apply decodes_app].
    - apply decodes_one. unfold dec_raw. cbn [r_word r_payload]. rewrite dec_H1 by reflexivity. reflexivity.
    - destruct (st_mag t) as [m|]; [|apply decodes_nil].
      apply oapp_Some in H2. destruct H2 as (h & r & Hh & Hr & ->).
      apply decodes_one. eapply (dec_real 0x1B05); [reflexivity|eassumption].
    - destruct (st_rot t) as [m|]; [|apply decodes_nil].
      apply oapp_Some in H3. destruct H3 as (h & r & Hh & Hr & ->).
      apply decodes_one. eapply (dec_real 0x1C05); [reflexivity|eassumption]. }
  destruct (st_rot t), (st_mag t), (st_refl t);
    first [ eapply K; exact H | apply decodes_nil ].
Qed.

Definition label_recs (l : label) : list record :=
  [(0x0C, DNone); (0x0D, DInts [lb_layer l]); (0x16, DInts [lb_texttype l]); (0x17, DInts [lb_anchor l])]
  ++ strans_recs (lb_tr l)
  ++ [(0x10, DInts [fst (lb_pos l); snd (lb_pos l)]);
      (0x19, DStr (match lb_text l with Some t => t | None => [] end))]
  ++ props_recs (lb_props l) ++ [(0x11, DNone)].

Lemma label_decodes : forall l b, label_to_gds log2f l = Some b -> label_ok l ->
  decodes (label_raws log2f l) (label_recs l).
Proof.
  intros l b H (Ha & (t & Ht & Htok) & Hps). unfold label_to_gds in H.
  unfold label_raws, label_recs. rewrite Ht in *. cbv zeta in H.
  apply oapp_Some in H. destruct H as (b1 & z & H1 & H & ->).
  apply oapp_Some in H. destruct H as (b2 & z1 & H2 & H & ->).
  apply oapp_Some in H. destruct H as (b3 & z2 & H3 & H & ->).
  apply oapp_Some in H. destruct H as (b4 & z3 & H4 & H & ->).
  apply oapp_Some in H. destruct H as (b5 & b6 & H5 & H6 & ->).
  apply decodes_app.
  { repeat unpack1.
    apply decodes_cons; [reflexivity|].
    apply decodes_cons; [apply (one_short 0x0D02); [reflexivity|assumption]|].
    apply decodes_cons; [apply (one_short 0x1602); [reflexivity|assumption]|].
    apply decodes_one. unfold dec_raw, rI2. cbn [r_word r_payload flat_map].
    rewrite app_nil_r, dec_H1 by reflexivity.
    assert (E : lb_anchor l mod 65536 = lb_anchor l).
    { unfold anchor_ok in Ha. cbn [In] in Ha. apply Z.mod_small. lia. }
    rewrite E. reflexivity. }
  apply decodes_app; [eapply strans_decodes; eassumption|].
  apply decodes_app.
  { repeat unpack1.
    apply decodes_cons; [apply (dec_rI4 0x1003); [reflexivity|discriminate|repeat constructor; lia]|].
    apply decodes_one. apply (dec_rStr 0x1906); [reflexivity|assumption|assumption]. }
  apply decodes_app; [eapply props_decodes; eassumption|apply decodes_one; reflexivity].
Qed.

Definition sref_recs (r : sref) : list record :=
  [(0x0A, DNone); (0x12, DStr (target_name (sr_target r)))]
  ++ strans_recs (sr_tr r)
  ++ [(0x10, DInts [fst (sr_org r); snd (sr_org r)])]
  ++ props_recs (sr_props r) ++ [(0x11, DNone)].

Definition aref_recs (a : aref) : list record :=
  [(0x0B, DNone); (0x12, DStr (target_name (ar_target a)))]
  ++ strans_recs (ar_tr a)
  ++ [(0x13, DInts [ar_cols a; ar_rows a]);
      (0x10, DInts (let '((x1, y1), (x2, y2), (x3, y3)) := ar_xy a in [x1; y1; x2; y2; x3; y3]))]
  ++ props_recs (ar_props a) ++ [(0x11, DNone)].

Definition refel_recs (r : refel) : list record :=
  match r with RS s => sref_recs s | RA a => aref_recs a end.

Lemma refel_decodes : forall r b, refel_to_gds log2f r = Some b -> refel_ok r ->
  decodes (refel_raws log2f r) (refel_recs r).
Proof.
  intros [r|r] b H (Hn & Hps); cbn [refel_to_gds refel_raws refel_recs] in *.
  - unfold sref_to_gds in H. unfold sref_raws, sref_recs. cbv zeta in H.
    apply oapp_Some in H. destruct H as (b1 & z & H1 & H & ->).
    apply oapp_Some in H. destruct H as (b2 & z1 & H2 & H & ->).
    apply oapp_Some in H. destruct H as (b3 & z2 & H3 & H & ->).
    apply oapp_Some in H. destruct H as (b4 & z3 & H4 & H & ->).
    apply oapp_Some in H. destruct H as (b5 & b6 & H5 & H6 & ->).
    apply decodes_app.
    { apply decodes_cons; [reflexivity|]. apply decodes_one.
      repeat unpack1. apply (dec_rStr 0x1206); [reflexivity|assumption|assumption]. }
    apply decodes_app; [eapply strans_decodes; eassumption|].
    apply decodes_app.
    { repeat unpack1. apply decodes_one.
      apply (dec_rI4 0x1003); [reflexivity|discriminate|repeat constructor; lia]. }
    apply decodes_app; [eapply props_decodes; eassumption|apply decodes_one; reflexivity].
  - unfold aref_to_gds in H. unfold aref_raws, aref_recs. cbv zeta in H.
    destruct (ar_xy r) as [[[x1 y1] [x2 y2]] [x3 y3]].
    apply oapp_Some in H. destruct H as (b1 & z & H1 & H & ->).
    apply oapp_Some in H. destruct H as (b2 & z1 & H2 & H & ->).
    apply oapp_Some in H. destruct H as (b3 & z2 & H3 & H & ->).
    apply oapp_Some in H. destruct H as (b4 & z3 & H4 & H & ->).
    apply oapp_Some in H. destruct H as (b5 & b6 & H5 & H6 & ->).
    apply decodes_app.
    { apply decodes_cons; [reflexivity|]. apply decodes_one.
      repeat unpack1. apply (dec_rStr 0x1206); [reflexivity|assumption|assumption]. }
    apply decodes_app; [eapply strans_decodes; eassumption|].
    apply decodes_app.
    { repeat unpack1. apply decodes_cons.
      - apply (dec_rI2 0x1302); [reflexivity|discriminate|repeat constructor; lia].
      - apply decodes_one. apply (dec_rI4 0x1003); [reflexivity|discriminate|repeat constructor; lia]. }
    apply decodes_app; [eapply props_decodes; eassumption|apply decodes_one; reflexivity].
Qed.

End WithLog2.
