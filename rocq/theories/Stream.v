(** The byte strings produced by the writers, seen as sequences of GDSII
    records, for every object that can be written. *)

From Coq Require Import List ZArith Lia Bool.
From Coq Require Import ZifyBool ZifyNat.
From Verif Require Import Bytes Real8 Records Writer.
Import ListNotations.
Open Scope Z_scope.

(** ** Records written for each kind of object *)

Definition rI2 (w : Z) (vs : list Z) : raw := Raw w (flat_map (fun v => be16 (v mod 65536)) vs).
Definition rI4 (w : Z) (vs : list Z) : raw := Raw w (flat_map (fun v => be32 (v mod 4294967296)) vs).
Definition rStr (w : Z) (s : str) : raw := Raw w (pad s).
Definition rNone (w : Z) : raw := Raw w [].

Definition prop_raws (av : Z * ostr) : list raw :=
  match snd av with
  | Some v => [rI2 0x2B02 [fst av]; rStr 0x2C06 v]
  | None => []
  end.
Definition props_raws (ps : props) : list raw := flat_map prop_raws ps.

(** Splitting a list into blocks of [n]. *)
Fixpoint chunks_fuel {A} (fuel : nat) (n : nat) (l : list A) : list (list A) :=
  match fuel with
  | O => []
  | S f => match l with
           | [] => []
           | _ => firstn n l :: chunks_fuel f n (skipn n l)
           end
  end.
Definition chunks {A} (n : nat) (l : list A) : list (list A) := chunks_fuel (length l) n l.

Definition xy_raw (pts : list (Z * Z)) : raw := rI4 0x1003 (coords pts).

Definition poly_xy (p : poly) : list raw :=
  match pg_pts p with
  | [] => []
  | first :: _ =>
      if 8190 <? zlen (pg_pts p)
      then map xy_raw (chunks (Z.to_nat 8190) (pg_pts p ++ [first]))
      else [xy_raw (pg_pts p ++ [first])]
  end.

Definition poly_raws (ps : props) (p : poly) : list raw :=
  [rNone 0x0800; rI2 0x0D02 [pg_layer p]; rI2 0x0E02 [pg_dt p]]
  ++ poly_xy p ++ props_raws ps ++ [rNone 0x1100].

Definition polyset_raws (s : polyset) : list raw :=
  flat_map (poly_raws (ps_props s)) (ps_polys s).

Definition path_xy (p : path1) : list raw :=
  if 8191 <? zlen (pt_pts p) then map xy_raw (chunks (Z.to_nat 8191) (pt_pts p))
  else [xy_raw (pt_pts p)].

Definition ext_raws (e : pend) : list raw :=
  match e with
  | ETuple b e => [rI4 0x3003 [b]; rI4 0x3103 [e]]
  | _ => []
  end.

Definition path1_raws (wt : bool) (ps : props) (p : path1) : list raw :=
  [rNone 0x0900; rI2 0x0D02 [pt_layer p]; rI2 0x0E02 [pt_dt p]; rI2 0x2102 [pathtype (pt_end p)];
   rI4 0x0F03 [(if wt then 1 else -1) * pt_width p]]
  ++ ext_raws (pt_end p) ++ path_xy p ++ props_raws ps ++ [rNone 0x1100].

Definition gpath_raws (p : gpath) : list raw :=
  flat_map (path1_raws (gp_wt p) (gp_props p)) (gp_paths p).

Definition pathel_raws (p : pathel) : list raw :=
  match p with PGds g => gpath_raws g | PPoly s => polyset_raws s end.

Section WithLog2.
Variable log2f : dy -> dy.

Definition real_bytes (v : dy) : bytes :=
  match eight_byte_real log2f v with Some b => b | None => [] end.

Definition strans_raws (t : strans) : list raw :=
  match st_rot t, st_mag t, st_refl t with
  | None, None, false => []
  | _, _, _ =>
      [Raw 0x1A01 (be16 (if st_refl t then 0x8000 else 0))]
      ++ (match st_mag t with None => [] | Some m => [Raw 0x1B05 (real_bytes m)] end)
      ++ (match st_rot t with None => [] | Some r => [Raw 0x1C05 (real_bytes r)] end)
  end.

Definition label_raws (l : label) : list raw :=
  [rNone 0x0C00; rI2 0x0D02 [lb_layer l]; rI2 0x1602 [lb_texttype l]; rI2 0x1701 [lb_anchor l]]
  ++ strans_raws (lb_tr l)
  ++ [rI4 0x1003 [fst (lb_pos l); snd (lb_pos l)];
      rStr 0x1906 (match lb_text l with Some t => t | None => [] end)]
  ++ props_raws (lb_props l) ++ [rNone 0x1100].

Definition sref_raws (r : sref) : list raw :=
  [rNone 0x0A00; rStr 0x1206 (target_name (sr_target r))]
  ++ strans_raws (sr_tr r)
  ++ [rI4 0x1003 [fst (sr_org r); snd (sr_org r)]]
  ++ props_raws (sr_props r) ++ [rNone 0x1100].

Definition aref_raws (a : aref) : list raw :=
  [rNone 0x0B00; rStr 0x1206 (target_name (ar_target a))]
  ++ strans_raws (ar_tr a)
  ++ [rI2 0x1302 [ar_cols a; ar_rows a];
      rI4 0x1003 (let '((x1, y1), (x2, y2), (x3, y3)) := ar_xy a in [x1; y1; x2; y2; x3; y3])]
  ++ props_raws (ar_props a) ++ [rNone 0x1100].

Definition refel_raws (r : refel) : list raw :=
  match r with RS s => sref_raws s | RA a => aref_raws a end.

Definition ts_ints (t : tstamp) : list Z :=
  [t_year t; t_month t; t_day t; t_hour t; t_min t; t_sec t;
   t_year t; t_month t; t_day t; t_hour t; t_min t; t_sec t].

(** All element records of a cell. *)
Definition elems_raws (c : cell) : list raw :=
  flat_map polyset_raws (c_polys c) ++ flat_map pathel_raws (c_paths c)
  ++ flat_map label_raws (c_labels c) ++ flat_map refel_raws (c_refs c).

Definition cell_raws (ts : tstamp) (c : cell) : list raw :=
  [rI2 0x0502 (ts_ints ts); rStr 0x0606 (c_name c)] ++ elems_raws c ++ [rNone 0x0700].

Definition header_raws (ts : tstamp) (name : str) (dbu prec : dy) : list raw :=
  [rI2 0x0002 [600]; rI2 0x0102 (ts_ints ts); rStr 0x0206 name;
   Raw 0x0305 (real_bytes dbu ++ real_bytes prec)].

Definition library_raws (ts : tstamp) (l : library) : list raw :=
  header_raws ts (lib_name l) (lib_dbu l) (lib_prec l)
  ++ flat_map (cell_raws ts) (lib_cells l) ++ [rNone 0x0400].

End WithLog2.

(** ** The writers produce exactly these records *)

(** [b] is the encoding of the well-formed records [rs]. *)
Definition encodes (b : bytes) (rs : list raw) : Prop :=
  b = enc_stream rs /\ Forall raw_ok rs.

Lemma encodes_app : forall a b x y, encodes a x -> encodes b y -> encodes (a ++ b) (x ++ y).
Proof.
  intros a b x y [-> Ha] [-> Hb]. split; [symmetry; apply enc_stream_app | apply Forall_app; auto].
Qed.

Lemma encodes_nil : encodes [] [].
Proof. split; [reflexivity | constructor]. Qed.

Lemma encodes_oconcat : forall A (f : A -> option bytes) (g : A -> list raw),
  (forall x b, f x = Some b -> encodes b (g x)) ->
  forall l b, oconcat (map f l) = Some b -> encodes b (flat_map g l).
Proof.
  intros A f g H. induction l as [|x l IH]; intros b Hb; cbn in Hb.
  - inversion Hb. apply encodes_nil.
  - apply oapp_Some in Hb. destruct Hb as (y & z & Hy & Hz & ->).
    cbn [flat_map]. apply encodes_app; auto.
Qed.

Ltac unpack1 :=
  match goal with
  | H : oapp _ _ = Some _ |- _ =>
      let a := fresh "b" in let c := fresh "b" in let E := fresh "E" in
      let F := fresh "F" in let G := fresh "G" in
      apply oapp_Some in H; destruct H as (a & c & E & F & G); subst
  | H : pack (_ :: _) = Some _ |- _ => unfold pack in H; cbn [map oconcat pack_field] in H
  | H : pack_H _ = Some _ |- _ =>
      let R := fresh "R" in apply pack_H_Some in H; destruct H as [R H]; subst
  | H : pack_h _ = Some _ |- _ =>
      let R := fresh "R" in apply pack_h_Some in H; destruct H as [R H]; subst
  | H : pack_l _ = Some _ |- _ =>
      let R := fresh "R" in apply pack_l_Some in H; destruct H as [R H]; subst
  | H : pack_L _ = Some _ |- _ =>
      let R := fresh "R" in apply pack_L_Some in H; destruct H as [R H]; subst
  | H : encode_ascii _ = Some _ |- _ =>
      let R := fresh "R" in apply encode_ascii_Some in H; destruct H as [H R]; subst
  | H : Some _ = Some _ |- _ => injection H as H; subst
  end.

(** A payload of 16-bit values. *)
Lemma raw_ok_rI2 : forall w vs, 0 <= w < 65536 -> zlen vs < 32000 -> raw_ok (rI2 w vs).
Proof.
  intros w vs Hw Hl. unfold raw_ok, rI2. cbn [r_word r_payload]. rewrite zlen_flat_be16.
  pose proof (zlen_nonneg _ vs).
  repeat split; try lia.
  - rewrite Z.even_mul. reflexivity.
  - apply all_bytes_flat_be16.
Qed.

Lemma raw_ok_rI4 : forall w vs, 0 <= w < 65536 -> zlen vs < 16383 -> raw_ok (rI4 w vs).
Proof.
  intros w vs Hw Hl. unfold raw_ok, rI4. cbn [r_word r_payload]. rewrite zlen_flat_be32.
  pose proof (zlen_nonneg _ vs).
  repeat split; try lia.
  - rewrite Z.even_mul. reflexivity.
  - apply all_bytes_flat_be32.
Qed.

Lemma raw_ok_rNone : forall w, 0 <= w < 65536 -> raw_ok (rNone w).
Proof. intros. unfold raw_ok, rNone. cbn. repeat split; try lia. constructor. Qed.

Lemma raw_ok_rStr : forall w s, 0 <= w < 65536 -> 4 + zlen (pad s) < 65536 ->
  Forall (fun c => 0 <= c < 128) (pad s) -> raw_ok (rStr w s).
Proof.
  intros. unfold raw_ok, rStr. cbn [r_word r_payload]. repeat split; try lia.
  - apply pad_even.
  - apply ascii_bytes. assumption.
Qed.

Lemma enc_cons : forall r rs, enc_stream (r :: rs) = enc_raw r ++ enc_stream rs.
Proof. reflexivity. Qed.

Lemma encodes_cons : forall r b rs, raw_ok r -> encodes b rs ->
  encodes (enc_raw r ++ b) (r :: rs).
Proof. intros r b rs Hr [-> H]. split; [reflexivity | constructor; assumption]. Qed.

Lemma encodes_one : forall r, raw_ok r -> encodes (enc_raw r) [r].
Proof. intros. rewrite <- (app_nil_r (enc_raw r)). apply encodes_cons; [assumption | apply encodes_nil]. Qed.

Lemma enc_rStr : forall w s, enc_raw (rStr w s) = be16 (4 + zlen (pad s)) ++ be16 w ++ pad s.
Proof. reflexivity. Qed.

Lemma mod16_id : forall v, 0 <= v < 65536 -> v mod 65536 = v.
Proof. intros. apply Z.mod_small. assumption. Qed.

Lemma prop_encodes : forall av b, prop_to_gds av = Some b -> encodes b (prop_raws av).
Proof.
  intros [a [v|]] b H; unfold prop_to_gds in H; cbn [fst snd] in H; [|discriminate].
  repeat unpack1.
  replace ((be16 6 ++ be16 11010 ++ be16 a ++ be16 (4 + zlen (pad v)) ++ be16 11270 ++ []) ++ pad v)
    with (enc_raw (rI2 0x2B02 [a]) ++ enc_raw (rStr 0x2C06 v)).
  - unfold prop_raws. cbn [fst snd].
    apply encodes_cons; [apply raw_ok_rI2; [lia | reflexivity]|].
    apply encodes_one. apply raw_ok_rStr; [lia|lia|assumption].
  - rewrite enc_rStr. unfold enc_raw, rI2. cbn [r_word r_payload flat_map].
    rewrite mod16_id by assumption. cbn [app]. reflexivity.
Qed.

Lemma props_encodes : forall ps b, props_to_gds ps = Some b -> encodes b (props_raws ps).
Proof. intros ps b. apply encodes_oconcat. exact prop_encodes. Qed.

Lemma endel_encodes : forall b, endel = Some b -> encodes b [rNone 0x1100].
Proof.
  intros b H. unfold endel in H. repeat unpack1.
  apply (encodes_one (rNone 0x1100)). apply raw_ok_rNone. lia.
Qed.

Lemma pack_ints : forall vs b, pack (map Fl vs) = Some b ->
  b = flat_map (fun v => be32 (v mod 4294967296)) vs /\
  Forall (fun v => -2147483648 <= v < 2147483648) vs.
Proof.
  unfold pack. induction vs as [|v vs IH]; intros b H; cbn [map oconcat pack_field] in H.
  - inversion H. split; [reflexivity | constructor].
  - apply oapp_Some in H. destruct H as (y & z & Hy & Hz & ->).
    apply pack_l_Some in Hy. destruct Hy as [R ->]. apply IH in Hz. destruct Hz as [-> F].
    split; [reflexivity | constructor; assumption].
Qed.

Lemma pack_shorts : forall vs b, pack (map Fh vs) = Some b ->
  b = flat_map (fun v => be16 (v mod 65536)) vs /\
  Forall (fun v => -32768 <= v < 32768) vs.
Proof.
  unfold pack. induction vs as [|v vs IH]; intros b H; cbn [map oconcat pack_field] in H.
  - inversion H. split; [reflexivity | constructor].
  - apply oapp_Some in H. destruct H as (y & z & Hy & Hz & ->).
    apply pack_h_Some in Hy. destruct Hy as [R ->]. apply IH in Hz. destruct Hz as [-> F].
    split; [reflexivity | constructor; assumption].
Qed.

Lemma zlen_coords : forall pts, zlen (coords pts) = 2 * zlen pts.
Proof.
  induction pts as [|p pts IH]; [reflexivity|]. unfold coords in *. cbn [flat_map].
  rewrite zlen_app, IH, !zlen_cons, zlen_nil. lia.
Qed.

Lemma coords_app : forall a b, coords (a ++ b) = coords a ++ coords b.
Proof. intros. unfold coords. apply flat_map_app. Qed.

Lemma enc_xy : forall pts b, tobytes pts = Some b ->
  be16 (4 + 8 * zlen pts) ++ be16 0x1003 ++ b = enc_raw (xy_raw pts).
Proof.
  intros pts b H. unfold tobytes in H. apply pack_ints in H. destruct H as [-> _].
  unfold xy_raw, rI4, enc_raw. cbn [r_word r_payload]. rewrite zlen_flat_be32, zlen_coords.
  replace (4 * (2 * zlen pts)) with (8 * zlen pts) by lia. reflexivity.
Qed.

Lemma raw_ok_xy : forall pts, zlen pts <= 8191 -> raw_ok (xy_raw pts).
Proof. intros. apply raw_ok_rI4; [lia|]. rewrite zlen_coords. lia. Qed.

Lemma chunks_fuel_enough : forall A n, (0 < n)%nat -> forall (l : list A) f g,
  (length l <= f)%nat -> (length l <= g)%nat -> chunks_fuel f n l = chunks_fuel g n l.
Proof.
  intros A n Hn l f g. revert l g. induction f as [|f IH]; intros l g Hf Hg.
  - destruct l; [|cbn in Hf; lia]. destruct g; reflexivity.
  - destruct l as [|x l]; [destruct g; reflexivity|].
    destruct g as [|g]; [cbn in Hg; lia|]. cbn [chunks_fuel]. f_equal.
    assert (length (skipn n (x :: l)) <= length l)%nat.
    { rewrite skipn_length. cbn [length]. lia. }
    cbn [length] in *. apply IH; lia.
Qed.

Lemma xy_records_encodes : forall n, (0 < n <= 8191)%Z -> forall fuel pts b,
  xy_records fuel n pts = Some b ->
  encodes b (map xy_raw (chunks_fuel fuel (Z.to_nat n) pts)).
Proof.
  intros n Hn. induction fuel as [|f IH]; intros pts b H.
  - inversion H. apply encodes_nil.
  - cbn [xy_records] in H. destruct pts as [|p pts]; [inversion H; apply encodes_nil|].
    cbv zeta in H. set (l := p :: pts) in *.
    apply oapp_Some in H. destruct H as (h & z & Hh & H & ->).
    apply oapp_Some in H. destruct H as (t & rest & Ht & Hr & ->).
    repeat unpack1.
    change (chunks_fuel (S f) (Z.to_nat n) l) with
      (firstn (Z.to_nat n) l :: chunks_fuel f (Z.to_nat n) (skipn (Z.to_nat n) l)).
    cbn [map].
    rewrite app_nil_r. rewrite app_assoc, <- (app_assoc (be16 _)), (enc_xy _ _ Ht).
    apply encodes_cons; [|apply IH; assumption].
    apply raw_ok_xy. unfold zlen. rewrite firstn_length. lia.
Qed.

Lemma poly_encodes : forall ps p b, poly_to_gds ps p = Some b -> encodes b (poly_raws ps p).
Proof.
  intros ps p b H. unfold poly_to_gds in H. unfold poly_raws, poly_xy.
  apply oapp_Some in H. destruct H as (y & z & Hy & Hz & ->).
  apply oapp_Some in Hz. destruct Hz as (z1 & z2 & H1 & H2 & ->).
  apply props_encodes in H1. apply endel_encodes in H2.
  match goal with |- encodes _ (?a ++ ?b ++ ?c) => rewrite (app_assoc a b c) end.
  apply encodes_app; [|apply encodes_app; assumption].
  destruct (pg_pts p) as [|first rest] eqn:Ep; [discriminate|]. rewrite <- Ep in *.
  assert (K : forall t xs, encodes t xs -> -32768 <= pg_layer p < 32768 -> -32768 <= pg_dt p < 32768 ->
     encodes ((be16 4 ++ be16 2048 ++ be16 6 ++ be16 3330 ++ be16 (pg_layer p mod 65536) ++
               be16 6 ++ be16 3586 ++ be16 (pg_dt p mod 65536)) ++ t)
             ([rNone 2048; rI2 3330 [pg_layer p]; rI2 3586 [pg_dt p]] ++ xs)).
  { intros t xs Ht Hl Hd. apply encodes_app; [|assumption].
    replace (be16 4 ++ be16 2048 ++ be16 6 ++ be16 3330 ++ be16 (pg_layer p mod 65536) ++
             be16 6 ++ be16 3586 ++ be16 (pg_dt p mod 65536))
      with (enc_stream [rNone 2048; rI2 3330 [pg_layer p]; rI2 3586 [pg_dt p]]) by reflexivity.
    split; [reflexivity|].
    repeat constructor; try (cbn; lia); try reflexivity;
      try (apply Z.mod_pos_bound; lia); cbn [all_bytes flat_map app rI2 r_payload];
      try apply be16_bytes; unfold is_byte; lia. }
  destruct (8190 <? zlen (pg_pts p)) eqn:E.
  - repeat unpack1.
    apply xy_records_encodes in F; [|lia].
    rewrite app_nil_r. apply K; try assumption.
    unfold chunks. erewrite chunks_fuel_enough; [exact F| | |].
    + lia.
    + lia.
    + rewrite app_length. cbn [length]. lia.
  - apply oapp_Some in Hy. destruct Hy as (h & z & Hh & Ht & ->).
    apply oapp_Some in Ht. destruct Ht as (t1 & t2 & Ht1 & Ht2 & ->).
    assert (Ht : tobytes (pg_pts p ++ [first]) = Some (t1 ++ t2)).
    { unfold tobytes in *. rewrite coords_app, map_app. unfold pack in *. rewrite map_app.
      clear - Ht1 Ht2. revert Ht1. generalize (map pack_field (map Fl (coords (pg_pts p)))).
      intros l. revert t1. induction l as [|x l IH]; intros t1 H; cbn [app oconcat] in *.
      - inversion H. exact Ht2.
      - apply oapp_Some in H. destruct H as (u & v & -> & Hv & ->).
        rewrite (IH _ Hv). cbn. rewrite app_assoc. reflexivity. }
    repeat unpack1. apply enc_xy in Ht.
    replace ((be16 4 ++ be16 2048 ++ be16 6 ++ be16 3330 ++ be16 (pg_layer p mod 65536) ++
              be16 6 ++ be16 3586 ++ be16 (pg_dt p mod 65536) ++
              be16 (12 + 8 * zlen (pg_pts p)) ++ be16 4099 ++ []) ++ t1 ++ t2)
      with ((be16 4 ++ be16 2048 ++ be16 6 ++ be16 3330 ++ be16 (pg_layer p mod 65536) ++
               be16 6 ++ be16 3586 ++ be16 (pg_dt p mod 65536))
            ++ enc_raw (xy_raw (pg_pts p ++ [first]))).
    + apply K; try assumption. apply encodes_one. apply raw_ok_xy.
      rewrite zlen_app, zlen_cons, zlen_nil. lia.
    + rewrite <- Ht. rewrite zlen_app, zlen_cons, zlen_nil.
      replace (4 + 8 * (zlen (pg_pts p) + (1 + 0))) with (12 + 8 * zlen (pg_pts p)) by lia.
      rewrite <- !app_assoc. reflexivity.
Qed.

Lemma polyset_encodes : forall s b, polyset_to_gds s = Some b -> encodes b (polyset_raws s).
Proof. intros s b. apply encodes_oconcat. intros. apply poly_encodes. assumption. Qed.

Ltac fixed_encodes :=
  split; [reflexivity|];
  repeat first
    [ apply Forall_nil
    | apply Forall_cons
    | apply raw_ok_rNone; lia
    | apply raw_ok_rI2; [lia | reflexivity]
    | apply raw_ok_rI4; [lia | reflexivity]
    | apply raw_ok_rStr; [lia | lia | assumption]
    | assumption ].

Lemma path1_encodes : forall wt ps p b, path1_to_gds wt ps p = Some b -> encodes b (path1_raws wt ps p).
Proof.
  intros wt ps p b H. unfold path1_to_gds in H. cbv zeta in H. unfold path1_raws.
  apply oapp_Some in H. destruct H as (b1 & z & H1 & H & ->).
  apply oapp_Some in H. destruct H as (b2 & z1 & H2 & H & ->).
  apply oapp_Some in H. destruct H as (b3 & z2 & H3 & H & ->).
  apply oapp_Some in H. destruct H as (b4 & b5 & H4 & H5 & ->).
  apply props_encodes in H4. apply endel_encodes in H5.
  apply encodes_app.
  { repeat unpack1. fixed_encodes. }
  apply encodes_app.
  { unfold ext_raws. destruct (pt_end p); try (inversion H2; apply encodes_nil).
    repeat unpack1. fixed_encodes. }
  apply encodes_app; [|apply encodes_app; assumption].
  unfold path_xy. destruct (8191 <? zlen (pt_pts p)) eqn:E.
  - apply xy_records_encodes in H3; [|lia]. exact H3.
  - apply oapp_Some in H3. destruct H3 as (h & t & Hh & Ht & ->). repeat unpack1.
    rewrite app_nil_r, <- app_assoc, (enc_xy _ _ Ht). apply encodes_one. apply raw_ok_xy. lia.
Qed.

Lemma gpath_encodes : forall p b, gpath_to_gds p = Some b -> encodes b (gpath_raws p).
Proof. intros p b. apply encodes_oconcat. intros. apply path1_encodes. assumption. Qed.

Lemma pathel_encodes : forall p b, pathel_to_gds p = Some b -> encodes b (pathel_raws p).
Proof. intros [g|s] b H; [apply gpath_encodes | apply polyset_encodes]; exact H. Qed.

Section WithLog2Proofs.
Variable log2f : dy -> dy.

Lemma real_bytes_ok : forall v b, eight_byte_real log2f v = Some b ->
  real_bytes log2f v = b /\ length b = 8%nat /\ all_bytes b.
Proof.
  intros v b H. unfold real_bytes. rewrite H. split; [reflexivity|].
  unfold eight_byte_real in H. destruct (dm v =? 0).
  - inversion H. split; [reflexivity|]. repeat constructor; unfold is_byte; lia.
  - cbv zeta in H. repeat unpack1. split; [reflexivity|].
    rewrite app_nil_r. apply all_bytes_app. split; [apply be16_bytes; assumption|].
    apply all_bytes_app. split; [apply be16_bytes; assumption|apply be32_bytes; assumption].
Qed.

Lemma raw_ok_real : forall w v b, 0 <= w < 65536 -> eight_byte_real log2f v = Some b ->
  raw_ok (Raw w (real_bytes log2f v)) /\
  enc_raw (Raw w (real_bytes log2f v)) = be16 12 ++ be16 w ++ b.
Proof.
  intros w v b Hw H. apply real_bytes_ok in H. destruct H as (-> & Hl & Hb).
  unfold raw_ok, enc_raw, zlen. cbn [r_word r_payload]. rewrite Hl.
  repeat split; try lia; try reflexivity; assumption.
Qed.

Lemma strans_encodes : forall t b, strans_to_gds log2f t = Some b -> encodes b (strans_raws log2f t).
Proof.
  intros t b H. unfold strans_to_gds in H. unfold strans_raws.
  assert (K : forall b, (pack [FH 6; FH 0x1A01; FH (if st_refl t then 0x8000 else 0)]
       +++ (match st_mag t with
                 | None => Some []
                 | Some m => pack [FH 12; FH 0x1B05] +++ eight_byte_real log2f m
                 end)
       +++ (match st_rot t with
                 | None => Some []
                 | Some r => pack [FH 12; FH 0x1C05] +++ eight_byte_real log2f r
                 end)) = Some b ->
    encodes b ([Raw 0x1A01 (be16 (if st_refl t then 0x8000 else 0))]
      ++ (match st_mag t with None => [] | Some m => [Raw 0x1B05 (real_bytes log2f m)] end)
      ++ (match st_rot t with None => [] | Some r => [Raw 0x1C05 (real_bytes log2f r)] end))).
  { clear b H. intros b H.
    apply oapp_Some in H. destruct H as (b1 & z & H1 & H & ->).
    apply oapp_Some in H. destruct H as (b2 & b3 & H2 & H3 & ->).
    apply encodes_app; [|apply encodes_app].
    - repeat unpack1. split; [reflexivity|]. apply Forall_cons; [|apply Forall_nil].
      unfold raw_ok. cbn [r_word r_payload]. change (zlen (be16 _)) with 2.
      repeat split; try lia. apply be16_bytes. destruct (st_refl t); lia.
    - destruct (st_mag t) as [m|]; [|inversion H2; apply encodes_nil].
      apply oapp_Some in H2. destruct H2 as (h & r & Hh & Hr & ->). repeat unpack1.
      destruct (raw_ok_real 0x1B05 m r) as [Hok He]; [lia|assumption|].
      rewrite app_nil_r, <- app_assoc, <- He. apply encodes_one. assumption.
    - destruct (st_rot t) as [m|]; [|inversion H3; apply encodes_nil].
      apply oapp_Some in H3. destruct H3 as (h & r & Hh & Hr & ->). repeat unpack1.
      destruct (raw_ok_real 0x1C05 m r) as [Hok He]; [lia|assumption|].
      rewrite app_nil_r, <- app_assoc, <- He. apply encodes_one. assumption. }
  destruct (st_rot t), (st_mag t), (st_refl t);
    first [ apply K; exact H | inversion H; apply encodes_nil ].
Qed.

Lemma label_encodes : forall l b, label_to_gds log2f l = Some b -> encodes b (label_raws log2f l).
Proof.
  intros l b H. unfold label_to_gds in H. unfold label_raws.
  destruct (lb_text l) as [t|]; [|discriminate]. cbv zeta in H.
  apply oapp_Some in H. destruct H as (b1 & z & H1 & H & ->).
  apply oapp_Some in H. destruct H as (b2 & z1 & H2 & H & ->).
  apply oapp_Some in H. destruct H as (b3 & z2 & H3 & H & ->).
  apply oapp_Some in H. destruct H as (b4 & z3 & H4 & H & ->).
  apply oapp_Some in H. destruct H as (b5 & b6 & H5 & H6 & ->).
  apply strans_encodes in H2. apply props_encodes in H5. apply endel_encodes in H6.
  apply encodes_app.
  { repeat unpack1. fixed_encodes. }
  apply encodes_app; [assumption|].
  rewrite app_assoc. apply encodes_app; [|apply encodes_app; assumption].
  repeat unpack1. split.
  - rewrite enc_cons, enc_cons, enc_rStr. cbn [enc_stream flat_map]. rewrite ?app_nil_r.
    cbn [app be16 be32]. reflexivity.
  - apply Forall_cons; [apply raw_ok_rI4; [lia|reflexivity]|].
    apply Forall_cons; [apply raw_ok_rStr; [lia|lia|assumption]|apply Forall_nil].
Qed.

Lemma sref_encodes : forall r b, sref_to_gds log2f r = Some b -> encodes b (sref_raws log2f r).
Proof.
  intros r b H. unfold sref_to_gds in H. unfold sref_raws. cbv zeta in H.
  apply oapp_Some in H. destruct H as (b1 & z & H1 & H & ->).
  apply oapp_Some in H. destruct H as (b2 & z1 & H2 & H & ->).
  apply oapp_Some in H. destruct H as (b3 & z2 & H3 & H & ->).
  apply oapp_Some in H. destruct H as (b4 & z3 & H4 & H & ->).
  apply oapp_Some in H. destruct H as (b5 & b6 & H5 & H6 & ->).
  apply strans_encodes in H3. apply props_encodes in H5. apply endel_encodes in H6.
  rewrite app_assoc. apply encodes_app.
  { repeat unpack1. split.
    - rewrite enc_cons, enc_cons, enc_rStr. cbn [enc_stream flat_map]. rewrite ?app_nil_r.
      cbn [app be16 be32]. reflexivity.
    - repeat apply Forall_cons; [apply raw_ok_rNone; lia|apply raw_ok_rStr; [lia|lia|assumption]|apply Forall_nil]. }
  apply encodes_app; [assumption|].
  apply encodes_app; [|apply encodes_app; assumption].
  repeat unpack1. fixed_encodes.
Qed.

Lemma aref_encodes : forall r b, aref_to_gds log2f r = Some b -> encodes b (aref_raws log2f r).
Proof.
  intros r b H. unfold aref_to_gds in H. unfold aref_raws. cbv zeta in H.
  destruct (ar_xy r) as [[[x1 y1] [x2 y2]] [x3 y3]].
  apply oapp_Some in H. destruct H as (b1 & z & H1 & H & ->).
  apply oapp_Some in H. destruct H as (b2 & z1 & H2 & H & ->).
  apply oapp_Some in H. destruct H as (b3 & z2 & H3 & H & ->).
  apply oapp_Some in H. destruct H as (b4 & z3 & H4 & H & ->).
  apply oapp_Some in H. destruct H as (b5 & b6 & H5 & H6 & ->).
  apply strans_encodes in H3. apply props_encodes in H5. apply endel_encodes in H6.
  rewrite app_assoc. apply encodes_app.
  { repeat unpack1. split.
    - rewrite enc_cons, enc_cons, enc_rStr. cbn [enc_stream flat_map]. rewrite ?app_nil_r.
      cbn [app be16 be32]. reflexivity.
    - repeat apply Forall_cons; [apply raw_ok_rNone; lia|apply raw_ok_rStr; [lia|lia|assumption]|apply Forall_nil]. }
  apply encodes_app; [assumption|].
  apply encodes_app; [|apply encodes_app; assumption].
  repeat unpack1. fixed_encodes.
Qed.

Lemma refel_encodes : forall r b, refel_to_gds log2f r = Some b -> encodes b (refel_raws log2f r).
Proof. intros [r|a] b H; [apply sref_encodes | apply aref_encodes]; exact H. Qed.

Lemma ts_fields_ints : forall ts, ts_fields ts = map Fh (ts_ints ts).
Proof. reflexivity. Qed.

Lemma cell_encodes : forall ts c b, cell_to_gds log2f ts c = Some b -> encodes b (cell_raws log2f ts c).
Proof.
  intros ts c b H. unfold cell_to_gds in H. unfold cell_raws, elems_raws. cbv zeta in H.
  apply oapp_Some in H. destruct H as (b1 & z & H1 & H & ->).
  apply oapp_Some in H. destruct H as (b2 & z1 & H2 & H & ->).
  apply oapp_Some in H. destruct H as (b3 & z2 & H3 & H & ->).
  apply oapp_Some in H. destruct H as (b4 & z3 & H4 & H & ->).
  apply oapp_Some in H. destruct H as (b5 & z4 & H5 & H & ->).
  apply oapp_Some in H. destruct H as (b6 & b7 & H6 & H7 & ->).
  apply (encodes_oconcat _ _ _ polyset_encodes) in H3.
  apply (encodes_oconcat _ _ _ pathel_encodes) in H4.
  apply (encodes_oconcat _ _ _ label_encodes) in H5.
  apply (encodes_oconcat _ _ _ refel_encodes) in H6.
  rewrite app_assoc. apply encodes_app.
  { cbn [ts_fields app] in H1. repeat unpack1. split.
    - rewrite enc_cons, enc_cons, enc_rStr. cbn [enc_stream flat_map]. rewrite ?app_nil_r.
      cbn [app be16 be32]. reflexivity.
    - repeat apply Forall_cons; [apply raw_ok_rI2; [lia|reflexivity]|apply raw_ok_rStr; [lia|lia|assumption]|apply Forall_nil]. }
  rewrite <- !app_assoc.
  repeat (apply encodes_app; [assumption|]).
  repeat unpack1. fixed_encodes.
Qed.

Lemma header_encodes : forall ts n dbu prec b, header_to_gds log2f ts n dbu prec = Some b ->
  encodes b (header_raws log2f ts n dbu prec).
Proof.
  intros ts n dbu prec b H. unfold header_to_gds in H. unfold header_raws. cbv zeta in H.
  apply oapp_Some in H. destruct H as (b1 & z & H1 & H & ->).
  apply oapp_Some in H. destruct H as (b2 & z1 & H2 & H & ->).
  apply oapp_Some in H. destruct H as (b3 & z2 & H3 & H & ->).
  apply oapp_Some in H. destruct H as (b4 & b5 & H4 & H5 & ->).
  apply real_bytes_ok in H4. destruct H4 as (E4 & L4 & B4).
  apply real_bytes_ok in H5. destruct H5 as (E5 & L5 & B5).
  rewrite E4, E5. clear E4 E5.
  change [rI2 2 [600]; rI2 258 (ts_ints ts); rStr 518 n; Raw 773 (b4 ++ b5)]
    with ([rI2 2 [600]; rI2 258 (ts_ints ts); rStr 518 n] ++ [Raw 773 (b4 ++ b5)]).
  rewrite app_assoc. apply encodes_app.
  - cbn [ts_fields app] in H1. repeat unpack1. split.
    + rewrite !enc_cons, enc_rStr. cbn [enc_stream flat_map]. rewrite ?app_nil_r.
      cbn [app be16 be32]. reflexivity.
    + repeat apply Forall_cons; try (apply raw_ok_rI2; [lia|reflexivity]); [apply raw_ok_rStr; [lia|lia|assumption]|apply Forall_nil].
  - repeat unpack1.
    assert (L : zlen (b4 ++ b5) = 16) by (unfold zlen; rewrite app_length, L4, L5; reflexivity).
    replace ((be16 20 ++ be16 773 ++ []) ++ b4 ++ b5) with (enc_raw (Raw 773 (b4 ++ b5))).
    + apply encodes_one. unfold raw_ok. cbn [r_word r_payload]. rewrite L.
      repeat split; try lia. apply all_bytes_app. split; assumption.
    + unfold enc_raw. cbn [r_word r_payload]. rewrite L. reflexivity.
Qed.

Lemma endlib_encodes : forall b, endlib = Some b -> encodes b [rNone 0x0400].
Proof. intros b H. unfold endlib in H. repeat unpack1. fixed_encodes. Qed.

Lemma write_encodes : forall ts l b, write_gds log2f ts l = Some b ->
  encodes b (library_raws log2f ts l).
Proof.
  intros ts l b H. unfold write_gds in H. unfold library_raws.
  apply oapp_Some in H. destruct H as (b1 & z & H1 & H & ->).
  apply oapp_Some in H. destruct H as (b2 & b3 & H2 & H3 & ->).
  apply encodes_app; [apply header_encodes; assumption|].
  apply encodes_app; [|apply endlib_encodes; assumption].
  eapply encodes_oconcat; [|exact H2]. intros. apply cell_encodes. assumption.
Qed.

End WithLog2Proofs.
