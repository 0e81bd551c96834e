(** Consequences of the format theorems, in the form in which the properties
    are stated (see PropFormat.v). *)

From Coq Require Import List ZArith Lia Bool Permutation.
From Coq Require Import ZifyBool ZifyNat.
From Verif Require Import Bytes Real8 Real8Facts Records Writer Reader Stream WriteTotal SpecFormat.
From Verif Require Import Tools RoundTrip ReadBack Grammar ToolsProofs.
Import ListNotations.
Open Scope Z_scope.

(** ** C03: decoding and encoding again *)

Lemma canon_eq : forall m e, m <> 0 ->
  exists j, 0 <= j /\ dm (canon m e) * 2 ^ j = m /\ de (canon m e) = e + j /\
            Z.odd (dm (canon m e)) = true.
Proof.
  intros m e Hm. destruct m as [|p|p]; [lia| |]; unfold canon;
    destruct (strip2 p e) as [q f] eqn:E; apply strip2_spec in E; destruct E as (E1 & E2 & E3);
    exists (f - e); cbn [dm de].
  - repeat split; try lia; assumption.
  - change (Zneg q) with (- Zpos q). change (Zneg p) with (- Zpos p). rewrite Z.odd_opp.
    repeat split; try lia; assumption.
Qed.

Lemma te_of_scaled : forall w M x, dm w <> 0 ->
  forall s, 0 <= s -> Z.abs (dm w) * 2 ^ s = M -> 2 ^ 52 <= M < 2 ^ 56 ->
  de w + 4 * (14 - x) = s -> te w = x.
Proof.
  intros w M x Hw s Hs HM HR E. unfold te.
  assert (L : 52 <= Z.log2 M < 56).
  { split; [apply Z.log2_le_pow2; lia|]. apply Z.log2_lt_pow2; [|lia].
    pose proof (Z.pow_pos_nonneg 2 52). lia. }
  rewrite <- HM, Z.log2_mul_pow2 in L by lia. lia.
Qed.

Lemma real8_reencode : forall log2f b0 b1 b2 b3 b4 b5 b6 b7 m s,
  all_bytes [b0; b1; b2; b3; b4; b5; b6; b7] -> 16 <= b1 ->
  ((b1 * 65536 + un16 b2 b3) * 4294967296 + un32 b4 b5 b6 b7) = m * 2 ^ s -> 0 <= s -> m < 2 ^ 53 ->
  exists w, eight_byte_real_to_float [b0; b1; b2; b3; b4; b5; b6; b7] = Some w /\
    (exp_exact log2f w -> eight_byte_real log2f w = Some [b0; b1; b2; b3; b4; b5; b6; b7]).
Proof.
  intros log2f b0 b1 b2 b3 b4 b5 b6 b7 m s HB H1 HM Hs Hm.
  assert (Bs : is_byte b0 /\ is_byte b1 /\ is_byte b2 /\ is_byte b3 /\ is_byte b4 /\ is_byte b5 /\ is_byte b6 /\ is_byte b7).
  { repeat match goal with H : all_bytes (_ :: _) |- _ => inversion H; clear H; subst
           | H : Forall _ (_ :: _) |- _ => inversion H; clear H; subst end. tauto. }
  clear HB. unfold is_byte in Bs. unfold un16, un32 in HM.
  set (M := m * 2 ^ s) in *.
  assert (HR : 2 ^ 52 <= M < 2 ^ 56).
  { change (2 ^ 52) with 4503599627370496. change (2 ^ 56) with 72057594037927936. lia. }
  assert (Ps : 0 < 2 ^ s) by (apply Z.pow_pos_nonneg; lia).
  assert (P52 : 0 < 2 ^ 52) by (apply Z.pow_pos_nonneg; lia).
  assert (m0 : 0 < m) by (unfold M in HR; nia).
  destruct (round53_exact m s) as (q & k & Hr & Hk & Hqk); [lia|lia|]. fold M in Hr, Hqk.
  assert (Pk : 0 < 2 ^ k) by (apply Z.pow_pos_nonneg; lia).
  assert (Hq : 0 < q) by nia.
  unfold eight_byte_real_to_float, un16, un32.
  rewrite land_255, land_32512, land_32768 by lia.
  replace ((b0 * 256 + b1) mod 256) with b1 by lia.
  replace ((b0 * 256 + b1) / 256) with b0 by lia.
  rewrite HM, Hr.
  replace (b0 * 256 + b1 <? 32768) with (b0 <? 128) by lia.
  set (x := b0 mod 128 - 64).
  set (w := if b0 <? 128 then canon q (k - 56 + 4 * x) else canon (- q) (k - 56 + 4 * x)).
  exists w. split; [unfold w; destruct (b0 <? 128); reflexivity|]. intros Hex.
  assert (W : exists j, 0 <= j /\ Z.abs (dm w) * 2 ^ j = q /\ de w = k - 56 + 4 * x + j /\
               Z.odd (dm w) = true /\ (dm w <? 0) = negb (b0 <? 128)).
  { unfold w. destruct (b0 <? 128) eqn:E.
    - destruct (canon_eq q (k - 56 + 4 * x)) as (j & J1 & J2 & J3 & J4); [lia|]. exists j.
      assert (0 < 2 ^ j) by (apply Z.pow_pos_nonneg; lia).
      assert (0 < dm (canon q (k - 56 + 4 * x))) by nia.
      repeat split; try assumption; try lia.
    - destruct (canon_eq (- q) (k - 56 + 4 * x)) as (j & J1 & J2 & J3 & J4); [lia|]. exists j.
      assert (0 < 2 ^ j) by (apply Z.pow_pos_nonneg; lia).
      assert (dm (canon (- q) (k - 56 + 4 * x)) < 0) by nia.
      repeat split; try assumption; try lia. }
  destruct W as (j & J1 & J2 & J3 & J4 & J5). clearbody w.
  assert (Hw : dm w <> 0) by (intro Z0; rewrite Z0 in J4; discriminate).
  assert (Hsc : Z.abs (dm w) * 2 ^ (j + k) = M).
  { rewrite Z.pow_add_r by lia. rewrite Z.mul_assoc, J2. exact Hqk. }
  assert (Hte : te w = x).
  { eapply te_of_scaled; [exact Hw| |exact Hsc|exact HR|]; lia. }
  assert (Hf : is_f64 w).
  { split; [right; exact J4|].
    (* the odd part of M divides out: |dm w| <= m *)
    assert (D : Z.abs (dm w) * 2 ^ (j + k) = m * 2 ^ s) by exact Hsc.
    assert (Hle : Z.abs (dm w) <= m).
    { destruct (Z.le_gt_cases s (j + k)) as [C|C].
      - replace (j + k) with ((j + k - s) + s) in D by lia.
        rewrite (Z.pow_add_r 2 (j + k - s) s), Z.mul_assoc in D by lia.
        apply Z.mul_cancel_r in D; [|lia].
        assert (0 < 2 ^ (j + k - s)) by (apply Z.pow_pos_nonneg; lia). nia.
      - exfalso. replace s with ((s - (j + k)) + (j + k)) in D by lia.
        assert (P : 0 < 2 ^ (j + k)) by (apply Z.pow_pos_nonneg; lia).
        rewrite (Z.pow_add_r 2 (s - (j + k)) (j + k)), Z.mul_assoc in D by lia.
        apply Z.mul_cancel_r in D; [|lia].
        replace (s - (j + k)) with (1 + (s - (j + k) - 1)) in D by lia.
        rewrite Z.pow_add_r in D by lia.
        assert (O : Z.odd (Z.abs (dm w)) = true).
        { destruct (Z.abs_eq_or_opp (dm w)) as [-> | ->]; [|rewrite Z.odd_opp]; exact J4. }
        rewrite D in O. rewrite Z.odd_mul, Z.odd_mul in O. cbn in O. rewrite andb_false_r in O. discriminate. }
    lia. }
  unfold eight_byte_real. replace (dm w =? 0) with false by lia. rewrite (Hex Hw), Hte.
  replace (scale_floor (Z.abs (dm w)) (de w + 4 * (14 - x))) with M.
  2:{ unfold scale_floor. replace (de w + 4 * (14 - x)) with (j + k) by lia.
      replace (0 <=? j + k) with true by lia. symmetry. exact Hsc. }
  cbv zeta. rewrite J5. clear Hex Hf Hte Hsc Hw J1 J2 J3 J4 J5 Hqk Hr Hk Pk Hq HR.
  replace ((if negb (b0 <? 128) then 128 else 0) + (x + 64)) with b0 by (unfold x; destruct (b0 <? 128) eqn:E; cbn [negb]; lia).
  rewrite <- HM. clear HM. clearbody M x.
  set (L := ((b4 * 256 + b5) * 256 + b6) * 256 + b7).
  set (S3 := b2 * 256 + b3).
  assert (HL : 0 <= L < 4294967296) by (unfold L; lia).
  assert (HS : 0 <= S3 < 65536) by (unfold S3; lia).
  replace (((b1 * 65536 + S3) * 4294967296 + L) / 281474976710656) with b1 by lia.
  replace (((b1 * 65536 + S3) * 4294967296 + L) mod 281474976710656 / 4294967296) with S3 by lia.
  replace (((b1 * 65536 + S3) * 4294967296 + L) mod 4294967296) with L by lia.
  unfold pack. cbn [map pack_field oconcat]. unfold pack_H, pack_L.
  replace ((0 <=? b0 * 256 + b1) && (b0 * 256 + b1 <? 65536)) with true by lia.
  replace ((0 <=? S3) && (S3 <? 65536)) with true by lia.
  replace ((0 <=? L) && (L <? 4294967296)) with true by lia.
  cbn [oapp]. unfold be16, be32. cbn [app].
  replace ((b0 * 256 + b1) / 256) with b0 by lia.
  replace ((b0 * 256 + b1) mod 256) with b1 by lia.
  replace (S3 / 256) with b2 by (unfold S3; lia).
  replace (S3 mod 256) with b3 by (unfold S3; lia).
  replace (L / 16777216) with b4 by (unfold L; lia).
  replace ((L / 65536) mod 256) with b5 by (unfold L; lia).
  replace ((L / 256) mod 256) with b6 by (unfold L; lia).
  replace (L mod 256) with b7 by (unfold L; lia).
  reflexivity.
Qed.

(** ** C01: libraries that come back unchanged *)

Lemma survives_rt : forall log2f v, real_survives log2f v -> real_rt log2f v = v.
Proof. intros log2f v H. unfold real_rt, real_survives in *. rewrite H. reflexivity. Qed.

Lemma fits_survives : forall log2f v, exp_exact log2f v -> real_fits v -> real_survives log2f v.
Proof.
  intros log2f v He [Hf Hx]. unfold real_survives.
  destruct (real8_total log2f v Hf He Hx) as (b & E). rewrite E. cbn [obind].
  apply (real8_roundtrip log2f v b Hf He Hx E).
Qed.

Lemma out_tr_id : forall log2f t, tr_survives log2f t -> out_tr (real_rt log2f) t = t.
Proof.
  intros log2f [r m x] [H1 H2]. unfold out_tr. cbn [st_rot st_mag st_refl] in *.
  destruct r as [r|], m as [m|]; cbn [option_map];
    rewrite ?(survives_rt log2f r (H1 _ eq_refl)), ?(survives_rt log2f m (H2 _ eq_refl)); reflexivity.
Qed.

Lemma gos_none : forall v, get_or_self (fun _ => None) v = v.
Proof. reflexivity. Qed.

Lemma flat_map_single : forall A B (f : A -> list B) (g : A -> B) l,
  Forall (fun x => f x = [g x]) l -> flat_map f l = map g l.
Proof.
  induction 1 as [|x l Hx Hl IH]; [reflexivity|]. cbn [flat_map map]. rewrite Hx, IH. reflexivity.
Qed.

Lemma flat_map_nil : forall A B (f : A -> list B) l, Forall (fun x => f x = []) l -> flat_map f l = [].
Proof. induction 1 as [|x l Hx Hl IH]; [reflexivity|]. cbn [flat_map]. rewrite Hx, IH. reflexivity. Qed.

Lemma map_id_Forall : forall A (f : A -> A) l, Forall (fun x => f x = x) l -> map f l = l.
Proof. induction 1; cbn; congruence. Qed.

Lemma plain_cell_id : forall log2f known c, plain_cell known c -> cell_survives log2f c ->
  out_cell default_opts (real_rt log2f) known c = c.
Proof.
  intros log2f known [n ps qs ls rs] (H1 & H2 & H3) (H4 & H5).
  unfold out_cell, renamed. cbn [c_name c_polys c_paths c_labels c_refs o_rename o_template default_opts] in *.
  rewrite (flat_map_single _ _ (out_polyset default_opts) (fun x => x)).
  2:{ eapply Forall_impl; [|exact H1]. intros [pp props] H. unfold plain_polyset in H. cbn in H.
      destruct pp as [|p [|p' pp]]; try discriminate. destruct p as [a b c]. reflexivity. }
  rewrite (flat_map_nil _ _ (out_path_polys default_opts)).
  2:{ eapply Forall_impl; [|exact H2]. intros [g|s]; [reflexivity|intros []]. }
  rewrite (flat_map_single _ _ (out_paths default_opts) (fun x => x)).
  2:{ eapply Forall_impl; [|exact H2]. intros [[qq wt props]|s]; [|intros []].
      intros (q & E & A & B & C). cbn in E, A, B, C. subst qq. cbn.
      destruct q as [pts w e l d]. unfold out_path1. cbn [pt_pts pt_width pt_end pt_layer pt_dt] in *.
      rewrite !gos_none. repeat f_equal.
      - destruct e; try reflexivity; congruence.
      - destruct wt; [reflexivity|]. specialize (C eq_refl). cbn. lia. }
  rewrite !map_id, app_nil_r. f_equal.
  - apply map_id_Forall. eapply Forall_impl; [|exact H4]. intros [a b c t p x ps'] H. cbn in H.
    unfold out_label. cbn. rewrite (out_tr_id _ _ H). reflexivity.
  - apply map_id_Forall. rewrite Forall_forall in *. intros r Hr. specialize (H3 r Hr). specialize (H5 r Hr).
    destruct r as [[t tr o p]|[t tr a b x p]]; cbn [out_ref ref_target ref_tr] in *;
      rewrite (out_tr_id _ _ H5); cbn [sr_target sr_org sr_props ar_target ar_cols ar_rows ar_xy ar_props] in *;
      unfold out_target, renamed; destruct t as [m|m]; cbn in *; rewrite H3; reflexivity.
Qed.

Lemma cell_fits_survives : forall log2f c, (forall v, exp_exact log2f v) -> cell_fits c -> cell_survives log2f c.
Proof.
  intros log2f c He Hc. unfold cell_fits in Hc. unfold cell_survives.
  assert (T : forall t, tr_fits t -> tr_survives log2f t).
  { intros t [A B]. split; intros v Hv; apply fits_survives; auto. }
  split; rewrite Forall_forall in *.
  - intros l Hl. apply T. destruct Hc as (_ & _ & _ & Hc & _). rewrite Forall_forall in Hc. specialize (Hc l Hl).
    unfold label_fits in Hc. tauto.
  - intros r Hr. apply T. destruct Hc as (_ & _ & _ & _ & Hc). rewrite Forall_forall in Hc. specialize (Hc r Hr).
    destruct r as [s|a]; cbn in *; tauto.
Qed.

Lemma NoDup_default : forall l, NoDup (map c_name l) ->
  NoDup (map (fun c => renamed default_opts (c_name c)) l).
Proof. intros. exact H. Qed.

Theorem write_read : forall log2f ts l b,
  write_gds log2f ts l = Some b ->
  text_ok (lib_name l) -> Forall cell_ok (lib_cells l) -> NoDup (map c_name (lib_cells l)) ->
  let known := fun n => mem_str n (map c_name (lib_cells l)) in
  read_gds default_opts [] b =
  Some (RResult (map (out_cell default_opts (real_rt log2f) known) (lib_cells l))
                (Some (Some (lib_name l)))
                (Some (real_rt log2f (lib_dbu l), real_rt log2f (lib_prec l)))).
Proof.
  intros log2f ts l b Hw Hn Hc Hd known.
  apply (read_write default_opts [] log2f ts l b Hw Hn Hc).
  - exact Hd.
  - intros c _ [].
Qed.

Theorem write_read_exact : forall log2f ts l b,
  write_gds log2f ts l = Some b ->
  text_ok (lib_name l) -> Forall cell_ok (lib_cells l) -> NoDup (map c_name (lib_cells l)) ->
  Forall (plain_cell (fun n => mem_str n (map c_name (lib_cells l)))) (lib_cells l) ->
  Forall (cell_survives log2f) (lib_cells l) ->
  real_survives log2f (lib_dbu l) -> real_survives log2f (lib_prec l) ->
  read_gds default_opts [] b =
  Some (RResult (lib_cells l) (Some (Some (lib_name l))) (Some (lib_dbu l, lib_prec l))).
Proof.
  intros log2f ts l b Hw Hn Hc Hd Hp Hs H1 H2.
  rewrite (write_read _ _ _ _ Hw Hn Hc Hd). rewrite (survives_rt _ _ H1), (survives_rt _ _ H2).
  do 2 f_equal. apply map_id_Forall. rewrite Forall_forall in *. intros c I.
  apply plain_cell_id; auto.
Qed.

Theorem store_and_load : forall log2f, (forall v, exp_exact log2f v) -> forall ts l,
  ts_fits ts -> library_fits l ->
  text_ok (lib_name l) -> Forall cell_ok (lib_cells l) -> NoDup (map c_name (lib_cells l)) ->
  Forall (plain_cell (fun n => mem_str n (map c_name (lib_cells l)))) (lib_cells l) ->
  exists b, write_gds log2f ts l = Some b /\
    read_gds default_opts [] b =
    Some (RResult (lib_cells l) (Some (Some (lib_name l))) (Some (lib_dbu l, lib_prec l))).
Proof.
  intros log2f He ts l Ht Hl Hn Hc Hd Hp. destruct (write_total log2f He ts l Ht Hl) as (b & Hw).
  exists b. split; [exact Hw|]. destruct Hl as (_ & L1 & L2 & L3).
  apply (write_read_exact _ _ _ _ Hw Hn Hc Hd Hp); try (apply fits_survives; auto; fail).
  eapply Forall_impl; [|exact L3]. intros c. apply cell_fits_survives. exact He.
Qed.

(** ** C04 *)

Lemma concat_enc_raw : forall rs, concat (map enc_raw rs) = enc_stream rs.
Proof. intros. unfold enc_stream. rewrite flat_map_concat_map. reflexivity. Qed.

Theorem written_stream : forall log2f ts l b, write_gds log2f ts l = Some b ->
  exists rs, b = enc_stream rs /\ Forall raw_ok rs /\ file_words (map r_word rs) /\
    raw_record_reader b = map (fun r => (r_word r / 256, enc_raw r)) rs /\
    concat (map snd (raw_record_reader b)) = b.
Proof.
  intros log2f ts l b H. destruct (write_encodes _ _ _ _ H) as (E & Ok).
  exists (library_raws log2f ts l). split; [exact E|]. split; [exact Ok|].
  split; [exact (library_words _ _ _ _ H)|].
  assert (R : raw_record_reader b = map (fun r => (r_word r / 256, enc_raw r)) (library_raws log2f ts l)).
  { rewrite E. apply raw_record_reader_stream. exact Ok. }
  split; [exact R|]. rewrite R, map_map. cbn [snd]. rewrite concat_enc_raw. symmetry. exact E.
Qed.

(** ** C05 *)

Lemma patch_len : forall t rs, length t = 24%nat -> Forall stamp_ok rs ->
  length (enc_stream (map (patch t) rs)) = length (enc_stream rs).
Proof.
  intros t rs Ht. induction 1 as [|r rs Hr Hrs IH]; [reflexivity|].
  cbn [map enc_stream flat_map]. rewrite !app_length, !length_enc_raw. unfold enc_stream in IH. rewrite IH.
  f_equal. unfold patch. destruct (is_stamp r) eqn:E; [|reflexivity]. cbn [r_payload].
  specialize (Hr E). unfold zlen in Hr. lia.
Qed.

Theorem set_timestamp_stream : forall ts rs t, pack (ts_fields ts) = Some t ->
  Forall raw_ok rs -> Forall stamp_ok rs ->
  set_gdsii_timestamp (enc_stream rs) ts = Some (enc_stream (map (patch t) rs)) /\
  length (enc_stream (map (patch t) rs)) = length (enc_stream rs).
Proof.
  intros ts rs t Ht Ok St. destruct (ts_payload _ _ Ht) as (L & _).
  unfold set_gdsii_timestamp. rewrite Ht. split.
  - apply set_ts_stream; auto. apply length_enc_stream.
  - apply patch_len; auto.
Qed.

Theorem set_timestamp_last : forall b b1 ts1 ts2,
  pack (ts_fields ts2) <> None ->
  set_gdsii_timestamp b ts1 = Some b1 ->
  set_gdsii_timestamp b1 ts2 = set_gdsii_timestamp b ts2.
Proof.
  intros b b1 ts1 ts2 H2 H. unfold set_gdsii_timestamp in *.
  destruct (pack (ts_fields ts1)) as [t1|] eqn:E1; [|discriminate].
  destruct (pack (ts_fields ts2)) as [t2|] eqn:E2; [|congruence].
  destruct (ts_payload _ _ E1) as (L1 & _). destruct (ts_payload _ _ E2) as (L2 & _).
  apply (set_ts_last t1 t2 L1 L2 _ _ _ (le_n _) H). lia.
Qed.

(** ** C07, C08 *)

Section Hash.
Variables (H D : Type) (init : H) (update : H -> bytes -> H) (digest : H -> D).

Theorem hash_invariant : forall log2f h1 n1 d1 p1 cs1 b1 h2 n2 d2 p2 cs2 b2,
  write_file log2f h1 n1 d1 p1 cs1 [] = Some b1 ->
  write_file log2f h2 n2 d2 p2 cs2 [] = Some b2 ->
  Permutation (map snd cs1) (map snd cs2) ->
  gdsii_hash init update digest b1 = gdsii_hash init update digest b2 /\
  gdsii_hash init update digest b1 <> None.
Proof.
  intros log2f h1 n1 d1 p1 cs1 b1 h2 n2 d2 p2 cs2 b2 W1 W2 P.
  unfold gdsii_hash. rewrite (hash_contents_file _ _ _ _ _ _ _ W1), (hash_contents_file _ _ _ _ _ _ _ W2).
  split; [|discriminate]. do 3 f_equal. apply sorted_eq.
  rewrite <- (map_map snd (content log2f) cs1), <- (map_map snd (content log2f) cs2).
  apply Permutation_map. exact P.
Qed.

Hypothesis update_app : forall h a b, update (update h a) b = update h (a ++ b).
Hypothesis update_nil : forall h, update h [] = h.

Lemma fold_update : forall l h, fold_left update l h = update h (concat l).
Proof.
  induction l as [|x l IH]; intros h; cbn [fold_left concat]; [symmetry; apply update_nil|].
  rewrite IH, update_app. reflexivity.
Qed.

(** The digest is that of the sorted contents, fed as one byte string. *)
Theorem hash_of_contents : forall log2f h n d p cs b,
  write_file log2f h n d p cs [] = Some b ->
  gdsii_hash init update digest b =
  Some (digest (update init (concat (sorted_bytes (map (fun tc => content log2f (snd tc)) cs))))).
Proof.
  intros log2f h n d p cs b W. unfold gdsii_hash. rewrite (hash_contents_file _ _ _ _ _ _ _ W).
  rewrite fold_update. reflexivity.
Qed.

End Hash.

Lemma written_cells : forall log2f h n d p cs bin b, write_file log2f h n d p cs bin = Some b ->
  Forall (fun tc => exists c, cell_to_gds log2f (fst tc) (snd tc) = Some c) cs.
Proof.
  intros log2f h n d p cs bin b H. unfold write_file in H.
  apply oapp_Some in H. destruct H as (x & y & _ & H & _).
  apply oapp_Some in H. destruct H as (z & w & H & _ & _).
  clear - H. revert z H. induction cs as [|[t c] cs IH]; intros z H; [constructor|].
  cbn [map oconcat fst snd] in H. apply oapp_Some in H. destruct H as (x & y & Hx & Hy & _).
  constructor; [cbn; eauto|]. eapply IH. exact Hy.
Qed.

Lemma content_bytes : forall log2f t tb ts c b, pack (ts_fields t) = Some tb ->
  cell_to_gds log2f ts c = Some b ->
  cell_to_gds log2f t c = Some (be16 28 ++ be16 0x0502 ++ tb ++ content log2f c ++ be16 4 ++ be16 0x0700).
Proof.
  intros log2f t tb ts c b Ht H. destruct (cell_retime _ _ _ _ _ _ Ht H) as (b' & H').
  rewrite H'. destruct (cell_encodes _ _ _ _ H') as (E & _). rewrite E, cell_raws_split.
  destruct (ts_payload _ _ Ht) as (L & _ & Q). rewrite Q.
  f_equal.
  cbn [enc_stream flat_map]. fold (enc_stream (body_raws log2f c ++ [rNone 1792])).
  rewrite enc_stream_app. unfold content. cbn [enc_stream flat_map].
  unfold enc_raw at 1. cbn [r_word r_payload]. unfold zlen. rewrite L.
  unfold rNone, enc_raw. cbn [r_word r_payload]. rewrite !app_nil_r, <- ?app_assoc. reflexivity.
Qed.

Lemma Permutation_map_fun : forall A B C (f : A -> B) (g : A -> C) (P : A -> Prop) l1 l2,
  (forall x y, P x -> P y -> f x = f y -> g x = g y) ->
  Forall P l1 -> Forall P l2 ->
  Permutation (map f l1) (map f l2) -> Permutation (map g l1) (map g l2).
Proof.
  intros A B C f g P l1 l2 Hfg. revert l2. induction l1 as [|x l1 IH]; intros l2 H1 H2 HP.
  - apply Permutation_nil in HP. destruct l2; [constructor|discriminate].
  - cbn [map] in HP. assert (I : In (f x) (map f l2)) by (eapply Permutation_in; [exact HP|left; reflexivity]).
    apply in_map_iff in I. destruct I as (y & E & I). apply in_split in I. destruct I as (u & v & ->).
    rewrite map_app in *. cbn [map] in *. rewrite E in HP. apply Permutation_cons_app_inv in HP.
    rewrite <- map_app in HP.
    apply Forall_app in H2. destruct H2 as [Hu Hv]. inversion Hv; subst. inversion H1; subst.
    rewrite (Hfg x y) by (auto; congruence).
    apply Permutation_cons_app. rewrite <- map_app. apply IH; auto. apply Forall_app; auto.
Qed.

(** Equal digests: same cells (up to order), or two different inputs of the
    engine with the same digest. *)
Theorem hash_injective : forall (H D : Type) (init : H) (update : H -> bytes -> H) (digest : H -> D),
  (forall h a b, update (update h a) b = update h (a ++ b)) -> (forall h, update h [] = h) ->
  forall log2f h1 n1 d1 p1 cs1 b1 h2 n2 d2 p2 cs2 b2,
  write_file log2f h1 n1 d1 p1 cs1 [] = Some b1 ->
  write_file log2f h2 n2 d2 p2 cs2 [] = Some b2 ->
  gdsii_hash init update digest b1 = gdsii_hash init update digest b2 ->
  (forall t, pack (ts_fields t) <> None ->
     Permutation (map (fun tc => cell_to_gds log2f t (snd tc)) cs1)
                 (map (fun tc => cell_to_gds log2f t (snd tc)) cs2)) \/
  (exists x y, x <> y /\ digest (update init x) = digest (update init y)).
Proof.
  intros H D init update digest Ua Un log2f h1 n1 d1 p1 cs1 b1 h2 n2 d2 p2 cs2 b2 W1 W2 E.
  rewrite (hash_of_contents _ _ _ _ _ Ua Un _ _ _ _ _ _ _ W1) in E.
  rewrite (hash_of_contents _ _ _ _ _ Ua Un _ _ _ _ _ _ _ W2) in E.
  injection E as E.
  set (x := concat (sorted_bytes (map (fun tc => content log2f (snd tc)) cs1))) in *.
  set (y := concat (sorted_bytes (map (fun tc => content log2f (snd tc)) cs2))) in *.
  destruct (list_eq_dec Z.eq_dec x y) as [Exy|Nxy]; [left|right; exists x, y; split; assumption].
  intros t Ht. destruct (pack (ts_fields t)) as [tb|] eqn:Et; [clear Ht|congruence].
  pose proof (written_cells _ _ _ _ _ _ _ _ W1) as C1. pose proof (written_cells _ _ _ _ _ _ _ _ W2) as C2.
  assert (P : Permutation (map (fun tc => body_raws log2f (snd tc)) cs1) (map (fun tc => body_raws log2f (snd tc)) cs2)).
  { apply (contents_recover (fun rs => Forall raw_ok rs /\ headed (fun r => r_word r = 0x0606) rs)); auto.
    - rewrite Forall_map. eapply Forall_impl; [|exact C1]. intros tc (b & Hb). eapply body_headed. exact Hb.
    - rewrite Forall_map. eapply Forall_impl; [|exact C2]. intros tc (b & Hb). eapply body_headed. exact Hb.
    - rewrite !map_map. exact Exy. }
  refine (Permutation_map_fun _ _ _ _ _ (fun tc => exists c, cell_to_gds log2f (fst tc) (snd tc) = Some c)
            _ _ _ C1 C2 P).
  intros u v (bu & Hu) (bv & Hv) Euv.
  rewrite (content_bytes _ _ _ _ _ _ Et Hu), (content_bytes _ _ _ _ _ _ Et Hv).
  unfold content. rewrite Euv. reflexivity.
Qed.

(** ** C09 *)
Lemma nth_error_combine : forall A B (a : list A) (b : list B) i x y,
  nth_error a i = Some x -> nth_error b i = Some y -> nth_error (combine a b) i = Some (x, y).
Proof.
  induction a as [|h a IH]; intros [|k b] [|i] x y Hx Hy; cbn in *; try discriminate.
  - inversion Hx; inversion Hy; reflexivity.
  - apply IH; assumption.
Qed.
Lemma omap_nth : forall A B (f : A -> option B) l r i x, omap f l = Some r -> nth_error l i = Some x ->
  exists y, f x = Some y /\ nth_error r i = Some y.
Proof.
  induction l as [|h l IH]; intros r i x H Hi; [destruct i; discriminate|].
  cbn [omap] in H. destruct (f h) eqn:E; [|discriminate]. destruct (omap f l) eqn:El; [|discriminate].
  inversion H; subst. destruct i; cbn in *; [inversion Hi; subst; eauto|]. eapply IH; eauto.
Qed.

Theorem binary_roundtrip : forall log2f h n d p cs b,
  write_file log2f h n d p cs [] = Some b ->
  Forall (fun tc => text_ok (c_name (snd tc))) cs ->
  NoDup (map (fun tc => c_name (snd tc)) cs) ->
  exists d0, get_binary_cells b = Some d0 /\
    (** one entry per cell, in order, holding the bytes of that cell *)
    map (fun e => (fst e, Some (snd e))) d0 =
      map (fun tc => (c_name (snd tc), cell_to_gds log2f (fst tc) (snd tc))) cs /\
    (** writing them after other cells is writing the original cells *)
    forall h' n' d' p' cs0,
      write_file log2f h' n' d' p' cs0 (map snd d0) = write_file log2f h' n' d' p' (cs0 ++ cs) [].
Proof.
  intros log2f h n d p cs b W Ht Hn.
  destruct (binary_cells_file _ _ _ _ _ _ _ W Ht Hn) as (bs & Eo & Eb).
  exists (combine (map (fun tc => c_name (snd tc)) cs) bs). split; [exact Eb|]. split.
  - clear - Eo. revert bs Eo. induction cs as [|[t c] cs IH]; intros bs E; [reflexivity|].
    cbn [omap fst snd] in E. destruct (cell_to_gds log2f t c) eqn:Ec; [|discriminate].
    destruct (omap _ cs) eqn:Eo; [|discriminate]. inversion E; subst. cbn [map combine fst snd].
    rewrite (IH l eq_refl), Ec. reflexivity.
  - intros. rewrite map_snd_combine.
    + apply write_binary_same. exact Eo.
    + rewrite map_length. symmetry. eapply omap_length. exact Eo.
Qed.

(** ** C11 *)
Lemma chunks_fuel_spec : forall A f n (l : list A), (0 < n)%nat -> (length l <= f)%nat ->
  concat (chunks_fuel f n l) = l /\ Forall (fun c => c <> [] /\ (length c <= n)%nat) (chunks_fuel f n l).
Proof.
  induction f as [|f IH]; intros n l Hn Hl; cbn [chunks_fuel].
  - destruct l; [split; constructor|cbn in Hl; lia].
  - destruct l as [|x l]; [split; constructor|].
    destruct (IH n (skipn n (x :: l)) Hn) as (H1 & H2).
    { rewrite skipn_length. cbn [length] in *. lia. }
    split.
    + cbn [concat]. rewrite H1. apply firstn_skipn.
    + constructor; [|exact H2]. split.
      * destruct n; [lia|]. cbn. discriminate.
      * apply firstn_le_length.
Qed.

(** An XY record holding the given points: length, record and data type,
    coordinates as 32-bit two's complement big-endian integers. *)
Definition xy_record (pts : list (Z * Z)) : bytes :=
  be16 (4 + 8 * zlen pts) ++ be16 0x1003
  ++ flat_map (fun p => be32 (fst p mod 4294967296) ++ be32 (snd p mod 4294967296)) pts.

Lemma coords_len : forall pts, zlen (coords pts) = 2 * zlen pts.
Proof.
  induction pts as [|[x y] pts IH]; [reflexivity|]. cbn [coords flat_map app].
  rewrite !zlen_cons. fold (coords pts). lia.
Qed.

Lemma xy_record_raw : forall pts, enc_raw (xy_raw pts) = xy_record pts.
Proof.
  intros pts. unfold enc_raw, xy_raw, xy_record, rI4. cbn [r_word r_payload].
  rewrite zlen_flat_be32, coords_len. replace (4 * (2 * zlen pts)) with (8 * zlen pts) by lia.
  do 2 f_equal. induction pts as [|[x y] pts IH]; [reflexivity|].
  cbn [coords flat_map app fst snd]. fold (coords pts). rewrite IH, app_assoc. reflexivity.
Qed.

(** The XY records of an element, in file order. *)
Definition xy_of (b : bytes) : list bytes :=
  map snd (filter (fun r => fst r =? 0x10) (raw_record_reader b)).

Lemma filter_xy : forall rs, Forall raw_ok rs ->
  xy_of (enc_stream rs) = map enc_raw (filter (fun r => r_word r / 256 =? 0x10) rs).
Proof.
  intros rs Ok. unfold xy_of. rewrite raw_record_reader_stream by exact Ok. clear Ok.
  induction rs as [|r rs IH]; [reflexivity|]. cbn [map filter fst].
  destruct (r_word r / 256 =? 16); cbn [map snd]; rewrite IH; reflexivity.
Qed.

Lemma filter_props : forall ps, filter (fun r => r_word r / 256 =? 0x10) (props_raws ps) = [].
Proof.
  induction ps as [|[a [v|]] ps IH]; [reflexivity| |exact IH].
  cbn [props_raws flat_map prop_raws snd app]. cbn [filter rI2 rStr r_word].
  change (0x2B02 / 256 =? 0x10) with false. change (0x2C06 / 256 =? 0x10) with false. exact IH.
Qed.

Lemma filter_xy_raws : forall l, filter (fun r => r_word r / 256 =? 0x10) (map xy_raw l) = map xy_raw l.
Proof. induction l as [|x l IH]; [reflexivity|]. cbn [map filter]. change (r_word (xy_raw x) / 256 =? 16) with true. cbv iota. rewrite IH. reflexivity. Qed.

Definition good_chunks (pts : list (Z * Z)) (cs : list (list (Z * Z))) : Prop :=
  concat cs = pts /\ Forall (fun c => c <> [] /\ 4 + 8 * zlen c <= 65535) cs.

Lemma chunks_good : forall n (l : list (Z * Z)), 0 < n <= 8191 -> good_chunks l (chunks (Z.to_nat n) l).
Proof.
  intros n l Hn. destruct (chunks_fuel_spec _ (length l) (Z.to_nat n) l) as (H1 & H2); [lia|lia|].
  split; [exact H1|]. eapply Forall_impl; [|exact H2]. intros c (A & B). split; [exact A|]. unfold zlen. lia.
Qed.

Theorem polygon_xy : forall ps p b, poly_to_gds ps p = Some b ->
  exists first rest cs, pg_pts p = first :: rest /\
    good_chunks (pg_pts p ++ [first]) cs /\ xy_of b = map xy_record cs.
Proof.
  intros ps p b H. destruct (poly_encodes _ _ _ H) as (E & Ok).
  assert (Ne : exists first rest, pg_pts p = first :: rest).
  { unfold poly_to_gds in H. destruct (pg_pts p) as [|f r]; [discriminate|eauto]. }
  destruct Ne as (first & rest & Ep). exists first, rest.
  rewrite E, filter_xy by exact Ok. unfold poly_raws. rewrite !filter_app, filter_props.
  cbn [filter rNone rI2 r_word app]. change (0x0800 / 256 =? 0x10) with false.
  change (0x0D02 / 256 =? 0x10) with false. change (0x0E02 / 256 =? 0x10) with false.
  change (0x1100 / 256 =? 0x10) with false. cbv iota. cbn [app]. rewrite app_nil_r.
  unfold poly_xy. rewrite Ep. destruct (8190 <? zlen (first :: rest)) eqn:C.
  - exists (chunks (Z.to_nat 8190) ((first :: rest) ++ [first])). split; [reflexivity|].
    split; [apply chunks_good; lia|]. rewrite filter_xy_raws, map_map.
    apply map_ext. intros. apply xy_record_raw.
  - exists [(first :: rest) ++ [first]]. split; [reflexivity|]. split.
    + split; [cbn [concat]; apply app_nil_r|]. constructor; [|constructor]. split; [discriminate|].
      rewrite zlen_app. change (zlen [first]) with 1. lia.
    + change [xy_raw ((first :: rest) ++ [first])] with (map xy_raw [(first :: rest) ++ [first]]).
      rewrite filter_xy_raws, map_map. apply map_ext. intros. apply xy_record_raw.
Qed.

Theorem path_xy_records : forall wt ps p b, path1_to_gds wt ps p = Some b -> pt_pts p <> [] ->
  exists cs, good_chunks (pt_pts p) cs /\ xy_of b = map xy_record cs.
Proof.
  intros wt ps p b H Ne. destruct (path1_encodes _ _ _ _ H) as (E & Ok).
  rewrite E, filter_xy by exact Ok. unfold path1_raws. rewrite !filter_app, filter_props.
  cbn [filter rNone rI2 rI4 r_word app]. change (0x0900 / 256 =? 0x10) with false.
  change (0x0D02 / 256 =? 0x10) with false. change (0x0E02 / 256 =? 0x10) with false.
  change (0x2102 / 256 =? 0x10) with false. change (0x0F03 / 256 =? 0x10) with false.
  change (0x1100 / 256 =? 0x10) with false. cbv iota. cbn [app]. rewrite app_nil_r.
  replace (filter (fun r => r_word r / 256 =? 16) (ext_raws (pt_end p))) with (@nil raw).
  2:{ destruct (pt_end p); reflexivity. }
  cbn [app]. unfold path_xy. destruct (8191 <? zlen (pt_pts p)) eqn:C.
  - exists (chunks (Z.to_nat 8191) (pt_pts p)).
    split; [apply chunks_good; lia|]. rewrite filter_xy_raws, map_map.
    apply map_ext. intros. apply xy_record_raw.
  - exists [pt_pts p]. split.
    + split; [cbn [concat]; apply app_nil_r|]. constructor; [|constructor]. split; [exact Ne|]. lia.
    + change [xy_raw (pt_pts p)] with (map xy_raw [pt_pts p]).
      rewrite filter_xy_raws, map_map. apply map_ext. intros. apply xy_record_raw.
Qed.

(** ** C12 *)
Theorem units_agree : forall log2f ts l b,
  write_gds log2f ts l = Some b ->
  text_ok (lib_name l) -> Forall cell_ok (lib_cells l) -> NoDup (map c_name (lib_cells l)) ->
  exists r, read_gds default_opts [] b = Some r /\ get_gds_units b = Some (res_units r).
Proof.
  intros log2f ts l b Hw Hn Hc Hd. eexists. split; [exact (write_read _ _ _ _ Hw Hn Hc Hd)|].
  cbn [res_units]. rewrite <- write_file_gds in Hw. exact (units_file _ _ _ _ _ _ _ _ Hw).
Qed.

(** ** C13 *)
Lemma map_out_cell : forall o rt known known0 c,
  map_cell o known (out_cell default_opts rt known0 c) = out_cell o rt known c.
Proof.
  intros o rt known known0 c. unfold map_cell, out_cell. cbn [c_name c_polys c_paths c_labels c_refs].
  f_equal.
  - rewrite map_app, !flat_map_concat_map, !concat_map, !map_map. f_equal; f_equal; apply map_ext.
    + intros s. unfold out_polyset. rewrite map_map. reflexivity.
    + intros [g|s]; [reflexivity|]. cbn. unfold out_polyset. rewrite map_map. reflexivity.
  - rewrite !flat_map_concat_map, !concat_map, !map_map. f_equal. apply map_ext.
    intros [g|s]; [|reflexivity]. cbn. rewrite map_map. reflexivity.
  - rewrite map_map. reflexivity.
  - rewrite map_map. apply map_ext. intros [s|a]; cbn [out_ref map_ref sr_target sr_tr sr_org sr_props ar_target ar_tr ar_cols ar_rows ar_xy ar_props].
    + do 2 f_equal. unfold out_target at 2. cbv zeta. change (renamed default_opts ?n) with n.
      destruct (known0 _); reflexivity.
    + do 2 f_equal. unfold out_target at 2. cbv zeta. change (renamed default_opts ?n) with n.
      destruct (known0 _); reflexivity.
Qed.

Theorem import_maps : forall o names0 log2f ts l b,
  write_gds log2f ts l = Some b ->
  text_ok (lib_name l) -> Forall cell_ok (lib_cells l) -> NoDup (map c_name (lib_cells l)) ->
  NoDup (map (fun c => renamed o (c_name c)) (lib_cells l)) ->
  (forall c, In c (lib_cells l) -> ~ In (renamed o (c_name c)) names0) ->
  exists r, read_gds default_opts [] b = Some r /\
    read_gds o names0 b =
    Some (RResult (map (map_cell o (fun n => mem_str n (names0 ++ map (fun c => renamed o (c_name c)) (res_cells r))))
                       (res_cells r))
                  (res_name r) (res_units r)).
Proof.
  intros o names0 log2f ts l b Hw Hn Hc Hd Hr Hf. eexists.
  split; [exact (write_read _ _ _ _ Hw Hn Hc Hd)|]. cbn [res_cells res_name res_units].
  rewrite (read_write o names0 log2f ts l b Hw Hn Hc Hr Hf). do 2 f_equal.
  rewrite !map_map. cbn [out_cell c_name]. change (renamed default_opts ?n) with n.
  apply map_ext. intros c. symmetry. apply map_out_cell.
Qed.

(** ** C50 *)
Lemma lookup_cell_spec : forall l n c, NoDup (map c_name (lib_cells l)) ->
  (lookup_cell l n = Some c <-> In c (lib_cells l) /\ c_name c = n).
Proof.
  intros l n c. unfold lookup_cell. induction (lib_cells l) as [|x cs IH]; intros Nd; cbn [find].
  - split; [discriminate|intros [[] _]].
  - inversion Nd as [|? ? Hx Nd']; subst. destruct (list_eq_dec Z.eq_dec (c_name x) n) as [E|E].
    + split.
      * intros H. inversion H; subst. split; [left; reflexivity|reflexivity].
      * intros [[->|I] E2]; [reflexivity|]. exfalso. apply Hx. rewrite E, <- E2.
        apply in_map. exact I.
    + rewrite (IH Nd'). split.
      * intros [I E2]. split; [right; exact I|exact E2].
      * intros [[->|I] E2]; [congruence|]. split; assumption.
Qed.

(** What an item of the [cells] argument stands for. *)
Definition selects (l : library) (s : csel) (c : cell) : Prop :=
  match s with
  | SName n => In c (lib_cells l) /\ c_name c = n
  | SCell c' => c = c'
  end.

Lemma select_spec : forall l s cs, NoDup (map c_name (lib_cells l)) ->
  (omap (select1 l) s = Some cs <-> Forall2 (selects l) s cs).
Proof.
  intros l s cs Nd. revert cs. induction s as [|x s IH]; intros cs; cbn [omap].
  - split; [intros H; inversion H; constructor|intros H; inversion H; reflexivity].
  - split.
    + intros H. destruct (select1 l x) as [c|] eqn:E; [|discriminate].
      destruct (omap (select1 l) s) as [r|] eqn:E2; [|discriminate]. inversion H; subst.
      constructor; [|apply IH; reflexivity].
      destruct x as [n|c']; cbn in *; [apply lookup_cell_spec; assumption|congruence].
    + intros H. inversion H as [|? c ? r Hc Hr]; subst.
      replace (select1 l x) with (Some c).
      * apply IH in Hr. rewrite Hr. reflexivity.
      * destruct x as [n|c']; cbn in *; [symmetry; apply lookup_cell_spec; assumption|congruence].
Qed.

Theorem write_selected : forall log2f ts l s cs bcs binary,
  NoDup (map c_name (lib_cells l)) -> Forall2 (selects l) s cs ->
  omap (cell_to_gds log2f ts) bcs = Some binary ->
  write_gds_sel log2f ts l (Some s) binary =
  write_gds log2f ts (Library (lib_name l) (lib_dbu l) (lib_prec l) (cs ++ bcs)).
Proof.
  intros log2f ts l s cs bcs binary Nd Hs Hb. unfold write_gds_sel.
  rewrite (proj2 (select_spec _ _ _ Nd) Hs).
  rewrite <- write_file_gds. cbn [lib_name lib_dbu lib_prec lib_cells]. rewrite map_app.
  apply write_binary_same. clear - Hb. revert binary Hb.
  induction bcs as [|c r IH]; intros b H; [exact H|]. cbn [omap map fst snd] in *.
  destruct (cell_to_gds log2f ts c); [|discriminate]. destruct (omap (cell_to_gds log2f ts) r); [|discriminate].
  rewrite (IH _ eq_refl). exact H.
Qed.

Theorem write_all : forall log2f ts l bcs binary,
  omap (cell_to_gds log2f ts) bcs = Some binary ->
  write_gds_sel log2f ts l None binary =
  write_gds log2f ts (Library (lib_name l) (lib_dbu l) (lib_prec l) (lib_cells l ++ bcs)).
Proof.
  intros log2f ts l bcs binary Hb. unfold write_gds_sel.
  rewrite <- write_file_gds. cbn [lib_name lib_dbu lib_prec lib_cells]. rewrite map_app.
  apply write_binary_same. clear - Hb. revert binary Hb.
  induction bcs as [|c r IH]; intros b H; [exact H|]. cbn [omap map fst snd] in *.
  destruct (cell_to_gds log2f ts c); [|discriminate]. destruct (omap (cell_to_gds log2f ts) r); [|discriminate].
  rewrite (IH _ eq_refl). exact H.
Qed.

Theorem write_unknown : forall log2f ts l s binary n,
  In (SName n) s -> ~ In n (map c_name (lib_cells l)) ->
  write_gds_sel log2f ts l (Some s) binary = None.
Proof.
  intros log2f ts l s binary n Hin Hn. unfold write_gds_sel.
  enough (E : omap (select1 l) s = None) by (rewrite E; reflexivity).
  assert (L : lookup_cell l n = None).
  { unfold lookup_cell. induction (lib_cells l) as [|c cs IH]; [reflexivity|]. cbn in *.
    destruct (list_eq_dec Z.eq_dec (c_name c) n); [tauto|]. apply IH. tauto. }
  induction s as [|x s IH]; [destruct Hin|]. cbn [omap]. destruct Hin as [->|Hin].
  - cbn [select1]. rewrite L. reflexivity.
  - rewrite (IH Hin). destruct (select1 l x); reflexivity.
Qed.
