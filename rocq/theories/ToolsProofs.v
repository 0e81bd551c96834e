(** Facts about the file-level tools of Tools.v. *)

From Coq Require Import List ZArith Lia Bool Permutation.
From Coq Require Import ZifyBool ZifyNat.
From Verif Require Import Bytes Real8 Records Writer Reader Stream SpecFormat Tools RoundTrip Grammar.
Import ListNotations.
Open Scope Z_scope.

(** ** Time stamps *)

Lemma skipn_zlen : forall (p r : bytes) n, zlen p = Z.of_nat n -> skipn n (p ++ r) = r.
Proof.
  intros p r n H. unfold zlen in H. assert (n = length p) by lia. subst n.
  rewrite skipn_app, Nat.sub_diag, skipn_all. reflexivity.
Qed.

Lemma set_ts_stream : forall t, length t = 24%nat -> forall rs fuel,
  Forall raw_ok rs -> Forall stamp_ok rs -> (length rs <= fuel)%nat ->
  set_ts_fuel fuel t (enc_stream rs) = Some (enc_stream (map (patch t) rs)).
Proof.
  intros t Ht. induction rs as [|r rs IH]; intros fuel Hok Hst Hf.
  - destruct fuel; reflexivity.
  - inversion Hok as [|? ? Hr Hrs]; subst. inversion Hst as [|? ? Sr Srs]; subst.
    destruct fuel as [|fuel]; [cbn in Hf; lia|].
    cbn [map]. rewrite enc_cons, (enc_cons (patch t r)).
    rewrite enc_raw_head by assumption. cbn [set_ts_fuel]. rewrite !un16_be16.
    unfold patch at 1. unfold stamp_ok, is_stamp in Sr. unfold is_stamp at 1.
    destruct ((r_word r =? 258) || (r_word r =? 1282)) eqn:E.
    + specialize (Sr eq_refl). rewrite Sr. change (4 + 24 =? 28) with true. cbv iota.
      rewrite (skipn_zlen _ _ 24) by (rewrite Sr; reflexivity).
      rewrite IH by (try assumption; cbn in Hf; lia).
      f_equal. unfold enc_raw. cbn [r_word r_payload].
      replace (zlen t) with 24 by (unfold zlen; lia).
      unfold be16. cbn [app]. reflexivity.
    + pose proof (zlen_nonneg _ (r_payload r)).
      replace (if 4 <? 4 + zlen (r_payload r) then Z.to_nat (4 + zlen (r_payload r) - 4) else 0%nat)
        with (Z.to_nat (zlen (r_payload r))) by (destruct (4 <? 4 + zlen (r_payload r)) eqn:E4; lia).
      rewrite skipn_app_zlen, firstn_app_zlen.
      rewrite IH by (try assumption; cbn in Hf; lia).
      f_equal.
Qed.

(** The result does not depend on the fuel. *)
Lemma set_ts_fuel_enough : forall t f g b, (length b <= f)%nat -> (length b <= g)%nat ->
  set_ts_fuel f t b = set_ts_fuel g t b.
Proof.
  induction f as [|f IH]; intros [|g] b Hf Hg.
  - reflexivity.
  - destruct b; [reflexivity|cbn in Hf; lia].
  - destruct b; [reflexivity|cbn in Hg; lia].
  - destruct b as [|b0 [|b1 [|b2 [|b3 rest]]]]; try reflexivity.
    cbn [set_ts_fuel]. cbn [length] in *.
    assert (L : forall n, (length (skipn n rest) <= length rest)%nat)
      by (intros; rewrite skipn_length; lia).
    destruct (_ || _).
    + rewrite (IH g (skipn 24 rest)) by (specialize (L 24%nat); lia). reflexivity.
    + cbv zeta. match goal with |- context [skipn ?n rest] =>
        rewrite (IH g (skipn n rest)) by (specialize (L n); lia) end. reflexivity.
Qed.

(** Patching twice is the same as patching with the last value: for every byte
    string, well-formed or not. *)
Lemma set_ts_last : forall t1 t2, length t1 = 24%nat -> length t2 = 24%nat ->
  forall f b b1, (length b <= f)%nat -> set_ts_fuel f t1 b = Some b1 ->
  forall g, (length b1 <= g)%nat -> set_ts_fuel g t2 b1 = set_ts_fuel f t2 b.
Proof.
  intros t1 t2 H1 H2. induction f as [|f IH]; intros b b1 Hf H g Hg.
  - destruct b; [|cbn in Hf; lia]. inversion H; subst. destruct g; reflexivity.
  - destruct b as [|b0 [|b1' [|b2 [|b3 rest]]]].
    1-4: cbn [set_ts_fuel] in *; inversion H; subst; destruct g; reflexivity.
    cbn [set_ts_fuel] in H |- *. cbn [length] in Hf.
    assert (L : forall n, (length (skipn n rest) <= length rest)%nat)
      by (intros; rewrite skipn_length; lia).
    destruct ((un16 b2 b3 =? 258) || (un16 b2 b3 =? 1282)) eqn:Es.
    + destruct (un16 b0 b1' =? 28) eqn:E28; [|discriminate].
      destruct (set_ts_fuel f t1 (skipn 24 rest)) as [r|] eqn:Er; [|discriminate].
      inversion H; subst b1. clear H. cbn [app length] in Hg.
      rewrite app_length in Hg.
      destruct g as [|g]; [lia|]. cbn [app set_ts_fuel]. rewrite Es, E28.
      rewrite (skipn_zlen t1 r 24) by (unfold zlen; lia).
      rewrite (IH (skipn 24 rest) r) by (try assumption; specialize (L 24%nat); lia).
      reflexivity.
    + cbv zeta in *.
      set (n := if 4 <? un16 b0 b1' then Z.to_nat (un16 b0 b1' - 4) else 0%nat) in *.
      destruct (set_ts_fuel f t1 (skipn n rest)) as [r|] eqn:Er; [|discriminate].
      inversion H; subst b1. clear H. cbn [app length] in Hg. rewrite app_length in Hg.
      destruct g as [|g]; [lia|]. cbn [app set_ts_fuel]. rewrite Es. fold n.
      destruct (le_lt_dec n (length rest)) as [Hn|Hn].
      * assert (Ln : length (firstn n rest) = n) by (rewrite firstn_length; lia).
        rewrite skipn_app, Ln, Nat.sub_diag, skipn_all2 by lia. cbn [skipn app].
        rewrite firstn_app, Ln, Nat.sub_diag, firstn_O, app_nil_r.
        rewrite firstn_firstn, Nat.min_id.
        rewrite (IH (skipn n rest) r) by (try assumption; specialize (L n); lia).
        reflexivity.
      * rewrite skipn_all2 in Er by lia.
        assert (r = []) by (destruct f; inversion Er; reflexivity). subst r.
        rewrite app_nil_r, (firstn_all2 rest) by lia.
        rewrite !skipn_all2 by lia. rewrite firstn_all2 by lia.
        destruct f, g; reflexivity.
Qed.

Lemma ts_payload : forall ts t, pack (ts_fields ts) = Some t ->
  length t = 24%nat /\ rI2 0x0102 (ts_ints ts) = Raw 0x0102 t /\ rI2 0x0502 (ts_ints ts) = Raw 0x0502 t.
Proof.
  intros ts t H. rewrite ts_fields_ints in H. apply pack_shorts in H. destruct H as (-> & Hr).
  split; [|split; reflexivity]. reflexivity.
Qed.

(** ** Streams of written files *)

Section WithLog2.
Variable log2f : dy -> dy.

Definition file_raws (hts : tstamp) (name : str) (dbu prec : dy) (cells : list (tstamp * cell)) : list raw :=
  header_raws log2f hts name dbu prec
  ++ flat_map (fun tc => cell_raws log2f (fst tc) (snd tc)) cells ++ [rNone 0x0400].

Lemma oapp_nil_l : forall x, Some [] +++ x = x.
Proof. intros [x|]; reflexivity. Qed.

Lemma oapp_assoc : forall a b c, (a +++ b) +++ c = a +++ b +++ c.
Proof.
  intros [a|] [b|] [c|]; cbn; try reflexivity. rewrite app_assoc. reflexivity.
Qed.

Lemma oconcat_app : forall a b, oconcat (a ++ b) = oconcat a +++ oconcat b.
Proof.
  induction a as [|x a IH]; intros b; cbn [oconcat app].
  - rewrite oapp_nil_l. reflexivity.
  - rewrite IH, oapp_assoc. reflexivity.
Qed.

Lemma file_encodes : forall hts n d p cs b, write_file log2f hts n d p cs [] = Some b ->
  encodes b (file_raws hts n d p cs).
Proof.
  intros hts n d p cs b H. unfold write_file in H. cbn [map oconcat] in H.
  rewrite oapp_nil_l in H.
  apply oapp_Some in H. destruct H as (b1 & z & H1 & H & ->).
  apply oapp_Some in H. destruct H as (b2 & b3 & H2 & H3 & ->).
  unfold file_raws.
  apply encodes_app; [apply header_encodes; assumption|].
  apply encodes_app; [|apply endlib_encodes; assumption].
  eapply (encodes_oconcat _ (fun tc => cell_to_gds log2f (fst tc) (snd tc))); [|exact H2].
  intros. apply cell_encodes. assumption.
Qed.

(** Records inside a cell body. *)
Definition body_raws (c : cell) : list raw := rStr 0x0606 (c_name c) :: elems_raws log2f c.

Lemma elems_inner : forall ts c b, cell_to_gds log2f ts c = Some b ->
  Forall (fun r => In (r_word r) inner_words) (elems_raws log2f c).
Proof.
  intros ts c b H. apply elems_words, elements_inner in H.
  unfold words in H. rewrite Forall_map in H. exact H.
Qed.

Lemma patch_elems : forall t ts c b, cell_to_gds log2f ts c = Some b ->
  map (patch t) (elems_raws log2f c) = elems_raws log2f c.
Proof.
  intros t ts c b H. rewrite <- map_id. apply map_ext_in. intros r Hr.
  pose proof (elems_inner _ _ _ H) as I. rewrite Forall_forall in I. specialize (I r Hr).
  apply inner_types in I. unfold patch, is_stamp.
  replace (r_word r =? 258) with false by lia. replace (r_word r =? 1282) with false by lia.
  reflexivity.
Qed.

Lemma patch_cell : forall ts t ts0 c b, pack (ts_fields ts) = Some t ->
  cell_to_gds log2f ts0 c = Some b ->
  map (patch t) (cell_raws log2f ts0 c) = cell_raws log2f ts c.
Proof.
  intros ts t ts0 c b Ht H. destruct (ts_payload _ _ Ht) as (_ & _ & E).
  unfold cell_raws. rewrite !map_app, (patch_elems _ _ _ _ H). cbn [map].
  rewrite E. reflexivity.
Qed.

Lemma patch_file : forall ts t hts n d p cs b, pack (ts_fields ts) = Some t ->
  write_file log2f hts n d p cs [] = Some b ->
  map (patch t) (file_raws hts n d p cs) = file_raws ts n d p (map (fun tc => (ts, snd tc)) cs).
Proof.
  intros ts t hts n d p cs b Ht H. destruct (ts_payload _ _ Ht) as (_ & E & _).
  unfold file_raws. rewrite !map_app. f_equal; [|f_equal].
  - unfold header_raws. rewrite E. reflexivity.
  - unfold write_file in H.
    apply oapp_Some in H. destruct H as (b1 & z & H1 & H & _).
    apply oapp_Some in H. destruct H as (b2 & b3 & H2 & _ & _).
    clear - H2 Ht. revert b2 H2. induction cs as [|[tc c] cs IH]; intros b H; [reflexivity|].
    cbn [map oconcat fst snd flat_map] in *. apply oapp_Some in H.
    destruct H as (y & z & Hy & Hz & _). rewrite map_app, (IH _ Hz), (patch_cell _ _ _ _ _ Ht Hy).
    reflexivity.
Qed.

Lemma inner_stamp_ok : forall r, In (r_word r) inner_words -> stamp_ok r.
Proof.
  intros r H Hs. apply inner_types in H. unfold is_stamp in Hs. lia.
Qed.

Lemma file_stamp_ok : forall hts n d p cs b, write_file log2f hts n d p cs [] = Some b ->
  Forall stamp_ok (file_raws hts n d p cs).
Proof.
  intros hts n d p cs b H. unfold file_raws. apply Forall_app. split; [|apply Forall_app; split].
  - unfold header_raws. repeat apply Forall_cons; try apply Forall_nil; intros Hs; try discriminate Hs.
    reflexivity.
  - unfold write_file in H.
    apply oapp_Some in H. destruct H as (b1 & z & H1 & H & _).
    apply oapp_Some in H. destruct H as (b2 & b3 & H2 & _ & _).
    clear - H2. revert b2 H2. induction cs as [|[tc c] cs IH]; intros b H; [constructor|].
    cbn [map oconcat fst snd flat_map] in *. apply oapp_Some in H.
    destruct H as (y & z & Hy & Hz & _). apply Forall_app. split; [|eapply IH; eassumption].
    unfold cell_raws. apply Forall_app. split; [|apply Forall_app; split].
    + repeat apply Forall_cons; try apply Forall_nil; intros Hs; try discriminate Hs. reflexivity.
    + eapply Forall_impl; [|eapply elems_inner; eassumption]. exact inner_stamp_ok.
    + repeat apply Forall_cons; try apply Forall_nil; intros Hs; discriminate Hs.
  - repeat apply Forall_cons; try apply Forall_nil; intros Hs; discriminate Hs.
Qed.

(** Writing does not depend on the time stamp except for its bytes. *)
Lemma cell_retime : forall ts t ts0 c b, pack (ts_fields ts) = Some t ->
  cell_to_gds log2f ts0 c = Some b -> exists b', cell_to_gds log2f ts c = Some b'.
Proof.
  intros ts t ts0 c b Ht H. unfold cell_to_gds in *. cbv zeta in *.
  apply oapp_Some in H. destruct H as (b1 & z & H1 & H & ->). rewrite H.
  match goal with |- exists b', ?p +++ _ = _ => destruct p eqn:E end; [eexists; reflexivity|exfalso].
  unfold pack in *. rewrite !map_app, !oconcat_app in *.
  apply oapp_Some in H1. destruct H1 as (y1 & y2 & E1 & H1 & _).
  apply oapp_Some in H1. destruct H1 as (y3 & y4 & E3 & E4 & _).
  rewrite E1, Ht, E4 in E. discriminate.
Qed.

Lemma header_retime : forall ts t ts0 n d p b, pack (ts_fields ts) = Some t ->
  header_to_gds log2f ts0 n d p = Some b -> exists b', header_to_gds log2f ts n d p = Some b'.
Proof.
  intros ts t ts0 n d p b Ht H. unfold header_to_gds in *. cbv zeta in *.
  apply oapp_Some in H. destruct H as (b1 & z & H1 & H & ->). rewrite H.
  match goal with |- exists b', ?p +++ _ = _ => destruct p eqn:E end; [eexists; reflexivity|exfalso].
  unfold pack in *. rewrite !map_app, !oconcat_app in *.
  apply oapp_Some in H1. destruct H1 as (y1 & y2 & E1 & H1 & _).
  apply oapp_Some in H1. destruct H1 as (y3 & y4 & E3 & E4 & _).
  rewrite E1, Ht, E4 in E. discriminate.
Qed.

Lemma file_retime : forall ts t hts n d p cs b, pack (ts_fields ts) = Some t ->
  write_file log2f hts n d p cs [] = Some b ->
  exists b', write_file log2f ts n d p (map (fun tc => (ts, snd tc)) cs) [] = Some b'.
Proof.
  intros ts t hts n d p cs b Ht H. unfold write_file in *.
  apply oapp_Some in H. destruct H as (b1 & z & H1 & H & _).
  apply oapp_Some in H. destruct H as (b2 & b3 & H2 & H3 & _). rewrite H3.
  destruct (header_retime _ _ _ _ _ _ _ Ht H1) as (h & ->).
  enough (K : exists b', oconcat (map (fun tc : tstamp * cell => cell_to_gds log2f (fst tc) (snd tc))
                    (map (fun tc => (ts, snd tc)) cs)) = Some b').
  { destruct K as (b' & ->). eexists. reflexivity. }
  clear - H2 Ht. revert b2 H2. induction cs as [|[tc c] cs IH]; intros b H; [eexists; reflexivity|].
  cbn [map oconcat fst snd] in *. apply oapp_Some in H. destruct H as (y & z & Hy & Hz & _).
  destruct (IH _ Hz) as (b' & ->). destruct (cell_retime _ _ _ _ _ Ht Hy) as (y' & ->).
  eexists. reflexivity.
Qed.

Theorem patch_rewrite : forall ts t hts n d p cs b, pack (ts_fields ts) = Some t ->
  write_file log2f hts n d p cs [] = Some b ->
  set_gdsii_timestamp b ts = write_file log2f ts n d p (map (fun tc => (ts, snd tc)) cs) [].
Proof.
  intros ts t hts n d p cs b Ht H.
  destruct (file_retime _ _ _ _ _ _ _ _ Ht H) as (b' & Hb'). rewrite Hb'.
  pose proof (file_stamp_ok _ _ _ _ _ _ H) as St.
  destruct (file_encodes _ _ _ _ _ _ H) as (E & Ok).
  destruct (file_encodes _ _ _ _ _ _ Hb') as (E' & _).
  unfold set_gdsii_timestamp. rewrite Ht. rewrite E.
  rewrite set_ts_stream; [|destruct (ts_payload _ _ Ht); assumption|assumption|assumption|apply length_enc_stream].
  rewrite (patch_file _ _ _ _ _ _ _ _ Ht H), <- E'. reflexivity.
Qed.

End WithLog2.

(** ** Hash *)

Lemma hash_loop_eq : forall fuel data start pos,
  hash_loop (S fuel) data start pos =
  if (length data <=? pos)%nat then Some [] else
  match skipn pos data with
  | b0 :: b1 :: b2 :: b3 :: _ =>
      let size := un16 b0 b1 in
      let rec := un16 b2 b3 in
      let next := (pos + Z.to_nat size)%nat in
      if rec =? 0x0502 then hash_loop fuel data (pos + 28) next
      else if rec =? 0x0700 then
        match hash_loop fuel data start next with
        | Some l => Some (slice_bytes start pos data :: l)
        | None => None
        end
      else if size =? 0 then Some []
      else hash_loop fuel data start next
  | _ => None
  end.
Proof. reflexivity. Qed.

Lemma skipn_length_app : forall (pre post : bytes), skipn (length pre) (pre ++ post) = post.
Proof. intros. rewrite skipn_app, Nat.sub_diag, skipn_all. reflexivity. Qed.

Lemma hash_step : forall fuel pre r post start, raw_ok r ->
  let data := pre ++ enc_raw r ++ post in
  let next := length (pre ++ enc_raw r) in
  hash_loop (S fuel) data start (length pre) =
  if r_word r =? 0x0502 then hash_loop fuel data (length pre + 28) next
  else if r_word r =? 0x0700 then
    match hash_loop fuel data start next with
    | Some l => Some (slice_bytes start (length pre) data :: l)
    | None => None
    end
  else hash_loop fuel data start next.
Proof.
  intros fuel pre r post start Hr data next. rewrite hash_loop_eq.
  assert (Hl : length data = (length pre + (4 + length (r_payload r)) + length post)%nat).
  { unfold data. rewrite !app_length, length_enc_raw. lia. }
  replace (length data <=? length pre)%nat with false by lia.
  assert (Es : skipn (length pre) data = enc_raw r ++ post) by apply skipn_length_app.
  rewrite Es. rewrite enc_raw_head by assumption.
  cbv zeta iota. rewrite !un16_be16.
  pose proof (zlen_nonneg _ (r_payload r)).
  replace (4 + zlen (r_payload r) =? 0) with false by lia.
  replace (length pre + Z.to_nat (4 + zlen (r_payload r)))%nat with next.
  - reflexivity.
  - unfold next. rewrite app_length, length_enc_raw. unfold zlen. lia.
Qed.

Lemma hash_skip : forall rs fuel pre post start,
  Forall raw_ok rs -> Forall (fun r => r_word r <> 0x0502 /\ r_word r <> 0x0700) rs ->
  hash_loop (length rs + fuel) (pre ++ enc_stream rs ++ post) start (length pre) =
  hash_loop fuel (pre ++ enc_stream rs ++ post) start (length (pre ++ enc_stream rs)).
Proof.
  induction rs as [|r rs IH]; intros fuel pre post start Hok Hw.
  - cbn [enc_stream flat_map app length Nat.add]. rewrite app_nil_r. reflexivity.
  - inversion Hok; subst. inversion Hw as [|? ? [W1 W2] ?]; subst.
    rewrite enc_cons, <- !app_assoc. cbn [length Nat.add].
    rewrite (hash_step _ pre r (enc_stream rs ++ post) start) by assumption.
    replace (r_word r =? 1282) with false by lia. replace (r_word r =? 1792) with false by lia.
    specialize (IH fuel (pre ++ enc_raw r) post start). rewrite <- !app_assoc in IH.
    rewrite IH by assumption. reflexivity.
Qed.

(** Bytes of a cell between its BGNSTR and ENDSTR records. *)
Definition content (log2f : dy -> dy) (c : cell) : bytes := enc_stream (body_raws log2f c).

Lemma slice_mid : forall (pre mid post : bytes) a b, a = length pre -> b = length (pre ++ mid) ->
  slice_bytes a b (pre ++ mid ++ post) = mid.
Proof.
  intros pre mid post a b -> ->. unfold slice_bytes. rewrite skipn_length_app, app_length.
  replace (length pre + length mid - length pre)%nat with (length mid) by lia.
  rewrite firstn_app, Nat.sub_diag, firstn_O, app_nil_r, firstn_all. reflexivity.
Qed.

Lemma body_words : forall log2f ts c b, cell_to_gds log2f ts c = Some b ->
  Forall (fun r => r_word r <> 0x0502 /\ r_word r <> 0x0700) (body_raws log2f c).
Proof.
  intros log2f ts c b H. constructor; [split; discriminate|].
  eapply Forall_impl; [|eapply elems_inner; eassumption].
  intros r I. apply inner_types in I. tauto.
Qed.

Lemma cell_raws_split : forall log2f ts c,
  cell_raws log2f ts c = rI2 0x0502 (ts_ints ts) :: body_raws log2f c ++ [rNone 0x0700].
Proof. reflexivity. Qed.

Lemma hash_cell : forall log2f ts c b, cell_to_gds log2f ts c = Some b ->
  forall fuel pre post start,
  exists start',
  hash_loop (length (cell_raws log2f ts c) + fuel) (pre ++ b ++ post) start (length pre) =
  match hash_loop fuel (pre ++ b ++ post) start' (length (pre ++ b)) with
  | Some l => Some (content log2f c :: l)
  | None => None
  end.
Proof.
  intros log2f ts c b H fuel pre post start.
  pose proof (body_words _ _ _ _ H) as W.
  destruct (cell_encodes _ _ _ _ H) as (-> & Ok).
  rewrite cell_raws_split in *. pose proof (Forall_inv Ok) as Ok1. apply Forall_inv_tail in Ok.
  rename Ok into Ok2. apply Forall_app in Ok2. destruct Ok2 as (Ok2 & Ok3). inversion Ok3 as [|? ? Ok4 _]; subst.
  set (bg := rI2 0x0502 (ts_ints ts)) in *. set (body := body_raws log2f c) in *.
  exists (length pre + 28)%nat.
  assert (Es : pre ++ enc_stream (bg :: body ++ [rNone 0x0700]) ++ post
               = pre ++ enc_raw bg ++ (enc_stream body ++ enc_raw (rNone 0x0700) ++ post)).
  { rewrite enc_cons, enc_stream_app. cbn [enc_stream flat_map]. rewrite app_nil_r, <- !app_assoc. reflexivity. }
  assert (En : length (pre ++ enc_stream (bg :: body ++ [rNone 0x0700]))
               = length (((pre ++ enc_raw bg) ++ enc_stream body) ++ enc_raw (rNone 0x0700))).
  { rewrite enc_cons, enc_stream_app. cbn [enc_stream flat_map]. rewrite app_nil_r, <- !app_assoc. reflexivity. }
  rewrite En, Es.
  replace (length (bg :: body ++ [rNone 1792]) + fuel)%nat with (S (length body + S fuel))%nat
    by (cbn [length]; rewrite app_length; cbn [length]; lia).
  rewrite (hash_step _ pre bg _ start) by assumption.
  change (r_word bg =? 1282) with true. cbv iota.
  assert (E1 : pre ++ enc_raw bg ++ enc_stream body ++ enc_raw (rNone 1792) ++ post
               = (pre ++ enc_raw bg) ++ enc_stream body ++ enc_raw (rNone 1792) ++ post)
    by (rewrite <- !app_assoc; reflexivity).
  rewrite E1. rewrite hash_skip by assumption.
  assert (E2 : (pre ++ enc_raw bg) ++ enc_stream body ++ enc_raw (rNone 1792) ++ post
               = ((pre ++ enc_raw bg) ++ enc_stream body) ++ enc_raw (rNone 1792) ++ post)
    by (rewrite <- !app_assoc; reflexivity).
  rewrite E2.
  rewrite (hash_step fuel ((pre ++ enc_raw bg) ++ enc_stream body) (rNone 1792) post) by assumption.
  change (r_word (rNone 1792) =? 1282) with false.
  change (r_word (rNone 1792) =? 1792) with true. cbv iota.
  destruct (hash_loop fuel _ _ _); [|reflexivity].
  f_equal. f_equal. rewrite <- E2. rewrite slice_mid.
  - reflexivity.
  - rewrite app_length. reflexivity.
  - reflexivity.
Qed.

Lemma hash_loop_end : forall fuel data start, hash_loop fuel data start (length data) = Some [].
Proof. intros [|f] data start; unfold hash_loop; rewrite Nat.leb_refl; reflexivity. Qed.

Lemma hash_cells : forall log2f cs b,
  oconcat (map (fun tc => cell_to_gds log2f (fst tc) (snd tc)) cs) = Some b ->
  forall fuel pre post start,
  exists start',
  hash_loop (length (flat_map (fun tc => cell_raws log2f (fst tc) (snd tc)) cs) + fuel)
            (pre ++ b ++ post) start (length pre) =
  match hash_loop fuel (pre ++ b ++ post) start' (length (pre ++ b)) with
  | Some l => Some (map (fun tc => content log2f (snd tc)) cs ++ l)
  | None => None
  end.
Proof.
  induction cs as [|[ts c] cs IH]; intros b H fuel pre post start.
  - inversion H; subst. exists start. cbn [flat_map length Nat.add map app]. rewrite app_nil_r.
    destruct (hash_loop fuel _ _ _); reflexivity.
  - cbn [map oconcat fst snd] in H. apply oapp_Some in H. destruct H as (y & z & Hy & Hz & ->).
    cbn [flat_map map fst snd]. rewrite app_length, <- Nat.add_assoc.
    destruct (hash_cell _ _ _ _ Hy
      (length (flat_map (fun tc => cell_raws log2f (fst tc) (snd tc)) cs) + fuel) pre (z ++ post) start)
      as (s1 & E1).
    rewrite <- app_assoc. rewrite E1.
    destruct (IH _ Hz fuel (pre ++ y) post s1) as (s2 & E2).
    rewrite <- !app_assoc in E2. exists s2.
    rewrite E2. rewrite <- ?app_assoc. destruct (hash_loop fuel _ _ _); reflexivity.
Qed.

Lemma hash_loop_mono : forall f data start pos l, hash_loop f data start pos = Some l ->
  forall g, (f <= g)%nat -> hash_loop g data start pos = Some l.
Proof.
  induction f as [|f IH]; intros data start pos l H g Hg.
  - cbn [hash_loop] in H. destruct (length data <=? pos)%nat eqn:E; [|discriminate].
    destruct g; cbn [hash_loop]; rewrite E; exact H.
  - destruct g as [|g]; [lia|]. rewrite hash_loop_eq in *.
    destruct (length data <=? pos)%nat; [exact H|].
    destruct (skipn pos data) as [|b0 [|b1 [|b2 [|b3 r]]]]; try discriminate.
    cbv zeta in *.
    destruct (_ =? 1282); [eapply IH; [eassumption|lia]|].
    destruct (_ =? 1792).
    + destruct (hash_loop f _ _ _) eqn:E; [|discriminate].
      rewrite (IH _ _ _ _ E g) by lia. exact H.
    + destruct (_ =? 0); [exact H|]. eapply IH; [eassumption|lia].
Qed.

Theorem hash_contents_file : forall log2f hts n d p cs b,
  write_file log2f hts n d p cs [] = Some b ->
  hash_contents b = Some (map (fun tc => content log2f (snd tc)) cs).
Proof.
  intros log2f hts n d p cs b H. pose proof (file_encodes _ _ _ _ _ _ _ H) as (E & _).
  pose proof (length_enc_stream (file_raws log2f hts n d p cs)) as L. rewrite <- E in L. clear E.
  unfold write_file in H. cbn [map oconcat] in H. rewrite oapp_nil_l in H.
  apply oapp_Some in H. destruct H as (b1 & z & H1 & H & ->).
  apply oapp_Some in H. destruct H as (b2 & b3 & H2 & H3 & ->).
  unfold hash_contents. eapply hash_loop_mono; [|exact L].
  apply header_encodes in H1. destruct H1 as (-> & Ok1).
  apply endlib_encodes in H3. destruct H3 as (-> & Ok3).
  unfold file_raws. rewrite !app_length.
  replace (length (header_raws log2f hts n d p) +
    (length (flat_map (fun tc => cell_raws log2f (fst tc) (snd tc)) cs) + length [rNone 1024]))%nat
    with (length (header_raws log2f hts n d p) +
    (length (flat_map (fun tc => cell_raws log2f (fst tc) (snd tc)) cs) + 1))%nat by reflexivity.
  pose proof (hash_skip (header_raws log2f hts n d p)
    (length (flat_map (fun tc => cell_raws log2f (fst tc) (snd tc)) cs) + 1)
    [] (b2 ++ enc_stream [rNone 1024]) 0) as E.
  cbn [app length] in E. rewrite E; [|assumption|].
  2:{ unfold header_raws. repeat (apply Forall_cons; [split; discriminate|]). apply Forall_nil. }
  destruct (hash_cells _ _ _ H2 1 (enc_stream (header_raws log2f hts n d p))
              (enc_stream [rNone 1024]) 0) as (s & E2).
  rewrite E2. rewrite app_assoc.
  cbn [enc_stream flat_map].
  inversion Ok3 as [|? ? Ok4 _]; subst.
  rewrite (hash_step 0 (enc_stream (header_raws log2f hts n d p) ++ b2) (rNone 1024) [] s Ok4).
  change (r_word (rNone 1024) =? 1282) with false.
  change (r_word (rNone 1024) =? 1792) with false. cbv iota.
  replace (length ((enc_stream (header_raws log2f hts n d p) ++ b2) ++ enc_raw (rNone 1024)))
    with (length ((enc_stream (header_raws log2f hts n d p) ++ b2) ++ enc_raw (rNone 1024) ++ []))
    by (rewrite app_nil_r; reflexivity).
  rewrite hash_loop_end. rewrite app_nil_r. reflexivity.
Qed.

(** *** Sorting *)

Lemma bytes_leb_refl : forall a, bytes_leb a a = true.
Proof. induction a as [|x a IH]; [reflexivity|]. cbn. replace (x <? x) with false by lia. exact IH. Qed.

Lemma bytes_leb_total : forall a b, bytes_leb a b = true \/ bytes_leb b a = true.
Proof.
  induction a as [|x a IH]; intros [|y b]; cbn; try (left; reflexivity); try (right; reflexivity).
  destruct (x <? y) eqn:E1; [left; reflexivity|]. destruct (y <? x) eqn:E2; [right; reflexivity|]. apply IH.
Qed.

Lemma bytes_leb_antisym : forall a b, bytes_leb a b = true -> bytes_leb b a = true -> a = b.
Proof.
  induction a as [|x a IH]; intros [|y b] H1 H2; cbn in *; try reflexivity; try discriminate.
  destruct (x <? y) eqn:E1; destruct (y <? x) eqn:E2; try discriminate; try lia.
  assert (x = y) by lia. subst y. f_equal. apply IH; assumption.
Qed.

Lemma bytes_leb_trans : forall a b c, bytes_leb a b = true -> bytes_leb b c = true -> bytes_leb a c = true.
Proof.
  induction a as [|x a IH]; intros [|y b] [|z c] H1 H2; cbn in *; try reflexivity; try discriminate.
  destruct (x <? y) eqn:E1.
  - destruct (y <? z) eqn:E2.
    + replace (x <? z) with true by lia. reflexivity.
    + destruct (z <? y) eqn:E3; [discriminate|]. replace (x <? z) with true by lia. reflexivity.
  - destruct (y <? x) eqn:E2; [discriminate|]. assert (x = y) by lia. subst y.
    destruct (x <? z) eqn:E3; [reflexivity|]. destruct (z <? x) eqn:E4; [discriminate|].
    eapply IH; eassumption.
Qed.

Lemma insert_comm : forall x y l, insert_bytes x (insert_bytes y l) = insert_bytes y (insert_bytes x l).
Proof.
  intros x y. induction l as [|z l IH].
  - cbn. destruct (bytes_leb x y) eqn:E1; destruct (bytes_leb y x) eqn:E2; try reflexivity.
    + rewrite (bytes_leb_antisym _ _ E1 E2). reflexivity.
    + destruct (bytes_leb_total x y); congruence.
  - cbn [insert_bytes]. destruct (bytes_leb x z) eqn:Ex; destruct (bytes_leb y z) eqn:Ey; cbn [insert_bytes].
    + rewrite Ex, Ey. destruct (bytes_leb x y) eqn:E1; destruct (bytes_leb y x) eqn:E2; try reflexivity.
      * rewrite (bytes_leb_antisym _ _ E1 E2). reflexivity.
      * destruct (bytes_leb_total x y); congruence.
    + rewrite Ex. destruct (bytes_leb y x) eqn:E2.
      * rewrite (bytes_leb_trans _ _ _ E2 Ex) in Ey. discriminate.
      * cbn [insert_bytes]. rewrite Ey. reflexivity.
    + rewrite Ey. destruct (bytes_leb x y) eqn:E2.
      * rewrite (bytes_leb_trans _ _ _ E2 Ey) in Ex. discriminate.
      * cbn [insert_bytes]. rewrite Ex. reflexivity.
    + rewrite Ex, Ey, IH. reflexivity.
Qed.

Lemma insert_perm : forall x l, Permutation (insert_bytes x l) (x :: l).
Proof.
  intros x. induction l as [|y l IH]; [reflexivity|]. cbn [insert_bytes].
  destruct (bytes_leb x y); [reflexivity|]. rewrite IH. apply perm_swap.
Qed.

Lemma sorted_perm : forall l, Permutation (sorted_bytes l) l.
Proof.
  induction l as [|x l IH]; [reflexivity|]. cbn [sorted_bytes fold_right].
  rewrite insert_perm. constructor. exact IH.
Qed.

Lemma sorted_eq : forall l1 l2, Permutation l1 l2 -> sorted_bytes l1 = sorted_bytes l2.
Proof.
  induction 1; cbn [sorted_bytes fold_right] in *.
  - reflexivity.
  - unfold sorted_bytes in *. rewrite IHPermutation. reflexivity.
  - apply insert_comm.
  - congruence.
Qed.

(** *** Records and contents can be recovered from concatenated contents *)

Lemma app_eq_len : forall A (a b c d : list A), a ++ b = c ++ d -> length a = length c -> a = c /\ b = d.
Proof.
  induction a as [|x a IH]; intros b [|y c] d H L; cbn in *; try discriminate.
  - split; [reflexivity|assumption].
  - inversion H; subst. destruct (IH b c d H2) as (-> & ->); [lia|]. split; reflexivity.
Qed.

Lemma enc_raw_inj : forall r1 r2 t1 t2, raw_ok r1 -> raw_ok r2 ->
  enc_raw r1 ++ t1 = enc_raw r2 ++ t2 -> r1 = r2 /\ t1 = t2.
Proof.
  intros [w1 p1] [w2 p2] t1 t2 H1 H2 H. rewrite !enc_raw_head in H by assumption.
  cbn [r_word r_payload] in H.
  assert (Ls : forall p : bytes, exists z, z = 4 + zlen p) by (intros; eexists; reflexivity).
  destruct (Ls p1) as (z1 & E1). destruct (Ls p2) as (z2 & E2). rewrite <- E1, <- E2 in H.
  injection H as A B C D E.
  assert (zlen p1 = zlen p2).
  { pose proof (un16_be16 z1) as U1. pose proof (un16_be16 z2) as U2.
    rewrite A, B in U1. lia. }
  assert (w1 = w2).
  { rewrite <- (un16_be16 w1), <- (un16_be16 w2). congruence. }
  apply app_eq_len in E; [|unfold zlen in *; lia]. destruct E; subst. split; reflexivity.
Qed.

Lemma enc_stream_inj : forall rs1 rs2, Forall raw_ok rs1 -> Forall raw_ok rs2 ->
  enc_stream rs1 = enc_stream rs2 -> rs1 = rs2.
Proof.
  induction rs1 as [|r1 rs1 IH]; intros [|r2 rs2] H1 H2 H.
  - reflexivity.
  - rewrite enc_cons in H. apply (f_equal (@length Z)) in H. rewrite app_length, length_enc_raw in H. discriminate.
  - rewrite enc_cons in H. apply (f_equal (@length Z)) in H. rewrite app_length, length_enc_raw in H. discriminate.
  - inversion H1; subst. inversion H2; subst. rewrite !enc_cons in H.
    apply enc_raw_inj in H; [|assumption|assumption]. destruct H as (-> & H). f_equal. apply IH; assumption.
Qed.

(** Lists that start with a marker and contain no other marker. *)
Definition headed {A} (P : A -> Prop) (l : list A) : Prop :=
  exists x r, l = x :: r /\ P x /\ Forall (fun y => ~ P y) r.

Lemma headed_split : forall A (P : A -> Prop) (r1 r2 t1 t2 : list A),
  Forall (fun y => ~ P y) r1 -> Forall (fun y => ~ P y) r2 ->
  (t1 = [] \/ exists x t, t1 = x :: t /\ P x) ->
  (t2 = [] \/ exists x t, t2 = x :: t /\ P x) ->
  r1 ++ t1 = r2 ++ t2 -> r1 = r2 /\ t1 = t2.
Proof.
  induction r1 as [|x r1 IH]; intros [|y r2] t1 t2 H1 H2 T1 T2 H; cbn [app] in H.
  - split; [reflexivity|assumption].
  - subst t1. inversion H2; subst. destruct T1 as [T1|(z & t & T1 & Pz)]; [discriminate|].
    inversion T1; subst. contradiction.
  - subst t2. inversion H1; subst. destruct T2 as [T2|(z & t & T2 & Pz)]; [discriminate|].
    inversion T2; subst. contradiction.
  - inversion H; subst. inversion H1; subst. inversion H2; subst.
    destruct (IH r2 t1 t2) as (-> & ->); try assumption. split; reflexivity.
Qed.

Lemma headed_concat_start : forall A (P : A -> Prop) (ls : list (list A)), Forall (headed P) ls ->
  concat ls = [] \/ exists x t, concat ls = x :: t /\ P x.
Proof.
  intros A P [|l ls] H; [left; reflexivity|]. right. inversion H as [|? ? (x & r & -> & Px & _) _]; subst.
  exists x, (r ++ concat ls). split; [reflexivity|assumption].
Qed.

Lemma headed_concat_inj : forall A (P : A -> Prop) (l1 l2 : list (list A)),
  Forall (headed P) l1 -> Forall (headed P) l2 -> concat l1 = concat l2 -> l1 = l2.
Proof.
  induction l1 as [|a l1 IH]; intros [|b l2] H1 H2 H.
  - reflexivity.
  - inversion H2 as [|? ? (x & r & -> & Px & _) _]; subst. discriminate.
  - inversion H1 as [|? ? (x & r & -> & Px & _) _]; subst. discriminate.
  - inversion H1 as [|? ? (x & r & -> & Px & Hr) G1]; subst.
    inversion H2 as [|? ? (y & s & -> & Py & Hs) G2]; subst.
    cbn [concat app] in H. inversion H as [[E1 E2]]. subst y.
    apply (headed_split _ P) in E2; try assumption; try (apply headed_concat_start; assumption).
    destruct E2 as (-> & E2). f_equal. apply IH; assumption.
Qed.

Lemma body_headed : forall log2f ts c b, cell_to_gds log2f ts c = Some b ->
  Forall raw_ok (body_raws log2f c) /\ headed (fun r => r_word r = 0x0606) (body_raws log2f c).
Proof.
  intros log2f ts c b H. split.
  - destruct (cell_encodes _ _ _ _ H) as (_ & Ok). rewrite cell_raws_split in Ok.
    apply Forall_inv_tail in Ok. apply Forall_app in Ok. tauto.
  - exists (rStr 0x0606 (c_name c)), (elems_raws log2f c). split; [reflexivity|]. split; [reflexivity|].
    eapply Forall_impl; [|eapply elems_inner; eassumption].
    cbv beta. intros r I E. apply inner_types in I. rewrite E in I. destruct I as (_ & _ & I & _). apply I. reflexivity.
Qed.

Lemma enc_stream_concat : forall rss, concat (map enc_stream rss) = enc_stream (concat rss).
Proof.
  induction rss as [|r rss IH]; [reflexivity|]. cbn [map concat]. rewrite IH, enc_stream_app. reflexivity.
Qed.

Lemma Permutation_map_inv_bytes : forall A (f : A -> bytes) l1 l2,
  Permutation l1 (map f l2) -> exists l3, l1 = map f l3 /\ Permutation l3 l2.
Proof.
  intros A f l1 l2 H. apply Permutation_map_inv in H.
  destruct H as (l3 & E & P). exists l3. split; [assumption|]. apply Permutation_sym. exact P.
Qed.

Lemma contents_recover : forall (P : list raw -> Prop),
  (forall rs, P rs -> Forall raw_ok rs /\ headed (fun r => r_word r = 0x0606) rs) ->
  forall l1 l2, Forall P l1 -> Forall P l2 ->
  concat (sorted_bytes (map enc_stream l1)) = concat (sorted_bytes (map enc_stream l2)) ->
  Permutation l1 l2.
Proof.
  intros P HP l1 l2 H1 H2 H.
  destruct (Permutation_map_inv_bytes _ _ _ _ (sorted_perm (map enc_stream l1))) as (s1 & E1 & P1).
  destruct (Permutation_map_inv_bytes _ _ _ _ (sorted_perm (map enc_stream l2))) as (s2 & E2 & P2).
  rewrite E1, E2, !enc_stream_concat in H.
  assert (G1 : Forall P s1) by (eapply Permutation_Forall; [apply Permutation_sym; exact P1|exact H1]).
  assert (G2 : Forall P s2) by (eapply Permutation_Forall; [apply Permutation_sym; exact P2|exact H2]).
  assert (K : forall s, Forall P s -> Forall raw_ok (concat s) /\ Forall (headed (fun r => r_word r = 0x0606)) s).
  { intros s Hs. split.
    - apply Forall_concat. eapply Forall_impl; [|exact Hs]. intros x Hx. apply HP. exact Hx.
    - eapply Forall_impl; [|exact Hs]. intros x Hx. apply HP. exact Hx. }
  destruct (K _ G1) as (R1 & D1). destruct (K _ G2) as (R2 & D2).
  apply enc_stream_inj in H; [|assumption|assumption].
  apply (headed_concat_inj _ (fun r => r_word r = 0x0606)) in H; [|assumption|assumption]. subst s2.
  rewrite <- P1. exact P2.
Qed.

(** ** Binary cells *)

Lemma bin_steps_app : forall a b s,
  bin_steps s (a ++ b) = match bin_steps s a with Some s' => bin_steps s' b | None => None end.
Proof.
  induction a as [|r a IH]; intros b s; [reflexivity|]. cbn [bin_steps app].
  destruct (bin_step s r); [apply IH|reflexivity].
Qed.

Definition raw_pair (r : raw) : Z * bytes := (r_word r / 256, enc_raw r).

Lemma bin_inner : forall rs d n l, Forall (fun r => In (r_word r) inner_words) rs ->
  bin_steps (BState d n (Some l)) (map raw_pair rs) = Some (BState d n (Some (l ++ map enc_raw rs))).
Proof.
  induction rs as [|r rs IH]; intros d n l H; cbn [map bin_steps].
  - rewrite app_nil_r. reflexivity.
  - inversion H as [|? ? H1 H2]; subst. apply inner_types in H1.
    unfold raw_pair at 1, bin_step. cbn [bs_data bs_cells bs_name].
    replace (r_word r / 256 =? 5) with false by lia.
    replace (r_word r / 256 =? 6) with false by lia.
    replace (r_word r / 256 =? 7) with false by lia.
    rewrite IH by assumption. cbn [map]. rewrite <- app_assoc. reflexivity.
Qed.

Lemma strname_pad : forall s, text_ok s -> Forall (fun c => 0 <= c < 128) s ->
  strname_of (enc_raw (rStr 0x0606 s)) = Some s.
Proof.
  intros s (Hne & Hl) Ha. unfold strname_of. rewrite enc_rStr.
  set (h := be16 (4 + zlen (pad s)) ++ be16 1542).
  assert (Lh : length h = 4%nat) by reflexivity.
  replace (be16 (4 + zlen (pad s)) ++ be16 1542 ++ pad s) with (h ++ pad s)
    by (unfold h; rewrite <- app_assoc; reflexivity).
  assert (Kd : skipn 4 (h ++ s) = s).
  { rewrite skipn_app, Lh. rewrite skipn_all2 by lia. reflexivity. }
  assert (Ks : decode_ascii s = Some s) by (unfold decode_ascii; rewrite forallb_ascii by assumption; reflexivity).
  unfold pad. destruct (Z.odd (zlen s)).
  - rewrite app_assoc, rev_app_distr. cbn [rev app].
    rewrite removelast_last. rewrite Kd, Ks. reflexivity.
  - destruct (exists_last Hne) as (s' & x & ->). rewrite app_assoc, rev_app_distr. cbn [rev app].
    rewrite last_last in Hl.
    rewrite <- app_assoc. rewrite Kd, Ks. destruct x; [congruence|reflexivity|reflexivity].
Qed.

Lemma bdict_set_new : forall d n v, ~ In n (map fst d) -> bdict_set d n v = d ++ [(n, v)].
Proof.
  induction d as [|[m w] d IH]; intros n v H; [reflexivity|]. cbn [bdict_set map fst app In] in *.
  destruct (list_eq_dec Z.eq_dec n m) as [->|E]; [exfalso; apply H; left; reflexivity|].
  rewrite IH by tauto. reflexivity.
Qed.

Lemma cell_name_ascii : forall log2f ts c b, cell_to_gds log2f ts c = Some b ->
  Forall (fun x => 0 <= x < 128) (c_name c).
Proof.
  intros log2f ts c b H. unfold cell_to_gds in H. cbv zeta in H.
  apply oapp_Some in H. destruct H as (b1 & z & H1 & H & ->).
  apply oapp_Some in H. destruct H as (b2 & z1 & H2 & H & ->).
  apply encode_ascii_Some in H2. destruct H2 as (_ & H2). unfold pad in H2.
  destruct (Z.odd _); [apply Forall_app in H2; tauto|assumption].
Qed.

Lemma bin_cell : forall log2f ts c b, cell_to_gds log2f ts c = Some b -> text_ok (c_name c) ->
  forall d n0, ~ In (c_name c) (map fst d) ->
  bin_steps (BState d n0 None) (map raw_pair (cell_raws log2f ts c))
  = Some (BState (d ++ [(c_name c, b)]) (Some (c_name c)) None).
Proof.
  intros log2f ts c b H Ht d n0 Hn. pose proof (elems_inner _ _ _ _ H) as I.
  pose proof (cell_name_ascii _ _ _ _ H) as Ha.
  destruct (cell_encodes _ _ _ _ H) as (E & _).
  unfold cell_raws. cbn [app map bin_steps].
  change (bin_step (BState d n0 None) (raw_pair (rI2 1282 (ts_ints ts))))
    with (Some (BState d n0 (Some [enc_raw (rI2 1282 (ts_ints ts))]))). cbv iota.
  assert (E6 : bin_step (BState d n0 (Some [enc_raw (rI2 1282 (ts_ints ts))])) (raw_pair (rStr 1542 (c_name c)))
    = Some (BState d (Some (c_name c)) (Some [enc_raw (rI2 1282 (ts_ints ts)); enc_raw (rStr 1542 (c_name c))]))).
  { unfold raw_pair, bin_step. change (r_word (rStr 1542 (c_name c)) / 256 =? 5) with false.
    change (r_word (rStr 1542 (c_name c)) / 256 =? 6) with true. cbv iota.
    rewrite strname_pad by assumption. reflexivity. }
  rewrite E6. rewrite map_app, bin_steps_app, bin_inner by assumption.
  cbn [map bin_steps].
  unfold raw_pair, bin_step. change (r_word (rNone 1792) / 256 =? 5) with false.
  change (r_word (rNone 1792) / 256 =? 6) with false.
  change (r_word (rNone 1792) / 256 =? 7) with true. cbn [bs_data bs_name bs_cells]. cbv iota.
  rewrite bdict_set_new by assumption. do 4 f_equal. f_equal.
  rewrite E. unfold cell_raws, enc_stream. rewrite flat_map_concat_map.
  rewrite <- app_assoc. cbn [app map concat]. rewrite map_app. reflexivity.
Qed.

Lemma bin_cells : forall log2f cs bs d n0,
  omap (fun tc => cell_to_gds log2f (fst tc) (snd tc)) cs = Some bs ->
  Forall (fun tc => text_ok (c_name (snd tc))) cs ->
  NoDup (map fst d ++ map (fun tc => c_name (snd tc)) cs) ->
  exists n1, bin_steps (BState d n0 None) (map raw_pair (flat_map (fun tc => cell_raws log2f (fst tc) (snd tc)) cs))
  = Some (BState (d ++ combine (map (fun tc => c_name (snd tc)) cs) bs) n1 None).
Proof.
  induction cs as [|[ts c] cs IH]; intros bs d n0 H Ht Hn.
  - inversion H; subst. exists n0. cbn. rewrite app_nil_r. reflexivity.
  - cbn [omap fst snd] in H. destruct (cell_to_gds log2f ts c) as [b|] eqn:E; [|discriminate].
    destruct (omap _ cs) as [bs'|] eqn:E2; [|discriminate]. inversion H; subst bs. clear H.
    inversion Ht as [|? ? Ht1 Ht2]; subst. cbn [snd] in Ht1.
    cbn [flat_map fst snd map] in *.
    rewrite map_app, bin_steps_app, (bin_cell _ _ _ _ E Ht1).
    + destruct (IH bs' (d ++ [(c_name c, b)]) (Some (c_name c)) eq_refl Ht2) as (n1 & En).
      * rewrite map_app. cbn [map fst]. rewrite <- app_assoc. exact Hn.
      * exists n1. rewrite En. cbn [combine]. rewrite <- app_assoc. reflexivity.
    + intros Hin. apply NoDup_remove_2 in Hn. apply Hn. apply in_or_app. left. exact Hin.
Qed.

Lemma oconcat_omap : forall A (f : A -> option bytes) l b, oconcat (map f l) = Some b ->
  exists bs, omap f l = Some bs /\ b = concat bs.
Proof.
  induction l as [|x l IH]; intros b H.
  - inversion H. exists []. split; reflexivity.
  - cbn [map oconcat] in H. apply oapp_Some in H. destruct H as (y & z & Hy & Hz & ->).
    destruct (IH _ Hz) as (bs & E & ->). exists (y :: bs). cbn [omap]. rewrite Hy, E. split; reflexivity.
Qed.

Lemma oconcat_Some_map : forall bs, oconcat (map Some bs) = Some (concat bs).
Proof. induction bs as [|b bs IH]; [reflexivity|]. cbn [map oconcat concat]. rewrite IH. reflexivity. Qed.

Lemma bin_skip : forall rs d n,
  Forall (fun r => r_word r / 256 <> 5 /\ r_word r / 256 <> 6 /\ r_word r / 256 <> 7) rs ->
  bin_steps (BState d n None) (map raw_pair rs) = Some (BState d n None).
Proof.
  induction rs as [|r rs IH]; intros d n H; [reflexivity|]. inversion H; subst.
  cbn [map bin_steps]. unfold raw_pair at 1, bin_step. cbn [bs_data].
  replace (r_word r / 256 =? 5) with false by lia.
  replace (r_word r / 256 =? 6) with false by lia.
  replace (r_word r / 256 =? 7) with false by lia. apply IH. assumption.
Qed.

Theorem binary_cells_file : forall log2f hts n d p cs b,
  write_file log2f hts n d p cs [] = Some b ->
  Forall (fun tc => text_ok (c_name (snd tc))) cs ->
  NoDup (map (fun tc => c_name (snd tc)) cs) ->
  exists bs, omap (fun tc => cell_to_gds log2f (fst tc) (snd tc)) cs = Some bs /\
  get_binary_cells b = Some (combine (map (fun tc => c_name (snd tc)) cs) bs).
Proof.
  intros log2f hts n d p cs b H Ht Hn. destruct (file_encodes _ _ _ _ _ _ _ H) as (-> & Ok).
  unfold write_file in H.
  apply oapp_Some in H. destruct H as (b1 & z & H1 & H & _).
  apply oapp_Some in H. destruct H as (b2 & b3 & H2 & _ & _).
  apply oconcat_omap in H2. destruct H2 as (bs & H2 & _).
  exists bs. split; [assumption|].
  unfold get_binary_cells. rewrite raw_record_reader_stream by assumption.
  change (fun r => (r_word r / 256, enc_raw r)) with raw_pair.
  unfold file_raws. rewrite !map_app, bin_steps_app.
  rewrite bin_skip.
  2:{ unfold header_raws. repeat (apply Forall_cons; [repeat split; discriminate|]). apply Forall_nil. }
  rewrite bin_steps_app. destruct (bin_cells _ _ _ [] None H2 Ht Hn) as (n1 & En). rewrite En. cbn [app].
  rewrite bin_skip; [reflexivity|].
  repeat (apply Forall_cons; [repeat split; discriminate|]). apply Forall_nil.
Qed.

Lemma omap_length : forall A B (f : A -> option B) l r, omap f l = Some r -> length r = length l.
Proof.
  induction l as [|x l IH]; intros r H; cbn [omap] in H; [inversion H; reflexivity|].
  destruct (f x); [|discriminate]. destruct (omap f l); [|discriminate].
  inversion H; subst. cbn. rewrite (IH _ eq_refl). reflexivity.
Qed.

Lemma map_snd_combine : forall A B (a : list A) (b : list B), length a = length b ->
  map snd (combine a b) = b.
Proof.
  induction a as [|x a IH]; intros [|y b] H; cbn in *; try reflexivity; try discriminate.
  rewrite IH by lia. reflexivity.
Qed.

Lemma map_fst_combine : forall A B (a : list A) (b : list B), length a = length b ->
  map fst (combine a b) = a.
Proof.
  induction a as [|x a IH]; intros [|y b] H; cbn in *; try reflexivity; try discriminate.
  rewrite IH by lia. reflexivity.
Qed.

(** Cells given as binary data or as objects produce the same file. *)
Lemma write_binary_same : forall log2f hts n d p cs0 cs bs,
  omap (fun tc => cell_to_gds log2f (fst tc) (snd tc)) cs = Some bs ->
  write_file log2f hts n d p cs0 bs = write_file log2f hts n d p (cs0 ++ cs) [].
Proof.
  intros log2f hts n d p cs0 cs bs H. unfold write_file. rewrite map_app, oconcat_app, oapp_assoc.
  do 2 f_equal. cbn [map oconcat]. rewrite oapp_nil_l. f_equal. rewrite oconcat_Some_map.
  revert bs H. induction cs as [|tc cs IH]; intros bs H; cbn [omap map oconcat] in *.
  - inversion H. reflexivity.
  - destruct (cell_to_gds _ _ _); [|discriminate]. destruct (omap _ cs); [|discriminate].
    inversion H; subst. rewrite <- (IH _ eq_refl). reflexivity.
Qed.

(** ** GdsWriter *)

Definition op_bytes (log2f : dy -> dy) (op : gwop) : option bytes :=
  match op with
  | WCell ts c => cell_to_gds log2f ts c
  | WBinary l => Some (concat l)
  end.

Lemma gw_op_bytes : forall log2f f op, gw_op log2f f op = f +++ op_bytes log2f op.
Proof.
  intros log2f f [ts c|l]; [reflexivity|]. cbn [gw_op op_bytes].
  revert f. induction l as [|b l IH]; intros f; cbn [fold_left concat].
  - destruct f; cbn; [rewrite app_nil_r|]; reflexivity.
  - rewrite IH, oapp_assoc. reflexivity.
Qed.

Theorem gds_writer_bytes : forall log2f ts n d p ops,
  gds_writer log2f ts n d p ops
  = header_to_gds log2f ts n d p +++ oconcat (map (op_bytes log2f) ops) +++ endlib.
Proof.
  intros. unfold gds_writer, gw_close, gw_open. rewrite <- oapp_assoc. f_equal.
  generalize (header_to_gds log2f ts n d p) as f. induction ops as [|op ops IH]; intros f; cbn [fold_left map oconcat].
  - destruct f; cbn; [rewrite app_nil_r|]; reflexivity.
  - rewrite IH, gw_op_bytes, oapp_assoc. reflexivity.
Qed.

(** The writer followed by a block of binary cells is write_gds. *)
Theorem gds_writer_write_file : forall log2f ts n d p cs binary,
  gds_writer log2f ts n d p (map (fun tc => WCell (fst tc) (snd tc)) cs ++ [WBinary binary])
  = write_file log2f ts n d p cs binary.
Proof.
  intros. rewrite gds_writer_bytes. unfold write_file. f_equal.
  rewrite map_app, oconcat_app, map_map, oapp_assoc. f_equal.
  cbn [map oconcat op_bytes]. rewrite oconcat_Some_map. destruct endlib; cbn; [rewrite app_nil_r|]; reflexivity.
Qed.

Lemma write_file_gds : forall log2f ts l,
  write_file log2f ts (lib_name l) (lib_dbu l) (lib_prec l) (map (fun c => (ts, c)) (lib_cells l)) []
  = write_gds log2f ts l.
Proof.
  intros. unfold write_file, write_gds. f_equal. rewrite map_map. cbn [fst snd map oconcat].
  rewrite oapp_nil_l. reflexivity.
Qed.

(** ** Units *)

Lemma real_bytes_len : forall log2f v b, eight_byte_real log2f v = Some b -> length b = 8%nat.
Proof. intros. apply real_bytes_ok in H. tauto. Qed.

Lemma raw_reader_prefix : forall rs f t, Forall raw_ok rs ->
  raw_record_reader_fuel (length rs + f) (enc_stream rs ++ t)
  = map (fun r => (r_word r / 256, enc_raw r)) rs ++ raw_record_reader_fuel f t.
Proof.
  induction rs as [|r rs IH]; intros f t Hok; [reflexivity|].
  inversion Hok as [|? ? Hr Hrs]; subst. rewrite enc_cons, <- app_assoc, enc_raw_head by assumption.
  cbn [length Nat.add raw_record_reader_fuel map app]. rewrite !un16_be16.
  pose proof (zlen_nonneg _ (r_payload r)).
  replace (4 + zlen (r_payload r) <? 4) with false by lia.
  replace (4 + zlen (r_payload r) - 4) with (zlen (r_payload r)) by lia.
  rewrite read_n_app. rewrite IH by assumption. reflexivity.
Qed.

(** Whatever follows the library header. *)
Theorem units_header : forall log2f hts n d p b t, header_to_gds log2f hts n d p = Some b ->
  get_gds_units (b ++ t) = Some (Some (real_rt log2f d, real_rt log2f p)).
Proof.
  intros log2f hts n d p b t H. destruct (header_encodes _ _ _ _ _ _ H) as (-> & Ok).
  unfold header_to_gds in H. cbv zeta in H.
  apply oapp_Some in H. destruct H as (b2 & z1 & _ & H & _).
  apply oapp_Some in H. destruct H as (b3 & z2 & _ & H & _).
  apply oapp_Some in H. destruct H as (b4 & z3 & _ & H & _).
  apply oapp_Some in H. destruct H as (b5 & b6 & H5 & H6 & _).
  unfold get_gds_units, raw_record_reader.
  set (rs := header_raws log2f hts n d p) in *.
  assert (L : (length rs <= length (enc_stream rs ++ t))%nat).
  { rewrite app_length. pose proof (length_enc_stream rs). lia. }
  replace (length (enc_stream rs ++ t)) with (length rs + (length (enc_stream rs ++ t) - length rs))%nat by lia.
  rewrite raw_reader_prefix by assumption.
  unfold rs, header_raws. cbn [app map find fst rI2 rStr r_word].
  change (2 / 256 =? 3) with false. change (258 / 256 =? 3) with false.
  change (518 / 256 =? 3) with false. change (773 / 256 =? 3) with true. cbv iota.
  pose proof (real_bytes_len _ _ _ H5) as L5. pose proof (real_bytes_len _ _ _ H6) as L6.
  unfold real_rt, real_bytes. rewrite H5, H6. cbn [obind].
  assert (E1 : firstn 8 (skipn 4 (enc_raw (Raw 773 (b5 ++ b6)))) = b5).
  { unfold enc_raw. cbn [r_payload r_word]. rewrite (app_assoc (be16 _)). rewrite skipn_app.
    rewrite (skipn_all2 (be16 _ ++ _)) by (rewrite app_length; cbn [be16 length]; lia).
    rewrite app_length. cbn [be16 length Nat.add Nat.sub skipn app].
    rewrite firstn_app, L5, Nat.sub_diag, firstn_O, app_nil_r. rewrite firstn_all2 by lia. reflexivity. }
  assert (E2 : skipn 12 (enc_raw (Raw 773 (b5 ++ b6))) = b6).
  { unfold enc_raw. cbn [r_payload r_word]. rewrite !app_assoc. rewrite skipn_app.
    rewrite skipn_all2; rewrite !app_length, L5; cbn [be16 length]; [reflexivity|lia]. }
  rewrite E1, E2.
  assert (D : forall x, length x = 8%nat -> exists v, eight_byte_real_to_float x = Some v).
  { intros x Hx. do 8 (destruct x as [|? x]; [discriminate|]). destruct x; [|discriminate].
    unfold eight_byte_real_to_float. destruct (round53 _). destruct (_ =? 0); eexists; reflexivity. }
  destruct (D b5 L5) as (u & ->). destruct (D b6 L6) as (m & ->). reflexivity.
Qed.

Theorem units_file : forall log2f hts n d p cs bin b, write_file log2f hts n d p cs bin = Some b ->
  get_gds_units b = Some (Some (real_rt log2f d, real_rt log2f p)).
Proof.
  intros log2f hts n d p cs bin b H. unfold write_file in H.
  apply oapp_Some in H. destruct H as (b1 & z & H1 & _ & ->). eapply units_header. eassumption.
Qed.
