(** The two record readers: gdspy/gdsiiformat.py, lines 41-124. *)

From Coq Require Import List ZArith Lia Bool.
From Coq Require Import ZifyBool ZifyNat.
From Verif Require Import Bytes Real8.
Import ListNotations.
Open Scope Z_scope.

(** Payload of a decoded record: [None], a numpy integer array, a numpy float
    array or a string. *)
Inductive rdata :=
| DNone
| DInts (l : list Z)
| DReals (l : list dy)
| DStr (s : list Z).

Definition record := (Z * rdata)%type.

(** [stream.read(n)] for n >= 0: at most n bytes, and the rest of the stream. *)
Definition read_n (n : Z) (b : bytes) : bytes * bytes :=
  (firstn (Z.to_nat n) b, skipn (Z.to_nat n) b).

(** The list comprehension of gdsiiformat.py 86-91: [n] reads of 8 bytes. *)
Fixpoint read_reals (n : nat) (b : bytes) : option (list dy * bytes) :=
  match n with
  | O => Some ([], b)
  | S n' =>
      let (x, r) := read_n 8 b in
      match eight_byte_real_to_float x with
      | Some v => match read_reals n' r with
                  | Some (l, r') => Some (v :: l, r')
                  | None => None
                  end
      | None => None
      end
  end.

(** [data[:-1] if data[-1] == 0 else data]; empty data raises IndexError. *)
Definition strip_nul (b : bytes) : option bytes :=
  match rev b with
  | [] => None
  | 0 :: r => Some (rev r)
  | _ => Some b
  end.

(** gdsiiformat.py 62-100: the payload of a record of length field [size] and
    data type [dt].  [struct.unpack(">{n}H", read(size - 4))] raises unless the
    number of bytes read is exactly 2n. *)
Definition read_data (size dt : Z) (b : bytes) : option (rdata * bytes) :=
  if size <=? 4 then Some (DNone, b)
  else if dt =? 1 then
    let (x, r) := read_n (size - 4) b in
    if zlen x =? 2 * ((size - 4) / 2)
    then match unpack_H x with Some l => Some (DInts l, r) | None => None end
    else None
  else if dt =? 2 then
    let (x, r) := read_n (size - 4) b in
    if zlen x =? 2 * ((size - 4) / 2)
    then match unpack_h x with Some l => Some (DInts l, r) | None => None end
    else None
  else if dt =? 3 then
    let (x, r) := read_n (size - 4) b in
    if zlen x =? 4 * ((size - 4) / 4)
    then match unpack_l x with Some l => Some (DInts l, r) | None => None end
    else None
  else if dt =? 5 then
    match read_reals (Z.to_nat ((size - 4) / 8)) b with
    | Some (l, r) => Some (DReals l, r)
    | None => None
    end
  else
    let (x, r) := read_n (size - 4) b in
    match strip_nul x with
    | Some s => match decode_ascii s with Some t => Some (DStr t, r) | None => None end
    | None => None
    end.

(** [_record_reader], gdsiiformat.py 41-101.  The generator is modelled by the
    list of everything it yields; an exception at any point gives [None].
    Every iteration consumes at least four bytes, so [length b] iterations
    always suffice. *)
Fixpoint record_reader_fuel (fuel : nat) (b : bytes) : option (list record) :=
  match fuel with
  | O => Some []
  | S f =>
      match b with
      | b0 :: b1 :: b2 :: b3 :: rest =>
          let size := un16 b0 b1 in
          let w := un16 b2 b3 in
          match read_data size (w mod 256) rest with
          | Some (d, rest') =>
              match record_reader_fuel f rest' with
              | Some l => Some ((w / 256, d) :: l)
              | None => None
              end
          | None => None
          end
      | _ => Some []
      end
  end.

Definition record_reader (b : bytes) : option (list record) :=
  record_reader_fuel (length b) b.

(** [_raw_record_reader], gdsiiformat.py 104-124: yields the record type and
    all bytes of the record, header included.  [read(size - 4)] with a negative
    argument reads the whole rest of the stream. *)
Fixpoint raw_record_reader_fuel (fuel : nat) (b : bytes) : list (Z * bytes) :=
  match fuel with
  | O => []
  | S f =>
      match b with
      | b0 :: b1 :: b2 :: b3 :: rest =>
          let size := un16 b0 b1 in
          let w := un16 b2 b3 in
          let (x, rest') := if size <? 4 then (rest, []) else read_n (size - 4) rest in
          (w / 256, b0 :: b1 :: b2 :: b3 :: x) :: raw_record_reader_fuel f rest'
      | _ => []
      end
  end.

Definition raw_record_reader (b : bytes) : list (Z * bytes) :=
  raw_record_reader_fuel (length b) b.

(** ** Specification: record streams.

    A GDSII record is a 16-bit length (header included), a 16-bit word (record
    type and data type) and a payload. *)
Record raw := Raw { r_word : Z; r_payload : bytes }.

Definition enc_raw (r : raw) : bytes :=
  be16 (4 + zlen (r_payload r)) ++ be16 (r_word r) ++ r_payload r.

Definition raw_ok (r : raw) : Prop :=
  0 <= r_word r < 65536 /\ 4 + zlen (r_payload r) < 65536 /\
  Z.even (zlen (r_payload r)) = true /\ all_bytes (r_payload r).

Definition enc_stream (rs : list raw) : bytes := flat_map enc_raw rs.

(** Decoded form of one record. *)
Definition dec_payload (w : Z) (p : bytes) : option rdata :=
  match read_data (4 + zlen p) (w mod 256) p with
  | Some (d, []) => Some d
  | _ => None
  end.

Definition dec_raw (r : raw) : option record :=
  match dec_payload (r_word r) (r_payload r) with
  | Some d => Some (r_word r / 256, d)
  | None => None
  end.

(** ** Facts *)

Lemma firstn_app_zlen : forall (p r : bytes), firstn (Z.to_nat (zlen p)) (p ++ r) = p.
Proof.
  intros. unfold zlen. rewrite Nat2Z.id. rewrite firstn_app, Nat.sub_diag.
  rewrite firstn_all. cbn. apply app_nil_r.
Qed.

Lemma skipn_app_zlen : forall (p r : bytes), skipn (Z.to_nat (zlen p)) (p ++ r) = r.
Proof.
  intros. unfold zlen. rewrite Nat2Z.id. rewrite skipn_app, Nat.sub_diag, skipn_all.
  reflexivity.
Qed.

Lemma read_n_app : forall p r, read_n (zlen p) (p ++ r) = (p, r).
Proof. intros. unfold read_n. rewrite firstn_app_zlen, skipn_app_zlen. reflexivity. Qed.

Lemma read_n_all : forall p, read_n (zlen p) p = (p, []).
Proof. intros. rewrite <- (app_nil_r p) at 2. apply read_n_app. Qed.

Lemma real8_len : forall b v, eight_byte_real_to_float b = Some v -> length b = 8%nat.
Proof.
  intros b v H. destruct b as [|b0 [|b1 [|b2 [|b3 [|b4 [|b5 [|b6 [|b7 [|b8 b]]]]]]]]];
    cbn in H; try discriminate. reflexivity.
Qed.

Lemma read_reals_app : forall n b l r t,
  read_reals n b = Some (l, r) -> read_reals n (b ++ t) = Some (l, r ++ t).
Proof.
  induction n as [|n IH]; intros b l r t H; cbn [read_reals] in *.
  - inversion H; subst. reflexivity.
  - unfold read_n in *. change (Z.to_nat 8) with 8%nat in *.
    destruct (eight_byte_real_to_float (firstn 8 b)) eqn:E; [|discriminate].
    assert (L : (8 <= length b)%nat).
    { apply real8_len in E. rewrite firstn_length in E. lia. }
    rewrite firstn_app. replace (8 - length b)%nat with 0%nat by lia.
    rewrite firstn_O, app_nil_r, E.
    rewrite skipn_app. replace (8 - length b)%nat with 0%nat by lia. rewrite skipn_O.
    destruct (read_reals n (skipn 8 b)) as [[l' r']|] eqn:E2; [|discriminate].
    rewrite (IH _ _ _ t E2). inversion H; subst. reflexivity.
Qed.

(** Appending bytes after a complete payload does not change its decoding. *)
Lemma read_data_app : forall w p d t,
  dec_payload w p = Some d ->
  read_data (4 + zlen p) (w mod 256) (p ++ t) = Some (d, t).
Proof.
  intros w p d t H. unfold dec_payload in H.
  destruct (read_data (4 + zlen p) (w mod 256) p) as [[d' r']|] eqn:E; [|discriminate].
  destruct r'; [|discriminate]. inversion H; subst d'. clear H.
  unfold read_data in *.
  replace (4 + zlen p - 4) with (zlen p) in * by lia.
  rewrite read_n_app. rewrite read_n_all in E.
  pose proof (zlen_nonneg _ p) as Hp.
  destruct (4 + zlen p <=? 4) eqn:E4.
  { inversion E; subst. reflexivity. }
  destruct (w mod 256 =? 1).
  { destruct (_ =? _); [|discriminate]. destruct (unpack_H p); inversion E; reflexivity. }
  destruct (w mod 256 =? 2).
  { destruct (_ =? _); [|discriminate]. destruct (unpack_h p); inversion E; reflexivity. }
  destruct (w mod 256 =? 3).
  { destruct (_ =? _); [|discriminate]. destruct (unpack_l p); inversion E; reflexivity. }
  destruct (w mod 256 =? 5).
  { destruct (read_reals _ p) as [[l r]|] eqn:E5; [|discriminate].
    rewrite (read_reals_app _ _ _ _ t E5). inversion E; subst. reflexivity. }
  destruct (strip_nul p); [|discriminate].
  destruct (decode_ascii _); inversion E; reflexivity.
Qed.

Lemma enc_raw_head : forall r t, raw_ok r ->
  enc_raw r ++ t =
  (4 + zlen (r_payload r)) / 256 :: (4 + zlen (r_payload r)) mod 256 ::
  r_word r / 256 :: r_word r mod 256 :: r_payload r ++ t.
Proof. intros. unfold enc_raw, be16. reflexivity. Qed.

Lemma length_enc_raw : forall r, length (enc_raw r) = (4 + length (r_payload r))%nat.
Proof. intros. unfold enc_raw, be16. cbn [app length]. reflexivity. Qed.

Lemma record_reader_fuel_stream : forall rs ds fuel,
  Forall raw_ok rs -> omap dec_raw rs = Some ds ->
  (length rs <= fuel)%nat ->
  record_reader_fuel fuel (enc_stream rs) = Some ds.
Proof.
  induction rs as [|r rs IH]; intros ds fuel Hok Hd Hf.
  - inversion Hd; subst. destruct fuel; reflexivity.
  - inversion Hok as [|? ? Hr Hrs]; subst. cbn [omap] in Hd.
    destruct (dec_raw r) as [d|] eqn:Er; [|discriminate].
    destruct (omap dec_raw rs) as [ds'|] eqn:Ers; [|discriminate].
    inversion Hd; subst. destruct fuel as [|fuel]; [cbn in Hf; lia|].
    cbn [enc_stream flat_map]. rewrite enc_raw_head by assumption.
    cbn [record_reader_fuel]. rewrite !un16_be16.
    unfold dec_raw in Er.
    destruct (dec_payload (r_word r) (r_payload r)) as [pd|] eqn:Ep; [|discriminate].
    rewrite (read_data_app _ _ _ _ Ep).
    change (flat_map enc_raw rs) with (enc_stream rs).
    rewrite (IH ds' fuel) by (try assumption; try reflexivity; cbn in Hf; lia).
    inversion Er; subst. reflexivity.
Qed.

Lemma length_enc_stream : forall rs, (length rs <= length (enc_stream rs))%nat.
Proof.
  induction rs as [|r rs IH]; [cbn; lia|].
  cbn [enc_stream flat_map length]. rewrite app_length, length_enc_raw.
  unfold enc_stream in IH. lia.
Qed.

(** The record reader inverts the concatenation of records. *)
Lemma record_reader_stream : forall rs ds,
  Forall raw_ok rs -> omap dec_raw rs = Some ds ->
  record_reader (enc_stream rs) = Some ds.
Proof.
  intros. unfold record_reader. apply record_reader_fuel_stream; try assumption.
  apply length_enc_stream.
Qed.

Lemma raw_record_reader_fuel_stream : forall rs fuel,
  Forall raw_ok rs -> (length rs <= fuel)%nat ->
  raw_record_reader_fuel fuel (enc_stream rs) =
  map (fun r => (r_word r / 256, enc_raw r)) rs.
Proof.
  induction rs as [|r rs IH]; intros fuel Hok Hf.
  - destruct fuel; reflexivity.
  - inversion Hok as [|? ? Hr Hrs]; subst. destruct fuel as [|fuel]; [cbn in Hf; lia|].
    cbn [enc_stream flat_map map]. rewrite enc_raw_head by assumption.
    cbn [raw_record_reader_fuel]. rewrite !un16_be16.
    pose proof (zlen_nonneg _ (r_payload r)).
    replace (4 + zlen (r_payload r) <? 4) with false by lia.
    replace (4 + zlen (r_payload r) - 4) with (zlen (r_payload r)) by lia.
    rewrite read_n_app. change (flat_map enc_raw rs) with (enc_stream rs).
    rewrite IH by (try assumption; cbn in Hf; lia).
    reflexivity.
Qed.

Lemma raw_record_reader_stream : forall rs,
  Forall raw_ok rs ->
  raw_record_reader (enc_stream rs) = map (fun r => (r_word r / 256, enc_raw r)) rs.
Proof.
  intros. unfold raw_record_reader. apply raw_record_reader_fuel_stream; [assumption|].
  apply length_enc_stream.
Qed.

Lemma enc_stream_app : forall a b, enc_stream (a ++ b) = enc_stream a ++ enc_stream b.
Proof. intros. unfold enc_stream. apply flat_map_app. Qed.

Lemma omap_app : forall A B (f : A -> option B) a b x y,
  omap f a = Some x -> omap f b = Some y -> omap f (a ++ b) = Some (x ++ y).
Proof.
  induction a as [|h a IH]; intros b x y Ha Hb; cbn [omap app] in *.
  - inversion Ha; subst. exact Hb.
  - destruct (f h); [|discriminate]. destruct (omap f a) eqn:E; [|discriminate].
    inversion Ha; subst. rewrite (IH b l y eq_refl Hb). reflexivity.
Qed.

(** *** Decoding of the payload shapes that the writers produce *)

Lemma strip_nul_pad : forall s, s <> [] -> last s 1 <> 0 ->
  strip_nul (pad s) = Some s.
Proof.
  intros s Hne Hl. unfold pad, strip_nul. destruct (Z.odd (zlen s)).
  - rewrite rev_app_distr. cbn. rewrite rev_involutive. reflexivity.
  - destruct (rev s) as [|x r] eqn:E.
    + apply (f_equal (@rev Z)) in E. rewrite rev_involutive in E. contradiction.
    + assert (x = last s 1).
      { apply (f_equal (@rev Z)) in E. rewrite rev_involutive in E. subst s.
        cbn [rev]. rewrite last_last. reflexivity. }
      destruct x; try reflexivity. congruence.
Qed.

Lemma dec_str : forall w s,
  Z.land (w mod 256) 255 = 6 -> s <> [] -> last s 1 <> 0 ->
  Forall (fun c => 0 <= c < 128) s ->
  dec_payload w (pad s) = Some (DStr s).
Proof.
  intros w s Hw Hne Hl Ha. unfold dec_payload, read_data.
  assert (Hw6 : w mod 256 = 6).
  { rewrite land_255 in Hw. rewrite Z.mod_mod in Hw by lia. exact Hw. }
  rewrite Hw6. cbn [Z.eqb Pos.eqb].
  assert (0 < zlen (pad s)).
  { unfold pad. destruct s; [contradiction|].
    pose proof (zlen_nonneg _ s). destruct (Z.odd _); rewrite ?zlen_app, ?zlen_cons, ?zlen_nil; lia. }
  replace (4 + zlen (pad s) <=? 4) with false by lia.
  replace (4 + zlen (pad s) - 4) with (zlen (pad s)) by lia.
  rewrite read_n_all, strip_nul_pad by assumption.
  unfold decode_ascii. rewrite forallb_ascii by assumption. reflexivity.
Qed.

Lemma dec_h : forall w vs,
  w mod 256 = 2 -> vs <> [] -> Forall (fun v => -32768 <= v < 32768) vs ->
  dec_payload w (flat_map (fun v => be16 (v mod 65536)) vs) = Some (DInts vs).
Proof.
  intros w vs Hw Hne Hr. unfold dec_payload, read_data. rewrite Hw. cbn [Z.eqb Pos.eqb].
  rewrite zlen_flat_be16.
  assert (0 < zlen vs) by (destruct vs; [contradiction|]; rewrite zlen_cons; pose proof (zlen_nonneg _ vs); lia).
  replace (4 + 2 * zlen vs <=? 4) with false by lia.
  replace (4 + 2 * zlen vs - 4) with (2 * zlen vs) by lia.
  rewrite <- zlen_flat_be16, read_n_all, zlen_flat_be16.
  replace (2 * zlen vs =? 2 * (2 * zlen vs / 2)) with true by lia.
  rewrite unpack_h_be16 by assumption. reflexivity.
Qed.

Lemma dec_H1 : forall w v,
  w mod 256 = 1 -> dec_payload w (be16 v) = Some (DInts [v]).
Proof.
  intros w v Hw. pose proof (un16_be16 v) as U.
  unfold dec_payload, read_data, be16. rewrite Hw.
  set (x := v / 256) in *. set (y := v mod 256) in *.
  clearbody x y. cbn -[un16]. change (Pos.to_nat 2) with 2%nat. cbn -[un16].
  rewrite U. reflexivity.
Qed.

Lemma dec_l : forall w vs,
  w mod 256 = 3 -> vs <> [] -> Forall (fun v => -2147483648 <= v < 2147483648) vs ->
  dec_payload w (flat_map (fun v => be32 (v mod 4294967296)) vs) = Some (DInts vs).
Proof.
  intros w vs Hw Hne Hr. unfold dec_payload, read_data. rewrite Hw. cbn [Z.eqb Pos.eqb].
  rewrite zlen_flat_be32.
  assert (0 < zlen vs) by (destruct vs; [contradiction|]; rewrite zlen_cons; pose proof (zlen_nonneg _ vs); lia).
  replace (4 + 4 * zlen vs <=? 4) with false by lia.
  replace (4 + 4 * zlen vs - 4) with (4 * zlen vs) by lia.
  rewrite <- zlen_flat_be32, read_n_all, zlen_flat_be32.
  replace (4 * zlen vs =? 4 * (4 * zlen vs / 4)) with true by lia.
  rewrite unpack_l_be32 by assumption. reflexivity.
Qed.

Lemma dec_none : forall w, dec_payload w [] = Some DNone.
Proof. reflexivity. Qed.

Lemma dec_real1 : forall w b v,
  w mod 256 = 5 -> length b = 8%nat -> eight_byte_real_to_float b = Some v ->
  dec_payload w b = Some (DReals [v]).
Proof.
  intros w b v Hw Hl Hv. unfold dec_payload, read_data. rewrite Hw. cbn [Z.eqb Pos.eqb].
  unfold zlen. rewrite Hl. change (4 + Z.of_nat 8 <=? 4) with false. cbv iota.
  change (Z.to_nat ((4 + Z.of_nat 8 - 4) / 8)) with 1%nat. cbn [read_reals].
  unfold read_n. change (Z.to_nat 8) with 8%nat.
  rewrite firstn_all2, skipn_all2 by lia. rewrite Hv. reflexivity.
Qed.

Lemma dec_real2 : forall w b1 b2 v1 v2,
  w mod 256 = 5 -> length b1 = 8%nat -> length b2 = 8%nat ->
  eight_byte_real_to_float b1 = Some v1 -> eight_byte_real_to_float b2 = Some v2 ->
  dec_payload w (b1 ++ b2) = Some (DReals [v1; v2]).
Proof.
  intros w b1 b2 v1 v2 Hw Hl1 Hl2 Hv1 Hv2. unfold dec_payload, read_data. rewrite Hw.
  cbn [Z.eqb Pos.eqb]. unfold zlen. rewrite app_length, Hl1, Hl2.
  change (4 + Z.of_nat (8 + 8) <=? 4) with false. cbv iota.
  change (Z.to_nat ((4 + Z.of_nat (8 + 8) - 4) / 8)) with 2%nat. cbn [read_reals].
  unfold read_n. change (Z.to_nat 8) with 8%nat.
  rewrite firstn_app, skipn_app, Hl1. change (8 - 8)%nat with 0%nat. rewrite firstn_O, skipn_O.
  rewrite firstn_all2 by lia. rewrite skipn_all2 by lia. rewrite app_nil_r, Hv1. cbn [app].
  rewrite firstn_all2, skipn_all2 by lia. rewrite Hv2. reflexivity.
Qed.
