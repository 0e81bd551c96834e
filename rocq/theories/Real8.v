(** The GDSII 8-byte real format: gdspy/gdsiiformat.py, lines 127-181.

    A double is modelled exactly as a dyadic number [dm * 2^de] in canonical
    form (odd mantissa, or [0 * 2^0]); a float64 has [|dm| < 2^53].
    Simplification: infinities, NaN, negative zero and the exponent limits of
    float64 are not modelled ([16.0 ** (14 - exponent)] never overflows here;
    for values where it would, the exponent field is out of range anyway). *)

From Coq Require Import List ZArith Lia Bool.
From Coq Require Import ZifyBool ZifyNat.
From Verif Require Import Bytes.
Import ListNotations.
Open Scope Z_scope.

Record dy := Dy { dm : Z; de : Z }.

Definition dy_eqb (a b : dy) : bool := (dm a =? dm b) && (de a =? de b).

(** Canonical dyadics: structural equality is equality of values. *)
Definition canonical (d : dy) : Prop :=
  (dm d = 0 /\ de d = 0) \/ Z.odd (dm d) = true.
Definition is_f64 (d : dy) : Prop := canonical d /\ Z.abs (dm d) < 2 ^ 53.

Fixpoint strip2 (p : positive) (e : Z) : positive * Z :=
  match p with
  | xO p' => strip2 p' (e + 1)
  | _ => (p, e)
  end.

(** The canonical form of [m * 2^e]. *)
Definition canon (m e : Z) : dy :=
  match m with
  | 0 => Dy 0 0
  | Zpos p => let (q, f) := strip2 p e in Dy (Zpos q) f
  | Zneg p => let (q, f) := strip2 p e in Dy (Zneg q) f
  end.

(** floor(m * 2^s), for m >= 0 *)
Definition scale_floor (m s : Z) : Z :=
  if 0 <=? s then m * 2 ^ s else m / 2 ^ (- s).

(** [_eight_byte_real], gdsiiformat.py 127-157.

    [log2f] stands for [numpy.log2] (an arbitrary function from doubles to
    doubles).  [fexp = log2f v / 4], [exponent = ceil(fexp)], and [exponent]
    is incremented when [fexp] is an integer. *)
Definition fexp_ceil (l : dy) : Z := - ((- dm l) * 2 ^ Z.max 0 (de l - 2) / 2 ^ Z.max 0 (2 - de l)).
Definition fexp_is_int (l : dy) (n : Z) : bool :=
  dm l * 2 ^ Z.max 0 (de l - 2) =? n * 2 ^ Z.max 0 (2 - de l).

Definition enc_exponent (log2f : dy -> dy) (v : dy) : Z :=
  let l := log2f (Dy (Z.abs (dm v)) (de v)) in
  let exponent := fexp_ceil l in
  if fexp_is_int l exponent then exponent + 1 else exponent.

Definition eight_byte_real (log2f : dy -> dy) (value : dy) : option bytes :=
  if dm value =? 0 then Some [0; 0; 0; 0; 0; 0; 0; 0]
  else
    let byte1 := if dm value <? 0 then 128 else 0 in
    let exponent := enc_exponent log2f value in
    let mantissa := scale_floor (Z.abs (dm value)) (de value + 4 * (14 - exponent)) in
    let byte1 := byte1 + (exponent + 64) in
    let byte2 := mantissa / 281474976710656 in
    let short3 := (mantissa mod 281474976710656) / 4294967296 in
    let long4 := mantissa mod 4294967296 in
    pack [FH (byte1 * 256 + byte2); FH short3; FL long4].

(** int -> float conversion: round to 53 significant bits, ties to even.
    Returns mantissa and binary exponent. *)
Definition round53 (n : Z) : Z * Z :=
  let k := Z.max 0 (Z.log2 n - 52) in
  let q := n / 2 ^ k in
  let r := n mod 2 ^ k in
  if 2 * r <? 2 ^ k then (q, k)
  else if 2 ^ k <? 2 * r then (q + 1, k)
  else if k =? 0 then (q, k)
  else if Z.even q then (q, k) else (q + 1, k).

(** [_eight_byte_real_to_float], gdsiiformat.py 160-181. *)
Definition eight_byte_real_to_float (value : bytes) : option dy :=
  match value with
  | [b0; b1; b2; b3; b4; b5; b6; b7] =>
      let short1 := un16 b0 b1 in
      let short2 := un16 b2 b3 in
      let long3 := un32 b4 b5 b6 b7 in
      let exponent := Z.land short1 32512 / 256 - 64 in
      let (q, k) := round53 ((Z.land short1 255 * 65536 + short2) * 4294967296 + long3) in
      if Z.land short1 32768 =? 0
      then Some (canon q (k - 56 + 4 * exponent))
      else Some (canon (- q) (k - 56 + 4 * exponent))
  | _ => None
  end.

(** ** Specification: the true base-16 exponent.

    [te v] is the integer [t] with [16^(t-1) <= |v| < 16^t]. *)
Definition te (v : dy) : Z := (Z.log2 (Z.abs (dm v)) + de v) / 4 + 1.

(** A sane [log2]: between consecutive powers of two it stays between the two
    exact results (true for every faithfully rounded or monotone
    implementation that is exact on powers of two). *)
Definition dle (a b : dy) : Prop :=
  dm a * 2 ^ Z.max 0 (de a - de b) <= dm b * 2 ^ Z.max 0 (de b - de a).
Definition log2_ok (log2f : dy -> dy) : Prop :=
  forall m e, 0 < m ->
    dle (Dy (Z.log2 m + e) 0) (log2f (Dy m e)) /\
    dle (log2f (Dy m e)) (Dy (Z.log2 m + e + 1) 0).

(** An executable [log2]: the exact integer part.  It satisfies [log2_ok] and
    picks the true exponent; used for computation. *)
Definition log2_floor (v : dy) : dy := Dy (Z.log2 (dm v) + de v) 0.

(** The encoder picks the true exponent for [v]. *)
Definition exp_exact (log2f : dy -> dy) (v : dy) : Prop :=
  dm v <> 0 -> enc_exponent log2f v = te v.

(** The value fits the excess-64 exponent field. *)
Definition exp_fits (v : dy) : Prop := dm v <> 0 -> -64 <= te v <= 63.

(** ** Canonical forms *)

Lemma strip2_spec : forall p e q f, strip2 p e = (q, f) ->
  e <= f /\ Zpos p = Zpos q * 2 ^ (f - e) /\ Z.odd (Zpos q) = true.
Proof.
  induction p as [p IH|p IH|]; cbn [strip2]; intros e q f H.
  - inversion H; subst. rewrite Z.sub_diag. split; [lia|]. split; [lia|reflexivity].
  - apply IH in H. destruct H as (H1 & H2 & H3). split; [lia|]. split; [|assumption].
    rewrite Pos2Z.inj_xO, H2. replace (f - e) with (1 + (f - (e + 1))) by lia.
    rewrite Z.pow_add_r by lia. lia.
  - inversion H; subst. rewrite Z.sub_diag. split; [lia|]. split; [lia|reflexivity].
Qed.

Lemma odd_pow2_unique : forall a b i j, Z.odd a = true -> Z.odd b = true ->
  0 <= i -> 0 <= j -> a * 2 ^ i = b * 2 ^ j -> a = b /\ i = j.
Proof.
  assert (main : forall a b i j, Z.odd a = true -> Z.odd b = true ->
            0 <= i -> i <= j -> a * 2 ^ i = b * 2 ^ j -> a = b /\ i = j).
  { intros a b i j Ha Hb Hi Hij H.
    replace j with (i + (j - i)) in H by lia.
    rewrite Z.pow_add_r, Z.mul_assoc in H by lia.
    assert (Hp : 0 < 2 ^ i) by (apply Z.pow_pos_nonneg; lia).
    assert (Hab : a = b * 2 ^ (j - i)) by nia.
    destruct (Z.eq_dec i j) as [->|Hne].
    - rewrite Z.sub_diag in Hab. split; lia.
    - exfalso. replace (j - i) with (1 + (j - i - 1)) in Hab by lia.
      rewrite Z.pow_add_r in Hab by lia.
      rewrite Hab in Ha. rewrite Z.mul_comm, <- Z.mul_assoc in Ha.
      rewrite Z.odd_mul in Ha. cbn in Ha. discriminate. }
  intros a b i j Ha Hb Hi Hj H. destruct (Z.le_gt_cases i j).
  - auto.
  - symmetry in H. apply main in H; try assumption; [|lia]. destruct H; auto.
Qed.

(** [canon m e] is the only canonical dyadic with the value [m * 2^e]. *)
Lemma canon_unique : forall m e q f i j, 0 <= i -> 0 <= j ->
  m * 2 ^ i = q * 2 ^ j -> e - i = f - j -> Z.odd q = true -> canon m e = Dy q f.
Proof.
  intros m e q f i j Hi Hj H He Hq.
  assert (P2 : forall k, 0 <= k -> 0 < 2 ^ k) by (intros; apply Z.pow_pos_nonneg; lia).
  destruct m as [|p|p]; unfold canon.
  - exfalso. pose proof (P2 j Hj). assert (q = 0) by nia. subst. discriminate.
  - destruct (strip2 p e) as [q' f'] eqn:E. apply strip2_spec in E.
    destruct E as (E1 & E2 & E3).
    rewrite E2, <- Z.mul_assoc, <- Z.pow_add_r in H by lia.
    apply odd_pow2_unique in H; try assumption; try lia. destruct H as [H1 H2].
    rewrite H1. f_equal. lia.
  - destruct (strip2 p e) as [q' f'] eqn:E. apply strip2_spec in E.
    destruct E as (E1 & E2 & E3).
    change (Zneg p) with (- Zpos p) in H. rewrite E2 in H.
    rewrite Z.mul_opp_l, <- Z.mul_assoc, <- Z.pow_add_r in H by lia.
    rewrite <- Z.mul_opp_l in H.
    apply odd_pow2_unique in H; try assumption; try lia.
    + destruct H as [H1 H2]. change (Zneg q') with (- Zpos q').
      rewrite H1. f_equal. lia.
Qed.

Lemma canon_canonical : forall m e, canonical (canon m e).
Proof.
  intros m e. destruct m as [|p|p]; unfold canon.
  - left. split; reflexivity.
  - destruct (strip2 p e) as [q f] eqn:E. apply strip2_spec in E. right. tauto.
  - destruct (strip2 p e) as [q f] eqn:E. apply strip2_spec in E. right.
    cbn [dm]. change (Zneg q) with (- Zpos q). rewrite Z.odd_opp. tauto.
Qed.

(** ** The exponent chosen by the encoder *)

Lemma ceil_adjust : forall a b, 0 < b ->
  (if (a =? (- ((- a) / b)) * b) then - ((- a) / b) + 1 else - ((- a) / b)) = a / b + 1.
Proof.
  intros a b Hb. destruct (_ =? _) eqn:E; nia.
Qed.

(** [ceil, then +1 if integer] is [floor + 1]. *)
Lemma enc_exponent_floor : forall log2f v,
  enc_exponent log2f v =
  let l := log2f (Dy (Z.abs (dm v)) (de v)) in
  (dm l * 2 ^ Z.max 0 (de l - 2)) / 2 ^ Z.max 0 (2 - de l) + 1.
Proof.
  intros. unfold enc_exponent, fexp_ceil, fexp_is_int. cbv zeta.
  set (l := log2f _).
  assert (Hp : 0 < 2 ^ Z.max 0 (2 - de l)) by (apply Z.pow_pos_nonneg; lia).
  rewrite <- ceil_adjust by exact Hp.
  rewrite (Z.mul_opp_l (dm l)). reflexivity.
Qed.

Lemma enc_exponent_range : forall log2f v, log2_ok log2f -> dm v <> 0 ->
  enc_exponent log2f v = te v \/
  (enc_exponent log2f v = te v + 1 /\ (Z.log2 (Z.abs (dm v)) + de v) mod 4 = 3).
Proof.
  intros log2f v Hok Hv. rewrite enc_exponent_floor. cbv zeta.
  destruct (Hok (Z.abs (dm v)) (de v)) as [H1 H2]; [lia|].
  set (l := log2f _) in *. set (k := Z.log2 (Z.abs (dm v)) + de v) in *.
  unfold te. fold k. unfold dle in H1, H2. cbn [dm de] in H1, H2.
  rewrite Z.sub_0_r, Z.sub_0_l in H1, H2.
  assert (P2 : forall j, 0 < 2 ^ Z.max 0 j) by (intros; apply Z.pow_pos_nonneg; lia).
  destruct (Z.le_gt_cases 2 (de l)) as [C|C].
  - (* the logarithm is a multiple of 4 *)
    replace (Z.max 0 (- de l)) with 0 in H1, H2 by lia.
    replace (Z.max 0 (de l)) with (2 + Z.max 0 (de l - 2)) in H1, H2 by lia.
    replace (Z.max 0 (2 - de l)) with 0 by lia.
    rewrite Z.pow_add_r in H1, H2 by lia. change (2 ^ 2) with 4 in H1, H2.
    change (2 ^ 0) with 1 in *.
    set (a := dm l * 2 ^ Z.max 0 (de l - 2)) in *.
    assert (k <= 4 * a <= k + 1) by nia. lia.
  - replace (Z.max 0 (de l - 2)) with 0 by lia. change (2 ^ 0) with 1.
    rewrite Z.mul_1_r.
    destruct (Z.le_gt_cases 0 (de l)) as [D|D].
    + assert (Hde : de l = 0 \/ de l = 1) by lia. destruct Hde as [Hde|Hde];
        rewrite Hde in *; cbn in H1, H2 |- *; lia.
    + replace (Z.max 0 (2 - de l)) with (2 + - de l) by lia.
      replace (Z.max 0 (- de l)) with (- de l) in H1, H2 by lia.
      replace (Z.max 0 (de l)) with 0 in H1, H2 by lia.
      change (2 ^ 0) with 1 in H1, H2.
      rewrite Z.pow_add_r by lia. change (2 ^ 2) with 4.
      assert (0 < 2 ^ (- de l)) by (apply Z.pow_pos_nonneg; lia).
      set (P := 2 ^ (- de l)) in *.
      rewrite Z.mul_comm with (n := 4), <- Z.div_div by lia.
      assert (k <= dm l / P <= k + 1) by nia. lia.
Qed.

(** Mantissa for the true exponent: exact and normalised. *)
Lemma te_bounds : forall v, dm v <> 0 ->
  let s := de v + 4 * (14 - te v) in
  Z.log2 (Z.abs (dm v)) + s = 52 + (Z.log2 (Z.abs (dm v)) + de v) mod 4.
Proof. intros v Hv s. unfold s, te. lia. Qed.

Lemma scale_exact : forall v, is_f64 v -> dm v <> 0 ->
  let s := de v + 4 * (14 - te v) in
  0 <= s /\ 2 ^ 52 <= Z.abs (dm v) * 2 ^ s < 2 ^ 56 /\
  scale_floor (Z.abs (dm v)) s = Z.abs (dm v) * 2 ^ s.
Proof.
  intros v [Hc Hlt] Hv s. pose proof (te_bounds v Hv) as HB. cbv zeta in HB. fold s in HB.
  assert (Hl : Z.log2 (Z.abs (dm v)) < 53) by (apply Z.log2_lt_pow2; lia).
  assert (Hs : 0 <= s) by lia.
  split; [exact Hs|].
  destruct (Z.log2_spec (Z.abs (dm v))) as [L1 L2]; [lia|].
  assert (P : 0 < 2 ^ s) by (apply Z.pow_pos_nonneg; lia).
  split.
  - split.
    + apply Z.le_trans with (2 ^ (Z.log2 (Z.abs (dm v)) + s)).
      * apply Z.pow_le_mono_r; lia.
      * rewrite Z.pow_add_r by (try apply Z.log2_nonneg; lia). nia.
    + apply Z.lt_le_trans with (2 ^ (Z.succ (Z.log2 (Z.abs (dm v))) + s)).
      * rewrite Z.pow_add_r by (try pose proof (Z.log2_nonneg (Z.abs (dm v))); lia). nia.
      * apply Z.pow_le_mono_r; lia.
  - unfold scale_floor. destruct (0 <=? s) eqn:E; lia.
Qed.

(** Rounding to 53 bits is exact on numbers with at most 53 significant bits. *)
Lemma round53_exact : forall m s, 0 < m < 2 ^ 53 -> 0 <= s ->
  exists q k, round53 (m * 2 ^ s) = (q, k) /\ 0 <= k /\ q * 2 ^ k = m * 2 ^ s.
Proof.
  intros m s Hm Hs. unfold round53.
  assert (P : 0 < 2 ^ s) by (apply Z.pow_pos_nonneg; lia).
  assert (Hlog : Z.log2 (m * 2 ^ s) = s + Z.log2 m).
  { rewrite Z.log2_mul_pow2 by lia. lia. }
  assert (Hl : Z.log2 m < 53) by (apply Z.log2_lt_pow2; lia).
  rewrite Hlog. set (k := Z.max 0 (s + Z.log2 m - 52)).
  assert (Hk : 0 <= k <= s) by lia.
  assert (Hr : (m * 2 ^ s) mod 2 ^ k = 0).
  { replace s with ((s - k) + k) by lia. rewrite Z.pow_add_r by lia.
    rewrite Z.mul_assoc. apply Z.mod_mul. assert (0 < 2 ^ k) by (apply Z.pow_pos_nonneg; lia). lia. }
  rewrite Hr. assert (Pk : 0 < 2 ^ k) by (apply Z.pow_pos_nonneg; lia).
  replace (2 * 0 <? 2 ^ k) with true by lia.
  eexists. eexists. split; [reflexivity|]. split; [lia|].
  pose proof (Z.div_mod (m * 2 ^ s) (2 ^ k)). lia.
Qed.

(** ** Splitting and joining the fields *)

Lemma land_255 : forall x, Z.land x 255 = x mod 256.
Proof. intros. change 255 with (Z.ones 8). rewrite Z.land_ones by lia. reflexivity. Qed.

Lemma land_32512 : forall x, 0 <= x < 65536 -> Z.land x 32512 / 256 = (x / 256) mod 128.
Proof.
  intros x Hx. change 256 with (2 ^ 8) at 1. rewrite <- Z.shiftr_div_pow2 by lia.
  rewrite Z.shiftr_land. change (Z.shiftr 32512 8) with (Z.ones 7).
  rewrite Z.land_ones by lia. rewrite Z.shiftr_div_pow2 by lia. reflexivity.
Qed.

Lemma land_32768 : forall x, 0 <= x < 65536 -> (Z.land x 32768 =? 0) = (x <? 32768).
Proof.
  intros x Hx.
  assert (E : Z.land x 32768 = (x / 32768) mod 2 * 32768).
  { apply Z.bits_inj'. intros n Hn.
    rewrite Z.land_spec. change 32768 with (2 ^ 15) at 1 3.
    rewrite Z.pow2_bits_eqb by lia. rewrite Z.mul_pow2_bits by lia.
    destruct (15 =? n) eqn:E.
    - apply Z.eqb_eq in E. subst n. rewrite andb_true_r.
      replace (15 - 15) with 0 by lia.
      change 2 with (2 ^ 1) at 1. rewrite Z.mod_pow2_bits_low by lia.
      change 32768 with (2 ^ 15). rewrite Z.div_pow2_bits by lia. reflexivity.
    - rewrite andb_false_r. destruct (n <? 15) eqn:F.
      + rewrite Z.testbit_neg_r by lia. reflexivity.
      + change 2 with (2 ^ 1) at 1. rewrite Z.mod_pow2_bits_high by lia. reflexivity. }
  rewrite E. lia.
Qed.

(** Decoding the packed fields. *)
Lemma decode_fields : forall b1 mant b,
  0 <= mant < 2 ^ 56 ->
  pack [FH (b1 * 256 + mant / 281474976710656);
        FH ((mant mod 281474976710656) / 4294967296);
        FL (mant mod 4294967296)] = Some b ->
  0 <= b1 < 256 /\
  exists q k, round53 mant = (q, k) /\
  eight_byte_real_to_float b =
    Some (if b1 <? 128 then canon q (k - 56 + 4 * (b1 - 64))
          else canon (- q) (k - 56 + 4 * (b1 - 192))).
Proof.
  intros b1 mant b Hm H. change (2 ^ 56) with 72057594037927936 in Hm.
  unfold pack in H. cbn [map pack_field oconcat] in H.
  apply oapp_Some in H. destruct H as (x & y & Hx & H & ->).
  apply oapp_Some in H. destruct H as (x2 & y2 & Hx2 & H & ->).
  apply oapp_Some in H. destruct H as (x3 & y3 & Hx3 & H & ->).
  inversion H; subst y3; clear H.
  apply pack_H_Some in Hx. destruct Hx as [R1 ->].
  apply pack_H_Some in Hx2. destruct Hx2 as [R2 ->].
  apply pack_L_Some in Hx3. destruct Hx3 as [R3 ->].
  assert (Hb2 : 0 <= mant / 281474976710656 < 256) by lia.
  split; [lia|].
  unfold be16, be32. cbn [app eight_byte_real_to_float].
  rewrite !un16_be16, un32_be32 by lia.
  rewrite land_255, land_32512, land_32768 by lia.
  replace ((b1 * 256 + mant / 281474976710656) mod 256) with (mant / 281474976710656) by lia.
  replace ((mant / 281474976710656 * 65536 + mant mod 281474976710656 / 4294967296) * 4294967296 +
           mant mod 4294967296) with mant by lia.
  replace ((b1 * 256 + mant / 281474976710656) / 256) with b1 by lia.
  destruct (round53 mant) as [q k]. exists q, k. split; [reflexivity|].
  replace (b1 * 256 + mant / 281474976710656 <? 32768) with (b1 <? 128) by lia.
  destruct (b1 <? 128) eqn:E.
  - replace (b1 mod 128) with b1 by lia. reflexivity.
  - replace (b1 mod 128) with (b1 - 128) by lia. f_equal. f_equal. lia.
Qed.

(** ** Exact round trip *)

Lemma real8_roundtrip : forall log2f v b,
  is_f64 v -> exp_exact log2f v -> exp_fits v ->
  eight_byte_real log2f v = Some b ->
  eight_byte_real_to_float b = Some v /\ length b = 8%nat /\ all_bytes b.
Proof.
  intros log2f v b Hf Hex Hfit H. unfold eight_byte_real in H.
  destruct (dm v =? 0) eqn:E0.
  - inversion H; subst b. split.
    + destruct Hf as [[ [Hm He] | Ho ] _].
      * destruct v as [m e]. cbn in Hm, He. subst. reflexivity.
      * replace (dm v) with 0 in Ho by lia. discriminate.
    + split; [reflexivity|]. repeat constructor; unfold is_byte; lia.
  - assert (Hv : dm v <> 0) by lia. specialize (Hex Hv). specialize (Hfit Hv).
    rewrite Hex in H. cbv zeta in H.
    destruct (scale_exact v Hf Hv) as (Hs & HM & Hsf).
    rewrite Hsf in H.
    set (s := de v + 4 * (14 - te v)) in *.
    set (M := Z.abs (dm v) * 2 ^ s) in *.
    assert (HM' : 0 <= M < 2 ^ 56) by lia.
    pose proof H as Hp.
    apply decode_fields in H; [|exact HM'].
    destruct H as (Hb1 & q & k & Hr & Hd).
    destruct (round53_exact (Z.abs (dm v)) s) as (q' & k' & Hr' & Hk' & Hqk);
      [destruct Hf; lia | exact Hs|].
    fold M in Hr'. rewrite Hr in Hr'. inversion Hr'; subst q' k'. clear Hr'.
    destruct Hf as [[ [Hz _] | Hodd ] Hlt]; [lia|].
    split.
    + rewrite Hd. f_equal. destruct v as [m e]. cbn [dm de] in *.
      unfold s in Hqk.
      destruct (m <? 0) eqn:Em.
      * replace (128 + (te {| dm := m; de := e |} + 64) <? 128) with false by lia.
        apply canon_unique with (i := k) (j := s); try lia; try assumption.
        -- rewrite Z.mul_opp_l, Hqk. unfold s. replace (Z.abs m) with (- m) by lia. lia.
      * replace (0 + (te {| dm := m; de := e |} + 64) <? 128) with true by lia.
        apply canon_unique with (i := k) (j := s); try lia; try assumption.
        -- rewrite Hqk. unfold s. replace (Z.abs m) with m by lia. reflexivity.
    + unfold pack in Hp. cbn [map pack_field oconcat] in Hp.
      apply oapp_Some in Hp. destruct Hp as (x & y & Hx & Hp & ->).
      apply oapp_Some in Hp. destruct Hp as (x2 & y2 & Hx2 & Hp & ->).
      apply oapp_Some in Hp. destruct Hp as (x3 & y3 & Hx3 & Hp & ->).
      inversion Hp; subst y3. clear Hp.
      apply pack_H_Some in Hx. destruct Hx as [R1 ->].
      apply pack_H_Some in Hx2. destruct Hx2 as [R2 ->].
      apply pack_L_Some in Hx3. destruct Hx3 as [R3 ->].
      split; [reflexivity|].
      rewrite !all_bytes_app. repeat split; try (apply be16_bytes; assumption);
        try (apply be32_bytes; assumption). constructor.
Qed.

(** Values that fit are accepted. *)
Lemma real8_total : forall log2f v,
  is_f64 v -> exp_exact log2f v -> exp_fits v ->
  exists b, eight_byte_real log2f v = Some b.
Proof.
  intros log2f v Hf Hex Hfit. unfold eight_byte_real.
  destruct (dm v =? 0) eqn:E0; [eauto|].
  assert (Hv : dm v <> 0) by lia. specialize (Hex Hv). specialize (Hfit Hv).
  rewrite Hex. cbv zeta. destruct (scale_exact v Hf Hv) as (Hs & HM & Hsf).
  rewrite Hsf. set (M := Z.abs (dm v) * 2 ^ _) in *.
  change (2 ^ 52) with 4503599627370496 in HM. change (2 ^ 56) with 72057594037927936 in HM.
  unfold pack. cbn [map pack_field oconcat]. unfold pack_H, pack_L.
  destruct (dm v <? 0).
  - replace ((0 <=? (128 + (te v + 64)) * 256 + M / 281474976710656) &&
             ((128 + (te v + 64)) * 256 + M / 281474976710656 <? 65536)) with true by lia.
    replace ((0 <=? M mod 281474976710656 / 4294967296) &&
             (M mod 281474976710656 / 4294967296 <? 65536)) with true by lia.
    replace ((0 <=? M mod 4294967296) && (M mod 4294967296 <? 4294967296)) with true by lia.
    cbn. eauto.
  - replace ((0 <=? (0 + (te v + 64)) * 256 + M / 281474976710656) &&
             ((0 + (te v + 64)) * 256 + M / 281474976710656 <? 65536)) with true by lia.
    replace ((0 <=? M mod 281474976710656 / 4294967296) &&
             (M mod 281474976710656 / 4294967296 <? 65536)) with true by lia.
    replace ((0 <=? M mod 4294967296) && (M mod 4294967296 <? 4294967296)) with true by lia.
    cbn. eauto.
Qed.

Lemma log2_floor_ok : log2_ok log2_floor.
Proof.
  intros m e Hm. unfold dle, log2_floor. cbn [dm de]. lia.
Qed.

Lemma log2_floor_exact : forall v, exp_exact log2_floor v.
Proof.
  intros v Hv. rewrite enc_exponent_floor. unfold log2_floor, te. cbn [dm de].
  change (2 ^ Z.max 0 (0 - 2)) with 1. change (2 ^ Z.max 0 (2 - 0)) with 4.
  rewrite Z.mul_1_r. reflexivity.
Qed.
