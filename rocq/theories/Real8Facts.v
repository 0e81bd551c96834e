(** More facts about the 8-byte real format: error bound when [log2] rounds to
    the next power of 16, normalisation, and values out of range. *)

From Coq Require Import List ZArith Lia Bool QArith Qpower Qabs Lqa.
From Coq Require Import ZifyBool ZifyNat.
From Verif Require Import Bytes Real8.
Import ListNotations.
Open Scope Z_scope.

(** The rational number a dyadic denotes. *)
Definition dyQ (v : dy) : Q := (inject_Z (dm v) * 2 ^ de v)%Q.

Lemma two_nz : ~ (2 == 0)%Q.
Proof. intros H. discriminate H. Qed.

Lemma two_pow_pos : forall e, (0 < 2 ^ e)%Q.
Proof. intros. apply Qpower_0_lt. reflexivity. Qed.

Lemma canon_value : forall m e, (dyQ (canon m e) == inject_Z m * 2 ^ e)%Q.
Proof.
  assert (K : forall p e q f, strip2 p e = (q, f) -> (inject_Z (Zpos q) * 2 ^ f == inject_Z (Zpos p) * 2 ^ e)%Q).
  { intros p e q f E. apply strip2_spec in E. destruct E as (H1 & H2 & _).
    rewrite H2, inject_Z_mult, Zpower_Qpower by lia.
    change (inject_Z 2) with 2%Q.
    rewrite <- Qmult_assoc, <- (Qpower_plus 2 (f - e) e) by apply two_nz.
    replace (f - e + e) with f by lia. reflexivity. }
  intros [|p|p] e; unfold dyQ, canon.
  - cbn [dm de]. change (inject_Z 0) with 0%Q. ring.
  - destruct (strip2 p e) as [q f] eqn:E. cbn [dm de]. apply K. exact E.
  - destruct (strip2 p e) as [q f] eqn:E. cbn [dm de].
    change (Z.neg q) with (- Z.pos q). change (Z.neg p) with (- Z.pos p). rewrite !inject_Z_opp.
    rewrite <- (Qopp_involutive (- inject_Z (Z.pos q) * 2 ^ f)).
    transitivity (- (inject_Z (Zpos q) * 2 ^ f))%Q; [ring|]. rewrite (K _ _ _ _ E). ring.
Qed.

(** When the encoder picks the next exponent, one hexadecimal digit less is
    stored: the value is truncated, with relative error below 2^-51. *)
Lemma real8_inexact : forall log2f v b,
  is_f64 v -> dm v <> 0 -> enc_exponent log2f v = te v + 1 ->
  (Z.log2 (Z.abs (dm v)) + de v) mod 4 = 3 -> -65 <= te v <= 62 ->
  eight_byte_real log2f v = Some b ->
  exists w, eight_byte_real_to_float b = Some w /\
    (0 < dm w * dm v)%Z /\
    (Qabs (dyQ w) <= Qabs (dyQ v))%Q /\
    (Qabs (dyQ v) - Qabs (dyQ w) < Qabs (dyQ v) * 2 ^ (-51))%Q.
Proof.
  intros log2f v b Hf Hv Hex Hmod Hfit H. unfold eight_byte_real in H.
  replace (dm v =? 0) with false in H by lia. rewrite Hex in H. cbv zeta in H.
  destruct (scale_exact v Hf Hv) as (Hs & HM & _).
  set (s := de v + 4 * (14 - te v)) in *.
  set (M := Z.abs (dm v) * 2 ^ s) in *.
  replace (de v + 4 * (14 - (te v + 1))) with (s - 4) in H by (unfold s; lia).
  assert (HM3 : 2 ^ 55 <= M).
  { pose proof (te_bounds v Hv) as B. cbv zeta in B. fold s in B. rewrite Hmod in B.
    destruct (Z.log2_spec (Z.abs (dm v))) as [L1 _]; [lia|].
    unfold M. apply Z.le_trans with (2 ^ (Z.log2 (Z.abs (dm v)) + s)).
    - apply Z.pow_le_mono_r; lia.
    - rewrite Z.pow_add_r by (try apply Z.log2_nonneg; lia).
      apply Z.mul_le_mono_nonneg_r; [apply Z.pow_nonneg; lia|exact L1]. }
  assert (Esf : scale_floor (Z.abs (dm v)) (s - 4) = M / 16).
  { unfold scale_floor, M. destruct (0 <=? s - 4) eqn:E4.
    - replace s with ((s - 4) + 4) at 2 by lia. rewrite Z.pow_add_r by lia.
      change (2 ^ 4) with 16. rewrite Z.mul_assoc, Z.div_mul by lia. reflexivity.
    - replace (- (s - 4)) with (4 - s) by lia.
      replace 16 with (2 ^ s * 2 ^ (4 - s)).
      + rewrite <- Z.div_div by (try apply Z.pow_nonzero; try apply Z.pow_pos_nonneg; lia).
        rewrite Z.div_mul by (apply Z.pow_nonzero; lia). reflexivity.
      + rewrite <- Z.pow_add_r by lia. replace (s + (4 - s)) with 4 by lia. reflexivity. }
  rewrite Esf in H. set (M' := M / 16) in *.
  change (2 ^ 55) with 36028797018963968 in HM3. change (2 ^ 56) with 72057594037927936 in HM.
  assert (HM' : 0 < M' < 2 ^ 53) by (change (2 ^ 53) with 9007199254740992; unfold M'; lia).
  assert (HM16 : 16 * M' <= M < 16 * M' + 16) by (unfold M'; lia).
  assert (M51 : 2251799813685248 <= M') by (unfold M'; lia).
  apply decode_fields in H; [|change (2 ^ 56) with 72057594037927936; change (2 ^ 53) with 9007199254740992 in HM'; lia].
  destruct H as (Hb1 & q & k & Hr & Hd).
  destruct (round53_exact M' 0) as (q' & k' & Hr' & Hk' & Hqk); [exact HM'|lia|].
  change (2 ^ 0) with 1 in *. rewrite Z.mul_1_r in *. rewrite Hr in Hr'. inversion Hr'; subst q' k'. clear Hr'.
  set (E := 4 * (te v + 1) - 56).
  assert (Vv : (Qabs (dyQ v) == inject_Z M * 2 ^ (E - 4))%Q).
  { unfold dyQ. rewrite Qabs_Qmult. rewrite (Qabs_pos (2 ^ de v)) by (apply Qlt_le_weak, two_pow_pos).
    assert (Ea : (Qabs (inject_Z (dm v)) == inject_Z (Z.abs (dm v)))%Q) by reflexivity. rewrite Ea.
    unfold M. rewrite inject_Z_mult, Zpower_Qpower by lia. change (inject_Z 2) with 2%Q.
    rewrite <- Qmult_assoc, <- (Qpower_plus 2 s) by apply two_nz.
    replace (s + (E - 4)) with (de v) by (unfold s, E; lia). reflexivity. }
  assert (Pk : 0 < 2 ^ k) by (apply Z.pow_pos_nonneg; lia).
  assert (Hq : 0 < q) by nia.
  assert (Wq : forall sg : Z, sg = 1 \/ sg = -1 ->
    (Qabs (dyQ (canon (sg * q) (k + E))) == inject_Z M' * 2 ^ E)%Q).
  { intros sg Hsg. rewrite canon_value. rewrite Qabs_Qmult.
    rewrite (Qabs_pos (2 ^ (k + E))) by (apply Qlt_le_weak, two_pow_pos).
    assert (Ea : (Qabs (inject_Z (sg * q)) == inject_Z q)%Q).
    { change (Qabs (inject_Z (sg * q))) with (inject_Z (Z.abs (sg * q))).
      replace (Z.abs (sg * q)) with q by lia. reflexivity. }
    rewrite Ea, Qpower_plus by apply two_nz. rewrite <- Hqk, inject_Z_mult, Zpower_Qpower by lia.
    change (inject_Z 2) with 2%Q. ring. }
  assert (Fin : forall x, (x == inject_Z M' * 2 ^ E)%Q ->
     (x <= Qabs (dyQ v))%Q /\ (Qabs (dyQ v) - x < Qabs (dyQ v) * 2 ^ (-51))%Q).
  { intros x Hx. rewrite Hx, Vv.
    assert (P4 : (2 ^ E == 16 * 2 ^ (E - 4))%Q).
    { replace E with (4 + (E - 4)) at 1 by lia. rewrite Qpower_plus by apply two_nz. reflexivity. }
    rewrite P4. pose proof (two_pow_pos (E - 4)) as PP.
    set (u := (2 ^ (E - 4))%Q) in *.
    assert (A1 : (inject_Z M' * 16 <= inject_Z M)%Q).
    { change 16%Q with (inject_Z 16). rewrite <- inject_Z_mult, <- Zle_Qle. lia. }
    assert (A2 : (inject_Z M < inject_Z M' * 16 + 16)%Q).
    { change 16%Q with (inject_Z 16). rewrite <- inject_Z_mult, <- inject_Z_plus, <- Zlt_Qlt. lia. }
    assert (A3 : (inject_Z 36028797018963968 <= inject_Z M)%Q) by (rewrite <- Zle_Qle; exact HM3).
    assert (A4 : (16 == inject_Z 36028797018963968 * 2 ^ (-51))%Q) by reflexivity.
    assert (A5 : (16 <= inject_Z M * 2 ^ (-51))%Q).
    { rewrite A4 at 1. apply Qmult_le_compat_r; [exact A3|]. apply Qlt_le_weak, two_pow_pos. }
    set (c := (2 ^ (-51))%Q) in *. clearbody c u. clear - PP A1 A2 A5.
    set (mm := inject_Z M) in *. set (m' := inject_Z M') in *. clearbody mm m'.
    split.
    - setoid_replace (m' * (16 * u))%Q with ((m' * 16) * u)%Q by ring.
      apply Qmult_le_compat_r; [exact A1|]. apply Qlt_le_weak. exact PP.
    - setoid_replace (mm * u - m' * (16 * u))%Q with ((mm - m' * 16) * u)%Q by ring.
      setoid_replace (mm * u * c)%Q with ((mm * c) * u)%Q by ring.
      apply Qmult_lt_compat_r; [exact PP|]. lra. }
  eexists. split; [exact Hd|].
  destruct (dm v <? 0) eqn:Em.
  - replace (128 + (te v + 1 + 64) <? 128) with false by lia.
    replace (k - 56 + 4 * (128 + (te v + 1 + 64) - 192)) with (k + E) by (unfold E; lia).
    replace (- q) with ((-1) * q) by lia.
    split; [|apply Fin; apply Wq; right; reflexivity].
    assert (dm (canon (-1 * q) (k + E)) < 0); [|nia].
    destruct q as [|q|q]; try lia. cbn. destruct (strip2 q (k + E)). cbn. lia.
  - replace (0 + (te v + 1 + 64) <? 128) with true by lia.
    replace (k - 56 + 4 * (0 + (te v + 1 + 64) - 64)) with (k + E) by (unfold E; lia).
    replace (canon q (k + E)) with (canon (1 * q) (k + E)) by (f_equal; lia).
    split; [|apply Fin; apply Wq; left; reflexivity].
    assert (0 < dm (canon (1 * q) (k + E))); [|nia].
    destruct q as [|q|q]; try lia. cbn. destruct (strip2 q (k + E)). cbn. lia.
Qed.

(** Normalised mantissa: the first hexadecimal digit is not zero. *)
Lemma real8_normalised : forall log2f v b,
  is_f64 v -> dm v <> 0 -> exp_exact log2f v ->
  eight_byte_real log2f v = Some b -> 16 <= nth 1 b 0 < 256.
Proof.
  intros log2f v b Hf Hv Hex H. specialize (Hex Hv). unfold eight_byte_real in H.
  replace (dm v =? 0) with false in H by lia. rewrite Hex in H. cbv zeta in H.
  destruct (scale_exact v Hf Hv) as (Hs & HM & Hsf). rewrite Hsf in H.
  set (M := Z.abs (dm v) * 2 ^ _) in *.
  change (2 ^ 52) with 4503599627370496 in HM. change (2 ^ 56) with 72057594037927936 in HM.
  unfold pack in H. cbn [map pack_field oconcat] in H.
  apply oapp_Some in H. destruct H as (x & y & Hx & H & ->).
  apply pack_H_Some in Hx. destruct Hx as [R1 ->]. cbn [be16 app nth]. lia.
Qed.

(** Out of the exponent range: rejected, or decoded with the opposite sign. *)
Lemma real8_out_of_range : forall log2f v,
  is_f64 v -> dm v <> 0 -> exp_exact log2f v -> ~ (-64 <= te v <= 63) ->
  eight_byte_real log2f v = None \/
  exists b w, eight_byte_real log2f v = Some b /\ eight_byte_real_to_float b = Some w /\ dm w * dm v < 0.
Proof.
  intros log2f v Hf Hv Hex Hout. specialize (Hex Hv).
  destruct (eight_byte_real log2f v) as [b|] eqn:H; [right|left; reflexivity].
  unfold eight_byte_real in H.
  replace (dm v =? 0) with false in H by lia. rewrite Hex in H. cbv zeta in H.
  destruct (scale_exact v Hf Hv) as (Hs & HM & Hsf). rewrite Hsf in H.
  set (s := de v + 4 * (14 - te v)) in *.
  set (M := Z.abs (dm v) * 2 ^ s) in *.
  assert (HM' : 0 <= M < 2 ^ 56) by (pose proof (Z.pow_pos_nonneg 2 52); lia).
  apply decode_fields in H; [|exact HM']. destruct H as (Hb1 & q & k & Hr & Hd).
  destruct (round53_exact (Z.abs (dm v)) s) as (q' & k' & Hr' & Hk' & Hqk);
      [destruct Hf; lia | exact Hs|].
  fold M in Hr', Hqk. rewrite Hr in Hr'. inversion Hr'; subst q' k'. clear Hr'.
  assert (Pk : 0 < 2 ^ k) by (apply Z.pow_pos_nonneg; lia).
  assert (0 < M) by (pose proof (Z.pow_pos_nonneg 2 52); lia).
  assert (Hq : 0 < q) by nia.
  eexists. eexists. split; [reflexivity|]. split; [exact Hd|].
  assert (Sg : forall e, 0 < dm (canon q e) /\ dm (canon (- q) e) < 0).
  { intros e. destruct q as [|q|q]; try lia. cbn. destruct (strip2 q e). cbn. lia. }
  destruct (dm v <? 0) eqn:Em.
  - replace (128 + (te v + 64) <? 128) with true by lia.
    destruct (Sg (k - 56 + 4 * (128 + (te v + 64) - 64))). nia.
  - replace (0 + (te v + 64) <? 128) with false by lia.
    destruct (Sg (k - 56 + 4 * (0 + (te v + 64) - 192))). nia.
Qed.

(** Encoding succeeds also with the next exponent. *)
Lemma real8_inexact_total : forall log2f v,
  is_f64 v -> dm v <> 0 -> enc_exponent log2f v = te v + 1 -> -65 <= te v <= 62 ->
  exists b, eight_byte_real log2f v = Some b.
Proof.
  intros log2f v Hf Hv Hex Hfit. unfold eight_byte_real.
  replace (dm v =? 0) with false by lia. rewrite Hex. cbv zeta.
  destruct (scale_exact v Hf Hv) as (Hs & HM & _).
  set (s := de v + 4 * (14 - te v)) in *.
  replace (de v + 4 * (14 - (te v + 1))) with (s - 4) by (unfold s; lia).
  assert (Esf : 0 <= scale_floor (Z.abs (dm v)) (s - 4) < 2 ^ 56).
  { unfold scale_floor. destruct (0 <=? s - 4) eqn:E4.
    - assert (2 ^ (s - 4) <= 2 ^ s) by (apply Z.pow_le_mono_r; lia).
      assert (0 < 2 ^ (s - 4)) by (apply Z.pow_pos_nonneg; lia). nia.
    - assert (0 < 2 ^ (- (s - 4))) by (apply Z.pow_pos_nonneg; lia).
      destruct Hf as [_ Hlt]. change (2 ^ 53) with 9007199254740992 in Hlt.
      change (2 ^ 56) with 72057594037927936.
      split; [apply Z.div_pos; lia|]. apply Z.le_lt_trans with (Z.abs (dm v)); [|lia].
      apply Z.div_le_upper_bound; nia. }
  set (M := scale_floor _ _) in *. change (2 ^ 56) with 72057594037927936 in Esf. clearbody M.
  unfold pack. cbn [map pack_field oconcat]. unfold pack_H, pack_L.
  assert (forall sg, sg = 0 \/ sg = 128 ->
     (0 <=? (sg + (te v + 1 + 64)) * 256 + M / 281474976710656) &&
     ((sg + (te v + 1 + 64)) * 256 + M / 281474976710656 <? 65536) = true) as K by (intros sg [->| ->]; lia).
  rewrite K by (destruct (dm v <? 0); auto).
  replace ((0 <=? M mod 281474976710656 / 4294967296) &&
             (M mod 281474976710656 / 4294967296 <? 65536)) with true by lia.
  replace ((0 <=? M mod 4294967296) && (M mod 4294967296 <? 4294967296)) with true by lia.
  cbn. eauto.
Qed.

(** Whatever a sane [log2] does, writing and reading returns the value or a
    slightly smaller one of the same sign. *)
Lemma real8_any_log2 : forall log2f v, log2_ok log2f -> is_f64 v ->
  (dm v <> 0 -> -64 <= te v <= 62) ->
  exists b w, eight_byte_real log2f v = Some b /\ eight_byte_real_to_float b = Some w /\
    (w = v \/
     ((0 < dm w * dm v)%Z /\ (Qabs (dyQ w) <= Qabs (dyQ v))%Q /\
      (Qabs (dyQ v) - Qabs (dyQ w) < Qabs (dyQ v) * 2 ^ (-51))%Q)).
Proof.
  intros log2f v Hok Hf Hfit. destruct (Z.eq_dec (dm v) 0) as [Z0|Hv].
  - destruct (real8_total log2f v Hf) as (b & E); try (intros C; contradiction).
    exists b, v. split; [exact E|]. split; [|left; reflexivity].
    apply (real8_roundtrip log2f v b Hf) in E; [tauto| |]; intros C; contradiction.
  - specialize (Hfit Hv). destruct (enc_exponent_range log2f v Hok Hv) as [E|[E Emod]].
    + assert (He : exp_exact log2f v) by (intros _; exact E).
      assert (Hx : exp_fits v) by (intros _; lia).
      destruct (real8_total log2f v Hf He Hx) as (b & Eb). exists b, v. split; [exact Eb|].
      split; [|left; reflexivity]. apply (real8_roundtrip log2f v b Hf He Hx) in Eb. tauto.
    + destruct (real8_inexact_total log2f v Hf Hv E) as (b & Eb); [lia|].
      destruct (real8_inexact log2f v b Hf Hv E Emod) as (w & W1 & W2); [lia|exact Eb|].
      exists b, w. auto.
Qed.
