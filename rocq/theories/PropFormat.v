(** Property theorems for the GDSII format: C01-C13, C41, C42, C50.

    Each theorem is followed by what it depends on ([Print Assumptions]) and by
    concrete, non-trivial instances showing that its hypotheses are met.
    Vocabulary: SpecFormat.v (what is storable, what is read back), WriteTotal.v
    (ranges of the format), Records.v (record streams), Real8.v (doubles). *)

From Coq Require Import List ZArith Lia Bool Permutation QArith Qabs.
From Verif Require Import Bytes Real8 Real8Facts Records Writer Reader Stream WriteTotal SpecFormat.
From Verif Require Import Tools RoundTrip ReadBack Grammar ToolsProofs FormatFacts.
Import ListNotations.
Open Scope Z_scope.

(** ** A demonstration library *)

Definition sA : str := [65; 65; 49].                 (* "AA1" *)
Definition sB : str := [66; 66].                     (* "BB" *)
Definition sX : str := [69; 88; 84].                 (* "EXT", not in the library *)
Definition sT : str := [104; 105; 33].               (* "hi!" *)
Definition demo_props : props := [(1, Some sT); (32767, Some sB)].
Definition demo_tr : strans := STrans (Some (Dy 45 0)) (Some (Dy 5 (-2))) true.
Definition demo_poly : polyset := PolySet [Poly [(0, 0); (10, 0); (10, -7)] 3 4] demo_props.
Definition demo_path : pathel :=
  PGds (GPath [Path1 [(0, 0); (1000, 0); (1000, 500)] 20 (ETuple 5 (-6)) 1 2] false demo_props).
Definition demo_label : label := Label 7 8 10 demo_tr (-3, 9) (Some sT) [].
Definition demo_sref : refel := RS (SRef (TCell sB) demo_tr (100, 200) demo_props).
Definition demo_aref : refel :=
  RA (ARef (TName sX) (STrans None None true) 3 2 ((0, 0), (30, 0), (0, -20)) []).
Definition demo_A : cell :=
  Cell sA [demo_poly; demo_poly] [demo_path] [demo_label] [demo_sref; demo_aref].
Definition demo_B : cell := Cell sB [demo_poly] [] [] [].
Definition demo : library := Library sT (Dy 1 (-10)) (Dy 1 (-30)) [demo_A; demo_B].
Definition demo_ts : tstamp := TStamp 2024 2 29 23 59 58.
Definition demo_ts2 : tstamp := TStamp 1999 12 31 1 2 3.

(** ** C01: a written library reads back as the same library *)

(** Any library that could be written: what comes back. *)
Theorem C01_write_read : forall log2f ts l b,
  write_gds log2f ts l = Some b ->
  text_ok (lib_name l) -> Forall cell_ok (lib_cells l) -> NoDup (map c_name (lib_cells l)) ->
  let known := fun n => mem_str n (map c_name (lib_cells l)) in
  read_gds default_opts [] b =
  Some (RResult (map (out_cell default_opts (real_rt log2f) known) (lib_cells l))
                (Some (Some (lib_name l)))
                (Some (real_rt log2f (lib_dbu l), real_rt log2f (lib_prec l)))).
Proof. exact write_read. Qed.
Print Assumptions C01_write_read.

(** Libraries within the limits of the format, in the form the reader itself
    produces, are always accepted and come back identical. *)
Theorem C01_store_and_load : forall log2f, (forall v, exp_exact log2f v) -> forall ts l,
  ts_fits ts -> library_fits l ->
  text_ok (lib_name l) -> Forall cell_ok (lib_cells l) -> NoDup (map c_name (lib_cells l)) ->
  Forall (plain_cell (fun n => mem_str n (map c_name (lib_cells l)))) (lib_cells l) ->
  exists b, write_gds log2f ts l = Some b /\
    read_gds default_opts [] b =
    Some (RResult (lib_cells l) (Some (Some (lib_name l))) (Some (lib_dbu l, lib_prec l))).
Proof. exact store_and_load. Qed.
Print Assumptions C01_store_and_load.

(** The same without assuming anything of [log2] beyond the values at hand. *)
Theorem C01_write_read_exact : forall log2f ts l b,
  write_gds log2f ts l = Some b ->
  text_ok (lib_name l) -> Forall cell_ok (lib_cells l) -> NoDup (map c_name (lib_cells l)) ->
  Forall (plain_cell (fun n => mem_str n (map c_name (lib_cells l)))) (lib_cells l) ->
  Forall (cell_survives log2f) (lib_cells l) ->
  real_survives log2f (lib_dbu l) -> real_survives log2f (lib_prec l) ->
  read_gds default_opts [] b =
  Some (RResult (lib_cells l) (Some (Some (lib_name l))) (Some (lib_dbu l, lib_prec l))).
Proof. exact write_read_exact. Qed.
Print Assumptions C01_write_read_exact.

Ltac discharge :=
  repeat match goal with
  | |- _ /\ _ => split
  | |- Forall _ [] => constructor
  | |- Forall _ (_ :: _) => constructor
  | |- NoDup [] => constructor
  | |- NoDup (_ :: _) => constructor
  | |- ~ In _ _ => cbn; intuition discriminate
  | |- exists v, Some ?x = Some v /\ _ => exists x; split; [reflexivity|]
  | |- exists q, [?x] = [q] /\ _ => exists x; split; [reflexivity|]
  | |- _ <> _ => discriminate
  | |- forall v, Some _ = Some v -> _ => let H := fresh in intros ? H; injection H as H; subst
  | |- forall v, None = Some v -> _ => discriminate
  | |- _ = true -> _ => intros _
  | |- _ = false -> _ => intros _
  end.

Ltac unfold_demo :=
  unfold demo, demo_A, demo_B, demo_aref, demo_sref, demo_label, demo_path, demo_poly, demo_tr, demo_props in *;
  cbn [lib_name lib_cells lib_dbu lib_prec c_name c_polys c_paths c_labels c_refs map].

Ltac leaf :=
  match goal with
  | |- real_fits _ => split; [split; [right; reflexivity|reflexivity]|intros _; vm_compute; split; discriminate]
  | |- str_fits _ => split; [repeat constructor; vm_compute; congruence|vm_compute; congruence]
  | |- i16 _ => split; vm_compute; congruence
  | |- u16 _ => split; vm_compute; congruence
  | |- pt32 _ => split; split; vm_compute; congruence
  | |- i32 _ => split; vm_compute; congruence
  | |- tr_fits _ => split; intros v Hv; cbn [st_rot st_mag demo_tr] in Hv; try discriminate Hv; injection Hv as Hv; subst v; leaf
  | |- _ <= _ => vm_compute; congruence
  | |- _ < _ => vm_compute; congruence
  | |- True => exact I
  end.

Example demo_fits : library_fits demo.
Proof.
  assert (P : props_fit demo_props).
  { unfold props_fit, demo_props. discharge; cbn [fst snd]; discharge; leaf. }
  assert (P0 : props_fit []) by constructor.
  assert (Q : polyset_fits demo_poly).
  { unfold polyset_fits, demo_poly. cbn [ps_polys ps_props]. split; [|exact P].
    unfold poly_fits. discharge; cbn [pg_pts pg_layer pg_dt]; discharge; leaf. }
  assert (A : pathel_fits demo_path).
  { unfold demo_path. cbn [pathel_fits gp_paths gp_props]. split; [|exact P].
    unfold path1_fits. discharge; cbn [pt_pts pt_width pt_layer pt_dt pt_end]; discharge; leaf. }
  assert (L : label_fits demo_label).
  { unfold label_fits, demo_label. cbn [lb_layer lb_texttype lb_anchor lb_tr lb_pos lb_text lb_props].
    discharge; try exact P0; leaf. }
  assert (R1 : refel_fits demo_sref).
  { unfold demo_sref. cbn [refel_fits sr_target sr_tr sr_org sr_props target_name]. discharge; try exact P; leaf. }
  assert (R2 : refel_fits demo_aref).
  { unfold demo_aref. cbn [refel_fits ar_target ar_tr ar_cols ar_rows ar_xy ar_props target_name fst snd].
    discharge; try exact P0; leaf. }
  unfold library_fits, demo. cbn [lib_name lib_dbu lib_prec lib_cells].
  split; [leaf|]. split; [leaf|]. split; [leaf|].
  unfold cell_fits, demo_A, demo_B. discharge; cbn [c_name c_polys c_paths c_labels c_refs]; discharge; try assumption; leaf.
Qed.

Example demo_ok : Forall cell_ok (lib_cells demo) /\ text_ok (lib_name demo) /\ NoDup (map c_name (lib_cells demo)).
Proof.
  unfold cell_ok, label_ok, refel_ok, pathel_ok, path1_ok, props_ok, text_ok, anchor_ok.
  unfold_demo. cbn [ps_polys ps_props gp_paths gp_props].
  do 5 (discharge; cbn; unfold sA, sB, sX, sT; cbn); try tauto; try lia.
Qed.

Example demo_plain : Forall (plain_cell (fun n => mem_str n (map c_name (lib_cells demo)))) (lib_cells demo).
Proof.
  unfold plain_cell, plain_polyset, plain_pathel, plain_target.
  unfold_demo. do 4 (discharge; cbn); try reflexivity; try lia.
Qed.

Example demo_ts_fits : ts_fits demo_ts /\ ts_fits demo_ts2.
Proof. unfold ts_fits, i16, ts_ints, demo_ts, demo_ts2; cbn. discharge; lia. Qed.

Example C01_demo : exists b, write_gds log2_floor demo_ts demo = Some b /\
    read_gds default_opts [] b = Some (RResult (lib_cells demo) (Some (Some sT)) (Some (Dy 1 (-10), Dy 1 (-30)))).
Proof.
  apply (C01_store_and_load log2_floor log2_floor_exact demo_ts demo); try apply demo_ok;
    [apply demo_ts_fits|apply demo_fits|apply demo_plain].
Qed.

(** Why the side conditions: an attribute number of 2^15 or more changes sign,
    a trailing NUL is lost, and an empty cell name is read as "None". *)
Definition one_cell (n : str) (ps : props) : library :=
  Library sT (Dy 1 (-10)) (Dy 1 (-30)) [Cell n [PolySet [Poly [(0, 0); (1, 0); (1, 1)] 0 0] ps] [] [] []].
Definition reread (l : library) : option (list cell) :=
  obind (write_gds log2_floor demo_ts l) (fun b => option_map res_cells (read_gds default_opts [] b)).

Theorem C01_attribute_limit_refuted : exists l, library_fits l /\
  reread l <> None /\ reread l <> Some (lib_cells l).
Proof.
  exists (one_cell sA [(40000, Some sB)]). split; [|split; vm_compute; discriminate].
  unfold library_fits, one_cell. cbn [lib_name lib_dbu lib_prec lib_cells].
  split; [leaf|]. split; [leaf|]. split; [leaf|].
  unfold cell_fits, polyset_fits, poly_fits, props_fit.
  do 4 (discharge; cbn [c_name c_polys c_paths c_labels c_refs ps_polys ps_props pg_pts pg_layer pg_dt fst snd]);
    leaf.
Qed.
Print Assumptions C01_attribute_limit_refuted.
Theorem C01_trailing_nul_refuted :
  reread (one_cell [65; 0] []) = Some (lib_cells (one_cell [65] [])).
Proof. vm_compute. reflexivity. Qed.
Theorem C01_empty_name_refuted :
  reread (one_cell [] []) = Some (lib_cells (one_cell str_None [])).
Proof. vm_compute. reflexivity. Qed.

(** In any file, the reflection flag is the highest bit of the STRANS word
    and nothing else in that word matters. *)
Theorem C01_strans_word : forall o names0 s v,
  option_map s_kw (step o names0 s (0x1A, DInts [v])) =
  Some (kw_set_refl (s_kw s) (Z.testbit v 15)).
Proof.
  intros. unfold step. cbn -[Z.land Z.testbit]. f_equal. f_equal.
  destruct (Z.testbit v 15) eqn:E; cbv iota.
  - apply Z.ltb_lt. assert (Z.land v 32768 <> 0).
    { intros H. assert (Hb := f_equal (fun z => Z.testbit z 15) H). cbv beta in Hb.
      rewrite Z.land_spec, E in Hb. discriminate. }
    assert (0 <= 32768) as Hp by lia. pose proof (proj2 (Z.land_nonneg v 32768) (or_intror Hp)) as Hq.
    clear - H Hq. lia.
  - apply Z.ltb_ge. replace (Z.land v 32768) with 0; [lia|]. symmetry.
    apply Z.bits_inj. intros n. rewrite Z.bits_0, Z.land_spec.
    destruct (Z.eq_dec n 15) as [->|Hn]; [rewrite E; reflexivity|].
    change 32768 with (2 ^ 15). rewrite Z.pow2_bits_false by auto. apply andb_false_r.
Qed.
Print Assumptions C01_strans_word.

(** ** C02: 8-byte reals survive *)

Theorem C02_exact : forall log2f v b,
  is_f64 v -> exp_exact log2f v -> exp_fits v ->
  eight_byte_real log2f v = Some b ->
  eight_byte_real_to_float b = Some v /\ length b = 8%nat /\ all_bytes b.
Proof. exact real8_roundtrip. Qed.
Print Assumptions C02_exact.

Theorem C02_accepted : forall log2f v,
  is_f64 v -> exp_exact log2f v -> exp_fits v -> exists b, eight_byte_real log2f v = Some b.
Proof. exact real8_total. Qed.
Print Assumptions C02_accepted.

Theorem C02_any_log2 : forall log2f v, log2_ok log2f -> is_f64 v ->
  (dm v <> 0 -> -64 <= te v <= 62) ->
  exists b w, eight_byte_real log2f v = Some b /\ eight_byte_real_to_float b = Some w /\
    (w = v \/
     ((0 < dm w * dm v)%Z /\ (Qabs (dyQ w) <= Qabs (dyQ v))%Q /\
      (Qabs (dyQ v) - Qabs (dyQ w) < Qabs (dyQ v) * 2 ^ (-51))%Q)).
Proof. exact real8_any_log2. Qed.
Print Assumptions C02_any_log2.

(** [te] is the base-16 exponent: 16^(te-1) <= |v| < 16^te. *)
Theorem C02_te_meaning : forall v, dm v <> 0 -> 0 <= de v ->
  1 <= te v -> 16 ^ (te v - 1) <= Z.abs (dm v) * 2 ^ de v < 16 ^ te v.
Proof.
  intros v Hv He Ht. unfold te in *. set (k := Z.log2 (Z.abs (dm v)) + de v) in *.
  replace (k / 4 + 1 - 1) with (k / 4) by lia.
  change 16 with (2 ^ 4). rewrite <- !Z.pow_mul_r by lia.
  destruct (Z.log2_spec (Z.abs (dm v))) as [L1 L2]; [lia|].
  assert (0 < 2 ^ de v) by (apply Z.pow_pos_nonneg; lia).
  assert (0 <= Z.log2 (Z.abs (dm v))) by apply Z.log2_nonneg.
  split.
  - apply Z.le_trans with (2 ^ k); [apply Z.pow_le_mono_r; lia|].
    unfold k. rewrite Z.pow_add_r by lia. nia.
  - apply Z.lt_le_trans with (2 ^ (k + 1)).
    + unfold k. replace (Z.log2 (Z.abs (dm v)) + de v + 1) with (Z.succ (Z.log2 (Z.abs (dm v))) + de v) by lia.
      rewrite Z.pow_add_r by lia. nia.
    + apply Z.pow_le_mono_r; lia.
Qed.
Print Assumptions C02_te_meaning.

(** The rounding of [log2] matters: the double just below 16 loses its last
    bits if [log2] returns 4 for it. *)
Definition below16 : dy := Dy (2 ^ 53 - 1) (-49).
Definition log2_up (v : dy) : dy :=
  if (dm v =? 2 ^ 53 - 1) && (de v =? -49) then Dy 4 0 else log2_floor v.
Theorem C02_inexact_refuted : log2_ok log2_up /\ is_f64 below16 /\
  exists w, obind (eight_byte_real log2_up below16) eight_byte_real_to_float = Some w /\ w <> below16.
Proof.
  split; [|split].
  - intros m e Hm. unfold log2_up. cbn [dm de].
    destruct ((m =? 2 ^ 53 - 1) && (e =? -49)) eqn:E; [|apply log2_floor_ok; exact Hm].
    apply andb_prop in E. destruct E as [E1 E2]. apply Z.eqb_eq in E1, E2. subst.
    vm_compute. split; discriminate.
  - split; [right; reflexivity|]. vm_compute. reflexivity.
  - eexists. split; [vm_compute; reflexivity|]. discriminate.
Qed.
Print Assumptions C02_inexact_refuted.

Example C02_demo : is_f64 (Dy (-5) (-12)) /\ exp_fits (Dy (-5) (-12)) /\ exp_exact log2_floor (Dy (-5) (-12)) /\
  eight_byte_real log2_floor (Dy (-5) (-12)) = Some [190; 80; 0; 0; 0; 0; 0; 0].
Proof. repeat split; try (right; reflexivity); try (apply log2_floor_exact); try (vm_compute; congruence). Qed.

(** ** C03: canonical encoding *)

Theorem C03_normalised : forall log2f v b,
  is_f64 v -> dm v <> 0 -> exp_exact log2f v ->
  eight_byte_real log2f v = Some b -> 16 <= nth 1 b 0 < 256.
Proof. exact real8_normalised. Qed.
Print Assumptions C03_normalised.

(** Decoding a normalised pattern whose 56-bit mantissa needs at most 53 bits
    and encoding it again gives the same bytes. *)
Theorem C03_reencode : forall log2f b0 b1 b2 b3 b4 b5 b6 b7 m s,
  all_bytes [b0; b1; b2; b3; b4; b5; b6; b7] -> 16 <= b1 ->
  ((b1 * 65536 + un16 b2 b3) * 4294967296 + un32 b4 b5 b6 b7) = m * 2 ^ s -> 0 <= s -> m < 2 ^ 53 ->
  exists w, eight_byte_real_to_float [b0; b1; b2; b3; b4; b5; b6; b7] = Some w /\
    (exp_exact log2f w -> eight_byte_real log2f w = Some [b0; b1; b2; b3; b4; b5; b6; b7]).
Proof. exact real8_reencode. Qed.
Print Assumptions C03_reencode.

Theorem C03_out_of_range : forall log2f v,
  is_f64 v -> dm v <> 0 -> exp_exact log2f v -> ~ (-64 <= te v <= 63) ->
  eight_byte_real log2f v = None \/
  exists b w, eight_byte_real log2f v = Some b /\ eight_byte_real_to_float b = Some w /\ dm w * dm v < 0.
Proof. exact real8_out_of_range. Qed.
Print Assumptions C03_out_of_range.

(** 2^256 is stored as a negative number. *)
Example C03_sign_flip : obind (eight_byte_real log2_floor (Dy 1 256)) eight_byte_real_to_float = Some (Dy (-1) (-256)).
Proof. vm_compute. reflexivity. Qed.
Example C03_reencode_demo : all_bytes [0xC1; 0x1F; 1; 2; 3; 4; 5; 8] /\
  ((0x1F * 65536 + un16 1 2) * 4294967296 + un32 3 4 5 8) = 1090854053773473 * 2 ^ 3.
Proof. split; [|reflexivity]. unfold all_bytes. repeat (apply Forall_cons; [unfold is_byte; lia|]). apply Forall_nil. Qed.

(** ** C04: well-formed record stream *)

Theorem C04_stream : forall log2f ts l b, write_gds log2f ts l = Some b ->
  exists rs, b = enc_stream rs /\ Forall raw_ok rs /\ file_words (map r_word rs) /\
    raw_record_reader b = map (fun r => (r_word r / 256, enc_raw r)) rs /\
    concat (map snd (raw_record_reader b)) = b.
Proof. exact written_stream. Qed.
Print Assumptions C04_stream.

Example C04_demo : write_gds log2_floor demo_ts demo <> None.
Proof. vm_compute. discriminate. Qed.

(** ** C05: set_gdsii_timestamp *)

Theorem C05_patch : forall ts rs t, pack (ts_fields ts) = Some t ->
  Forall raw_ok rs -> Forall stamp_ok rs ->
  set_gdsii_timestamp (enc_stream rs) ts = Some (enc_stream (map (patch t) rs)) /\
  length (enc_stream (map (patch t) rs)) = length (enc_stream rs).
Proof. exact set_timestamp_stream. Qed.
Print Assumptions C05_patch.

(** On any bytes at all: the last call wins (with ts1 = ts2: idempotent). *)
Theorem C05_last_wins : forall b b1 ts1 ts2,
  pack (ts_fields ts2) <> None ->
  set_gdsii_timestamp b ts1 = Some b1 ->
  set_gdsii_timestamp b1 ts2 = set_gdsii_timestamp b ts2.
Proof. exact set_timestamp_last. Qed.
Print Assumptions C05_last_wins.

Example C05_demo : pack (ts_fields demo_ts) <> None /\
  obind (write_gds log2_floor demo_ts demo) (fun b => set_gdsii_timestamp b demo_ts2) <> None /\
  obind (write_gds log2_floor demo_ts demo) (fun b => set_gdsii_timestamp b demo_ts2) <>
  write_gds log2_floor demo_ts demo.
Proof. repeat split; vm_compute; discriminate. Qed.

(** ** C06: patching = writing with that timestamp *)

Theorem C06_patch_is_rewrite : forall log2f ts t hts n d p cs b, pack (ts_fields ts) = Some t ->
  write_file log2f hts n d p cs [] = Some b ->
  set_gdsii_timestamp b ts = write_file log2f ts n d p (map (fun tc => (ts, snd tc)) cs) [].
Proof. exact patch_rewrite. Qed.
Print Assumptions C06_patch_is_rewrite.

Theorem C06_write_gds : forall log2f ts1 ts2 t l b, pack (ts_fields ts2) = Some t ->
  write_gds log2f ts1 l = Some b ->
  set_gdsii_timestamp b ts2 = write_gds log2f ts2 l.
Proof.
  intros log2f ts1 ts2 t l b Ht H. rewrite <- write_file_gds in H |- *.
  rewrite (patch_rewrite _ _ _ _ _ _ _ _ _ Ht H). rewrite map_map. reflexivity.
Qed.
Print Assumptions C06_write_gds.

Example C06_demo : exists t b, pack (ts_fields demo_ts2) = Some t /\ write_gds log2_floor demo_ts demo = Some b /\
  write_gds log2_floor demo_ts2 demo <> Some b.
Proof. eexists. eexists. split; [vm_compute; reflexivity|]. split; [vm_compute; reflexivity|]. vm_compute. discriminate. Qed.

(** ** C07: the hash ignores timestamps, header and order *)

Theorem C07_hash_invariant :
  forall (H D : Type) (init : H) (update : H -> bytes -> H) (digest : H -> D)
         log2f h1 n1 d1 p1 cs1 b1 h2 n2 d2 p2 cs2 b2,
  write_file log2f h1 n1 d1 p1 cs1 [] = Some b1 ->
  write_file log2f h2 n2 d2 p2 cs2 [] = Some b2 ->
  Permutation (map snd cs1) (map snd cs2) ->
  gdsii_hash init update digest b1 = gdsii_hash init update digest b2 /\
  gdsii_hash init update digest b1 <> None.
Proof. exact hash_invariant. Qed.
Print Assumptions C07_hash_invariant.

Example C07_demo :
  write_file log2_floor demo_ts sT (Dy 1 (-10)) (Dy 1 (-30)) [(demo_ts, demo_A); (demo_ts2, demo_B)] [] <> None /\
  write_file log2_floor demo_ts2 sA (Dy 3 (-10)) (Dy 1 (-20)) [(demo_ts2, demo_B); (demo_ts, demo_A)] [] <> None.
Proof. split; vm_compute; discriminate. Qed.

(** ** C08: the hash sees every cell *)

Theorem C08_hash_injective : forall (H D : Type) (init : H) (update : H -> bytes -> H) (digest : H -> D),
  (forall h a b, update (update h a) b = update h (a ++ b)) -> (forall h, update h [] = h) ->
  forall log2f h1 n1 d1 p1 cs1 b1 h2 n2 d2 p2 cs2 b2,
  write_file log2f h1 n1 d1 p1 cs1 [] = Some b1 ->
  write_file log2f h2 n2 d2 p2 cs2 [] = Some b2 ->
  gdsii_hash init update digest b1 = gdsii_hash init update digest b2 ->
  (forall t, pack (ts_fields t) <> None ->
     Permutation (map (fun tc => cell_to_gds log2f t (snd tc)) cs1)
                 (map (fun tc => cell_to_gds log2f t (snd tc)) cs2)) \/
  (exists x y, x <> y /\ digest (update init x) = digest (update init y)).
Proof. exact hash_injective. Qed.
Print Assumptions C08_hash_injective.

(** An engine that meets the hypotheses and has no collisions at all. *)
Example C08_engine : (forall (h a b : bytes), (h ++ a) ++ b = h ++ (a ++ b)) /\ (forall h : bytes, h ++ [] = h).
Proof. split; intros; [symmetry; apply app_assoc|apply app_nil_r]. Qed.

(** ** C09: binary cells *)

Theorem C09_binary_cells : forall log2f h n d p cs b,
  write_file log2f h n d p cs [] = Some b ->
  Forall (fun tc => text_ok (c_name (snd tc))) cs ->
  NoDup (map (fun tc => c_name (snd tc)) cs) ->
  exists d0, get_binary_cells b = Some d0 /\
    map (fun e => (fst e, Some (snd e))) d0 =
      map (fun tc => (c_name (snd tc), cell_to_gds log2f (fst tc) (snd tc))) cs /\
    forall h' n' d' p' cs0,
      write_file log2f h' n' d' p' cs0 (map snd d0) = write_file log2f h' n' d' p' (cs0 ++ cs) [].
Proof. exact binary_roundtrip. Qed.
Print Assumptions C09_binary_cells.

Example C09_demo :
  option_map (map fst) (obind (write_gds log2_floor demo_ts demo) get_binary_cells) = Some [sA; sB].
Proof. vm_compute. reflexivity. Qed.

(** ** C10: GdsWriter *)

Theorem C10_writer : forall log2f ts n d p cs binary,
  gds_writer log2f ts n d p (map (fun tc => WCell (fst tc) (snd tc)) cs ++ [WBinary binary])
  = write_file log2f ts n d p cs binary.
Proof. exact gds_writer_write_file. Qed.
Print Assumptions C10_writer.

(** Any interleaving of cells and binary cells: header, pieces in order, end. *)
Theorem C10_any_sequence : forall log2f ts n d p ops,
  gds_writer log2f ts n d p ops =
  header_to_gds log2f ts n d p +++
  oconcat (map (fun op => match op with
                          | WCell t c => cell_to_gds log2f t c
                          | WBinary l => Some (concat l)
                          end) ops) +++ endlib.
Proof. exact gds_writer_bytes. Qed.
Print Assumptions C10_any_sequence.

Theorem C10_library : forall log2f ts l,
  gds_writer log2f ts (lib_name l) (lib_dbu l) (lib_prec l)
             (map (fun c => WCell ts c) (lib_cells l))
  = write_gds log2f ts l.
Proof.
  intros. rewrite <- write_file_gds, <- gds_writer_write_file, !gds_writer_bytes.
  rewrite !map_app, !oconcat_app, !map_map. cbn [map op_bytes fst snd concat oconcat].
  destruct (header_to_gds log2f ts (lib_name l) (lib_dbu l) (lib_prec l)); [|reflexivity].
  cbn [oapp]. destruct (oconcat (map (fun x => cell_to_gds log2f ts x) (lib_cells l))) as [y|]; [|reflexivity].
  cbn [oapp]. rewrite !app_nil_r. reflexivity.
Qed.
Print Assumptions C10_library.

Example C10_demo :
  gds_writer log2_floor demo_ts sT (Dy 1 (-10)) (Dy 1 (-30)) [WCell demo_ts demo_A; WBinary [[0; 4; 7; 0]]; WCell demo_ts2 demo_B] <> None.
Proof. vm_compute. discriminate. Qed.

(** ** C11: long point lists *)

Theorem C11_polygon : forall ps p b, poly_to_gds ps p = Some b ->
  exists first rest cs, pg_pts p = first :: rest /\
    good_chunks (pg_pts p ++ [first]) cs /\ xy_of b = map xy_record cs.
Proof. exact polygon_xy. Qed.
Print Assumptions C11_polygon.

Theorem C11_path : forall wt ps p b, path1_to_gds wt ps p = Some b -> pt_pts p <> [] ->
  exists cs, good_chunks (pt_pts p) cs /\ xy_of b = map xy_record cs.
Proof. exact path_xy_records. Qed.
Print Assumptions C11_path.

(** A point list of any length. *)
Definition long_pts (n : nat) : list (Z * Z) := map (fun i => (Z.of_nat i, - Z.of_nat i)) (seq 0 (S n)).
Definition is_some {A} (x : option A) : bool := match x with Some _ => true | None => false end.
Lemma long_pts_fit : forall n, Z.of_nat n < 2147483648 -> Forall pt32 (long_pts n).
Proof.
  intros n Hn. unfold long_pts. rewrite Forall_map, Forall_forall. intros i Hi. apply in_seq in Hi.
  unfold pt32, i32. cbn [fst snd]. lia.
Qed.
Example C11_demo : forall n, Z.of_nat n < 2147483648 ->
  poly_to_gds [] (Poly (long_pts n) 1 2) <> None /\
  path1_to_gds true [] (Path1 (long_pts n) 3 EFlush 1 2) <> None.
Proof.
  intros n Hn. pose proof (long_pts_fit n Hn) as F. split.
  - apply ok_poly; [constructor|]. split; [discriminate|]. split; [exact F|]. split; leaf.
  - apply ok_path1; [constructor|]. split; [exact F|]. split; [split; leaf|]. split; [leaf|]. split; [leaf|exact I].
Qed.
(** Glued back by the reader. *)
Definition long_lib (n : nat) : library :=
  Library sT (Dy 1 (-10)) (Dy 1 (-30)) [Cell sA [PolySet [Poly (long_pts n) 1 2] []] [] [] []].
Example C11_read_back : forall n, Z.of_nat n < 2147483648 -> exists b,
  write_gds log2_floor demo_ts (long_lib n) = Some b /\
  option_map res_cells (read_gds default_opts [] b) = Some (lib_cells (long_lib n)).
Proof.
  intros n Hn. destruct (C01_store_and_load log2_floor log2_floor_exact demo_ts (long_lib n)) as (b & Hw & Hr).
  - apply demo_ts_fits.
  - unfold library_fits, long_lib. cbn [lib_name lib_dbu lib_prec lib_cells].
    split; [leaf|]. split; [leaf|]. split; [leaf|]. constructor; [|constructor].
    unfold cell_fits. cbn [c_name c_polys c_paths c_labels c_refs]. split; [leaf|]. split; [|repeat constructor].
    constructor; [|constructor]. split; [|constructor]. constructor; [|constructor].
    split; [discriminate|]. split; [apply long_pts_fit; exact Hn|]. split; leaf.
  - split; vm_compute; discriminate.
  - constructor; [|constructor]. unfold cell_ok, long_lib, props_ok. cbn [c_name c_polys c_paths c_labels c_refs].
    split; [split; vm_compute; discriminate|]. repeat constructor.
  - repeat constructor. intros [].
  - repeat constructor.
  - exists b. split; [exact Hw|]. rewrite Hr. reflexivity.
Qed.

(** ** C12: get_gds_units *)

Theorem C12_units : forall log2f hts n d p cs bin b, write_file log2f hts n d p cs bin = Some b ->
  get_gds_units b = Some (Some (real_rt log2f d, real_rt log2f p)).
Proof. exact units_file. Qed.
Print Assumptions C12_units.

(** Whatever follows the header. *)
Theorem C12_header_only : forall log2f hts n d p b t, header_to_gds log2f hts n d p = Some b ->
  get_gds_units (b ++ t) = Some (Some (real_rt log2f d, real_rt log2f p)).
Proof. exact units_header. Qed.
Print Assumptions C12_header_only.

Theorem C12_agrees_with_reader : forall log2f ts l b,
  write_gds log2f ts l = Some b ->
  text_ok (lib_name l) -> Forall cell_ok (lib_cells l) -> NoDup (map c_name (lib_cells l)) ->
  exists r, read_gds default_opts [] b = Some r /\ get_gds_units b = Some (res_units r).
Proof. exact units_agree. Qed.
Print Assumptions C12_agrees_with_reader.

Example C12_demo : obind (write_gds log2_floor demo_ts demo) get_gds_units = Some (Some (Dy 1 (-10), Dy 1 (-30))).
Proof. vm_compute. reflexivity. Qed.

(** ** C13: maps on import *)

Theorem C13_import_maps : forall o names0 log2f ts l b,
  write_gds log2f ts l = Some b ->
  text_ok (lib_name l) -> Forall cell_ok (lib_cells l) -> NoDup (map c_name (lib_cells l)) ->
  NoDup (map (fun c => renamed o (c_name c)) (lib_cells l)) ->
  (forall c, In c (lib_cells l) -> ~ In (renamed o (c_name c)) names0) ->
  exists r, read_gds default_opts [] b = Some r /\
    read_gds o names0 b =
    Some (RResult (map (map_cell o (fun n => mem_str n (names0 ++ map (fun c => renamed o (c_name c)) (res_cells r))))
                       (res_cells r))
                  (res_name r) (res_units r)).
Proof. exact import_maps. Qed.
Print Assumptions C13_import_maps.

Definition demo_opts : ropts :=
  ROpts (fun n => if str_eqb n sB then Some sX else None) (fun n => n ++ [95])
        (fun v => if v =? 3 then Some 30 else None) (fun _ => None) (fun v => if v =? 8 then Some 9 else None).
(** BB is renamed to EXT, so the by-name reference "EXT" stays "EXT_" and the
    reference to BB resolves to EXT. *)
Example C13_demo :
  NoDup (map (fun c => renamed demo_opts (c_name c)) (lib_cells demo)) /\
  option_map (fun r => map (fun c => (c_name c, map ref_target (c_refs c))) (res_cells r))
     (obind (write_gds log2_floor demo_ts demo) (read_gds demo_opts [])) =
  Some [(sA ++ [95], [TCell sX; TName (sX ++ [95])]); (sX, [])].
Proof. split; [cbn; discharge|vm_compute; reflexivity]. Qed.

(** Reading raises, and never overwrites or merges cells, when two cells of the
    file get the same name or a name already in the library. *)
Theorem C13_collision_raises : forall o names0 log2f ts l b,
  write_gds log2f ts l = Some b ->
  text_ok (lib_name l) -> Forall cell_ok (lib_cells l) ->
  ~ (NoDup (map (fun c => renamed o (c_name c)) (lib_cells l)) /\
     forall c, In c (lib_cells l) -> ~ In (renamed o (c_name c)) names0) ->
  read_gds o names0 b = None.
Proof. intros. eapply read_write_dup; eassumption. Qed.
Print Assumptions C13_collision_raises.

(** A rename that makes two cells collide raises. *)
Example C13_collision : obind (write_gds log2_floor demo_ts demo)
  (read_gds (ROpts (fun n => Some sX) (fun n => n) (fun _ => None) (fun _ => None) (fun _ => None)) []) = None.
Proof. vm_compute. reflexivity. Qed.

(** ** C41: anchors *)

Theorem C41_anchor_roundtrip : forall a : anchor_name, read_anchor (anchor_code a) = anchor_code a.
Proof. intros []; reflexivity. Qed.
Print Assumptions C41_anchor_roundtrip.

Theorem C41_any_word : forall v : Z, exists a : anchor_name, read_anchor v = anchor_code a.
Proof. intros. eexists. reflexivity. Qed.
Print Assumptions C41_any_word.

(** Bits above the lowest four (font, in GDSII) are ignored. *)
Theorem C41_low_bits : forall v, read_anchor v = read_anchor (v mod 16).
Proof.
  intros. unfold read_anchor. change 0x000F with (Z.ones 4). rewrite !Z.land_ones by lia.
  rewrite Z.mod_mod by lia. reflexivity.
Qed.
Print Assumptions C41_low_bits.

(** In a file: every label comes back with its anchor. *)
Theorem C41_labels : forall log2f ts l b,
  write_gds log2f ts l = Some b ->
  text_ok (lib_name l) -> Forall cell_ok (lib_cells l) -> NoDup (map c_name (lib_cells l)) ->
  exists r, read_gds default_opts [] b = Some r /\
    map (fun c => map lb_anchor (c_labels c)) (res_cells r) =
    map (fun c => map lb_anchor (c_labels c)) (lib_cells l).
Proof.
  intros log2f ts l b Hw Hn Hc Hd. eexists. split; [exact (write_read _ _ _ _ Hw Hn Hc Hd)|].
  cbn [res_cells]. rewrite map_map. apply map_ext. intros c. cbn [out_cell c_labels].
  rewrite map_map. reflexivity.
Qed.
Print Assumptions C41_labels.

(** ** C42: properties stay with their element *)

Definition pathel_props (p : pathel) : props := match p with PGds g => gp_props g | PPoly s => ps_props s end.
Definition refel_props (r : refel) : props := match r with RS s => sr_props s | RA a => ar_props a end.
Definition polyset_copies (s : polyset) : list props := repeat (ps_props s) (length (ps_polys s)).
Definition path_copies (p : pathel) : list props :=
  match p with PGds g => repeat (gp_props g) (length (gp_paths g)) | PPoly _ => [] end.
Definition path_poly_copies (p : pathel) : list props :=
  match p with PGds _ => [] | PPoly s => polyset_copies s end.

(** One property dictionary per element, that of the element it was written
    with, in file order. *)
Theorem C42_properties : forall log2f ts l b,
  write_gds log2f ts l = Some b ->
  text_ok (lib_name l) -> Forall cell_ok (lib_cells l) -> NoDup (map c_name (lib_cells l)) ->
  exists r, read_gds default_opts [] b = Some r /\
    Forall2 (fun c c' =>
      map ps_props (c_polys c') = flat_map polyset_copies (c_polys c) ++ flat_map path_poly_copies (c_paths c) /\
      map pathel_props (c_paths c') = flat_map path_copies (c_paths c) /\
      map lb_props (c_labels c') = map lb_props (c_labels c) /\
      map refel_props (c_refs c') = map refel_props (c_refs c)) (lib_cells l) (res_cells r).
Proof.
  intros log2f ts l b Hw Hn Hc Hd. eexists. split; [exact (write_read _ _ _ _ Hw Hn Hc Hd)|].
  cbn [res_cells]. generalize (fun n => mem_str n (map c_name (lib_cells l))). intros known.
  induction (lib_cells l) as [|c cs IH]; [constructor|]. cbn [map].
  inversion Hc; inversion Hd; subst. constructor; [clear IH|apply IH; assumption].
  assert (C : forall A B (f : A -> B) (k : props) (g : B -> props), (forall x, g (f x) = k) ->
              forall l0, map g (map f l0) = repeat k (length l0)).
  { intros A B f k g Hk. induction l0 as [|x l0 IHl]; cbn; [reflexivity|]. rewrite Hk. f_equal. exact IHl. }
  cbn [out_cell c_polys c_paths c_labels c_refs]. repeat split.
  - rewrite map_app, !flat_map_concat_map, !concat_map, !map_map. f_equal; f_equal; apply map_ext.
    + intros s. apply C. reflexivity.
    + intros [g|s]; [reflexivity|]. apply C. reflexivity.
  - rewrite !flat_map_concat_map, !concat_map, !map_map. f_equal. apply map_ext.
    intros [g|s]; [|reflexivity]. apply C. reflexivity.
  - rewrite map_map. reflexivity.
  - rewrite map_map. apply map_ext. intros [s|a]; reflexivity.
Qed.
Print Assumptions C42_properties.

Example C42_demo : option_map (fun r => map (fun c => map lb_props (c_labels c)) (res_cells r))
  (obind (write_gds log2_floor demo_ts demo) (read_gds default_opts [])) = Some [[[]]; []].
Proof. vm_compute. reflexivity. Qed.

(** A NODE element (which the reader skips) with a property, followed by a
    polygon without properties: the polygon gets the property of the NODE. *)
Definition node_raws : list raw :=
  [rNone 0x1500; rI2 0x0D02 [1]; rI2 0x2A02 [0]; rI4 0x1003 [5; 5];
   rI2 0x2B02 [7]; rStr 0x2C06 sT; rNone 0x1100].
Definition leak_file (node : list raw) : bytes :=
  enc_stream (header_raws log2_floor demo_ts sT (Dy 1 (-10)) (Dy 1 (-30))
    ++ [rI2 0x0502 (ts_ints demo_ts); rStr 0x0606 sA] ++ node
    ++ poly_raws [] (Poly [(0, 0); (1, 0); (1, 1)] 0 0) ++ [rNone 0x0700; rNone 0x0400]).
Theorem C42_leak_refuted :
  option_map (fun r => map (fun c => map ps_props (c_polys c)) (res_cells r))
    (read_gds default_opts [] (leak_file [])) = Some [[[]]] /\
  option_map (fun r => map (fun c => map ps_props (c_polys c)) (res_cells r))
    (read_gds default_opts [] (leak_file node_raws)) = Some [[[(7, Some sT)]]].
Proof. split; vm_compute; reflexivity. Qed.
Print Assumptions C42_leak_refuted.

(** ** C50: selection *)

Theorem C50_selected : forall log2f ts l s cs bcs binary,
  NoDup (map c_name (lib_cells l)) -> Forall2 (selects l) s cs ->
  omap (cell_to_gds log2f ts) bcs = Some binary ->
  write_gds_sel log2f ts l (Some s) binary =
  write_gds log2f ts (Library (lib_name l) (lib_dbu l) (lib_prec l) (cs ++ bcs)).
Proof. exact write_selected. Qed.
Print Assumptions C50_selected.

Theorem C50_all : forall log2f ts l bcs binary,
  omap (cell_to_gds log2f ts) bcs = Some binary ->
  write_gds_sel log2f ts l None binary =
  write_gds log2f ts (Library (lib_name l) (lib_dbu l) (lib_prec l) (lib_cells l ++ bcs)).
Proof. exact write_all. Qed.
Print Assumptions C50_all.

Theorem C50_unknown_name : forall log2f ts l s binary n,
  In (SName n) s -> ~ In n (map c_name (lib_cells l)) ->
  write_gds_sel log2f ts l (Some s) binary = None.
Proof. exact write_unknown. Qed.
Print Assumptions C50_unknown_name.

Example C50_demo : Forall2 (selects demo) [SName sB; SCell demo_A; SName sB] [demo_B; demo_A; demo_B] /\
  is_some (omap (cell_to_gds log2_floor demo_ts) [demo_A]) = true.
Proof.
  split; [|vm_compute; reflexivity].
  repeat constructor; cbn; try reflexivity; right; left; reflexivity.
Qed.
