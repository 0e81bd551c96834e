(** Specification vocabulary for the file-format properties: which libraries
    are storable, and what a reader is expected to give back.  Nothing here
    mentions bytes or records. *)

From Coq Require Import List ZArith Bool.
From Verif Require Import Bytes Real8 Records Writer Reader.
Import ListNotations.
Open Scope Z_scope.

(** ** Storable libraries *)

(** GDSII strings cannot be empty and cannot end with a NUL. *)
Definition text_ok (s : str) : Prop := s <> [] /\ last s 1 <> 0.

(** A property dictionary: distinct attribute numbers below 2^15 and string
    values. *)
Definition props_ok (ps : props) : Prop :=
  NoDup (map fst ps) /\
  Forall (fun av => fst av < 32768 /\ exists v, snd av = Some v /\ text_ok v) ps.

Definition path1_ok (p : path1) : Prop := pt_pts p <> [] /\ 0 <= pt_width p.

Definition pathel_ok (p : pathel) : Prop :=
  match p with
  | PGds g => Forall path1_ok (gp_paths g) /\ props_ok (gp_props g)
  | PPoly s => props_ok (ps_props s)
  end.

(** Anchor codes produced by the [Label] constructor. *)
Definition anchor_ok (a : Z) : Prop := In a [0; 1; 2; 4; 5; 6; 8; 9; 10].

Definition label_ok (l : label) : Prop :=
  anchor_ok (lb_anchor l) /\ (exists t, lb_text l = Some t /\ text_ok t) /\ props_ok (lb_props l).

Definition refel_ok (r : refel) : Prop :=
  match r with
  | RS s => text_ok (target_name (sr_target s)) /\ props_ok (sr_props s)
  | RA a => text_ok (target_name (ar_target a)) /\ props_ok (ar_props a)
  end.

Definition cell_ok (c : cell) : Prop :=
  text_ok (c_name c) /\
  Forall (fun s => props_ok (ps_props s)) (c_polys c) /\
  Forall pathel_ok (c_paths c) /\
  Forall label_ok (c_labels c) /\
  Forall refel_ok (c_refs c).

(** ** What reading gives back *)

Section Read.
Variable o : ropts.        (* renaming and layer/datatype/texttype maps *)
Variable rt : dy -> dy.    (* effect of the 8-byte real format on a number *)
Variable known : str -> bool.  (* names of all cells after reading *)

Definition renamed (n : str) : str :=
  match o_rename o n with Some m => m | None => o_template o n end.

(** Every polygon of a set becomes an element of its own. *)
Definition out_poly (ps : props) (p : poly) : polyset :=
  PolySet [Poly (pg_pts p) (get_or_self (o_layers o) (pg_layer p)) (get_or_self (o_dts o) (pg_dt p))] ps.
Definition out_polyset (s : polyset) : list polyset := map (out_poly (ps_props s)) (ps_polys s).

(** End types that GDSII lacks are replaced by the closest one. *)
Definition out_end (e : pend) : pend :=
  match e with ESmooth => ERound | ECallable => EFlush | _ => e end.

(** Every parallel path becomes an element of its own; a zero width carries no
    sign, hence no "do not scale the width" flag. *)
Definition out_path1 (wt : bool) (ps : props) (p : path1) : pathel :=
  PGds (GPath [Path1 (pt_pts p) (pt_width p) (out_end (pt_end p))
                     (get_or_self (o_layers o) (pt_layer p)) (get_or_self (o_dts o) (pt_dt p))]
              (wt || (pt_width p =? 0)) ps).
Definition out_paths (p : pathel) : list pathel :=
  match p with
  | PGds g => map (out_path1 (gp_wt g) (gp_props g)) (gp_paths g)
  | PPoly _ => []
  end.
(** Paths stored as polygons come back as polygons. *)
Definition out_path_polys (p : pathel) : list polyset :=
  match p with PGds _ => [] | PPoly s => out_polyset s end.

Definition out_tr (t : strans) : strans :=
  STrans (option_map rt (st_rot t)) (option_map rt (st_mag t)) (st_refl t).

Definition out_label (l : label) : label :=
  Label (get_or_self (o_layers o) (lb_layer l)) (get_or_self (o_tts o) (lb_texttype l))
        (lb_anchor l) (out_tr (lb_tr l)) (lb_pos l) (lb_text l) (lb_props l).

(** References to cells present in the library are resolved. *)
Definition out_target (t : target) : target :=
  let n := renamed (target_name t) in if known n then TCell n else TName n.

Definition out_ref (r : refel) : refel :=
  match r with
  | RS s => RS (SRef (out_target (sr_target s)) (out_tr (sr_tr s)) (sr_org s) (sr_props s))
  | RA a => RA (ARef (out_target (ar_target a)) (out_tr (ar_tr a)) (ar_cols a) (ar_rows a)
                     (ar_xy a) (ar_props a))
  end.

Definition out_cell (c : cell) : cell :=
  Cell (renamed (c_name c))
       (flat_map out_polyset (c_polys c) ++ flat_map out_path_polys (c_paths c))
       (flat_map out_paths (c_paths c))
       (map out_label (c_labels c))
       (map out_ref (c_refs c)).

End Read.

(** Effect of encoding and decoding one real number. *)
Definition real_rt (log2f : dy -> dy) (v : dy) : dy :=
  match obind (eight_byte_real log2f v) eight_byte_real_to_float with
  | Some w => w | None => v
  end.

(** A number that the 8-byte real format stores exactly (C02 tells which). *)
Definition real_survives (log2f : dy -> dy) (v : dy) : Prop :=
  obind (eight_byte_real log2f v) eight_byte_real_to_float = Some v.

Definition tr_survives (log2f : dy -> dy) (t : strans) : Prop :=
  (forall v, st_rot t = Some v -> real_survives log2f v) /\
  (forall v, st_mag t = Some v -> real_survives log2f v).

Definition ref_tr (r : refel) : strans :=
  match r with RS s => sr_tr s | RA a => ar_tr a end.

Definition cell_survives (log2f : dy -> dy) (c : cell) : Prop :=
  Forall (fun l => tr_survives log2f (lb_tr l)) (c_labels c) /\
  Forall (fun r => tr_survives log2f (ref_tr r)) (c_refs c).

(** ** Shape of a GDSII stream

    A file is a sequence of records; [words] are their second 16-bit fields
    (record type and data type).  The grammar below is the part of the GDSII
    syntax that gdspy uses. *)

Definition XY := 0x1003.
Definition prop_words (n : nat) : list Z := concat (repeat [0x2B02; 0x2C06] n).

(** Optional STRANS [MAG] [ANGLE]. *)
Inductive strans_words : list Z -> Prop :=
| sw_none : strans_words []
| sw_some : forall mag ang : bool,
    strans_words ([0x1A01] ++ (if mag then [0x1B05] else []) ++ (if ang then [0x1C05] else [])).

Inductive element_words : list Z -> Prop :=
| ew_boundary : forall n m,
    element_words ([0x0800; 0x0D02; 0x0E02] ++ repeat XY (S n) ++ prop_words m ++ [0x1100])
| ew_path : forall (ext : bool) n m,
    element_words ([0x0900; 0x0D02; 0x0E02; 0x2102; 0x0F03] ++ (if ext then [0x3003; 0x3103] else [])
                   ++ repeat XY (S n) ++ prop_words m ++ [0x1100])
| ew_text : forall st m, strans_words st ->
    element_words ([0x0C00; 0x0D02; 0x1602; 0x1701] ++ st ++ [XY; 0x1906] ++ prop_words m ++ [0x1100])
| ew_sref : forall st m, strans_words st ->
    element_words ([0x0A00; 0x1206] ++ st ++ [XY] ++ prop_words m ++ [0x1100])
| ew_aref : forall st m, strans_words st ->
    element_words ([0x0B00; 0x1206] ++ st ++ [0x1302; XY] ++ prop_words m ++ [0x1100]).

Inductive elements_words : list Z -> Prop :=
| els_nil : elements_words []
| els_cons : forall a b, element_words a -> elements_words b -> elements_words (a ++ b).

Inductive cells_words : list Z -> Prop :=
| cs_nil : cells_words []
| cs_cons : forall a b, elements_words a -> cells_words b ->
    cells_words ([0x0502; 0x0606] ++ a ++ [0x0700] ++ b).

Inductive file_words : list Z -> Prop :=
| fw : forall cs, cells_words cs ->
    file_words ([0x0002; 0x0102; 0x0206; 0x0305] ++ cs ++ [0x0400]).

(** ** Time stamps

    BGNLIB and BGNSTR records hold two dates of six 16-bit integers; patching
    replaces their payload. *)
Definition is_stamp (r : raw) : bool := (r_word r =? 0x0102) || (r_word r =? 0x0502).
Definition stamp_ok (r : raw) : Prop := is_stamp r = true -> zlen (r_payload r) = 24.
Definition patch (t : bytes) (r : raw) : raw := if is_stamp r then Raw (r_word r) t else r.

(** ** Import maps applied to a library that was read without them *)
Section Mapped.
Variable o : ropts.
Variable known : str -> bool.
Definition map_poly (p : poly) : poly :=
  Poly (pg_pts p) (get_or_self (o_layers o) (pg_layer p)) (get_or_self (o_dts o) (pg_dt p)).
Definition map_polyset (s : polyset) : polyset := PolySet (map map_poly (ps_polys s)) (ps_props s).
Definition map_path1 (p : path1) : path1 :=
  Path1 (pt_pts p) (pt_width p) (pt_end p)
        (get_or_self (o_layers o) (pt_layer p)) (get_or_self (o_dts o) (pt_dt p)).
Definition map_pathel (p : pathel) : pathel :=
  match p with
  | PGds g => PGds (GPath (map map_path1 (gp_paths g)) (gp_wt g) (gp_props g))
  | PPoly s => PPoly (map_polyset s)
  end.
Definition map_label (l : label) : label :=
  Label (get_or_self (o_layers o) (lb_layer l)) (get_or_self (o_tts o) (lb_texttype l))
        (lb_anchor l) (lb_tr l) (lb_pos l) (lb_text l) (lb_props l).
Definition map_ref (r : refel) : refel :=
  match r with
  | RS s => RS (SRef (out_target o known (sr_target s)) (sr_tr s) (sr_org s) (sr_props s))
  | RA a => RA (ARef (out_target o known (ar_target a)) (ar_tr a) (ar_cols a) (ar_rows a)
                     (ar_xy a) (ar_props a))
  end.
Definition map_cell (c : cell) : cell :=
  Cell (renamed o (c_name c)) (map map_polyset (c_polys c)) (map map_pathel (c_paths c))
       (map map_label (c_labels c)) (map map_ref (c_refs c)).
End Mapped.

(** ** Libraries that reading returns unchanged

    One polygon per set, one path per path object, no path stored as polygons,
    end types that GDSII has, no "unscaled" flag on zero widths, and references
    to library cells given as objects, others as names. *)
Definition plain_polyset (s : polyset) : Prop := length (ps_polys s) = 1%nat.
Definition plain_pathel (p : pathel) : Prop :=
  match p with
  | PGds g => exists q, gp_paths g = [q] /\ pt_end q <> ESmooth /\ pt_end q <> ECallable /\
                        (gp_wt g = false -> pt_width q <> 0)
  | PPoly _ => False
  end.
Definition plain_target (known : str -> bool) (t : target) : Prop :=
  match t with TCell n => known n = true | TName n => known n = false end.
Definition ref_target (r : refel) : target :=
  match r with RS s => sr_target s | RA a => ar_target a end.
Definition plain_cell (known : str -> bool) (c : cell) : Prop :=
  Forall plain_polyset (c_polys c) /\ Forall plain_pathel (c_paths c) /\
  Forall (fun r => plain_target known (ref_target r)) (c_refs c).
