(** [GdsLibrary.read_gds] and the [_create_*] helpers:
    gdspy/library.py, lines 2511-2787.

    Coordinates stay in database units: the multiplication by [factor] is
    modelled in Grid.v (the UNITS values are kept in the result).
    Simplifications: a record whose payload has the wrong kind (e.g. a string
    where an integer array is expected) makes the read fail; labels and
    references whose XY record does not hold exactly one point fail; the
    spacing of arrays is derived from the three points in Grid.v. *)

From Coq Require Import List ZArith Lia Bool.
From Verif Require Import Bytes Real8 Records Writer.
Import ListNotations.
Open Scope Z_scope.

(** ** Arguments of read_gds *)
Record ropts := ROpts {
  o_rename : str -> option str;   (* rename dictionary *)
  o_template : str -> str;        (* rename_template.format(name=...) *)
  o_layers : Z -> option Z;       (* layers dictionary *)
  o_dts : Z -> option Z;          (* datatypes dictionary *)
  o_tts : Z -> option Z }.        (* texttypes dictionary *)

Definition default_opts : ropts :=
  ROpts (fun _ => None) (fun n => n) (fun _ => None) (fun _ => None) (fun _ => None).

(** [d.get(v, v)] *)
Definition get_or_self (d : Z -> option Z) (v : Z) : Z :=
  match d v with Some w => w | None => v end.

(** [str(None)] *)
Definition str_None : str := [78; 111; 110; 101].

(** library.py 2631-2634 and 2665-2668.  An empty name is decoded as [None]. *)
Definition apply_rename (o : ropts) (d : rdata) : option str :=
  match d with
  | DStr s => Some (match o_rename o s with Some n => n | None => o_template o s end)
  | DNone => Some (o_template o str_None)
  | _ => None
  end.

(** ** The [kwargs] dictionary *)
Record kwargs := KW {
  k_layer : option Z; k_dt : option Z; k_tt : option Z;
  k_xy : option (list Z);
  k_width : option Z; k_wt : option bool;
  k_ref : option str;
  k_cols : option Z; k_rows : option Z;
  k_refl : option bool; k_mag : option dy; k_rot : option dy;
  k_text : option ostr; k_anchor : option Z;
  k_ends : option pend; k_bgn : option Z; k_endx : option Z }.

Definition kw_empty : kwargs :=
  KW None None None None None None None None None None None None None None None None None.

Definition isS {A} (x : option A) : bool := match x with Some _ => true | None => false end.

Definition kw_set_layer k v := KW (Some v) (k_dt k) (k_tt k) (k_xy k) (k_width k) (k_wt k) (k_ref k) (k_cols k) (k_rows k) (k_refl k) (k_mag k) (k_rot k) (k_text k) (k_anchor k) (k_ends k) (k_bgn k) (k_endx k).
Definition kw_set_dt k v := KW (k_layer k) (Some v) (k_tt k) (k_xy k) (k_width k) (k_wt k) (k_ref k) (k_cols k) (k_rows k) (k_refl k) (k_mag k) (k_rot k) (k_text k) (k_anchor k) (k_ends k) (k_bgn k) (k_endx k).
Definition kw_set_tt k v := KW (k_layer k) (k_dt k) (Some v) (k_xy k) (k_width k) (k_wt k) (k_ref k) (k_cols k) (k_rows k) (k_refl k) (k_mag k) (k_rot k) (k_text k) (k_anchor k) (k_ends k) (k_bgn k) (k_endx k).
Definition kw_set_xy k v := KW (k_layer k) (k_dt k) (k_tt k) (Some v) (k_width k) (k_wt k) (k_ref k) (k_cols k) (k_rows k) (k_refl k) (k_mag k) (k_rot k) (k_text k) (k_anchor k) (k_ends k) (k_bgn k) (k_endx k).
Definition kw_set_width k v w := KW (k_layer k) (k_dt k) (k_tt k) (k_xy k) (Some v) w (k_ref k) (k_cols k) (k_rows k) (k_refl k) (k_mag k) (k_rot k) (k_text k) (k_anchor k) (k_ends k) (k_bgn k) (k_endx k).
Definition kw_set_ref k v := KW (k_layer k) (k_dt k) (k_tt k) (k_xy k) (k_width k) (k_wt k) (Some v) (k_cols k) (k_rows k) (k_refl k) (k_mag k) (k_rot k) (k_text k) (k_anchor k) (k_ends k) (k_bgn k) (k_endx k).
Definition kw_set_colrow k c r := KW (k_layer k) (k_dt k) (k_tt k) (k_xy k) (k_width k) (k_wt k) (k_ref k) (Some c) (Some r) (k_refl k) (k_mag k) (k_rot k) (k_text k) (k_anchor k) (k_ends k) (k_bgn k) (k_endx k).
Definition kw_set_refl k v := KW (k_layer k) (k_dt k) (k_tt k) (k_xy k) (k_width k) (k_wt k) (k_ref k) (k_cols k) (k_rows k) (Some v) (k_mag k) (k_rot k) (k_text k) (k_anchor k) (k_ends k) (k_bgn k) (k_endx k).
Definition kw_set_mag k v := KW (k_layer k) (k_dt k) (k_tt k) (k_xy k) (k_width k) (k_wt k) (k_ref k) (k_cols k) (k_rows k) (k_refl k) (Some v) (k_rot k) (k_text k) (k_anchor k) (k_ends k) (k_bgn k) (k_endx k).
Definition kw_set_rot k v := KW (k_layer k) (k_dt k) (k_tt k) (k_xy k) (k_width k) (k_wt k) (k_ref k) (k_cols k) (k_rows k) (k_refl k) (k_mag k) (Some v) (k_text k) (k_anchor k) (k_ends k) (k_bgn k) (k_endx k).
Definition kw_set_text k v := KW (k_layer k) (k_dt k) (k_tt k) (k_xy k) (k_width k) (k_wt k) (k_ref k) (k_cols k) (k_rows k) (k_refl k) (k_mag k) (k_rot k) (Some v) (k_anchor k) (k_ends k) (k_bgn k) (k_endx k).
Definition kw_set_anchor k v := KW (k_layer k) (k_dt k) (k_tt k) (k_xy k) (k_width k) (k_wt k) (k_ref k) (k_cols k) (k_rows k) (k_refl k) (k_mag k) (k_rot k) (k_text k) (Some v) (k_ends k) (k_bgn k) (k_endx k).
Definition kw_set_ends k v := KW (k_layer k) (k_dt k) (k_tt k) (k_xy k) (k_width k) (k_wt k) (k_ref k) (k_cols k) (k_rows k) (k_refl k) (k_mag k) (k_rot k) (k_text k) (k_anchor k) (Some v) (k_bgn k) (k_endx k).
Definition kw_set_bgn k v := KW (k_layer k) (k_dt k) (k_tt k) (k_xy k) (k_width k) (k_wt k) (k_ref k) (k_cols k) (k_rows k) (k_refl k) (k_mag k) (k_rot k) (k_text k) (k_anchor k) (k_ends k) (Some v) (k_endx k).
Definition kw_set_endx k v := KW (k_layer k) (k_dt k) (k_tt k) (k_xy k) (k_width k) (k_wt k) (k_ref k) (k_cols k) (k_rows k) (k_refl k) (k_mag k) (k_rot k) (k_text k) (k_anchor k) (k_ends k) (k_bgn k) (Some v).

(** ** Anchors *)

(** Anchor names accepted by [Label] (label.py 95-120; synonyms such as
    "top left" map to the same integers). *)
Inductive anchor_name := A_nw | A_n | A_ne | A_w | A_o | A_e | A_sw | A_s | A_se.
(** [Label._anchor], label.py 95-120. *)
Definition anchor_code (a : anchor_name) : Z :=
  match a with
  | A_nw => 0 | A_n => 1 | A_ne => 2 | A_w => 4 | A_o => 5 | A_e => 6
  | A_sw => 8 | A_s => 9 | A_se => 10
  end.
(** [GdsLibrary._import_anchors], library.py 2276-2278. *)
Definition import_anchors : list anchor_name :=
  [A_nw; A_n; A_ne; A_o; A_w; A_o; A_e; A_o; A_sw; A_s; A_se; A_o; A_o; A_o; A_o; A_o].
(** library.py 2697-2700, then [Label.__init__] (label.py 148). *)
Definition read_anchor (v : Z) : Z :=
  anchor_code (nth (Z.to_nat (Z.land v 0x000F)) import_anchors A_o).

(** [GdsLibrary._pathtype_dict.get(v, "extended")], library.py 2279 and 2703. *)
Definition read_pathtype (v : Z) : pend :=
  if v =? 0 then EFlush else if v =? 1 then ERound else if v =? 2 then EExtended else EExtended.

(** ** Creating elements *)

Inductive ckind := CPolygon | CPath | CLabel | CReference | CArray.

Inductive newel :=
| NPoly (p : poly)
| NPath (p : path1) (wt : bool)
| NLabel (l : label)
| NRef (r : refel).

(** [xy.reshape((xy.size // 2, 2))] *)
Fixpoint pairs (l : list Z) : option (list (Z * Z)) :=
  match l with
  | [] => Some []
  | x :: y :: r => match pairs r with Some ps => Some ((x, y) :: ps) | None => None end
  | _ => None
  end.

(** [_create_polygon], library.py 2737-2738: all but the last point.  (An array
    of size 1 reshapes to an empty polygon.) *)
Definition create_polygon (k : kwargs) : option newel :=
  if isS (k_tt k) || isS (k_width k) || isS (k_wt k) || isS (k_ref k) || isS (k_cols k)
     || isS (k_rows k) || isS (k_refl k) || isS (k_mag k) || isS (k_rot k) || isS (k_text k)
     || isS (k_anchor k) || isS (k_ends k) || isS (k_bgn k) || isS (k_endx k)
  then None (* unexpected keyword argument *)
  else match k_layer k, k_dt k, k_xy k with
       | Some l, Some d, Some xy =>
           match pairs (firstn (length xy - 2) xy) with
           | Some pts => Some (NPoly (Poly pts l d))
           | None => None
           end
       | _, _, _ => None
       end.

Definition dflt {A} (d : A) (x : option A) : A := match x with Some v => v | None => d end.

(** [_create_path], library.py 2740-2746, with the defaults of
    [FlexPath.__init__] (path.py 296-311). *)
Definition create_path (k : kwargs) : option newel :=
  if isS (k_tt k) || isS (k_ref k) || isS (k_cols k) || isS (k_rows k) || isS (k_refl k)
     || isS (k_mag k) || isS (k_rot k) || isS (k_text k) || isS (k_anchor k)
  then None
  else match k_xy k, k_width k with
       | Some xy, Some w =>
           let ends := if isS (k_bgn k) || isS (k_endx k)
                       then ETuple (dflt 0 (k_bgn k)) (dflt 0 (k_endx k))
                       else dflt EFlush (k_ends k) in
           match pairs xy with
           | Some pts => Some (NPath (Path1 pts w ends (dflt 0 (k_layer k)) (dflt 0 (k_dt k)))
                                     (dflt true (k_wt k)))
           | None => None
           end
       | _, _ => None
       end.

(** [_create_label], library.py 2748-2750; width, width_transform and ends are
    accepted and dropped. *)
Definition create_label (k : kwargs) : option newel :=
  if isS (k_dt k) || isS (k_ref k) || isS (k_cols k) || isS (k_rows k)
     || isS (k_bgn k) || isS (k_endx k)
  then None
  else match k_xy k, k_text k with
       | Some [x; y], Some t =>
           Some (NLabel (Label (dflt 0 (k_layer k)) (dflt 0 (k_tt k)) (dflt 5 (k_anchor k))
                               (STrans (k_rot k) (k_mag k) (dflt false (k_refl k)))
                               (x, y) t []))
       | _, _ => None
       end.

(** [_create_reference], library.py 2752-2758. *)
Definition create_reference (k : kwargs) : option newel :=
  if isS (k_layer k) || isS (k_dt k) || isS (k_tt k) || isS (k_width k) || isS (k_wt k)
     || isS (k_cols k) || isS (k_rows k) || isS (k_text k) || isS (k_anchor k)
     || isS (k_ends k) || isS (k_bgn k) || isS (k_endx k)
  then None
  else match k_xy k, k_ref k with
       | Some [x; y], Some n =>
           Some (NRef (RS (SRef (TName n)
                                (STrans (k_rot k) (k_mag k) (dflt false (k_refl k)))
                                (x, y) [])))
       | _, _ => None
       end.

(** [_create_array], library.py 2760-2787. *)
Definition create_array (k : kwargs) : option newel :=
  if isS (k_layer k) || isS (k_dt k) || isS (k_tt k) || isS (k_width k) || isS (k_wt k)
     || isS (k_text k) || isS (k_anchor k)
     || isS (k_ends k) || isS (k_bgn k) || isS (k_endx k)
  then None
  else match k_xy k, k_ref k, k_cols k, k_rows k with
       | Some (x1 :: y1 :: x2 :: y2 :: x3 :: y3 :: _), Some n, Some c, Some r =>
           Some (NRef (RA (ARef (TName n)
                                (STrans (k_rot k) (k_mag k) (dflt false (k_refl k)))
                                c r ((x1, y1), (x2, y2), (x3, y3)) [])))
       | _, _, _, _ => None
       end.

Definition create (c : ckind) (k : kwargs) : option newel :=
  match c with
  | CPolygon => create_polygon k
  | CPath => create_path k
  | CLabel => create_label k
  | CReference => create_reference k
  | CArray => create_array k
  end.

(** [cell.add(el)] (library.py 296-336) for one element with its properties. *)
Definition add_new (c : cell) (e : newel) (ps : props) : cell :=
  match e with
  | NPoly p => Cell (c_name c) (c_polys c ++ [PolySet [p] ps]) (c_paths c) (c_labels c) (c_refs c)
  | NPath p wt => Cell (c_name c) (c_polys c) (c_paths c ++ [PGds (GPath [p] wt ps)]) (c_labels c) (c_refs c)
  | NLabel l => Cell (c_name c) (c_polys c) (c_paths c)
                     (c_labels c ++ [Label (lb_layer l) (lb_texttype l) (lb_anchor l) (lb_tr l)
                                           (lb_pos l) (lb_text l) ps]) (c_refs c)
  | NRef (RS r) => Cell (c_name c) (c_polys c) (c_paths c) (c_labels c)
                        (c_refs c ++ [RS (SRef (sr_target r) (sr_tr r) (sr_org r) ps)])
  | NRef (RA a) => Cell (c_name c) (c_polys c) (c_paths c) (c_labels c)
                        (c_refs c ++ [RA (ARef (ar_target a) (ar_tr a) (ar_cols a) (ar_rows a) (ar_xy a) ps)])
  end.

(** [properties[attr] = value] *)
Fixpoint dict_set (ps : props) (a : Z) (v : ostr) : props :=
  match ps with
  | [] => [(a, v)]
  | (b, w) :: r => if a =? b then (b, v) :: r else (b, w) :: dict_set r a v
  end.

(** ** State of the reading loop (library.py 2565-2579).

    [s_cells] are the cells created so far, latest first; when [s_open], the
    first one is the current [cell]. *)
Record rstate := RState {
  s_kw : kwargs;
  s_create : option ckind;
  s_cells : list cell;
  s_open : bool;
  s_props : props;
  s_attr : Z;
  s_libname : option ostr;
  s_units : option (dy * dy) }.

Definition init_state : rstate := RState kw_empty None [] false [] (-1) None None.

Definition str_eqb (a b : str) : bool :=
  if list_eq_dec Z.eq_dec a b then true else false.

Definition mem_str (n : str) (l : list str) : bool := existsb (str_eqb n) l.

(** ENDLIB, library.py 2711-2714. *)
Definition resolve_target (names : list str) (t : target) : target :=
  match t with
  | TName n => if mem_str n names then TCell n else TName n
  | TCell n => TCell n
  end.
Definition resolve_ref (names : list str) (r : refel) : refel :=
  match r with
  | RS r => RS (SRef (resolve_target names (sr_target r)) (sr_tr r) (sr_org r) (sr_props r))
  | RA a => RA (ARef (resolve_target names (ar_target a)) (ar_tr a) (ar_cols a) (ar_rows a) (ar_xy a) (ar_props a))
  end.
Definition resolve_cell (names : list str) (c : cell) : cell :=
  Cell (c_name c) (c_polys c) (c_paths c) (c_labels c) (map (resolve_ref names) (c_refs c)).

Definition with_kw (s : rstate) (k : kwargs) : rstate :=
  RState k (s_create s) (s_cells s) (s_open s) (s_props s) (s_attr s) (s_libname s) (s_units s).
Definition with_create (s : rstate) (c : ckind) : rstate :=
  RState (s_kw s) (Some c) (s_cells s) (s_open s) (s_props s) (s_attr s) (s_libname s) (s_units s).

(** [record[1][0]] for an integer payload. *)
Definition int0 (d : rdata) : option Z :=
  match d with DInts (v :: _) => Some v | _ => None end.
Definition real0 (d : rdata) : option dy :=
  match d with DReals (v :: _) => Some v | _ => None end.
Definition str_or_none (d : rdata) : option ostr :=
  match d with DStr s => Some (Some s) | DNone => Some None | _ => None end.

(** Number of entries of [GdsLibrary._record_name], library.py 2213-2274. *)
Definition n_record_names : Z := 60.

(** One iteration of the loop, library.py 2580-2732.  [names0] are the names of
    the cells that were in the library before the call. *)
Definition step (o : ropts) (names0 : list str) (s : rstate) (r : record) : option rstate :=
  let (t, d) := r in
  let k := s_kw s in
  if t =? 0x0D then (* LAYER *)
    obind (int0 d) (fun v => Some (with_kw s (kw_set_layer k (get_or_self (o_layers o) v))))
  else if (t =? 0x0E) || (t =? 0x2E) then (* DATATYPE or BOXTYPE *)
    obind (int0 d) (fun v => Some (with_kw s (kw_set_dt k (get_or_self (o_dts o) v))))
  else if t =? 0x16 then (* TEXTTYPE *)
    obind (int0 d) (fun v => Some (with_kw s (kw_set_tt k (get_or_self (o_tts o) v))))
  else if t =? 0x10 then (* XY *)
    match d with
    | DInts l => Some (with_kw s (kw_set_xy k (match k_xy k with Some l0 => l0 ++ l | None => l end)))
    | _ => None
    end
  else if t =? 0x0F then (* WIDTH *)
    obind (int0 d) (fun v =>
      Some (with_kw s (kw_set_width k (Z.abs v) (if v <? 0 then Some false else k_wt k))))
  else if t =? 0x11 then (* ENDEL *)
    match s_create s with
    | Some c =>
        match create c k, s_open s, s_cells s with
        | Some e, true, cur :: rest =>
            Some (RState kw_empty None (add_new cur e (s_props s) :: rest) true []
                         (s_attr s) (s_libname s) (s_units s))
        | _, _, _ => None
        end
    | None => Some (with_kw s kw_empty)
    end
  else if t =? 0x08 then Some (with_create s CPolygon) (* BOUNDARY *)
  else if t =? 0x09 then Some (with_create s CPath) (* PATH *)
  else if t =? 0x2D then Some (with_create s CPolygon) (* BOX *)
  else if t =? 0x0C then Some (with_create s CLabel) (* TEXT *)
  else if t =? 0x12 then (* SNAME *)
    obind (apply_rename o d) (fun n => Some (with_kw s (kw_set_ref k n)))
  else if t =? 0x13 then (* COLROW *)
    match d with
    | DInts (c :: r :: _) => Some (with_kw s (kw_set_colrow k c r))
    | _ => None
    end
  else if t =? 0x1A then (* STRANS *)
    obind (int0 d) (fun v => Some (with_kw s (kw_set_refl k (0 <? Z.land v 0x8000))))
  else if t =? 0x1B then (* MAG *)
    obind (real0 d) (fun v => Some (with_kw s (kw_set_mag k v)))
  else if t =? 0x1C then (* ANGLE *)
    obind (real0 d) (fun v => Some (with_kw s (kw_set_rot k v)))
  else if t =? 0x0A then Some (with_create s CReference) (* SREF *)
  else if t =? 0x0B then Some (with_create s CArray) (* AREF *)
  else if t =? 0x06 then (* STRNAME *)
    obind (apply_rename o d) (fun n =>
      if mem_str n names0 || mem_str n (map c_name (s_cells s)) then None
      else Some (RState k (s_create s) (Cell n [] [] [] [] :: s_cells s) true
                        (s_props s) (s_attr s) (s_libname s) (s_units s)))
  else if t =? 0x19 then (* STRING *)
    obind (str_or_none d) (fun v => Some (with_kw s (kw_set_text k v)))
  else if t =? 0x07 then (* ENDSTR *)
    Some (RState k (s_create s) (s_cells s) false (s_props s) (s_attr s) (s_libname s) (s_units s))
  else if t =? 0x03 then (* UNITS *)
    match d with
    | DReals (a :: b :: _) =>
        Some (RState k (s_create s) (s_cells s) (s_open s) (s_props s) (s_attr s) (s_libname s) (Some (a, b)))
    | _ => None
    end
  else if t =? 0x02 then (* LIBNAME *)
    obind (str_or_none d) (fun v =>
      Some (RState k (s_create s) (s_cells s) (s_open s) (s_props s) (s_attr s) (Some v) (s_units s)))
  else if t =? 0x17 then (* PRESENTATION *)
    obind (int0 d) (fun v => Some (with_kw s (kw_set_anchor k (read_anchor v))))
  else if t =? 0x21 then (* PATHTYPE *)
    obind (int0 d) (fun v => Some (with_kw s (kw_set_ends k (read_pathtype v))))
  else if t =? 0x30 then (* BGNEXTN *)
    obind (int0 d) (fun v => Some (with_kw s (kw_set_bgn k v)))
  else if t =? 0x31 then (* ENDEXTN *)
    obind (int0 d) (fun v => Some (with_kw s (kw_set_endx k v)))
  else if t =? 0x04 then (* ENDLIB *)
    Some (RState k (s_create s)
                 (map (resolve_cell (names0 ++ map c_name (s_cells s))) (s_cells s))
                 (s_open s) (s_props s) (s_attr s) (s_libname s) (s_units s))
  else if t =? 0x2B then (* PROPATTR *)
    obind (int0 d) (fun v =>
      Some (RState k (s_create s) (s_cells s) (s_open s) (s_props s) v (s_libname s) (s_units s)))
  else if t =? 0x2C then (* PROPVALUE *)
    obind (str_or_none d) (fun v =>
      Some (RState k (s_create s) (s_cells s) (s_open s) (dict_set (s_props s) (s_attr s) v)
                   (s_attr s) (s_libname s) (s_units s)))
  else (* unused or not supported: at most a warning *)
    if t <? n_record_names then Some s else None.

Fixpoint steps (o : ropts) (names0 : list str) (s : rstate) (rs : list record) : option rstate :=
  match rs with
  | [] => Some s
  | r :: rest => match step o names0 s r with
                 | Some s' => steps o names0 s' rest
                 | None => None
                 end
  end.

(** What the library looks like after a successful read: cells added (in
    dictionary order), library name, UNITS values. *)
Record rresult := RResult {
  res_cells : list cell;
  res_name : option ostr;
  res_units : option (dy * dy) }.

Definition result_of (s : rstate) : rresult :=
  RResult (rev (s_cells s)) (s_libname s) (s_units s).

(** [read_gds] of a byte stream into a library with cells named [names0]. *)
Definition read_gds (o : ropts) (names0 : list str) (b : bytes) : option rresult :=
  obind (record_reader b) (fun rs =>
  obind (steps o names0 init_state rs) (fun s => Some (result_of s))).
