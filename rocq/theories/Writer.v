(** The GDSII writers: every [to_gds] method and [GdsLibrary.write_gds].

    Objects are modelled after quantisation: coordinates, widths and path
    extensions are the integers [int(round(x * multiplier))] that end up in the
    file (the rounding itself is modelled in Grid.v).  Simplifications:
    - [numpy.round(...).astype(">i4")] (polygons and paths) does not raise on
      overflow in numpy but produces an unspecified value; here such a write
      fails ([None]);
    - the parallel lists [polygons]/[layers]/[datatypes] of a [PolygonSet] are
      zipped (their alignment is the subject of C28 and C34);
    - the polyline of each parallel path of a [FlexPath]/[RobustPath] is given
      (offsetting and bends are computed before the bytes are produced);
    - magnification, rotation and units are exact dyadic doubles (Real8.v). *)

From Coq Require Import List ZArith Lia Bool.
From Verif Require Import Bytes Real8.
Import ListNotations.
Open Scope Z_scope.

(** Python strings are lists of code points. *)
Definition str := list Z.
(** A value that is a string or [None]. *)
Definition ostr := option str.

(** A [properties] dictionary in insertion order. *)
Definition props := list (Z * ostr).

(** [rotation], [magnification], [x_reflection] of labels and references. *)
Record strans := STrans {
  st_rot : option dy;
  st_mag : option dy;
  st_refl : bool }.

Record poly := Poly { pg_pts : list (Z * Z); pg_layer : Z; pg_dt : Z }.
Record polyset := PolySet { ps_polys : list poly; ps_props : props }.

(** Values of an entry of [FlexPath.ends]/[RobustPath.ends]. *)
Inductive pend :=
| EFlush | ERound | EExtended | ESmooth
| ECallable
| ETuple (b e : Z).

Record path1 := Path1 {
  pt_pts : list (Z * Z);
  pt_width : Z;
  pt_end : pend;
  pt_layer : Z;
  pt_dt : Z }.
Record gpath := GPath { gp_paths : list path1; gp_wt : bool; gp_props : props }.

(** An entry of [Cell.paths]: with [gdsii_path] true it is written as GDSII
    paths, otherwise through [to_polygonset()]. *)
Inductive pathel :=
| PGds (p : gpath)
| PPoly (p : polyset).

Record label := Label {
  lb_layer : Z; lb_texttype : Z; lb_anchor : Z;
  lb_tr : strans; lb_pos : Z * Z; lb_text : ostr; lb_props : props }.

(** [ref_cell]: a [Cell] object (identified by its name) or a string. *)
Inductive target := TCell (n : str) | TName (n : str).
Definition target_name (t : target) : str := match t with TCell n | TName n => n end.

Record sref := SRef { sr_target : target; sr_tr : strans; sr_org : Z * Z; sr_props : props }.
(** [ar_xy]: origin, (x2, y2) and (x3, y3) of CellArray.to_gds after rounding;
    their relation to origin and spacing is modelled in Grid.v. *)
Record aref := ARef {
  ar_target : target; ar_tr : strans; ar_cols : Z; ar_rows : Z;
  ar_xy : (Z * Z) * (Z * Z) * (Z * Z); ar_props : props }.
Inductive refel := RS (r : sref) | RA (a : aref).

Record cell := Cell {
  c_name : str;
  c_polys : list polyset;
  c_paths : list pathel;
  c_labels : list label;
  c_refs : list refel }.

(** [lib_dbu] is [self.precision / self.unit]. *)
Record library := Library {
  lib_name : str; lib_dbu : dy; lib_prec : dy; lib_cells : list cell }.

Record tstamp := TStamp { t_year : Z; t_month : Z; t_day : Z; t_hour : Z; t_min : Z; t_sec : Z }.

Definition ts_fields (t : tstamp) : list field :=
  [Fh (t_year t); Fh (t_month t); Fh (t_day t); Fh (t_hour t); Fh (t_min t); Fh (t_sec t);
   Fh (t_year t); Fh (t_month t); Fh (t_day t); Fh (t_hour t); Fh (t_min t); Fh (t_sec t)].

(** Flattened coordinates, as in [xy.tobytes()]. *)
Definition coords (pts : list (Z * Z)) : list Z := flat_map (fun p => [fst p; snd p]) pts.
Definition tobytes (pts : list (Z * Z)) : option bytes := pack (map Fl (coords pts)).

(** The property loop shared by all [to_gds] methods, e.g. label.py 251-260,
    polygon.py 235-244, path.py 1104-1113 and 2339-2348, library.py 1190-1199
    and 1766-1775.  A value that is not a string raises. *)
Definition prop_to_gds (av : Z * ostr) : option bytes :=
  match snd av with
  | None => None
  | Some v =>
      let value := pad v in
      pack [FH 6; FH 0x2B02; FH (fst av); FH (4 + zlen value); FH 0x2C06]
      +++ encode_ascii value
  end.
Definition props_to_gds (ps : props) : option bytes := oconcat (map prop_to_gds ps).

Definition endel : option bytes := pack [FH 4; FH 0x1100].

(** The while loop of polygon.py 210-215 and path.py 1095-1100: XY records of
    at most [n] points. *)
Fixpoint xy_records (fuel : nat) (n : Z) (pts : list (Z * Z)) : option bytes :=
  match fuel with
  | O => Some []
  | S f =>
      match pts with
      | [] => Some []
      | _ =>
          let chunk := firstn (Z.to_nat n) pts in
          pack [FH (4 + 8 * zlen chunk); FH 0x1003] +++ tobytes chunk
          +++ xy_records f n (skipn (Z.to_nat n) pts)
      end
  end.

(** [PolygonSet.to_gds], polygon.py 174-252, body of the loop. *)
Definition poly_to_gds (ps : props) (p : poly) : option bytes :=
  (match pg_pts p with
   | [] => None (* xy[0] raises IndexError *)
   | first :: _ =>
       if 8190 <? zlen (pg_pts p) then
         pack [FH 4; FH 0x0800; FH 6; FH 0x0D02; Fh (pg_layer p); FH 6; FH 0x0E02; Fh (pg_dt p)]
         +++ xy_records (S (length (pg_pts p))) 8190 (pg_pts p ++ [first])
       else
         pack [FH 4; FH 0x0800; FH 6; FH 0x0D02; Fh (pg_layer p); FH 6; FH 0x0E02; Fh (pg_dt p);
               FH (12 + 8 * zlen (pg_pts p)); FH 0x1003]
         +++ tobytes (pg_pts p) +++ tobytes [first]
   end)
  +++ props_to_gds ps +++ endel.

(** [PolygonSet.to_gds], polygon.py 174-252. *)
Definition polyset_to_gds (s : polyset) : option bytes :=
  oconcat (map (poly_to_gds (ps_props s)) (ps_polys s)).

(** [FlexPath._pathtype_dict.get(end, 4)] (0 for callables), path.py 294, 979-983. *)
Definition pathtype (e : pend) : Z :=
  match e with
  | EFlush => 0 | ERound => 1 | EExtended => 2 | ESmooth => 1
  | ECallable => 0 | ETuple _ _ => 4
  end.

(** [FlexPath.to_gds] path.py 943-1121 and [RobustPath.to_gds] path.py
    2193-2356 with [gdsii_path] true, body of the loop over parallel paths. *)
Definition path1_to_gds (wt : bool) (ps : props) (p : path1) : option bytes :=
  let sign := if wt then 1 else -1 in
  pack [FH 4; FH 0x0900; FH 6; FH 0x0D02; Fh (pt_layer p); FH 6; FH 0x0E02; Fh (pt_dt p);
        FH 6; FH 0x2102; Fh (pathtype (pt_end p)); FH 8; FH 0x0F03; Fl (sign * pt_width p)]
  +++ (match pt_end p with
       | ETuple b e => pack [FH 8; FH 0x3003; Fl b; FH 8; FH 0x3103; Fl e]
       | _ => Some []
       end)
  +++ (if 8191 <? zlen (pt_pts p)
       then xy_records (length (pt_pts p)) 8191 (pt_pts p)
       else pack [FH (4 + 8 * zlen (pt_pts p)); FH 0x1003] +++ tobytes (pt_pts p))
  +++ props_to_gds ps +++ endel.

Definition gpath_to_gds (p : gpath) : option bytes :=
  oconcat (map (path1_to_gds (gp_wt p) (gp_props p)) (gp_paths p)).

Definition pathel_to_gds (p : pathel) : option bytes :=
  match p with
  | PGds g => gpath_to_gds g
  | PPoly s => polyset_to_gds s
  end.

Section WithLog2.
Variable log2f : dy -> dy.

(** The STRANS/MAG/ANGLE group: label.py 211-235, library.py 1156-1180 and
    1699-1748. *)
Definition strans_to_gds (t : strans) : option bytes :=
  match st_rot t, st_mag t, st_refl t with
  | None, None, false => Some []
  | _, _, _ =>
      let word := if st_refl t then 0x8000 else 0 in
      let mag := match st_mag t with
                 | None => Some []
                 | Some m => pack [FH 12; FH 0x1B05] +++ eight_byte_real log2f m
                 end in
      let rot := match st_rot t with
                 | None => Some []
                 | Some r => pack [FH 12; FH 0x1C05] +++ eight_byte_real log2f r
                 end in
      pack [FH 6; FH 0x1A01; FH word] +++ mag +++ rot
  end.

(** [Label.to_gds], label.py 183-268. *)
Definition label_to_gds (l : label) : option bytes :=
  match lb_text l with
  | None => None (* len(None) raises TypeError *)
  | Some t =>
      let text := pad t in
      pack [FH 4; FH 0x0C00; FH 6; FH 0x0D02; Fh (lb_layer l); FH 6; FH 0x1602;
            Fh (lb_texttype l); FH 6; FH 0x1701; Fh (lb_anchor l)]
      +++ strans_to_gds (lb_tr l)
      +++ pack [FH 12; FH 0x1003; Fl (fst (lb_pos l)); Fl (snd (lb_pos l));
                FH (4 + zlen text); FH 0x1906]
      +++ encode_ascii text
      +++ props_to_gds (lb_props l) +++ endel
  end.

(** [CellReference.to_gds], library.py 1136-1207. *)
Definition sref_to_gds (r : sref) : option bytes :=
  let name := pad (target_name (sr_target r)) in
  pack [FH 4; FH 0x0A00; FH (4 + zlen name); FH 0x1206]
  +++ encode_ascii name
  +++ strans_to_gds (sr_tr r)
  +++ pack [FH 12; FH 0x1003; Fl (fst (sr_org r)); Fl (snd (sr_org r))]
  +++ props_to_gds (sr_props r) +++ endel.

(** [CellArray.to_gds], library.py 1675-1783. *)
Definition aref_to_gds (a : aref) : option bytes :=
  let name := pad (target_name (ar_target a)) in
  let '((x1, y1), (x2, y2), (x3, y3)) := ar_xy a in
  pack [FH 4; FH 0x0B00; FH (4 + zlen name); FH 0x1206]
  +++ encode_ascii name
  +++ strans_to_gds (ar_tr a)
  +++ pack [FH 8; FH 0x1302; Fh (ar_cols a); Fh (ar_rows a); FH 28; FH 0x1003;
            Fl x1; Fl y1; Fl x2; Fl y2; Fl x3; Fl y3]
  +++ props_to_gds (ar_props a) +++ endel.

Definition refel_to_gds (r : refel) : option bytes :=
  match r with RS s => sref_to_gds s | RA a => aref_to_gds a end.

(** [Cell.to_gds], library.py 129-178. *)
Definition cell_to_gds (ts : tstamp) (c : cell) : option bytes :=
  let name := pad (c_name c) in
  pack ([FH 28; FH 0x0502] ++ ts_fields ts ++ [FH (4 + zlen name); FH 0x0606])
  +++ encode_ascii name
  +++ oconcat (map polyset_to_gds (c_polys c))
  +++ oconcat (map pathel_to_gds (c_paths c))
  +++ oconcat (map label_to_gds (c_labels c))
  +++ oconcat (map refel_to_gds (c_refs c))
  +++ pack [FH 4; FH 0x0700].

(** Library header: library.py 2467-2495 ([write_gds]) and 2997-3026
    ([GdsWriter.__init__]). *)
Definition header_to_gds (ts : tstamp) (name : str) (dbu prec : dy) : option bytes :=
  let name := pad name in
  pack ([FH 6; FH 0x0002; FH 0x0258; FH 28; FH 0x0102] ++ ts_fields ts
        ++ [FH (4 + zlen name); FH 0x0206])
  +++ encode_ascii name
  +++ pack [FH 20; FH 0x0305]
  +++ eight_byte_real log2f dbu
  +++ eight_byte_real log2f prec.

Definition endlib : option bytes := pack [FH 4; FH 0x0400].

(** [GdsLibrary.write_gds], library.py 2427-2509, with [cells=None] and no
    binary cells (selection and binary cells: see Tools.v). *)
Definition write_gds (ts : tstamp) (l : library) : option bytes :=
  header_to_gds ts (lib_name l) (lib_dbu l) (lib_prec l)
  +++ oconcat (map (cell_to_gds ts) (lib_cells l))
  +++ endlib.

End WithLog2.
