(** File-level tools: timestamps, hashing, binary cells, units, streaming
    writer (gdspy/gdsiiformat.py 184-287, gdspy/library.py 2427-2509 and
    2934-3173). *)

From Coq Require Import List ZArith Lia Bool.
From Verif Require Import Bytes Real8 Records Writer.
Import ListNotations.
Open Scope Z_scope.

(** ** set_gdsii_timestamp, gdsiiformat.py 232-287.

    [b] is what remains of the file from the current position; the result is
    what the file contains from there on afterwards.  [fio.write(ts)] replaces
    the next 24 bytes, [fio.seek(size - 4, 1)] skips bytes.  A failed assertion
    gives [None] (the file is then left half patched; not modelled).  Every
    iteration consumes at least four bytes. *)
Fixpoint set_ts_fuel (fuel : nat) (ts : bytes) (b : bytes) : option bytes :=
  match fuel with
  | O => Some b
  | S f =>
      match b with
      | b0 :: b1 :: b2 :: b3 :: rest =>
          let size := un16 b0 b1 in
          let rec_type := un16 b2 b3 in
          if (rec_type =? 0x0102) || (rec_type =? 0x0502) then
            if size =? 28 then
              match set_ts_fuel f ts (skipn 24 rest) with
              | Some r => Some ([b0; b1; b2; b3] ++ ts ++ r)
              | None => None
              end
            else None
          else
            let n := if 4 <? size then Z.to_nat (size - 4) else O in
            match set_ts_fuel f ts (skipn n rest) with
            | Some r => Some ([b0; b1; b2; b3] ++ firstn n rest ++ r)
            | None => None
            end
      | _ => Some b
      end
  end.

Definition set_gdsii_timestamp (b : bytes) (ts : tstamp) : option bytes :=
  match pack (ts_fields ts) with
  | Some t => set_ts_fuel (length b) t b
  | None => None
  end.

(** ** gdsii_hash, gdsiiformat.py 184-229.

    The loop over the file: [pos] and [start] as in the code; the result is the
    list [contents].  [struct.unpack] raises if fewer than four bytes are left.
    Records of size 0 stop the loop (after BGNSTR/ENDSTR a size of 0 would loop
    forever; the fuel makes the model stop with [None]). *)
Definition slice_bytes (a b : nat) (d : bytes) : bytes := firstn (b - a) (skipn a d).

Fixpoint hash_loop (fuel : nat) (data : bytes) (start pos : nat) : option (list bytes) :=
  if (length data <=? pos)%nat then Some [] else
  match fuel with
  | O => None
  | S f =>
      match skipn pos data with
      | b0 :: b1 :: b2 :: b3 :: _ =>
          let size := un16 b0 b1 in
          let rec := un16 b2 b3 in
          let next := (pos + Z.to_nat size)%nat in
          if rec =? 0x0502 then hash_loop f data (pos + 28) next
          else if rec =? 0x0700 then
            match hash_loop f data start next with
            | Some l => Some (slice_bytes start pos data :: l)
            | None => None
            end
          else if size =? 0 then Some []
          else hash_loop f data start next
      | _ => None
      end
  end.

Definition hash_contents (data : bytes) : option (list bytes) :=
  hash_loop (length data) data 0 0.

(** Python's order on bytes objects, and [sorted]. *)
Fixpoint bytes_leb (a b : bytes) : bool :=
  match a, b with
  | [], _ => true
  | _ :: _, [] => false
  | x :: a', y :: b' => if x <? y then true else if y <? x then false else bytes_leb a' b'
  end.
Fixpoint insert_bytes (x : bytes) (l : list bytes) : list bytes :=
  match l with
  | [] => [x]
  | y :: r => if bytes_leb x y then x :: l else y :: insert_bytes x r
  end.
Definition sorted_bytes (l : list bytes) : list bytes := fold_right insert_bytes [] l.

(** Any hashlib-like engine: a state, [update] and [hexdigest]. *)
Definition gdsii_hash {H D : Type} (init : H) (update : H -> bytes -> H) (digest : H -> D)
           (data : bytes) : option D :=
  match hash_contents data with
  | Some l => Some (digest (fold_left update (sorted_bytes l) init))
  | None => None
  end.

(** ** get_gds_units, library.py 3081-3113.

    The two numbers of the first UNITS record (db_user, db_meters), or [None]
    when there is none; the returned pair is [(db_meters / db_user, db_meters)]
    and the division is left to the caller.  The outer [option] is for
    exceptions. *)
Definition get_gds_units (b : bytes) : option (option (dy * dy)) :=
  match find (fun r => fst r =? 0x03) (raw_record_reader b) with
  | None => Some None
  | Some (_, data) =>
      match eight_byte_real_to_float (firstn 8 (skipn 4 data)),
            eight_byte_real_to_float (skipn 12 data) with
      | Some u, Some m => Some (Some (u, m))
      | _, _ => None
      end
  end.

(** ** get_binary_cells, library.py 3116-3173.

    State: [cells] dictionary (insertion order), [name], [cell_data]. *)
Record bstate := BState {
  bs_cells : list (str * bytes);
  bs_name : option str;
  bs_data : option (list bytes) }.

Fixpoint bdict_set (d : list (str * bytes)) (n : str) (v : bytes) : list (str * bytes) :=
  match d with
  | [] => [(n, v)]
  | (m, w) :: r => if list_eq_dec Z.eq_dec n m then (m, v) :: r else (m, w) :: bdict_set r n v
  end.

Definition strname_of (data : bytes) : option str :=
  match rev data with
  | 0 :: _ => decode_ascii (skipn 4 (removelast data))
  | _ => decode_ascii (skipn 4 data)
  end.

Definition bin_step (s : bstate) (r : Z * bytes) : option bstate :=
  let (t, data) := r in
  if t =? 0x05 then Some (BState (bs_cells s) (bs_name s) (Some [data]))
  else if t =? 0x06 then
    match bs_data s, strname_of data with
    | Some l, Some n => Some (BState (bs_cells s) (Some n) (Some (l ++ [data])))
    | _, _ => None
    end
  else if t =? 0x07 then
    match bs_data s, bs_name s with
    | Some l, Some n => Some (BState (bdict_set (bs_cells s) n (concat (l ++ [data]))) (bs_name s) None)
    | _, _ => None (* a missing name would become the key None: not modelled *)
    end
  else
    match bs_data s with
    | Some l => Some (BState (bs_cells s) (bs_name s) (Some (l ++ [data])))
    | None => Some s
    end.

Fixpoint bin_steps (s : bstate) (rs : list (Z * bytes)) : option bstate :=
  match rs with
  | [] => Some s
  | r :: rest => match bin_step s r with Some s' => bin_steps s' rest | None => None end
  end.

Definition get_binary_cells (b : bytes) : option (list (str * bytes)) :=
  match bin_steps (BState [] None None) (raw_record_reader b) with
  | Some s => Some (bs_cells s)
  | None => None
  end.

(** ** write_gds with cell selection, binary cells and clocks,
    library.py 2427-2509.

    [hts] is the time stamp of the header and each cell comes with the time
    stamp [Cell.to_gds] uses: with an explicit [timestamp] argument they are
    all equal, otherwise each is the clock reading at that moment. *)
Definition write_file (log2f : dy -> dy) (hts : tstamp) (name : str) (dbu prec : dy)
           (cells : list (tstamp * cell)) (binary : list bytes) : option bytes :=
  header_to_gds log2f hts name dbu prec
  +++ oconcat (map (fun tc => cell_to_gds log2f (fst tc) (snd tc)) cells)
  +++ oconcat (map Some binary)
  +++ endlib.

(** An item of the [cells] argument: a name or a Cell object. *)
Inductive csel := SName (n : str) | SCell (c : cell).

(** [self.cells.get(c, c)], library.py 2499: a name that is not in the library
    has no [to_gds] method (AttributeError). *)
Definition lookup_cell (l : library) (n : str) : option cell :=
  find (fun c => if list_eq_dec Z.eq_dec (c_name c) n then true else false) (lib_cells l).
Definition select1 (l : library) (s : csel) : option cell :=
  match s with
  | SName n => lookup_cell l n
  | SCell c => Some c
  end.

(** [GdsLibrary.write_gds(outfile, cells, timestamp, binary_cells)]. *)
Definition write_gds_sel (log2f : dy -> dy) (ts : tstamp) (l : library)
           (sel : option (list csel)) (binary : list bytes) : option bytes :=
  match (match sel with
         | None => Some (lib_cells l)
         | Some s => omap (select1 l) s
         end) with
  | Some cs => write_file log2f ts (lib_name l) (lib_dbu l) (lib_prec l)
                          (map (fun c => (ts, c)) cs) binary
  | None => None
  end.

(** ** GdsWriter, library.py 2934-3078: the open file is the bytes written. *)
Inductive gwop :=
| WCell (ts : tstamp) (c : cell)     (* write_cell(cell, timestamp) *)
| WBinary (l : list bytes).          (* write_binary_cells(binary_cells) *)

Definition gw_open (log2f : dy -> dy) (ts : tstamp) (name : str) (dbu prec : dy) : option bytes :=
  header_to_gds log2f ts name dbu prec.
Definition gw_op (log2f : dy -> dy) (f : option bytes) (op : gwop) : option bytes :=
  match op with
  | WCell ts c => f +++ cell_to_gds log2f ts c
  | WBinary l => fold_left (fun f b => f +++ Some b) l f
  end.
Definition gw_close (f : option bytes) : option bytes := f +++ endlib.

Definition gds_writer (log2f : dy -> dy) (ts : tstamp) (name : str) (dbu prec : dy)
           (ops : list gwop) : option bytes :=
  gw_close (fold_left (gw_op log2f) ops (gw_open log2f ts name dbu prec)).
