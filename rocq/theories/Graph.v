(** Object graph: cells, references and libraries (gdspy/library.py, classes
    Cell, CellReference, CellArray and GdsLibrary).

    Cells and references are mutable Python objects, so they live in a heap and
    are known by identifiers.  Several libraries (dictionaries from names to
    cells) share the heap.  [A] is whatever else a reference carries (origin,
    rotation, ...), [B] whatever else a cell carries (polygons, labels, ...);
    the functions of this file do not look at them. *)

From Coq Require Import List ZArith Lia Bool Arith.
Import ListNotations.

(** Names are Python strings. *)
Definition name := list Z.
Definition name_eqb (a b : name) : bool := if list_eq_dec Z.eq_dec a b then true else false.
Lemma name_eqb_eq : forall a b, name_eqb a b = true <-> a = b.
Proof. intros; unfold name_eqb; destruct (list_eq_dec Z.eq_dec a b); split; congruence. Qed.
Lemma name_eqb_neq : forall a b, name_eqb a b = false <-> a <> b.
Proof. intros; unfold name_eqb; destruct (list_eq_dec Z.eq_dec a b); split; congruence. Qed.
Lemma name_eqb_refl : forall a, name_eqb a a = true.
Proof. intros; apply name_eqb_eq; auto. Qed.

(** [ref.ref_cell] is a Cell or the name of one (library.py 1061-1079). *)
Inductive target := ToCell (c : nat) | ToName (n : name).

(** CellReference / CellArray: the target and the rest. *)
Record gref (A : Type) := GRef { r_target : target; r_data : A }.
(** Cell, library.py 88-117: name, references (identifiers of reference
    objects, in order) and the rest. *)
Record gcell (B : Type) := GCell { c_name : name; c_refs : list nat; c_data : B }.
Arguments GRef {A}. Arguments r_target {A}. Arguments r_data {A}.
Arguments GCell {B}. Arguments c_name {B}. Arguments c_refs {B}. Arguments c_data {B}.

(** The heap; identifiers below [h_ncell] / [h_nref] are allocated. *)
Record heap (A B : Type) := Heap {
  h_cell : nat -> gcell B; h_ref : nat -> gref A; h_ncell : nat; h_nref : nat }.
Arguments Heap {A B}. Arguments h_cell {A B}. Arguments h_ref {A B}.
Arguments h_ncell {A B}. Arguments h_nref {A B}.

Definition upd {X : Type} (f : nat -> X) (k : nat) (v : X) : nat -> X :=
  fun i => if Nat.eqb i k then v else f i.

(** A library's [cells] dictionary in insertion order. *)
Definition dict := list (name * nat).
Definition dget (d : dict) (n : name) : option nat :=
  option_map snd (find (fun kv => name_eqb (fst kv) n) d).
Fixpoint dset (d : dict) (n : name) (c : nat) : dict :=
  match d with
  | [] => [(n, c)]
  | kv :: r => if name_eqb (fst kv) n then (fst kv, c) :: r else kv :: dset r n c
  end.
Definition ddel (d : dict) (n : name) : dict := filter (fun kv => negb (name_eqb (fst kv) n)) d.
Definition dcells (d : dict) : list nat := map snd d.

Section Graph.
Context {A B : Type}.
Notation heap := (heap A B).

Definition set_cell (h : heap) (c : nat) (v : gcell B) : heap :=
  Heap (upd (h_cell h) c v) (h_ref h) (h_ncell h) (h_nref h).
Definition set_ref (h : heap) (r : nat) (v : gref A) : heap :=
  Heap (h_cell h) (upd (h_ref h) r v) (h_ncell h) (h_nref h).

Definition cname (h : heap) (c : nat) : name := c_name (h_cell h c).
Definition crefs (h : heap) (c : nat) : list nat := c_refs (h_cell h c).
Definition rtarget (h : heap) (r : nat) : target := r_target (h_ref h r).

(** [ref.ref_cell.name if isinstance(ref.ref_cell, Cell) else ref.ref_cell],
    library.py 2416-2420. *)
Definition tname (h : heap) (t : target) : name :=
  match t with ToCell c => cname h c | ToName n => n end.

(** ** Cell.get_dependencies, library.py 780-800.

    The returned set is represented by a list (with repetitions).  The depth of
    the recursion is bounded by [fuel]; running out of it stands for Python's
    RecursionError. *)
Fixpoint deps_fuel (fuel : nat) (h : heap) (recursive : bool) (c : nat) : option (list nat) :=
  match fuel with
  | O => None
  | S f =>
      (fix loop (rs : list nat) : option (list nat) :=
         match rs with
         | [] => Some []
         | r :: rest =>
             match rtarget h r with
             | ToCell d =>
                 match (if recursive then deps_fuel f h true d else Some []), loop rest with
                 | Some sub, Some l => Some (sub ++ d :: l)
                 | _, _ => None
                 end
             | ToName _ => loop rest
             end
         end) (crefs h c)
  end.

(** The interpreter's recursion limit is taken to exceed the number of cells. *)
Definition get_dependencies (h : heap) (c : nat) (recursive : bool) : option (list nat) :=
  deps_fuel (S (h_ncell h)) h recursive c.

(** ** GdsLibrary.replace_references, library.py 2854-2891.

    [old] is the name searched for, [new] the replacement after lines
    2877-2878.  The loops visit the reference objects in order; an object held
    by two cells is visited twice. *)
Definition repl1 (old : name) (new : target) (s : heap * nat) (r : nat) : heap * nat :=
  let (h, n) := s in
  if name_eqb (tname h (rtarget h r)) old
  then (set_ref h r (GRef new (r_data (h_ref h r))), S n)
  else (h, n).
Definition repl_refs (h : heap) (d : dict) (old : name) (new : target) : heap * nat :=
  fold_left (repl1 old new) (flat_map (crefs h) (dcells d)) (h, O).

(** A Cell argument or a name argument. *)
Definition arg_name (h : heap) (t : target) : name := tname h t.
Definition arg_cell (d : dict) (t : target) : target :=
  match t with
  | ToCell c => ToCell c
  | ToName n => match dget d n with Some c => ToCell c | None => ToName n end
  end.
Definition replace_references (h : heap) (d : dict) (old new : target) : heap * nat :=
  repl_refs h d (arg_name h old) (arg_cell d new).

(** ** GdsLibrary.add, library.py 2330-2385.

    The argument is a cell or an iterable; a one-shot iterator is exhausted by
    [set(cell)] (line 2364) before line 2366 goes over it again. *)
Inductive cellarg := One (c : nat) | Many (l : list nat) (one_shot : bool).

Fixpoint deps_all (h : heap) (l : list nat) : option (list nat) :=
  match l with
  | [] => Some []
  | c :: r => match get_dependencies h c true, deps_all h r with
              | Some a, Some b => Some (a ++ b)
              | _, _ => None
              end
  end.

(** Lines 2359-2367: the set of cells to be added. *)
Definition cell_set (h : heap) (a : cellarg) (include_dependencies : bool) : option (list nat) :=
  match a with
  | One c =>
      if include_dependencies
      then option_map (cons c) (get_dependencies h c true) else Some [c]
  | Many l one_shot =>
      if include_dependencies && negb one_shot
      then option_map (app l) (deps_all h l) else Some l
  end.

(** The order in which Python goes over a set is unspecified. *)
Definition enumerates (order s : list nat) : Prop :=
  NoDup order /\ forall c, In c order <-> In c s.

(** [c.name in self.cells and self.cells[c.name] is not c] *)
Definition clashes (h : heap) (d : dict) (c : nat) : bool :=
  match dget d (cname h c) with Some e => negb (Nat.eqb e c) | None => false end.

(** Lines 2368-2384; the boolean is false when the ValueError is raised, in
    which case the cells already visited stay added. *)
Fixpoint add_loop (h : heap) (d : dict) (ow upr : bool) (order : list nat) : heap * dict * bool :=
  match order with
  | [] => (h, d, true)
  | c :: rest =>
      if negb ow && clashes h d c then (h, d, false)
      else
        let h' := if ow && upr && clashes h d c
                  then fst (repl_refs h d (cname h c) (ToCell c)) else h in
        add_loop h' (dset d (cname h' c) c) ow upr rest
  end.

(** ** GdsLibrary.extract, library.py 2893-2931: the cell is looked up in this
    library ([d]) and added, with its dependencies, to the current one ([cur]).
    A name that is not found stays a string and raises; [None] also stands for
    the RecursionError of a cyclic hierarchy. *)
Definition extract (h : heap) (d cur : dict) (cell : target) (ow : bool) (order : list nat)
  : option (heap * dict * bool) :=
  match arg_cell d cell with
  | ToName _ => None
  | ToCell c => match cell_set h (One c) true with
                | Some _ => Some (add_loop h cur ow true order)
                | None => None
                end
  end.

(** ** GdsLibrary.remove, library.py 2387-2425 *)
Definition drop_refs (n : name) (s : heap * nat) (c : nat) : heap * nat :=
  let (h, k) := s in
  let kept := filter (fun r => negb (name_eqb n (tname h (rtarget h r)))) (crefs h c) in
  let o := h_cell h c in
  (set_cell h c (GCell (c_name o) kept (c_data o)),
   k + (length (crefs h c) - length kept)).
Definition remove (h : heap) (d : dict) (cell : target) (remove_references : bool) : heap * dict * nat :=
  let n := arg_name h cell in
  let d' := ddel d n in
  if remove_references
  then let (h', k) := fold_left (drop_refs n) (dcells d') (h, O) in (h', d', k)
  else (h, d', O).

(** ** GdsLibrary.rename_cell, library.py 2806-2852; [None] is ValueError *)
Definition rename_arg (h : heap) (d : dict) (cell : target) : option (name * nat) :=
  match cell with
  | ToCell c => match dget d (cname h c) with
                | Some e => if Nat.eqb e c then Some (cname h c, c) else None
                | None => None
                end
  | ToName n => match dget d n with Some c => Some (n, c) | None => None end
  end.
Definition rename_cell (h : heap) (d : dict) (cell : target) (new : name) (upr : bool)
  : option (heap * dict * nat) :=
  match rename_arg h d cell with
  | None => None
  | Some (old, c) =>
      match dget d new with
      | Some _ => None
      | None =>
          let d' := ddel d old ++ [(new, c)] in
          let o := h_cell h c in
          let h' := set_cell h c (GCell new (c_refs o) (c_data o)) in
          if upr then let (h'', k) := repl_refs h' d' old (ToCell c) in Some (h'', d', k)
          else Some (h', d', O)
      end
  end.

(** ** GdsLibrary.top_level, library.py 2789-2804 *)
Definition top_level (h : heap) (d : dict) : option (list nat) :=
  match (fix go (l : list nat) : option (list nat) :=
           match l with
           | [] => Some []
           | c :: r => match get_dependencies h c false, go r with
                       | Some a, Some b => Some (a ++ b)
                       | _, _ => None
                       end
           end) (dcells d) with
  | Some used => Some (filter (fun c => negb (existsb (Nat.eqb c) used)) (nodup Nat.eq_dec (dcells d)))
  | None => None
  end.

(** ** Allocation

    [Cell.__init__], library.py 104-117 (without the current library, which
    [new_cell] below adds). *)
Definition alloc_cell (h : heap) (n : name) (refs : list nat) (b : B) : heap * nat :=
  (Heap (upd (h_cell h) (h_ncell h) (GCell n refs b)) (h_ref h) (S (h_ncell h)) (h_nref h), h_ncell h).
(** A new reference object appended to cell [c] by [Cell.add], library.py
    296-336. *)
Definition add_ref (h : heap) (c : nat) (t : target) (a : A) : heap :=
  let o := h_cell h c in
  Heap (upd (h_cell h) c (GCell (c_name o) (c_refs o ++ [h_nref h]) (c_data o)))
       (upd (h_ref h) (h_nref h) (GRef t a)) (h_ncell h) (S (h_nref h)).

(** ** Histories of several libraries over one heap *)
Record world := World { w_heap : heap; w_libs : nat -> dict }.

Inductive op :=
| OpCell (n : name) (b : B)                                   (* Cell(name), no current library *)
| OpRef (c : nat) (t : target) (a : A)                        (* cell.add(CellReference(...)) *)
| OpCopy (c : nat) (n : name)                                 (* cell.copy(name), shallow *)
| OpNew (l : nat) (n : name) (b : B) (ow upr : bool)          (* lib.new_cell *)
| OpAdd (l : nat) (a : cellarg) (incl ow upr : bool)          (* lib.add *)
| OpRemove (l : nat) (cell : target) (rr : bool)              (* lib.remove *)
| OpRename (l : nat) (cell : target) (n : name) (upr : bool)  (* lib.rename_cell *)
| OpReplace (l : nat) (old new : target).                     (* lib.replace_references *)

(** Objects in use must have been created. *)
Definition target_ok (h : heap) (t : target) : Prop :=
  match t with ToCell c => c < h_ncell h | ToName _ => True end.
Definition arg_ok (h : heap) (a : cellarg) : Prop :=
  match a with One c => c < h_ncell h | Many l _ => Forall (fun c => c < h_ncell h) l end.

Definition lib_upd (w : world) (l : nat) (h : heap) (d : dict) : world :=
  World h (upd (w_libs w) l d).

(** One call, returning or raising; a call that raises leaves the state it had
    reached. *)
Inductive step (w : world) : op -> world -> Prop :=
| SCell : forall n b, step w (OpCell n b) (World (fst (alloc_cell (w_heap w) n [] b)) (w_libs w))
| SRef : forall c t a, c < h_ncell (w_heap w) -> target_ok (w_heap w) t ->
    step w (OpRef c t a) (World (add_ref (w_heap w) c t a) (w_libs w))
| SCopy : forall c n, c < h_ncell (w_heap w) ->
    step w (OpCopy c n) (World (fst (alloc_cell (w_heap w) n (crefs (w_heap w) c)
                                                (c_data (h_cell (w_heap w) c)))) (w_libs w))
| SNew : forall l n b ow upr h c h' d' ok,
    alloc_cell (w_heap w) n [] b = (h, c) ->
    add_loop h (w_libs w l) ow upr [c] = (h', d', ok) ->
    step w (OpNew l n b ow upr) (lib_upd w l h' d')
| SAdd : forall l a incl ow upr s order h' d' ok,
    arg_ok (w_heap w) a ->
    cell_set (w_heap w) a incl = Some s -> enumerates order s ->
    add_loop (w_heap w) (w_libs w l) ow upr order = (h', d', ok) ->
    step w (OpAdd l a incl ow upr) (lib_upd w l h' d')
| SAddFail : forall l a incl ow upr,
    cell_set (w_heap w) a incl = None -> step w (OpAdd l a incl ow upr) w
| SRemove : forall l cell rr h' d' k, target_ok (w_heap w) cell ->
    remove (w_heap w) (w_libs w l) cell rr = (h', d', k) ->
    step w (OpRemove l cell rr) (lib_upd w l h' d')
| SRename : forall l cell n upr h' d' k, target_ok (w_heap w) cell ->
    rename_cell (w_heap w) (w_libs w l) cell n upr = Some (h', d', k) ->
    step w (OpRename l cell n upr) (lib_upd w l h' d')
| SRenameFail : forall l cell n upr,
    rename_cell (w_heap w) (w_libs w l) cell n upr = None -> step w (OpRename l cell n upr) w
| SReplace : forall l old new h' k, target_ok (w_heap w) old -> target_ok (w_heap w) new ->
    replace_references (w_heap w) (w_libs w l) old new = (h', k) ->
    step w (OpReplace l old new) (lib_upd w l h' (w_libs w l)).

Inductive steps (w : world) : list op -> world -> Prop :=
| steps_nil : steps w [] w
| steps_cons : forall o os w1 w2, step w o w1 -> steps w1 os w2 -> steps w (o :: os) w2.

End Graph.
Arguments op : clear implicits.
Arguments world : clear implicits.
