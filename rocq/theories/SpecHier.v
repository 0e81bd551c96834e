(** Specification vocabulary for hierarchies: what a reference or an array
    means, and where the contents of a cell end up. *)

From Coq Require Import Reals List ZArith Bool.
From Verif Require Import Graph SpecGraph Plane SpecPlane Hier.
Import ListNotations.
Open Scope R_scope.

(** ** One placement *)

(** Counter-clockwise rotation by [t] radians about the origin. *)
Definition turn (t : R) (p : pt) : pt := (fst p * cos t - snd p * sin t, fst p * sin t + snd p * cos t).
(** Reflection in the x axis. *)
Definition flip (b : bool) (p : pt) : pt := if b then (fst p, - snd p) else p.
Definition angle (pl : place) : R := match p_rot pl with Some d => d * PI / 180 | None => 0 end.
Definition factor (pl : place) : R := match p_mag pl with Some m => m | None => 1 end.
Definition origin (pl : place) : pt := match p_org pl with Some o => o | None => (0, 0) end.

(** Reflect, scale, rotate, translate. *)
Definition similar (org : pt) (t k : R) (b : bool) (p : pt) : pt :=
  padd org (turn t (smul k (flip b p))).

(** Element (i, j) of an array: displaced by [i] and [j] times the spacing before
    reflection and rotation; the displacement is not scaled. *)
Definition element (pl : place) (i j : nat) (sp : pt) : pt -> pt :=
  similar (padd (origin pl) (turn (angle pl) (flip (p_refl pl) (INR i * fst sp, INR j * snd sp))))
          (angle pl) (factor pl) (p_refl pl).

(** An instance: a reference, or one element of an array. *)
Definition inst := (place * (nat * nat))%type.
Definition insts (pl : place) : list inst :=
  match p_arr pl with
  | None => [(pl, (0%nat, 0%nat))]
  | Some (n, m, _) => flat_map (fun i => map (fun j => (pl, (i, j))) (seq 0 m)) (seq 0 n)
  end.
Definition inst_map (x : inst) : pt -> pt :=
  let (pl, ij) := x in
  match p_arr pl with
  | None => similar (origin pl) (angle pl) (factor pl) (p_refl pl)
  | Some (_, _, sp) => element pl (fst ij) (snd ij) sp
  end.

(** ** Hierarchies *)

(** Instances inside instances, outermost first. *)
Definition chain := list inst.
Definition chain_map (ch : chain) (p : pt) : pt := fold_right inst_map p ch.

Section SpecHier.
Context {P : Type}.
Notation heap := (heap place (stuff P)).

(** [expansion h c l]: [l] lists all the cells found in [c], itself included,
    with the instances through which each is reached.  References by name
    contribute nothing. *)
Inductive expansion (h : heap) : nat -> list (nat * chain) -> Prop :=
| exp_cell : forall c l, exp_refs h (crefs h c) l -> expansion h c ((c, []) :: l)
with exp_refs (h : heap) : list nat -> list (nat * chain) -> Prop :=
| exp_nil : exp_refs h [] []
| exp_name : forall r rs n l, rtarget h r = ToName n -> exp_refs h rs l -> exp_refs h (r :: rs) l
| exp_ref : forall r rs d l1 l2, rtarget h r = ToCell d -> expansion h d l1 -> exp_refs h rs l2 ->
    exp_refs h (r :: rs)
      (flat_map (fun i => map (fun ec => (fst ec, i :: snd ec)) l1) (insts (r_data (h_ref h r))) ++ l2).

(** The polygons a cell holds itself, with their layer and datatype: first those
    of its polygon sets, then those of its paths. *)
Definition contents (ops : pathops P) (h : heap) (c : nat) : list (spec * poly) :=
  let s := c_data (h_cell h c) in
  flat_map (fun ps => map (fun g => ((g_layer g, g_dt g), g_pts g)) (ps_list ps)) (s_polys s)
  ++ flat_map (fun p => flat_map (fun kv => map (pair (fst kv)) (snd kv)) (po_polys ops p)) (s_paths s).

(** At or below a cell. *)
Definition under (h : heap) (c d : nat) : Prop := d = c \/ reach h c d.
Definition all_under (h : heap) (c : nat) (Q : nat -> Prop) : Prop := forall d, under h c d -> Q d.

(** No cell other than [c] differs, and [c] keeps its name. *)
Definition only_cell (h h' : heap) (c : nat) : Prop :=
  (forall d, d <> c -> h_cell h' d = h_cell h d) /\ (forall r, h_ref h' r = h_ref h r) /\
  h_ncell h' = h_ncell h /\ h_nref h' = h_nref h /\ cname h' c = cname h c.

End SpecHier.

(** Within [depth] levels. *)
Definition within (depth : option Z) (level : nat) : bool :=
  match depth with None => true | Some d => (Z.of_nat level <=? d)%Z end.

(** Everything found in the cells of an expansion, in its place. *)
Definition place_poly (ch : chain) (sp : spec * poly) : spec * poly := (fst sp, map (chain_map ch) (snd sp)).
Definition placed (f : nat -> list (spec * poly)) (L : list (nat * chain)) : list (spec * poly) :=
  flat_map (fun ec => map (place_poly (snd ec)) (f (fst ec))) L.
(** Those of one specification. *)
Definition of_spec (s : spec) (l : list (spec * poly)) : list poly := map snd (filter (fun sp => spec_eqb (fst sp) s) l).

(** Two references on top of each other, as one. *)
Definition deg_of (pl : place) : R := match p_rot pl with Some d => d | None => 0 end.
Definition compose (a b : place) : place :=
  Place (Some (similar (origin a) (angle a) (factor a) (p_refl a) (origin b)))
        (Some (if p_refl a then deg_of a - deg_of b else deg_of a + deg_of b))
        (Some (factor a * factor b)) (xorb (p_refl a) (p_refl b)) None.
