(** Object-graph properties: C14-C19, C49. *)

From Coq Require Import List ZArith Lia Bool Arith.
From Verif Require Import Graph SpecGraph GraphProofs GraphHistory.
Import ListNotations.

(** A small hierarchy used in the examples below: cells 0:"A" 1:"B" 2:"C"
    3:"B" (another cell of the same name) 4:"D"; A refers to B (object 1), to
    "C" by name and to the foreign B (3); B refers to C; D refers to A. *)
Definition nA : name := [65%Z]. Definition nB : name := [66%Z]. Definition nC : name := [67%Z].
Definition nD : name := [68%Z]. Definition nX : name := [88%Z].

Definition mk_heap (cells : list (name * list nat)) (refs : list target) : heap unit unit :=
  Heap (fun i => let c := nth i cells ([], []) in GCell (fst c) (snd c) tt)
       (fun i => GRef (nth i refs (ToName [])) tt) (length cells) (length refs).
Definition h0 : heap unit unit :=
  mk_heap [(nA, [0; 1; 2]); (nB, [3]); (nC, []); (nB, []); (nD, [4])]
          [ToCell 1; ToName nC; ToCell 3; ToCell 2; ToCell 0].
Definition d0 : dict := [(nA, 0); (nB, 1); (nC, 2)].

Ltac cases_lt H := repeat (destruct H as [H|H]; [try (inversion H; subst)|]; try (inversion H)).

Lemma h0_wf : heap_wf h0.
Proof.
  split.
  - intros c r Hc Hr. do 5 (destruct c as [|c]; [cbn in Hr |- *; intuition lia|]). cbn in Hc. lia.
  - intros r d Hr Ht. do 5 (destruct r as [|r]; [cbn in Ht |- *; try discriminate; injection Ht as <-; lia|]).
    cbn in Hr. lia.
Qed.
Lemma d0_keyed : keyed h0 d0.
Proof.
  split; [cbn; repeat constructor; cbn; intuition discriminate|].
  intros n c H. cbn in H. repeat (destruct H as [H|H]; [inversion H; subst; reflexivity|]). destruct H.
Qed.
Lemma d0_wf : dict_wf h0 d0.
Proof. unfold dict_wf, d0. repeat constructor; cbn; lia. Qed.

Section Props.
Context {A B : Type}.
Notation heap := (heap A B).
Notation world := (world A B).

(** ** C14: the dictionary is keyed by cell name *)

(** Through any history of operations, over any number of libraries, library
    [i] stays keyed by name as long as no other library renames a cell that
    [i] holds. *)
Theorem C14_history : forall (i : nat) (w : world) os w',
  world_wf w -> keyed (w_heap w) (w_libs w i) -> harmless_steps i w os w' ->
  keyed (w_heap w') (w_libs w' i).
Proof. intros i w os w' W K H. exact (proj2 (history_keyed i w os w' W K H)). Qed.

Theorem C14_single_library : forall (i : nat) (w : world) os w',
  world_wf w -> keyed (w_heap w) (w_libs w i) ->
  Forall (through i) os -> steps w os w' -> keyed (w_heap w') (w_libs w' i).
Proof.
  intros i w os w' W K F H. exact (C14_history i w os w' W K (through_harmless i w os w' F H)).
Qed.

(** Adding without [overwrite_duplicate] never replaces a cell, whether it
    raises or not, in whatever order the cells are visited, and changes no
    object. *)
Theorem C14_add_never_replaces : forall (h : heap) d upr order h' d' ok,
  keyed h d -> add_loop h d false upr order = (h', d', ok) ->
  h' = h /\ forall n c, In (n, c) d -> In (n, c) d'.
Proof.
  intros h d upr order h' d' ok K H.
  destruct (add_loop_facts _ _ _ _ _ _ _ _ K H) as (_ & _ & _ & _ & I5 & _ & I7).
  split; [apply I7; reflexivity|apply I5; reflexivity].
Qed.

(** It raises exactly when two different cells would get the same key. *)
Theorem C14_add_raises : forall (h : heap) d upr order h' d' ok,
  keyed h d -> NoDup order -> add_loop h d false upr order = (h', d', ok) ->
  (ok = true <-> NoDup (map (cname h) order) /\
                 forall n c e, In (n, c) d -> In e order -> cname h e = n -> e = c).
Proof.
  intros h d upr order. revert d. induction order as [|c rest IH]; intros d h' d' ok K Nd H; cbn [add_loop] in H.
  - inversion H; subst. split; [|reflexivity]. intros _. split; [constructor|]. intros n c e _ [].
  - cbn [negb andb] in H. inversion Nd as [|? ? Hc Nd']; subst. destruct (clashes h d c) eqn:Ec.
    + injection H as <- <- <-. split; [discriminate|]. intros [_ Hx]. unfold clashes in Ec.
      destruct (dget d (cname h c)) as [e|] eqn:E; [|discriminate]. apply dget_Some_In in E.
      rewrite (Hx _ _ c E (or_introl eq_refl) eq_refl), Nat.eqb_refl in Ec. discriminate.
    + pose proof K as [NdK Hk].
      assert (Hcl : forall x, In (cname h c, x) d -> x = c).
      { intros x Hx. unfold clashes in Ec. rewrite (proj2 (dget_In d _ x NdK) Hx) in Ec.
        apply negb_false_iff, Nat.eqb_eq in Ec. exact Ec. }
      assert (K1 : keyed h (dset d (cname h c) c)).
      { split; [apply dset_NoDup; exact NdK|]. intros n x Hx. apply dset_In in Hx; [|exact NdK].
        destruct Hx as [[-> ->]|[_ Hx]]; [reflexivity|apply Hk; exact Hx]. }
      rewrite (IH _ _ _ _ K1 Nd' H). cbn [map]. split.
      * intros [N1 Hx]. split.
        -- constructor; [|exact N1]. intros Hi. apply in_map_iff in Hi. destruct Hi as (e & En & He).
           apply Hc. rewrite <- (Hx (cname h c) c e); [exact He| |exact He|exact En].
           apply dset_In; [exact NdK|]. auto.
        -- intros n x e Hn [<-|He] En; [symmetry; apply Hcl; rewrite En; exact Hn|].
           destruct (list_eq_dec Z.eq_dec n (cname h c)) as [E|E].
           ++ rewrite (Hcl x); [|rewrite <- E; exact Hn].
              apply (Hx n c e); [|exact He|exact En]. apply dset_In; [exact NdK|]. auto.
           ++ apply (Hx n x e); [|exact He|exact En]. apply dset_In; [exact NdK|]. auto.
      * intros [N1 Hx]. inversion N1 as [|? ? Hn1 N1']; subst. split; [exact N1'|].
        intros n x e Hn He En. apply dset_In in Hn; [|exact NdK]. destruct Hn as [[-> ->]|[Hne Hn]].
        -- exfalso. apply Hn1. rewrite <- En. apply in_map. exact He.
        -- apply (Hx n x e Hn); [right; exact He|exact En].
Qed.

(** With [overwrite_duplicate] and [update_references], every reference of the
    library to a cell of that name now goes to the new cell. *)
Theorem C14_overwrite_redirects : forall (h : heap) d c h' d' ok old,
  keyed h d -> In (cname h c, old) d -> old <> c ->
  add_loop h d true true [c] = (h', d', ok) ->
  ok = true /\ In (cname h c, c) d' /\ ~ In old (dcells d') /\
  (forall r, lib_ref h d r -> tname h (rtarget h r) = cname h c -> rtarget h' r = ToCell c) /\
  (forall r, ~ (lib_ref h d r /\ tname h (rtarget h r) = cname h c) -> rtarget h' r = rtarget h r).
Proof.
  intros h d c h' d' ok old K Hin Hne H. pose proof K as [Nd Hk].
  pose proof (add_loop_facts _ _ _ _ _ _ _ _ K H) as (_ & K' & _).
  cbn [add_loop negb andb] in H.
  assert (Ec : clashes h d c = true).
  { unfold clashes. rewrite (proj2 (dget_In d _ old Nd) Hin). apply negb_true_iff, Nat.eqb_neq. exact Hne. }
  rewrite Ec in H. destruct (repl_refs h d (cname h c) (ToCell c)) as [h1 k1] eqn:E. cbn [fst] in H.
  destruct (repl_refs_spec _ _ _ _ _ _ E) as (Hs & Hy & Hn).
  injection H as <- Hd <-. rewrite (same_cname _ _ _ Hs) in Hd. subst d'.
  assert (Hc : In (cname h c, c) (dset d (cname h c) c)) by (apply dset_In; [exact Nd|auto]).
  split; [reflexivity|]. split; [exact Hc|]. split; [|auto].
  intros Ho. apply dcells_In in Ho. destruct Ho as (n & Ho). apply dset_In in Ho; [|exact Nd].
  destruct Ho as [[_ Ho]|[Hnn Ho]]; [contradiction|]. apply Hnn. rewrite <- (Hk n old Ho). apply Hk. exact Hin.
Qed.

(** ** C15: remove *)
Theorem C15_remove : forall (h : heap) d cell h' d' k,
  keyed h d -> remove h d cell true = (h', d', k) ->
  let n := tname h cell in
  (* the entry, and only the entry, is gone *)
  (forall m c, In (m, c) d' <-> In (m, c) d /\ m <> n) /\
  (* no reference to that name is left in the library *)
  (forall r, lib_ref h' d' r -> tname h' (rtarget h' r) <> n) /\
  (* all other references are kept, in order *)
  (forall c, In c (dcells d') ->
     crefs h' c = filter (fun r => negb (name_eqb n (tname h (rtarget h r)))) (crefs h c)) /\
  (* nothing else changes *)
  (forall c, ~ In c (dcells d') -> crefs h' c = crefs h c) /\
  (forall r, h_ref h' r = h_ref h r) /\ (forall c, cname h' c = cname h c) /\
  (forall c, c_data (h_cell h' c) = c_data (h_cell h c)) /\
  (* the result is the number of references dropped *)
  k = list_sum (map (fun c => length (crefs h c) - length (crefs h' c)) (dcells d')).
Proof.
  intros h d cell h' d' k K H n. destruct (remove_spec _ _ _ _ _ _ K H) as (I1 & I2 & I3 & I4 & I5 & I6 & I7).
  fold n in I1, I2, I7. split; [exact I1|].
  assert (Ht : forall t, tname h' t = tname h t) by (intros [c|m]; [apply I5|reflexivity]).
  split.
  { intros r (c & Hc & Hr) E. rewrite (I2 c Hc) in Hr. apply filter_In in Hr. destruct Hr as [_ Hr].
    unfold rtarget in E. rewrite I4 in E. fold (rtarget h r) in E. rewrite Ht in E. rewrite E, name_eqb_refl in Hr.
    discriminate. }
  split; [exact I2|]. split; [exact I3|]. split; [exact I4|]. split; [exact I5|]. split; [exact I6|].
  rewrite I7. clear - I2. induction (dcells d') as [|c cs IH]; [reflexivity|].
  cbn [flat_map map list_sum]. rewrite filter_app, app_length. change (list_sum (?x :: ?y)) with (x + list_sum y).
  rewrite IH by (intros; apply I2; right; assumption). f_equal.
  rewrite (I2 c (or_introl eq_refl)).
  pose proof (filter_split _ (fun r => name_eqb n (tname h (rtarget h r))) (crefs h c)). lia.
Qed.

(** Without [remove_references] only the entry goes. *)
Theorem C15_keep_references : forall (h : heap) d cell, exists d',
  remove h d cell false = (h, d', 0) /\
  forall m c, In (m, c) d' <-> In (m, c) d /\ m <> tname h cell.
Proof. intros. eexists. split; [reflexivity|]. intros. rewrite ddel_In. tauto. Qed.

(** ** C16: rename_cell *)
Theorem C16_rename : forall (h : heap) d cell new upr h' d' k, keyed h d ->
  rename_cell h d cell new upr = Some (h', d', k) ->
  exists old c, In (old, c) d /\ renames h d cell c /\ ~ In new (map fst d) /\
    (* the same cells under the same keys, except the renamed one *)
    (forall m e, In (m, e) d' <-> (m = new /\ e = c) \/ (m <> old /\ In (m, e) d)) /\
    keyed h' d' /\
    cname h' c = new /\ (forall e, e <> c -> cname h' e = cname h e) /\
    (* the contents of cells do not change, nor do references to the cell object
       and references held outside the library *)
    (forall e, crefs h' e = crefs h e /\ c_data (h_cell h' e) = c_data (h_cell h e)) /\
    (forall r, r_data (h_ref h' r) = r_data (h_ref h r)) /\
    (forall r, rtarget h r = ToCell c -> rtarget h' r = ToCell c) /\
    (forall r, ~ lib_ref h d r -> rtarget h' r = rtarget h r) /\
    (upr = false -> k = 0 /\ forall r, rtarget h' r = rtarget h r) /\
    (* references to the old name now go to the cell object, and are counted *)
    (upr = true ->
      (forall r, lib_ref h d r -> tname h (rtarget h r) = old -> rtarget h' r = ToCell c) /\
      (forall r, tname h (rtarget h r) <> old -> rtarget h' r = rtarget h r) /\
      how_many k (fun r => lib_ref h d r /\ rtarget h r <> ToCell c /\ tname h (rtarget h r) = old)).
Proof.
  intros h d cell new upr h' d' k K H. pose proof (rename_keeps_keyed _ _ _ _ _ _ _ _ K H) as K'.
  destruct (rename_spec _ _ _ _ _ _ _ _ K H) as (old & c & I1 & I2 & I3 & I4 & I5).
  exists old, c. split; [exact I1|]. split; [exact I2|]. split; [exact I3|]. split; [|split; [exact K'|exact I5]].
  intros m e. rewrite I4, in_app_iff. change (filter (fun kv => negb (name_eqb (fst kv) old)) d) with (ddel d old).
  rewrite ddel_In. cbn [In]. split.
  - intros [X|[X|[]]]; [auto|]. inversion X; auto.
  - intros [[-> ->]|X]; auto.
Qed.

(** It raises exactly in the documented cases; nothing changes then, because
    the model returns no new state. *)
Theorem C16_raises : forall (h : heap) d cell new upr, keyed h d ->
  (rename_cell h d cell new upr = None <->
   In new (map fst d) \/
   match cell with ToCell c => ~ In c (dcells d) | ToName n => ~ In n (map fst d) end).
Proof.
  intros h d cell new upr K. pose proof K as [Nd Hk]. unfold rename_cell.
  assert (Ha : rename_arg h d cell = None <->
    match cell with ToCell c => ~ In c (dcells d) | ToName n => ~ In n (map fst d) end).
  { unfold rename_arg. destruct cell as [c|n].
    - destruct (dget d (cname h c)) as [e|] eqn:E.
      + destruct (Nat.eqb_spec e c) as [->|Hne].
        * split; [discriminate|]. intros X. exfalso. apply X. apply dcells_In. exists (cname h c).
          apply dget_Some_In. exact E.
        * split; [|reflexivity]. intros _ X. rewrite (keyed_get h d c K X) in E. congruence.
      + split; [|reflexivity]. intros _ X. rewrite (keyed_get h d c K X) in E. discriminate.
    - destruct (dget d n) eqn:E; [|split; [intros _; apply dget_None; exact E|reflexivity]].
      split; [discriminate|]. intros X. apply dget_None in X. congruence. }
  destruct (rename_arg h d cell) as [[old c]|] eqn:Ea.
  - destruct (dget d new) as [e|] eqn:Eg.
    + split; [|reflexivity]. intros _. left. apply dget_Some_In in Eg.
      change new with (fst (new, e)). apply in_map. exact Eg.
    + apply dget_None in Eg. destruct upr; [destruct (repl_refs _ _ _ _)|]; (split; [discriminate|]);
        (intros [X|X]; [contradiction|apply Ha in X; discriminate]).
  - split; [|reflexivity]. intros _. right. apply Ha. reflexivity.
Qed.

(** ** C17: replace_references *)
Theorem C17_replace : forall (h : heap) d old new h' k,
  replace_references h d old new = (h', k) ->
  let on := tname h old in
  let nt := match new with
            | ToCell c => ToCell c
            | ToName n => match dget d n with Some c => ToCell c | None => ToName n end
            end in
  same_but_targets h h' /\
  (forall r, lib_ref h d r -> tname h (rtarget h r) = on -> rtarget h' r = nt) /\
  (forall r, ~ (lib_ref h d r /\ tname h (rtarget h r) = on) -> rtarget h' r = rtarget h r).
Proof. intros h d old new h' k H. exact (repl_refs_spec _ _ _ _ _ _ H). Qed.

(** The returned number: how many reference objects were redirected (when the
    new target has another name). *)
Theorem C17_count : forall (h : heap) d old new h' k,
  keyed h d -> replace_references h d old new = (h', k) -> tname h new <> tname h old ->
  how_many k (fun r => lib_ref h d r /\ tname h (rtarget h r) = tname h old) /\
  (* again: nothing left to replace *)
  replace_references h' d old new = (h', 0).
Proof.
  intros h d old new h' k K H Hn.
  assert (Hn' : tname h (arg_cell d new) <> tname h old).
  { unfold arg_cell. destruct new as [c|n]; [exact Hn|]. destruct (dget d n) as [c|] eqn:E; [|exact Hn].
    cbn [tname] in *. rewrite (proj2 K n c); [exact Hn|]. apply dget_Some_In. exact E. }
  split.
  - unfold replace_references, repl_refs in H. apply repl_count_distinct in H; [|exact Hn'].
    destruct H as (l & Nd & Hl & Hk). exists l. split; [exact Nd|]. split; [|symmetry; exact Hk].
    intros r. rewrite Hl, lib_refs_In. reflexivity.
  - unfold replace_references in *. pose proof (repl_refs_spec _ _ _ _ _ _ H) as (Hs & _).
    change (arg_name h' old) with (tname h' old). change (arg_name h old) with (tname h old) in H.
    rewrite (same_tname _ _ old Hs). exact (repl_refs_again _ _ _ _ _ _ H Hn').
Qed.

(** When the new cell has the searched name, occurrences are counted. *)
Theorem C17_count_same_name : forall (h : heap) d old c h' k,
  replace_references h d old (ToCell c) = (h', k) -> cname h c = tname h old ->
  k = length (filter (fun r => name_eqb (tname h (rtarget h r)) (tname h old))
                     (flat_map (crefs h) (dcells d))).
Proof.
  intros h d old c h' k H Hn. unfold replace_references, repl_refs in H.
  apply repl_count_same in H; [exact H|exact Hn].
Qed.

(** ** C18: get_dependencies *)
Theorem C18_direct : forall (h : heap) c, exists l, get_dependencies h c false = Some l /\
  forall d, In d l <-> direct h c d.
Proof. exact deps_direct. Qed.

Theorem C18_recursive : forall (h : heap) c, heap_wf h -> c < h_ncell h -> acyclic h c ->
  exists l, get_dependencies h c true = Some l /\ forall d, In d l <-> reach h c d.
Proof.
  intros h c W Hc Ha. pose proof (deps_total h c W Hc Ha) as Ht.
  destruct (get_dependencies h c true) as [l|] eqn:E; [|congruence].
  exists l. split; [reflexivity|]. exact (deps_fuel_reach _ _ _ _ E).
Qed.

(** If anything at or below the cell contains itself, the recursion exceeds
    every limit. *)
Theorem C18_cyclic : forall (h : heap) c, ~ acyclic h c -> forall limit, deps_fuel limit h true c = None.
Proof.
  intros h c Hc limit. destruct (deps_fuel limit h true c) as [l|] eqn:E; [|reflexivity].
  exfalso. apply Hc. exact (deps_acyclic _ _ _ _ E).
Qed.

(** ** C19: top_level *)
Theorem C19_top_level : forall (h : heap) d, exists l, top_level h d = Some l /\ NoDup l /\
  forall c, In c l <-> In c (dcells d) /\ ~ exists e, In e (dcells d) /\ direct h e c.
Proof. exact top_level_spec. Qed.

Theorem C19_covers : forall (h : heap) d l, top_level h d = Some l ->
  (forall x, In x (dcells d) -> ~ reach h x x) ->
  forall c, In c (dcells d) -> exists t, In t l /\ (t = c \/ reach h t c).
Proof. exact top_level_covers. Qed.

Corollary C19_nonempty : forall (h : heap) d l, top_level h d = Some l ->
  (forall x, In x (dcells d) -> ~ reach h x x) -> d <> [] -> l <> [].
Proof.
  intros h d l H Hac Hd ->. destruct d as [|[n c] d]; [congruence|].
  destruct (top_level_covers _ _ _ H Hac c) as (t & [] & _). left. reflexivity.
Qed.

(** ** C49: adding a cell brings everything it needs *)
Theorem C49_add_closed : forall (h : heap) d a s order ow upr h' d' ok,
  keyed h d -> reusable a ->
  cell_set h a true = Some s -> enumerates order s ->
  add_loop h d ow upr order = (h', d', ok) -> ok = true ->
  ow = false \/ NoDup (map (cname h) order) ->
  (* the cells given and everything reachable from them is in the library *)
  (forall c e, In c (args_of a) -> e = c \/ reach h c e -> In (cname h e, e) d') /\
  (* and afterwards no reference of theirs leads out of it *)
  (forall c e, In c (args_of a) -> e = c \/ reach h c e ->
     forall f, direct h' e f -> In (cname h' f, f) d').
Proof.
  intros h d a s order ow upr h' d' ok K Ha Hs [No Ho] H Hok Hd.
  pose proof (cell_set_spec h a s Ha Hs) as Hset.
  assert (Hin : forall e, In e order -> In (cname h e, e) d')
    by (eapply add_loop_all; eassumption).
  assert (Hmem : forall c e, In c (args_of a) -> e = c \/ reach h c e -> In e order)
    by (intros c e Hc He; apply Ho, Hset; eauto).
  split; [intros c e Hc He; apply Hin; eapply Hmem; eassumption|].
  intros c e Hc He f (r & Hr & Ht).
  pose proof (add_loop_same _ _ _ _ _ _ _ _ H) as Hsm.
  rewrite (same_cname _ _ _ Hsm). apply Hin.
  destruct (add_loop_targets _ _ _ _ _ _ _ _ K H r) as [E|(x & Hx & E & _)].
  - rewrite (same_crefs _ _ _ Hsm) in Hr. apply (Hmem c f Hc). right.
    assert (D : direct h e f) by (exists r; split; [exact Hr|congruence]).
    destruct He as [->|He]; [apply reach_one; exact D|].
    eapply reach_trans; [exact He|apply reach_one; exact D].
  - rewrite E in Ht. inversion Ht; subst. exact Hx.
Qed.

Theorem C49_extract : forall (h : heap) d cur cell ow order h' cur' c,
  keyed h cur -> match cell with ToCell e => e = c | ToName n => dget d n = Some c end ->
  enumerates order (c :: match get_dependencies h c true with Some l => l | None => [] end) ->
  extract h d cur cell ow order = Some (h', cur', true) ->
  ow = false \/ NoDup (map (cname h) order) ->
  forall e, e = c \/ reach h c e -> In (cname h e, e) cur' /\ forall f, direct h' e f -> In (cname h' f, f) cur'.
Proof.
  intros h d cur cell ow order h' cur' c K Hc Ho H Hd e He. unfold extract in H.
  assert (Ec : arg_cell d cell = ToCell c)
    by (destruct cell; cbn; [congruence|rewrite Hc; reflexivity]).
  rewrite Ec in H. destruct (cell_set h (One c) true) as [s|] eqn:Es; [|discriminate].
  inversion H as [Ha]. cbn [cell_set] in Es.
  destruct (get_dependencies h c true) as [l|] eqn:El; [|discriminate]. cbn in Es. inversion Es; subst s.
  assert (Es' : cell_set h (One c) true = Some (c :: l)) by (cbn [cell_set]; rewrite El; reflexivity).
  destruct (C49_add_closed h cur (One c) (c :: l) order ow true h' cur' true K I Es' Ho Ha eq_refl Hd) as [X Y].
  split; [apply (X c e); [left; reflexivity|exact He]|].
  intros f. apply (Y c e); [left; reflexivity|exact He].
Qed.

End Props.

Print Assumptions C14_history.
Print Assumptions C14_single_library.
Print Assumptions C14_add_never_replaces.
Print Assumptions C14_add_raises.
Print Assumptions C14_overwrite_redirects.
Print Assumptions C15_remove.
Print Assumptions C15_keep_references.
Print Assumptions C16_rename.
Print Assumptions C16_raises.
Print Assumptions C17_replace.
Print Assumptions C17_count.
Print Assumptions C17_count_same_name.
Print Assumptions C18_direct.
Print Assumptions C18_recursive.
Print Assumptions C18_cyclic.
Print Assumptions C19_top_level.
Print Assumptions C19_covers.
Print Assumptions C19_nonempty.
Print Assumptions C49_add_closed.
Print Assumptions C49_extract.

(** ** Concrete cases and refutations *)

Definition w0 : world unit unit := World h0 (fun i => match i with 0 => d0 | _ => [] end).
Lemma w0_wf : world_wf w0.
Proof.
  split; [exact h0_wf|]. intros [|l]; [exact d0_wf|constructor].
Qed.
(** A history of several operations that meets C14's hypotheses: rename B to
    X, add D with everything below it, remove C. *)
Example C14_demo : exists w',
  steps w0 [OpRename 0 (ToName nB) nX true; OpAdd 0 (One 4) true false true; OpRemove 0 (ToName nC) true] w' /\
  w_libs w' 0 = [(nA, 0); (nX, 1); (nD, 4)].
Proof.
  eexists. split.
  - eapply steps_cons; [eapply SRename; [exact I|vm_compute; reflexivity]|].
    eapply steps_cons.
    { eapply (SAdd _ 0 (One 4) true false true _ [4; 1; 2; 0]); [cbn; lia|vm_compute; reflexivity| |vm_compute; reflexivity].
      split; [repeat constructor; cbn; intuition lia|]. intros c. cbn. intuition. }
    eapply steps_cons; [eapply SRemove; [exact I|vm_compute; reflexivity]|]. apply steps_nil.
  - reflexivity.
Qed.

(** Renaming through one library spoils the keys of another one that holds the
    same cell; with the default settings the global [current_library] holds
    every cell. *)
Theorem C14_shared_cell_refuted : exists (h : heap unit unit) d1 d2 h' d1' k,
  keyed h d1 /\ keyed h d2 /\ rename_cell h d1 (ToName nB) nX true = Some (h', d1', k) /\ ~ keyed h' d2.
Proof.
  exists h0, d0, d0. do 3 eexists. split; [exact d0_keyed|]. split; [exact d0_keyed|].
  split; [vm_compute; reflexivity|]. intros [_ Hk]. specialize (Hk nB 1 (or_intror (or_introl eq_refl))).
  vm_compute in Hk. discriminate.
Qed.
Print Assumptions C14_shared_cell_refuted.

(** A failing add keeps the cells visited before the clash. *)
Theorem C14_failed_add_not_atomic_refuted : exists (h : heap unit unit) d order h' d',
  keyed h d /\ add_loop h d false true order = (h', d', false) /\ d' <> d.
Proof.
  exists h0, [(nB, 1)], [2; 3]. do 2 eexists.
  split; [split; [repeat constructor; intros []|intros n c [H|[]]; inversion H; subst; reflexivity]|].
  split; [vm_compute; reflexivity|discriminate].
Qed.
Print Assumptions C14_failed_add_not_atomic_refuted.

Example C14_overwrite_demo : exists h' d',
  add_loop h0 d0 true true [3] = (h', d', true) /\ rtarget h' 0 = ToCell 3 /\ d' = [(nA, 0); (nB, 3); (nC, 2)].
Proof. do 2 eexists. split; [vm_compute; reflexivity|]. split; reflexivity. Qed.

(** Removing "B" drops two of A's three references. *)
Example C15_demo : exists h' d',
  remove h0 d0 (ToName nB) true = (h', d', 2) /\ crefs h' 0 = [1] /\ d' = [(nA, 0); (nC, 2)].
Proof. do 2 eexists. split; [vm_compute; reflexivity|]. split; reflexivity. Qed.

(** Renaming "C" updates the reference given by name; renaming "B" redirects the
    reference to the other cell named "B". *)
Example C16_demo : exists h' d',
  rename_cell h0 d0 (ToName nC) nX true = Some (h', d', 1) /\ rtarget h' 1 = ToCell 2 /\ cname h' 2 = nX.
Proof. do 2 eexists. split; [vm_compute; reflexivity|]. split; reflexivity. Qed.
Example C16_demo_foreign : exists h' d',
  rename_cell h0 d0 (ToName nB) nX true = Some (h', d', 1) /\ rtarget h' 2 = ToCell 1.
Proof. do 2 eexists. split; [vm_compute; reflexivity|]. reflexivity. Qed.
Example C16_raises_demo : rename_cell h0 d0 (ToCell 3) nX true = None /\ rename_cell h0 d0 (ToCell 1) nA true = None.
Proof. split; vm_compute; reflexivity. Qed.

Example C17_demo : exists h',
  replace_references h0 d0 (ToName nB) (ToName nC) = (h', 2) /\
  rtarget h' 0 = ToCell 2 /\ rtarget h' 2 = ToCell 2 /\ rtarget h' 1 = ToName nC.
Proof. eexists. split; [vm_compute; reflexivity|]. repeat split; reflexivity. Qed.

Lemma h0_direct : forall c d, direct h0 c d -> c < 5 /\ In (c, d) [(0, 1); (0, 3); (1, 2); (4, 0)].
Proof.
  intros c d (r & Hr & Ht). do 5 (destruct c as [|c]; [split; [lia|]; cbn in Hr;
    repeat (destruct Hr as [<-|Hr]; [cbn in Ht; try discriminate; injection Ht as <-; cbn; auto 10|]); destruct Hr|]).
  destruct c; cbn in Hr; destruct Hr.
Qed.
Definition rank (c : nat) : nat := match c with 0 => 2 | 1 => 1 | 4 => 3 | _ => 0 end.
Lemma h0_rank : forall c d, reach h0 c d -> rank d < rank c.
Proof.
  intros c d H. induction H as [c d H|c d e H _ IH].
  - destruct (h0_direct c d H) as [_ Hi]. cbn in Hi.
    repeat (destruct Hi as [Hi|Hi]; [injection Hi as <- <-; cbn; lia|]). destruct Hi.
  - destruct (h0_direct c d H) as [_ Hi]. cbn in Hi.
    repeat (destruct Hi as [Hi|Hi]; [injection Hi as <- <-; cbn in *; lia|]). destruct Hi.
Qed.
Lemma h0_acyclic : forall c, acyclic h0 c.
Proof. intros c d _ H. apply h0_rank in H. lia. Qed.
Example C18_demo : acyclic h0 4 /\ get_dependencies h0 4 true = Some [2; 1; 3; 0].
Proof. split; [apply h0_acyclic|vm_compute; reflexivity]. Qed.
(** Two cells that contain each other. *)
Definition hcyc : heap unit unit := mk_heap [(nA, [0]); (nB, [1])] [ToCell 1; ToCell 0].
Example C18_cyclic_demo : ~ acyclic hcyc 0.
Proof.
  intros H. apply (H 0 (or_introl eq_refl)).
  apply reach_more with 1; [exists 0; split; [left|]; reflexivity|].
  apply reach_one. exists 1. split; [left|]; reflexivity.
Qed.

Example C19_demo : top_level h0 d0 = Some [0] /\ (forall x, In x (dcells d0) -> ~ reach h0 x x).
Proof. split; [vm_compute; reflexivity|]. intros x _ H. apply h0_rank in H. lia. Qed.
(** References by name do not count: C, which A uses by name only, is listed as
    a top-level cell. *)
Theorem C19_by_name_refuted : exists (h : heap unit unit) d l r,
  keyed h d /\ top_level h d = Some l /\ In 1 l /\ lib_ref h d r /\ tname h (rtarget h r) = cname h 1.
Proof.
  exists (mk_heap [(nA, [0]); (nB, [])] [ToName nB]), [(nA, 0); (nB, 1)], [0; 1], 0.
  split; [split; [repeat constructor; cbn; intuition discriminate|]|].
  { intros n c H. cbn in H. destruct H as [H|[H|[]]]; inversion H; subst; reflexivity. }
  split; [vm_compute; reflexivity|]. split; [right; left; reflexivity|].
  split; [exists 0; split; left; reflexivity|reflexivity].
Qed.
Print Assumptions C19_by_name_refuted.

Example C49_demo : enumerates [4; 1; 2; 3; 0] [4; 2; 1; 3; 0] /\
  cell_set h0 (One 4) true = Some [4; 2; 1; 3; 0] /\
  (* the two cells named "B" clash *)
  snd (add_loop h0 [] false true [4; 1; 2; 3; 0]) = false /\
  (* B alone is fine *)
  add_loop h0 [] false true [1; 2] = (h0, [(nB, 1); (nC, 2)], true).
Proof.
  split; [split; [repeat constructor; cbn; intuition lia|intros c; cbn; intuition]|].
  repeat split; vm_compute; reflexivity.
Qed.

(** A generator as argument: the dependencies are forgotten. *)
Theorem C49_one_shot_refuted : exists (h : heap unit unit) l s order h' d',
  cell_set h (Many l true) true = Some s /\ enumerates order s /\
  add_loop h [] false true order = (h', d', true) /\
  exists c e, In c l /\ reach h c e /\ ~ In e (dcells d').
Proof.
  exists h0, [1], [1], [1]. do 2 eexists.
  split; [vm_compute; reflexivity|]. split; [split; [repeat constructor; intros []|intros; tauto]|].
  split; [vm_compute; reflexivity|]. exists 1, 2. split; [left; reflexivity|]. split.
  - apply reach_one. exists 3. split; [left|]; reflexivity.
  - cbn. intuition lia.
Qed.
Print Assumptions C49_one_shot_refuted.

(** With [overwrite_duplicate] and two cells of the same name in the hierarchy,
    an unlucky iteration order leaves the library with a reference to a cell
    outside of it. *)
Theorem C49_same_names_refuted : exists (h : heap unit unit) c s order h' d',
  cell_set h (One c) true = Some s /\ enumerates order s /\
  add_loop h [] true true order = (h', d', true) /\
  exists e f, In e (dcells d') /\ direct h' e f /\ ~ In f (dcells d').
Proof.
  exists (mk_heap [(nA, [0; 1]); (nB, []); (nB, [])] [ToCell 1; ToCell 2]), 0, [0; 1; 2], [1; 2; 0]. do 2 eexists.
  split; [vm_compute; reflexivity|].
  split; [split; [repeat constructor; cbn; intuition lia|intros x; cbn; intuition]|].
  split; [vm_compute; reflexivity|]. exists 0, 1. split; [cbn; auto|]. split.
  - exists 0. split; [left|]; reflexivity.
  - cbn. intuition lia.
Qed.
Print Assumptions C49_same_names_refuted.
