(** L1Path (C36). *)

From Coq Require Import Reals Lra Lia List ZArith Bool.
From Verif Require Import Plane Path SpecPath PropPath PropPathJoin L1 SpecL1.
Import ListNotations.
Open Scope R_scope.

Definition left_at (a k : R) (p : pt) (h : heading) (l : list pt) : Prop := l <> [] /\ across h (end_of l) = across h p + a * k.
Definition joint (a k : R) (p : pt) (h : heading) (len t : R) : pt :=
  padd (padd (padd p (smul len (toward h))) (smul (a * k) (toward (quarter_left h)))) (smul (a * Rabs t) (toward (quarter_left (after_turn h t)))).
Lemma turn_eq : forall h t, named h = true -> l1_turn t h = after_turn h t.
Proof. intros [] t N; try discriminate; unfold l1_turn, after_turn; destruct (Rlt_dec 0 t); reflexivity. Qed.
Lemma turn_named : forall h t, named h = true -> named (after_turn h t) = true.
Proof. intros [] t N; try discriminate; unfold after_turn; destruct (Rlt_dec 0 t); reflexivity. Qed.
Lemma step_eq : forall p h l, named h = true -> l1_step p h l = padd p (smul l (toward h)).
Proof. intros [x y] [] l N; try discriminate; unfold padd, smul; cbn; f_equal; ring. Qed.
Lemma corner_eq : forall n dist w p h len t i r l k, named h = true ->
  left_at (place n i dist - w) k p h r -> left_at (place n i dist + w) k p h l ->
  l1_corner n dist w p h len t i (r, l) = (r ++ [joint (place n i dist - w) k p h len t], l ++ [joint (place n i dist + w) k p h len t]).
Proof.
  intros n dist w [x y] h len t i r l k N [NR AR] [NL AL]. unfold place in *.
  assert (T : Rabs t = if Rlt_dec 0 t then t else - t) by (destruct (Rlt_dec 0 t); [apply Rabs_pos_eq; lra|apply Rabs_left1; lra]).
  destruct h; try discriminate; unfold l1_corner, joint, grow, d_up, d_down, padd, smul, after_turn; cbn [fst snd];
    unfold across, dot in AR, AL; cbn in AR, AL; rewrite T; destruct (Rlt_dec 0 t); cbn; f_equal; f_equal; f_equal; f_equal; lra.
Qed.
Lemma joint_left : forall a k p h len t l, named h = true ->
  left_at a (Rabs t) (padd p (smul len (toward h))) (after_turn h t) (l ++ [joint a k p h len t]).
Proof.
  intros a k [x y] h len t l N. split; [now destruct l|]. unfold end_of. rewrite last_last. unfold joint, across, dot, padd, smul.
  destruct h; try discriminate; unfold after_turn; destruct (Rlt_dec 0 t); cbn; ring.
Qed.
Lemma joint_across : forall a k p h len t, named h = true -> across h (joint a k p h len t) = across h p + a * k.
Proof. intros a k [x y] h len t N. unfold joint, across, dot, padd, smul. destruct h; try discriminate; unfold after_turn; destruct (Rlt_dec 0 t); cbn; ring. Qed.
Lemma line_tail : forall a k b p h len lens t turns,
  tl (l1_line a k b p h (len :: lens) (t :: turns)) =
  joint a k p h len t :: tl (l1_line a (Rabs t) (0, 0) (padd p (smul len (toward h))) (after_turn h t) lens turns).
Proof.
  intros. cbn [l1_line tl]. destruct lens; cbn [l1_line tl]; reflexivity.
Qed.
Lemma cut_eq : forall h r l c c', named h = true -> r <> [] -> l <> [] ->
  across h (end_of r) = across h c -> across h (end_of l) = across h c' ->
  exists q q', l1_cut h (r ++ [c], l ++ [c']) = ((r ++ [q]) ++ rev (l ++ [q']), ([q; c], [q'; c'])) /\
    along h q = along h q' /\ across h q = across h c /\ across h q' = across h c'.
Proof.
  intros h r l c c' N NR NL A B. unfold l1_cut. unfold end_of in *. rewrite !removelast_last, !last_last.
  match goal with |- context [closest ?x] => set (cl := closest x) end.
  match goal with |- context [match h with Px => _ | _ => _ end] => idtac | _ => idtac end.
  destruct h; try discriminate; eexists _, _; (split; [rewrite rev_app_distr, <- app_assoc; reflexivity|]);
    unfold along, across, dot; cbn; repeat split; ring.
Qed.
Lemma index_map_nth : forall {X Y} (f : nat -> X -> Y) l i dx dy, (i < length l)%nat -> nth i (index_map f l) dy = f i (nth i l dx).
Proof.
  intros X Y f l i dx dy L. unfold index_map. rewrite (nth_map_lt _ _ i (0%nat, dx)) by (rewrite combine_length, seq_length; lia).
  rewrite combine_nth by apply seq_length. cbn [fst snd]. now rewrite seq_nth.
Qed.
Lemma index_map_length : forall {X Y} (f : nat -> X -> Y) l, length (index_map f l) = length l.
Proof. intros. unfold index_map. rewrite map_length, combine_length, seq_length. lia. Qed.

Definition sides0 : sides := ([], []).
Definition ready (n : nat) (dist w k : R) (s : l1) : Prop :=
  named (l_h s) = true /\ length (l_paths s) = n /\
  forall i, (i < n)%nat -> left_at (place n i dist - w) k (l_at s) (l_h s) (fst (nth i (l_paths s) sides0)) /\
                           left_at (place n i dist + w) k (l_at s) (l_h s) (snd (nth i (l_paths s) sides0)).
Definition tail (n : nat) (dist a k : R) (s : l1) (lens turns : list R) : list pt := tl (l1_line a k (0, 0) (l_at s) (l_h s) lens turns).

(** One pass: the sides grow by the corner; if they are cut, the first part is drawn. *)
Lemma pass_spec : forall n dist w mx la dt len t k s, ready n dist w k s ->
  let s' := l1_pass n dist w mx la dt len t s in
  ready n dist w (Rabs t) s' /\ l_at s' = padd (l_at s) (smul len (toward (l_h s))) /\ l_h s' = after_turn (l_h s) t /\
  (((l_points s - 1)%Z <> 0%Z /\ l_points s' = (l_points s - 1)%Z /\ l_polys s' = l_polys s /\ l_layers s' = l_layers s /\ l_dts s' = l_dts s /\
    forall i, (i < n)%nat ->
      nth i (l_paths s') sides0 = (fst (nth i (l_paths s) sides0) ++ [joint (place n i dist - w) k (l_at s) (l_h s) len t],
                                   snd (nth i (l_paths s) sides0) ++ [joint (place n i dist + w) k (l_at s) (l_h s) len t])) \/
   ((l_points s - 1)%Z = 0%Z /\ l_points s' = (Z.of_nat (mx / 2) - 2)%Z /\ l_layers s' = l_layers s ++ la /\ l_dts s' = l_dts s ++ dt /\
    exists ps, l_polys s' = l_polys s ++ ps /\ length ps = n /\
    forall i, (i < n)%nat -> exists q q',
      let c := joint (place n i dist - w) k (l_at s) (l_h s) len t in let c' := joint (place n i dist + w) k (l_at s) (l_h s) len t in
      nth i ps [] = (fst (nth i (l_paths s) sides0) ++ [q]) ++ rev (snd (nth i (l_paths s) sides0) ++ [q']) /\
      nth i (l_paths s') sides0 = ([q; c], [q'; c']) /\
      along (l_h s) q = along (l_h s) q' /\ across (l_h s) q = across (l_h s) c /\ across (l_h s) q' = across (l_h s) c')).
Proof.
  intros n dist w mx la dt len t k s [N [LN A]] s'.
  assert (PS : forall i, (i < n)%nat -> nth i (index_map (l1_corner n dist w (l_at s) (l_h s) len t) (l_paths s)) sides0 =
      (fst (nth i (l_paths s) sides0) ++ [joint (place n i dist - w) k (l_at s) (l_h s) len t],
       snd (nth i (l_paths s) sides0) ++ [joint (place n i dist + w) k (l_at s) (l_h s) len t])).
  { intros i I. rewrite (index_map_nth _ _ i sides0) by lia. destruct (A i I) as [A1 A2]. destruct (nth i (l_paths s) sides0) as [r l]. now apply corner_eq. }
  assert (E1 : l_at s' = padd (l_at s) (smul len (toward (l_h s)))).
  { unfold s', l1_pass. destruct (_ =? 0)%Z; cbn [l_at]; now apply step_eq. }
  assert (E2 : l_h s' = after_turn (l_h s) t).
  { unfold s', l1_pass. destruct (_ =? 0)%Z; cbn [l_h]; now apply turn_eq. }
  set (paths := index_map (l1_corner n dist w (l_at s) (l_h s) len t) (l_paths s)) in *.
  assert (LP : length paths = n) by (unfold paths; now rewrite index_map_length).
  assert (RD : length (l_paths s') = n -> (forall i, (i < n)%nat -> exists r l, nth i (l_paths s') sides0 =
      (r ++ [joint (place n i dist - w) k (l_at s) (l_h s) len t], l ++ [joint (place n i dist + w) k (l_at s) (l_h s) len t])) -> ready n dist w (Rabs t) s').
  { intros L F. unfold ready. rewrite E1, E2. split; [now apply turn_named|]. split; [exact L|]. intros i I. destruct (F i I) as [r [l ->]]. cbn [fst snd].
    split; now apply joint_left. }
  destruct (Z.eqb_spec (l_points s - 1) 0) as [Z|Z].
  - assert (S' : s' = L1 (l1_step (l_at s) (l_h s) len) (l1_turn t (l_h s)) (map (fun x => snd (l1_cut (l_h s) x)) paths) (Z.of_nat (mx / 2) - 2)
          (l_polys s ++ map (fun x => fst (l1_cut (l_h s) x)) paths) (l_layers s ++ la) (l_dts s ++ dt)).
    { unfold s', l1_pass. now rewrite (proj2 (Z.eqb_eq _ _) Z). }
    assert (CC : forall i, (i < n)%nat -> exists q q',
      let c := joint (place n i dist - w) k (l_at s) (l_h s) len t in let c' := joint (place n i dist + w) k (l_at s) (l_h s) len t in
      fst (l1_cut (l_h s) (nth i paths sides0)) = (fst (nth i (l_paths s) sides0) ++ [q]) ++ rev (snd (nth i (l_paths s) sides0) ++ [q']) /\
      snd (l1_cut (l_h s) (nth i paths sides0)) = ([q; c], [q'; c']) /\
      along (l_h s) q = along (l_h s) q' /\ across (l_h s) q = across (l_h s) c /\ across (l_h s) q' = across (l_h s) c').
    { intros i I. rewrite (PS i I). destruct (A i I) as [[R1 R2] [L1' L2]].
      destruct (cut_eq (l_h s) (fst (nth i (l_paths s) sides0)) (snd (nth i (l_paths s) sides0))
        (joint (place n i dist - w) k (l_at s) (l_h s) len t) (joint (place n i dist + w) k (l_at s) (l_h s) len t) N R1 L1') as [q [q' [-> [X1 [X2 X3]]]]].
      - now rewrite joint_across.
      - now rewrite joint_across.
      - exists q, q'. cbn [fst snd]. repeat split; assumption. }
    split; [|split; [exact E1|split; [exact E2|right]]].
    + apply RD; [rewrite S'; cbn [l_paths]; now rewrite map_length|]. intros i I. destruct (CC i I) as [q [q' [_ [Y _]]]].
      exists [q], [q']. rewrite S'. cbn [l_paths]. rewrite (nth_map_lt _ _ i sides0) by lia. rewrite Y. reflexivity.
    + split; [exact Z|]. rewrite S'. cbn [l_points l_layers l_dts l_polys l_paths]. repeat (split; [reflexivity|]).
      eexists. split; [reflexivity|]. split; [now rewrite map_length|]. intros i I. destruct (CC i I) as [q [q' [X [Y W]]]]. exists q, q'. cbn zeta.
      rewrite (nth_map_lt _ _ i sides0) by lia. rewrite (nth_map_lt _ _ i sides0) by lia. rewrite X, Y. split; [reflexivity|]. split; [reflexivity|exact W].
  - assert (S' : s' = L1 (l1_step (l_at s) (l_h s) len) (l1_turn t (l_h s)) paths (l_points s - 1) (l_polys s) (l_layers s) (l_dts s)).
    { unfold s', l1_pass. now rewrite (proj2 (Z.eqb_neq _ _) Z). }
    split; [|split; [exact E1|split; [exact E2|left]]].
    + apply RD; [rewrite S'; exact LP|]. intros i I. rewrite S'. cbn [l_paths]. rewrite (PS i I). eexists _, _; reflexivity.
    + split; [exact Z|]. rewrite S'. cbn [l_points l_layers l_dts l_polys l_paths]. repeat (split; [reflexivity|]). exact PS.
Qed.

(** What the rest of the construction does, from a state [s] on. *)
Definition draws_rest (n : nat) (dist w k : R) (s : l1) (lens turns : list R) (la dt : list Z) (fin : l1) : Prop :=
  l_h fin = l1_heading (l_h s) turns /\
  exists m ps, l_polys fin = l_polys s ++ ps /\ length ps = (m * n)%nat /\
    l_layers fin = l_layers s ++ concat (repeat la m) /\ l_dts fin = l_dts s ++ concat (repeat dt m) /\
    ((l_points s > Z.of_nat (length turns))%Z -> m = 1%nat) /\
    forall i, (i < n)%nat -> exists pcs, length pcs = m /\
      cut_into (fst (nth i (l_paths s) sides0) ++ tail n dist (place n i dist - w) k s lens turns)
               (snd (nth i (l_paths s) sides0) ++ tail n dist (place n i dist + w) k s lens turns) pcs /\
      forall j, (j < m)%nat -> nth (j * n + i) ps [] = fst (nth j pcs sides0) ++ rev (snd (nth j pcs sides0)).
Lemma close_eq : forall n dist w k s len i, ready n dist w k s -> (i < n)%nat ->
  l1_close (l_at s) (l_h s) len (nth i (l_paths s) sides0) =
  (fst (nth i (l_paths s) sides0) ++ tail n dist (place n i dist - w) k s [len] [],
   snd (nth i (l_paths s) sides0) ++ tail n dist (place n i dist + w) k s [len] []).
Proof.
  intros n dist w k s len i [N [LN A]] I. destruct (A i I) as [[_ A1] [_ A2]]. unfold tail. cbn [l1_line tl].
  destruct (nth i (l_paths s) sides0) as [r l]. destruct (l_at s) as [x y]. unfold across, dot in A1, A2.
  destruct (l_h s); try discriminate; unfold l1_close, grow, padd, smul; cbn in A1, A2 |- *; f_equal; f_equal; f_equal; f_equal; lra.
Qed.
Lemma finish_eq : forall n dist w k s len jl la dt fin, ready n dist w k s -> l1_finish len jl la dt s = Some fin ->
  draws_rest n dist w k s [len] [] la dt fin.
Proof.
  intros n dist w k s len jl la dt fin R H. pose proof R as [N [LN A]].
  set (paths := map (l1_close (l_at s) (l_h s) len) (l_paths s)) in *.
  assert (F : l_h fin = l_h s /\ l_polys fin = l_polys s ++ map (fun x => fst x ++ rev (snd x)) paths /\
              l_layers fin = l_layers s ++ la /\ l_dts fin = l_dts s ++ dt).
  { unfold l1_finish in H. fold paths in H. destruct (l_h s); try (injection H as <-; repeat split; reflexivity).
    destruct jl; [|discriminate]. injection H as <-. repeat split; reflexivity. }
  destruct F as (F1 & F2 & F3 & F4). split; [exact F1|]. exists 1%nat. eexists. split; [exact F2|].
  split; [unfold paths; rewrite !map_length; lia|]. cbn [repeat concat]. rewrite !app_nil_r. split; [exact F3|]. split; [exact F4|]. split; [reflexivity|].
  intros i I. eexists [(_, _)]. split; [reflexivity|]. split; [apply cut_end|]. intros j J. replace j with 0%nat by lia. cbn [Nat.mul Nat.add nth].
  rewrite (nth_map_lt _ _ i sides0) by (unfold paths; rewrite map_length; lia). unfold paths.
  rewrite (nth_map_lt _ _ i sides0) by lia. now rewrite (close_eq n dist w k s len i R I).
Qed.
Lemma loop_eq : forall n dist w mx la dt turns lens k s st jl fin, ready n dist w k s -> length lens = S (length turns) ->
  l1_loop n dist w mx la dt lens turns s = Some st -> l1_finish (last lens 0) jl la dt st = Some fin ->
  draws_rest n dist w k s lens turns la dt fin.
Proof.
  intros n dist w mx la dt turns. induction turns as [|t turns IH]; intros lens k s st jl fin R L H F.
  - destruct lens as [|len [|? ?]]; cbn in L; try lia. cbn in H. injection H as <-. cbn [last] in F. eapply finish_eq; eassumption.
  - destruct lens as [|len lens]; [discriminate|]. cbn [l1_loop] in H.
    destruct (pass_spec n dist w mx la dt len t k s R) as [R' [E1 [E2 D]]]. set (s' := l1_pass n dist w mx la dt len t s) in *.
    assert (LL : length lens = S (length turns)) by (cbn in L; lia).
    assert (F' : l1_finish (last lens 0) jl la dt st = Some fin) by (destruct lens; [discriminate|exact F]).
    specialize (IH lens (Rabs t) s' st jl fin R' LL H F'). destruct IH as [H1 [m [ps [P1 [P2 [P3 [P4 [P5 P6]]]]]]]].
    split; [rewrite H1, E2; reflexivity|].
    assert (TT : forall a, tail n dist a k s (len :: lens) (t :: turns) = joint a k (l_at s) (l_h s) len t :: tail n dist a (Rabs t) s' lens turns).
    { intros a. unfold tail. rewrite line_tail, E1, E2. reflexivity. }
    destruct D as [(Z & PT & Q1 & Q2 & Q3 & Q4)|(Z & PT & Q2 & Q3 & qs & Q1 & QL & Q4)].
    + exists m, ps. split; [now rewrite P1, Q1|]. split; [exact P2|]. split; [now rewrite P3, Q2|]. split; [now rewrite P4, Q3|].
      split; [intros G; apply P5; rewrite PT; cbn [length] in G; lia|].
      intros i I. destruct (P6 i I) as [pcs [X1 [X2 X3]]]. exists pcs. split; [exact X1|]. split; [|exact X3].
      rewrite (Q4 i I) in X2. cbn [fst snd] in X2. rewrite <- !app_assoc in X2. rewrite !TT. exact X2.
    + exists (S m), (qs ++ ps). split; [now rewrite P1, Q1, app_assoc|]. split; [rewrite app_length, QL, P2; lia|].
      split; [rewrite P3, Q2; cbn [repeat concat]; now rewrite app_assoc|]. split; [rewrite P4, Q3; cbn [repeat concat]; now rewrite app_assoc|].
      split; [intros G; cbn [length] in G; lia|].
      intros i I. destruct (P6 i I) as [pcs [X1 [X2 X3]]]. destruct (Q4 i I) as [q [q' [Y1 [Y2 [Y3 [Y4 Y5]]]]]].
      destruct R as [N [LN A]]. destruct (A i I) as [[RN RA] [LN' LA]].
      set (r := fst (nth i (l_paths s) sides0)) in *. set (l := snd (nth i (l_paths s) sides0)) in *.
      set (c := joint (place n i dist - w) k (l_at s) (l_h s) len t) in *. set (c' := joint (place n i dist + w) k (l_at s) (l_h s) len t) in *.
      destruct (@exists_last _ r RN) as [ra [x Er]]. destruct (@exists_last _ l LN') as [la' [x' El]].
      exists ((ra ++ [x; q], la' ++ [x'; q']) :: pcs). split; [cbn; now rewrite X1|]. split.
      * rewrite !TT. fold c c'. rewrite Er, El, <- !app_assoc. cbn [app].
        apply (cut_more (l_h s)).
        -- exact Y3.
        -- rewrite Y4. unfold c. rewrite (joint_across _ _ _ _ _ _ N), <- RA, Er. unfold end_of. now rewrite last_last.
        -- exact Y4.
        -- rewrite Y5. unfold c'. rewrite (joint_across _ _ _ _ _ _ N), <- LA, El. unfold end_of. now rewrite last_last.
        -- exact Y5.
        -- rewrite Y2 in X2. exact X2.
      * intros j J. destruct j as [|j].
        -- cbn [Nat.mul Nat.add nth fst snd]. rewrite app_nth1 by lia. rewrite Y1, Er, El. rewrite <- !app_assoc. reflexivity.
        -- cbn [nth]. rewrite app_nth2 by (rewrite QL; lia). replace (S j * n + i - length qs)%nat with (j * n + i)%nat by (rewrite QL; lia). apply X3. lia.
Qed.

Lemma start_ready : forall n dist w p h pts paths polys la dt, all_some (map (l1_start n dist w p h) (seq 0 n)) = Some paths -> named h = true ->
  ready n dist w 1 (L1 p h paths pts polys la dt) /\
  forall i, (i < n)%nat -> nth i paths sides0 = ([padd (padd p (0, 0)) (smul ((place n i dist - w) * 1) (toward (quarter_left h)))],
                                               [padd (padd p (0, 0)) (smul ((place n i dist + w) * 1) (toward (quarter_left h)))]).
Proof.
  intros n dist w p h pts paths polys la dt H N. pose proof (all_some_length _ _ H) as L. rewrite map_length, seq_length in L.
  assert (E : forall i, (i < n)%nat -> nth i paths sides0 = ([padd (padd p (0, 0)) (smul ((place n i dist - w) * 1) (toward (quarter_left h)))],
                                               [padd (padd p (0, 0)) (smul ((place n i dist + w) * 1) (toward (quarter_left h)))])).
  { intros i I. pose proof (all_some_nth _ _ i sides0 H) as X. rewrite map_length, seq_length in X. specialize (X I).
    rewrite (nth_map_lt _ _ i 0%nat) in X by (now rewrite seq_length). rewrite seq_nth in X by exact I. cbn [Nat.add] in X.
    destruct p as [x y]. unfold place. destruct h; try discriminate; cbn [l1_start fst snd] in X; injection X as <-; unfold d_up, d_down, padd, smul; cbn;
      f_equal; f_equal; f_equal; lra. }
  split; [|exact E]. split; [exact N|]. split; [exact L|]. cbn [l_paths l_at l_h]. intros i I. rewrite (E i I). cbn [fst snd].
  destruct p as [x y]. split; (split; [discriminate|]); unfold end_of, across, dot, padd, smul; cbn; destruct h; try discriminate; cbn; ring.
Qed.
Lemma start_named : forall n dist w p h paths, all_some (map (l1_start n dist w p h) (seq 0 n)) = Some paths -> (0 < n)%nat -> named h = true.
Proof. intros n dist w p h paths H N. destruct n; [lia|]. destruct h; try reflexivity. cbn in H. discriminate. Qed.

(** The polygons of parallel path [i] follow the lines half the width to both sides of its
    place.  They are one polygon, or its pieces after cuts straight across. *)
Theorem C36_outline : forall start h width lens turns n distance mx la dt s, l1_path start h width lens turns n distance mx la dt = Some s ->
  length lens = S (length turns) -> (0 < n)%nat ->
  l_h s = l1_heading h turns /\
  exists m, length (l_polys s) = (m * n)%nat /\ (mx = 0%nat -> m = 1%nat) /\
    l_layers s = map (fun k => tag_of la (k mod n)) (seq 0 (length (l_polys s))) /\
    l_dts s = map (fun k => tag_of dt (k mod n)) (seq 0 (length (l_polys s))) /\
    forall i, (i < n)%nat -> exists pieces, length pieces = m /\
      cut_into (l1_side start h lens turns (place n i distance - width / 2)) (l1_side start h lens turns (place n i distance + width / 2)) pieces /\
      forall j, (j < m)%nat -> nth (j * n + i) (l_polys s) [] = fst (nth j pieces ([], [])) ++ rev (snd (nth j pieces ([], []))).
Proof.
  intros start h width lens turns n distance mx la dt s H L N0. unfold l1_path in H.
  destruct (tag_list n la) as [las|] eqn:TA; [|discriminate]. destruct (tag_list n dt) as [dts|] eqn:TD; [|discriminate].
  destruct (all_some _) as [paths|] eqn:P; [|discriminate]. destruct lens as [|l0 lens']; [discriminate|]. set (lens := l0 :: lens') in *.
  pose proof (start_named _ _ _ _ _ _ P N0) as N.
  match type of H with match l1_loop _ _ _ _ _ _ _ _ ?x with _ => _ end = _ => set (s0 := x) in *; destruct (l1_loop _ _ _ _ _ _ _ _ s0) as [st|] eqn:E end; [|discriminate].
  destruct (start_ready n distance (width * / 2) start h (l_points s0) paths [] [] [] P N) as [RD ST]. change (ready n distance (width * / 2) 1 s0) in RD.
  destruct (loop_eq _ _ _ _ _ _ _ _ _ _ _ _ _ RD L E H) as [D1 [m [ps [D2 [D3 [D4 [D5 [D6 D7]]]]]]]].
  cbn [s0 l_polys l_layers l_dts app] in D2, D4, D5. split; [exact D1|]. exists m. rewrite D2. split; [exact D3|]. split.
  { intros ->. apply D6. unfold s0. cbn [l_points]. lia. }
  rewrite D3. split; [rewrite D4; now apply tags_repeat|]. split; [rewrite D5; now apply tags_repeat|].
  intros i I. destruct (D7 i I) as [pcs [X1 [X2 X3]]]. exists pcs. split; [exact X1|]. split; [|exact X3].
  cbn [s0 l_paths] in X2. rewrite (ST i I) in X2. cbn [fst snd app] in X2. unfold tail in X2. cbn [s0 l_at l_h] in X2.
  unfold l1_side. replace (width / 2) with (width * / 2) by lra.
  assert (HD : forall a, l1_line a 1 (0, 0) start h lens turns = padd (padd start (0, 0)) (smul (a * 1) (toward (quarter_left h))) :: tl (l1_line a 1 (0, 0) start h lens turns)).
  { intros a. unfold lens. reflexivity. }
  rewrite (HD (place n i distance - _)), (HD (place n i distance + _)). exact X2.
Qed.
(** Without a limit there is one polygon for each parallel path. *)
Theorem C36_uncut : forall start h width lens turns n distance la dt s, l1_path start h width lens turns n distance 0 la dt = Some s ->
  length lens = S (length turns) -> (0 < n)%nat ->
  l_polys s = map (fun i => l1_side start h lens turns (place n i distance - width / 2) ++ rev (l1_side start h lens turns (place n i distance + width / 2))) (seq 0 n).
Proof.
  intros start h width lens turns n distance la dt s H L N. destruct (C36_outline _ _ _ _ _ _ _ _ _ _ _ H L N) as [_ [m [A [B [_ [_ C]]]]]].
  specialize (B eq_refl). subst m. rewrite Nat.mul_1_l in A. apply (nth_ext _ _ [] []); [now rewrite map_length, seq_length|]. intros i I.
  assert (I' : (i < n)%nat) by (rewrite <- A; exact I). rewrite (nth_map_lt _ _ i 0%nat) by (now rewrite seq_length). rewrite seq_nth by exact I'. cbn [Nat.add].
  destruct (C i I') as [pcs [X1 [X2 X3]]]. specialize (X3 0%nat ltac:(lia)). cbn [Nat.mul Nat.add] in X3. etransitivity; [exact X3|].
  destruct pcs as [|[r l] [|? ?]]; try discriminate. inversion X2; subst; [reflexivity|].
  match goal with K : cut_into _ _ [] |- _ => inversion K end.
Qed.

(** ** The end of the path *)
Lemma pass_at : forall n dist w mx la dt len t s, named (l_h s) = true ->
  l_at (l1_pass n dist w mx la dt len t s) = padd (l_at s) (smul len (toward (l_h s))) /\ l_h (l1_pass n dist w mx la dt len t s) = after_turn (l_h s) t.
Proof. intros. unfold l1_pass. destruct (_ =? 0)%Z; cbn [l_at l_h]; split; now (apply step_eq || apply turn_eq). Qed.
Lemma loop_at : forall n dist w mx la dt turns lens s st, named (l_h s) = true -> length lens = S (length turns) ->
  l1_loop n dist w mx la dt lens turns s = Some st ->
  named (l_h st) = true /\ l_h st = l1_heading (l_h s) turns /\ padd (l_at st) (smul (last lens 0) (toward (l_h st))) = l1_end (l_at s) (l_h s) lens turns.
Proof.
  intros n dist w mx la dt turns. induction turns as [|t turns IH]; intros lens s st N L H.
  - destruct lens as [|len [|? ?]]; cbn in L; try lia. cbn in H. injection H as <-. repeat split; exact N.
  - destruct lens as [|len lens]; [discriminate|]. cbn [l1_loop] in H. destruct (pass_at n dist w mx la dt len t s N) as [A B].
    destruct (IH lens (l1_pass n dist w mx la dt len t s) st) as [X [Y Z]]; [rewrite B; now apply turn_named|cbn in L; lia|exact H|].
    rewrite A, B in *. split; [exact X|]. split; [exact Y|]. destruct lens as [|l2 lens]; [discriminate|]. exact Z.
Qed.
Theorem C36_end : forall start h width lens turns n distance mx la dt s, l1_path start h width lens turns n distance mx la dt = Some s ->
  length lens = S (length turns) -> (0 < n)%nat ->
  l_h s = l1_heading h turns /\ (l_h s <> Ny -> l_at s = l1_end start h lens turns).
Proof.
  intros start h width lens turns n distance mx la dt s H L N0. split; [apply (C36_outline _ _ _ _ _ _ _ _ _ _ _ H L N0)|]. unfold l1_path in H.
  destruct (tag_list n la) as [las|] eqn:TA; [|discriminate]. destruct (tag_list n dt) as [dts|] eqn:TD; [|discriminate].
  destruct (all_some _) as [paths|] eqn:P; [|discriminate]. destruct lens as [|l0 lens']; [discriminate|]. set (lens := l0 :: lens') in *.
  pose proof (start_named _ _ _ _ _ _ P N0) as N.
  match type of H with match l1_loop _ _ _ _ _ _ _ _ ?x with _ => _ end = _ => set (s0 := x) in *; destruct (l1_loop _ _ _ _ _ _ _ _ s0) as [st|] eqn:E end; [|discriminate].
  destruct (loop_at n distance (width * / 2) mx las dts turns lens s0 st N L E) as [A [B C]]. change (l_at s0) with start in C. change (l_h s0) with h in C. rewrite <- C.
  unfold l1_finish in H. cbv zeta in H. intros Q. destruct (l_h st) eqn:HS; try (injection H as <-; exact (step_eq (l_at st) _ (last lens 0) A)).
  match type of H with match ?j with _ => _ end = _ => destruct j; [|discriminate] end. injection H as <-. now elim Q.
Qed.
(** When it ends towards '-y', the length of the last section but one is used. *)
Theorem C36_end_refuted : exists s, l1_path (0, 0) Px 2 [10; 3] [-1] 1 0 0 (Tag 1) (Tag 0) = Some s /\
  l1_end (0, 0) Px [10; 3] [-1] = (10, -3) /\ l_at s = (10, -10).
Proof.
  eexists. split.
  - unfold l1_path. cbn [tag_list repeat seq map l1_start all_some option_map length Nat.add Z.of_nat l1_loop].
    unfold l1_pass. cbn [l_points l_h]. destruct (_ =? 0)%Z eqn:Z; [discriminate|]. cbn [l1_turn]. destruct (Rlt_dec 0 (-1)); [lra|]. reflexivity.
  - split; [|cbn; f_equal; ring]. cbn [l1_end]. unfold after_turn. destruct (Rlt_dec 0 (-1)); [lra|]. unfold padd, smul. cbn. f_equal; ring.
Qed.
(** A path of one section towards '-y' cannot be made. *)
Theorem C36_down_refuted : forall start width len n distance mx la dt, l1_path start Ny width [len] [] n distance mx la dt = None.
Proof.
  intros. unfold l1_path. destruct (tag_list n la); [|reflexivity]. destruct (tag_list n dt); [|reflexivity]. destruct (all_some _); [|reflexivity]. reflexivity.
Qed.

(** ** Sizes *)
Definition counted (n mx : nat) (s : l1) : Prop :=
  (1 <= l_points s)%Z /\ (forall p, In p (l_polys s) -> (length p <= mx)%nat) /\
  forall x, In x (l_paths s) -> length (fst x) = length (snd x) /\ (1 <= length (fst x))%nat /\ (Z.of_nat (length (fst x)) + l_points s = Z.of_nat (mx / 2))%Z.
Lemma corner_lengths : forall n dist w p h len t i s, named h = true ->
  length (fst (l1_corner n dist w p h len t i s)) = S (length (fst s)) /\ length (snd (l1_corner n dist w p h len t i s)) = S (length (snd s)).
Proof. intros n dist w [x y] h len t i [r l] N. destruct h; try discriminate; cbn; rewrite !app_length; cbn; lia. Qed.
Lemma cut_lengths : forall h s, named h = true -> (1 <= length (fst s))%nat -> (1 <= length (snd s))%nat ->
  length (fst (l1_cut h s)) = (length (fst s) + length (snd s))%nat /\ length (fst (snd (l1_cut h s))) = 2%nat /\ length (snd (snd (l1_cut h s))) = 2%nat.
Proof.
  intros h [r l] N A B. cbn [fst snd] in *.
  assert (RL : forall l : list pt, length (removelast l) = (length l - 1)%nat).
  { intros q. destruct q as [|x q]; [reflexivity|]. rewrite removelast_firstn_len, firstn_length. cbn. lia. }
  unfold l1_cut. destruct h; try discriminate; cbn [fst snd]; rewrite !app_length, rev_length, !RL; cbn; lia.
Qed.
Lemma pass_counted : forall n dist w mx la dt len t s, named (l_h s) = true -> (6 <= mx)%nat -> counted n mx s ->
  counted n mx (l1_pass n dist w mx la dt len t s).
Proof.
  intros n dist w mx la dt len t s N M [C1 [C2 C3]].
  assert (M2 : (3 <= mx / 2)%nat) by (apply Nat.div_le_lower_bound; lia). assert (M3 : (2 * (mx / 2) <= mx)%nat) by (apply Nat.mul_div_le; lia).
  assert (PX : forall x, In x (index_map (l1_corner n dist w (l_at s) (l_h s) len t) (l_paths s)) ->
    length (fst x) = length (snd x) /\ (1 <= length (fst x))%nat /\ (Z.of_nat (length (fst x)) + (l_points s - 1) = Z.of_nat (mx / 2))%Z).
  { intros x I. unfold index_map in I. apply in_map_iff in I. destruct I as [[i y] [<- I]]. apply in_combine_r in I. cbn [fst snd].
    destruct (C3 y I) as [D1 [D2 D3]]. destruct (corner_lengths n dist w (l_at s) (l_h s) len t i y N) as [-> ->]. lia. }
  unfold l1_pass. destruct (Z.eqb_spec (l_points s - 1) 0) as [Z|Z]; repeat split; cbn [l_points l_polys l_paths]; try lia.
  - intros p I. apply in_app_or in I. destruct I as [I|I]; [now apply C2|]. apply in_map_iff in I. destruct I as [x [<- I]]. destruct (PX x I) as [D1 [D2 D3]].
    destruct (cut_lengths (l_h s) x N) as [E _]; [lia|lia|]. etransitivity; [apply Nat.eq_le_incl; exact E|]. lia.
  - apply in_map_iff in H. destruct H as [y [<- I]]. destruct (PX y I) as [D1 [D2 D3]]. destruct (cut_lengths (l_h s) y N) as [_ [-> ->]]; lia.
  - apply in_map_iff in H. destruct H as [y [<- I]]. destruct (PX y I) as [D1 [D2 D3]]. destruct (cut_lengths (l_h s) y N) as [_ [-> _]]; lia.
  - apply in_map_iff in H. destruct H as [y [<- I]]. destruct (PX y I) as [D1 [D2 D3]]. destruct (cut_lengths (l_h s) y N) as [_ [-> _]]; lia.
  - exact C2.
  - now apply PX.
  - now apply PX.
  - now apply PX.
Qed.
Lemma loop_counted : forall n dist w mx la dt turns lens s st, named (l_h s) = true -> (6 <= mx)%nat -> counted n mx s ->
  l1_loop n dist w mx la dt lens turns s = Some st -> counted n mx st /\ named (l_h st) = true.
Proof.
  intros n dist w mx la dt turns. induction turns as [|t turns IH]; intros lens s st N M C H.
  - destruct lens; cbn in H; injection H as <-; now split.
  - destruct lens as [|len lens]; [discriminate|]. cbn [l1_loop] in H. eapply IH; [|exact M| |exact H].
    + destruct (pass_at n dist w mx la dt len t s N) as [_ ->]. now apply turn_named.
    + now apply pass_counted.
Qed.
Theorem C36_size : forall start h width lens turns n distance mx la dt s, l1_path start h width lens turns n distance mx la dt = Some s ->
  (6 <= mx)%nat -> forall p, In p (l_polys s) -> (length p <= mx)%nat.
Proof.
  intros start h width lens turns n distance mx la dt s H M. unfold l1_path in H.
  destruct (tag_list n la) as [las|] eqn:TA; [|discriminate]. destruct (tag_list n dt) as [dts|] eqn:TD; [|discriminate].
  destruct (all_some _) as [paths|] eqn:P; [|discriminate]. destruct lens as [|l0 lens']; [discriminate|]. set (lens := l0 :: lens') in *.
  match type of H with match l1_loop _ _ _ _ _ _ _ _ ?x with _ => _ end = _ => set (s0 := x) in *; destruct (l1_loop _ _ _ _ _ _ _ _ s0) as [st|] eqn:E end; [|discriminate].
  destruct n as [|n'].
  - (* no paths, no polygons *)
    cbn in P. injection P as <-.
    assert (EM : forall turns lens s st, l_polys s = [] -> l_paths s = [] -> l1_loop 0 distance (width * / 2) mx las dts lens turns s = Some st -> l_polys st = [] /\ l_paths st = []).
    { clear. induction turns as [|t turns IH]; intros lens s st A B H; [destruct lens; cbn in H; injection H as <-; now split|].
      destruct lens as [|len lens]; [discriminate|]. cbn [l1_loop] in H. eapply IH; [| |exact H]; unfold l1_pass; rewrite B; cbn; destruct (_ =? 0)%Z; cbn; rewrite ?A; reflexivity. }
    destruct (EM turns lens s0 st eq_refl eq_refl E) as [E1 E2]. unfold l1_finish in H. cbv zeta in H. rewrite E2, E1 in H. cbn in H.
    intros p I. destruct (l_h st); try (injection H as <-; destruct I). match type of H with match ?j with _ => _ end = _ => destruct j; [|discriminate] end. injection H as <-; destruct I.
  - pose proof (start_named _ _ _ _ _ _ P ltac:(lia)) as N. set (n := S n') in *.
    assert (M2 : (3 <= mx / 2)%nat) by (apply Nat.div_le_lower_bound; lia). assert (M3 : (2 * (mx / 2) <= mx)%nat) by (apply Nat.mul_div_le; lia).
    destruct (loop_counted n distance (width * / 2) mx las dts turns lens s0 st N M) as [[C1 [C2 C3]] NS]; [|exact E|].
    + split; [unfold s0; cbn [l_points]; destruct mx; lia|]. split; [intros p []|]. intros x I. unfold s0 in I. cbn [l_paths] in I.
      apply (all_some_in _ _ P) in I. apply in_map_iff in I. destruct I as [i [I _]].
      assert (X : length (fst x) = 1%nat /\ length (snd x) = 1%nat) by (destruct h; try discriminate; cbn in I; injection I as <-; split; reflexivity).
      destruct X as [-> ->]. unfold s0. cbn [l_points]. destruct mx; [lia|]. lia.
    + assert (CL : forall x, In x (l_paths st) -> forall l, length (fst (l1_close (l_at st) (l_h st) l x)) = S (length (fst x)) /\
        length (snd (l1_close (l_at st) (l_h st) l x)) = S (length (snd x))).
      { intros [r q] _ l. destruct (l_h st); try discriminate; cbn; rewrite !app_length; cbn; lia. }
      assert (PP : l_polys s = l_polys st ++ map (fun x => fst x ++ rev (snd x)) (map (l1_close (l_at st) (l_h st) (last lens 0)) (l_paths st))).
      { unfold l1_finish in H. cbv zeta in H. destruct (l_h st); try (injection H as <-; reflexivity).
        match type of H with match ?j with _ => _ end = _ => destruct j; [|discriminate] end. injection H as <-. reflexivity. }
      intros p I. rewrite PP in I. apply in_app_or in I. destruct I as [I|I]; [now apply C2|]. rewrite map_map in I. apply in_map_iff in I. destruct I as [x [<- I]].
      destruct (C3 x I) as [D1 [D2 D3]]. destruct (CL x I (last lens 0)) as [G1 G2]. rewrite app_length, rev_length. lia.
Qed.
(** Every list of sections can be drawn, except one section towards '-y'. *)
Theorem C36_defined : forall start h width lens turns n distance mx la dt, named h = true -> length lens = S (length turns) ->
  usable la -> usable dt -> turns <> [] \/ h <> Ny -> exists s, l1_path start h width lens turns n distance mx la dt = Some s.
Proof.
  intros start h width lens turns n distance mx la dt N L A B D. unfold l1_path.
  destruct (tag_list_some n _ A) as [x ->]. destruct (tag_list_some n _ B) as [y ->].
  destruct (all_some_some (map (l1_start n distance (width * / 2) start h) (seq 0 n))) as [paths ->].
  { intros z I. apply in_map_iff in I. destruct I as [i [<- _]]. destruct h; discriminate. }
  destruct lens as [|l0 lens']; [discriminate|]. set (lens := l0 :: lens') in *.
  match goal with |- context [l1_loop _ _ _ _ _ _ _ _ ?z] => set (s0 := z) end.
  assert (LO : forall turns lens s, length lens = S (length turns) -> exists st, l1_loop n distance (width * / 2) mx x y lens turns s = Some st).
  { clear. induction turns as [|t turns IH]; intros lens s L; [destruct lens; eexists; reflexivity|]. destruct lens as [|l lens]; [discriminate|]. cbn [l1_loop]. apply IH. cbn in L. lia. }
  destruct (LO turns lens s0 L) as [st E]. rewrite E. destruct (loop_at n distance (width * / 2) mx x y turns lens s0 st N L E) as [NS [HS _]].
  unfold l1_finish. destruct turns as [|t turns].
  - rewrite HS. cbn. destruct h; try (eexists; reflexivity). destruct D as [D|D]; now elim D.
  - destruct (l_h st); eexists; reflexivity.
Qed.
(** Rotating an L1Path turns its polygons, its end and its direction. *)
Lemma spin_dir : forall h a, toward (Toward (angle_of h + a)) = spin a (toward h).
Proof.
  intros h a. assert (A : angle_of h = match h with Px => 0 | Py => PI / 2 | Nx => PI | Ny => - (PI / 2) | Toward b => b end) by (destruct h; cbn; lra).
  rewrite A. cbn [toward]. rewrite cos_plus, sin_plus. unfold spin. destruct h; cbn [toward fst snd];
    rewrite ?cos_0, ?sin_0, ?cos_PI, ?sin_PI, ?cos_neg, ?sin_neg, ?cos_PI2, ?sin_PI2; f_equal; ring.
Qed.
Theorem C36_rotate : forall a c s,
  l_at (l1_rotate a c s) = turned_about a c (l_at s) /\ toward (l_h (l1_rotate a c s)) = spin a (toward (l_h s)) /\
  l_polys (l1_rotate a c s) = map (map (turned_about a c)) (l_polys s) /\ l_layers (l1_rotate a c s) = l_layers s /\ l_dts (l1_rotate a c s) = l_dts s.
Proof.
  intros a c s. assert (E : forall p, rotate_pt a c p = turned_about a c p).
  { intro p. unfold rotate_pt, rot_cs, turned_about, spin, padd, psub, smul. cbn [fst snd]. f_equal; ring. }
  split; [apply E|]. split; [apply spin_dir|]. split; [|split; reflexivity]. apply map_ext. intro q. apply map_ext. exact E.
Qed.
Print Assumptions C36_rotate.
Print Assumptions C36_outline.
Print Assumptions C36_uncut.
Print Assumptions C36_end.
Print Assumptions C36_end_refuted.
Print Assumptions C36_down_refuted.
Print Assumptions C36_size.
Print Assumptions C36_defined.

(** The example of the documentation, cut into pieces of at most 6 points. *)
Example C36_case : exists s, l1_path (0, 0) Px 2 [10; 30; 15; 15; 15; 15; 10] [1; -1; -1; 3; -1; 1] 2 5 6 (Tags [1; 2]%Z) (Tag 0) = Some s /\
  (forall p, In p (l_polys s) -> (length p <= 6)%nat) /\ l_at s = (50, 0) /\ l_h s = Px.
Proof.
  destruct (C36_defined (0, 0) Px 2 [10; 30; 15; 15; 15; 15; 10] [1; -1; -1; 3; -1; 1] 2 5 6 (Tags [1; 2]%Z) (Tag 0)) as [s E];
    [reflexivity|reflexivity|discriminate|discriminate|left; discriminate|].
  exists s. split; [exact E|]. split; [eapply C36_size; [exact E|lia]|]. destruct (C36_end _ _ _ _ _ _ _ _ _ _ _ E eq_refl ltac:(lia)) as [X Y].
  assert (HH : l_h s = Px).
  { rewrite X. unfold l1_heading. cbn [fold_left]. unfold after_turn. repeat match goal with |- context [Rlt_dec 0 ?t] => destruct (Rlt_dec 0 t); [try lra|try lra] end. reflexivity. }
  split; [|exact HH]. rewrite Y by (rewrite HH; discriminate). cbn [l1_end]. unfold after_turn.
  repeat match goal with |- context [Rlt_dec 0 ?t] => destruct (Rlt_dec 0 t); [try lra|try lra] end.
  unfold padd, smul. cbn. f_equal; lra.
Qed.
(** The same path, turned by a right angle about (1, 1). *)
Example C36_rotate_case : exists s, l1_path (0, 0) Px 2 [10; 30; 15; 15; 15; 15; 10] [1; -1; -1; 3; -1; 1] 2 5 6 (Tags [1; 2]%Z) (Tag 0) = Some s /\
  l_at (l1_rotate (PI / 2) (1, 1) s) = (2, 50) /\ toward (l_h (l1_rotate (PI / 2) (1, 1) s)) = (0, 1).
Proof.
  destruct C36_case as [s [E [_ [A H]]]]. exists s. split; [exact E|]. destruct (C36_rotate (PI / 2) (1, 1) s) as [R1 [R2 _]]. rewrite R1, R2, A, H.
  unfold turned_about, spin, padd, psub. cbn [toward fst snd]. rewrite cos_PI2, sin_PI2. split; f_equal; lra.
Qed.
