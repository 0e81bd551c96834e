(** The sweep follows the survey of the border, event by event. *)

From Coq Require Import List ZArith Bool Lia Permutation.
From Verif Require Import Sweep SpecSweep SweepCounts SweepActs SweepRings.
Import ListNotations.

(** ** Bordering strands *)
Lemma winding_end : forall k l w, (w + winding k (map mk l))%Z = end_own k w (map fst l).
Proof.
  intros k l. induction l as [|[e q] l IH]; intros w.
  - destruct k; cbn; lia.
  - unfold winding in *. cbn [map filter mk of_kind fst snd].
    destruct k; destruct (poly e) eqn:P; cbn [same_kind]; cbn [map fold_right turns mk fst end_own end_s end_c] in *;
      unfold go_s, go_c; rewrite P; rewrite <- IH; cbn [mk turns fst]; lia.
Qed.
Lemma winding_s : forall l, winding Subject (map mk l) = end_s 0 (map fst l).
Proof. intros l. exact (winding_end Subject l 0%Z). Qed.
Lemma winding_c : forall l, winding Clip (map mk l) = end_c 0 (map fst l).
Proof. intros l. exact (winding_end Clip l 0%Z). Qed.

Lemma border_light : forall j k s c d,
  xorb (combine (op j) (inside (subj_fill j) s) (inside (clip_fill j) c))
       (combine (op j) (inside (subj_fill j) (match k with Subject => s + d | Clip => s end))
                       (inside (clip_fill j) (match k with Subject => c | Clip => c + d end)))%Z
  = lit j k (w_of k s c) (v_of k s c) d.
Proof.
  intros j k s c d. unfold lit, eff. destruct k; cbn [w_of v_of own_fill alt_fill].
  - destruct (inside (subj_fill j) s), (inside (subj_fill j) (s + d)%Z), (inside (clip_fill j) c), (op j); reflexivity.
  - destruct (inside (clip_fill j) c), (inside (clip_fill j) (c + d)%Z), (inside (subj_fill j) s), (op j); reflexivity.
Qed.

Lemma borders_light : forall j pre x post,
  borders j (map mk (pre ++ x :: post)) (length pre) =
  light j (end_s 0 (map fst pre)) (end_c 0 (map fst pre)) (fst x).
Proof.
  intros j pre x post. unfold borders.
  assert (E1 : firstn (length pre) (map mk (pre ++ x :: post)) = map mk pre).
  { rewrite firstn_map, firstn_app, Nat.sub_diag, firstn_all, app_nil_r. reflexivity. }
  assert (E2 : firstn (S (length pre)) (map mk (pre ++ x :: post)) = map mk (pre ++ [x])).
  { rewrite firstn_map. f_equal. change (pre ++ x :: post) with (pre ++ [x] ++ post).
    rewrite app_assoc. rewrite firstn_app, app_length. cbn [length].
    replace (S (length pre) - (length pre + 1)) with 0 by lia.
    rewrite app_nil_r. apply firstn_all2. rewrite app_length. cbn. lia. }
  rewrite E1, E2. unfold within. rewrite !winding_s, !winding_c. rewrite map_app, end_s_app, end_c_app.
  cbn [map end_s end_c]. unfold light, go_s, go_c. apply border_light.
Qed.
Lemma borders_light2 : forall j pre x y post,
  borders j (map mk (pre ++ x :: y :: post)) (S (length pre)) =
  light j (go_s (fst x) (end_s 0 (map fst pre))) (go_c (fst x) (end_c 0 (map fst pre))) (fst y).
Proof.
  intros j pre x y post.
  replace (pre ++ x :: y :: post) with ((pre ++ [x]) ++ y :: post) by (rewrite <- app_assoc; reflexivity).
  replace (S (length pre)) with (length (pre ++ [x])) by (rewrite app_length; cbn; lia).
  rewrite borders_light, map_app, end_s_app, end_c_app. reflexivity.
Qed.

(** ** The polygons *)
Lemma pens_one : forall pre x post, Permutation (pens (pre ++ x :: post)) (held x ++ pens (pre ++ post)).
Proof.
  intros. rewrite !pens_app, pens_cons, !app_assoc. apply Permutation_app_tail, Permutation_app_comm.
Qed.
Lemma pens_two : forall pre x y post,
  Permutation (pens (pre ++ x :: y :: post)) (held x ++ held y ++ pens (pre ++ post)).
Proof.
  intros. rewrite pens_one. apply Permutation_app_head, pens_one.
Qed.
Lemma held_drawn : forall e q i, out e = Some i -> held (e, q) = [(i, hand e, q)].
Proof. intros e q i H. unfold held. cbn [fst snd]. rewrite H. reflexivity. Qed.
Lemma held_none : forall e q, drawn e = false -> held (e, q) = [].
Proof. intros e q H. unfold held. cbn [fst]. unfold drawn in H. destruct (out e); [discriminate|reflexivity]. Qed.
Lemma drawn_some : forall e, drawn e = true -> exists i, out e = Some i.
Proof. intros e H. unfold drawn in H. destruct (out e) as [i|]; [exists i; reflexivity|discriminate]. Qed.
Lemma drawn_none : forall e, drawn e = false -> out e = None.
Proof. intros e H. unfold drawn in H. destruct (out e); [discriminate|reflexivity]. Qed.
Lemma like_mk : forall e f q, like f e -> mk (f, q) = mk (e, q).
Proof. intros e f q (P & D & _). unfold mk. cbn [fst snd]. rewrite P, D. reflexivity. Qed.

Lemma perform_inv : forall a o e1 e2 q1 q2 p b a1 a2 pre post ps,
  fits a (drawn e1) (drawn e2) a1 a2 ->
  inv (pens (pre ++ (e1, q1) :: (e2, q2) :: post)) o ps ->
  let '(o', f1, f2, h) := perform a o e1 e2 p b in
  let c := corner (drawn e1) (drawn e2) a1 a2 in
  exists l',
    map fst l' = handing h (map fst pre ++ f2 :: f1 :: map fst post) /\
    map mk l' = map mk (pre ++ (e2, if c then p else q2) :: (e1, if c then p else q1) :: post) /\
    inv (pens l') o' (if c then piece (drawn e1) (mk (e1, q1)) p ++ piece (drawn e2) (mk (e2, q2)) p ++ ps else ps).
Proof.
  intros a o e1 e2 q1 q2 p b a1 a2 pre post ps F H.
  apply (inv_perm _ _ _ _ (pens_two pre (e1, q1) (e2, q2) post)) in H.
  set (rest := pens (pre ++ post)) in *.
  assert (MK : forall f1 f2 z1 z2, like f1 e1 -> like f2 e2 ->
            map mk (pre ++ (f2, z2) :: (f1, z1) :: post) = map mk (pre ++ (e2, z2) :: (e1, z1) :: post)).
  { intros f1 f2 z1 z2 L1 L2. rewrite !map_app. cbn [map].
    rewrite (like_mk e2 f2 z2 L2), (like_mk e1 f1 z1 L1). reflexivity. }
  assert (FS : forall f1 f2 z1 z2,
            map fst (pre ++ (f2, z2) :: (f1, z1) :: post) = map fst pre ++ f2 :: f1 :: map fst post).
  { intros. rewrite map_app. reflexivity. }
  assert (PN : forall f1 f2 z1 z2,
            Permutation (held (f1, z1) ++ held (f2, z2) ++ rest) (pens (pre ++ (f2, z2) :: (f1, z1) :: post))).
  { intros. rewrite pens_two. fold rest. rewrite !app_assoc. apply Permutation_app_tail, Permutation_app_comm. }
  destruct a; cbn [fits] in F; cbn [perform].
  - (* nothing *)
    destruct F as (-> & -> & F).
    assert (corner (drawn e1) (drawn e2) (drawn e1) (drawn e2) = false) as ->.
    { unfold corner. rewrite F, !eqb_reflx. reflexivity. }
    exists (pre ++ (e2, q2) :: (e1, q1) :: post). cbn [handing]. split; [apply FS|]. split; [reflexivity|].
    exact (inv_perm _ _ _ _ (PN e1 e2 q1 q2) H).
  - (* sides *)
    destruct F as (D1 & D2 & -> & ->). rewrite D1, D2. cbn [swap_sides corner andb eqb negb orb handing].
    exists (pre ++ (set_hand e2 (hand e1), q2) :: (set_hand e1 (hand e2), q1) :: post).
    split; [apply FS|]. split; [apply MK; repeat split|].
    refine (inv_perm _ _ _ _ (PN _ _ _ _) _).
    rewrite (held_none e1 q1 D1), (held_none e2 q2 D2) in H.
    rewrite (held_none (set_hand e1 (hand e2)) q1 D1), (held_none (set_hand e2 (hand e1)) q2 D2). exact H.
  - (* opens *)
    destruct F as (D1 & D2 & -> & ->).
    pose proof (local_min_keeps o e1 e2 p b) as HL.
    rewrite D1, D2. cbn [corner andb eqb negb orb handing piece app].
    rewrite (held_none e1 q1 D1), (held_none e2 q2 D2) in H. cbn [app] in H.
    apply drawn_none in D1. apply drawn_none in D2. apply (inv_open _ _ _ p) in H.
    unfold local_min, add_out in *. rewrite ?D1, ?D2 in *.
    destruct b; cbn [out set_out set_hand handing] in *; destruct HL as (L1 & L2 & _);
      (eexists (pre ++ (_, p) :: (_, p) :: post); split; [apply FS|]; split; [apply MK; assumption|];
       refine (inv_perm _ _ _ _ (PN _ _ _ _) _)); cbn [held fst snd out set_out set_hand hand app].
    + exact H.
    + refine (inv_perm _ _ _ _ _ H). apply perm_swap.
  - (* closes *)
    destruct F as (D1 & D2 & -> & ->).
    pose proof (local_max_keeps o e1 e2 p D1 D2) as HL. rewrite D1, D2.
    destruct (drawn_some e1 D1) as [i O1]. destruct (drawn_some e2 D2) as [k O2].
    rewrite (held_drawn e1 q1 i O1), (held_drawn e2 q2 k O2) in H. cbn [app] in H.
    cbn [corner andb eqb negb orb handing piece app].
    destruct (local_max o e1 e2 p) as [[[o' f1] f2] h] eqn:EM.
    destruct HL as (L1 & L2 & N1 & N2).
    assert (HR : rest = pens (pre ++ (f2, p) :: (f1, p) :: post) \/
                 Permutation rest (pens (pre ++ (f2, p) :: (f1, p) :: post))).
    { right. pose proof (PN f1 f2 p p) as HP. rewrite (held_none f1 p N1), (held_none f2 p N2) in HP. exact HP. }
    destruct HR as [HR|HR]; [rewrite HR in H|].
    + pose proof (local_max_inv o e1 e2 q1 q2 p _ ps i k O1 O2 H) as HM. rewrite EM in HM.
      destruct HM as (l' & M1 & M2 & M3). exists l'. rewrite FS in M1. split; [exact M1|].
      split; [rewrite M2; apply MK; assumption|exact M3].
    + assert (H' : inv ((i, hand e1, q1) :: (k, hand e2, q2) :: pens (pre ++ (f2, p) :: (f1, p) :: post)) o ps).
      { refine (inv_perm _ _ _ _ _ H). apply perm_skip, perm_skip, HR. }
      pose proof (local_max_inv o e1 e2 q1 q2 p _ ps i k O1 O2 H') as HM. rewrite EM in HM.
      destruct HM as (l' & M1 & M2 & M3). exists l'. rewrite FS in M1. split; [exact M1|].
      split; [rewrite M2; apply MK; assumption|exact M3].
  - (* both *)
    destruct F as (D1 & D2 & -> & ->). rewrite D1, D2. cbn [corner andb orb piece app].
    destruct (drawn_some e1 D1) as [i O1]. destruct (drawn_some e2 D2) as [k O2].
    rewrite (held_drawn e1 q1 i O1), (held_drawn e2 q2 k O2) in H. cbn [app] in H.
    destruct (inv_draw _ _ _ _ _ _ p H) as (r & HR & _ & H1).
    rewrite (add_out_extended o e1 p i r O1 HR).
    apply (inv_perm _ _ _ _ (perm_swap _ _ _)) in H1.
    destruct (inv_draw _ _ _ _ _ _ p H1) as (r2 & HR2 & _ & H2).
    rewrite (add_out_extended _ e2 p k r2 O2 HR2). cbn [swap_both swap_sides swap_outs handing].
    eexists (pre ++ (_, p) :: (_, p) :: post). split; [apply FS|]. split; [apply MK; repeat split|].
    refine (inv_perm _ _ _ _ (PN _ _ _ _) _).
    unfold held. cbn [fst snd out hand set_out set_hand]. rewrite O1, O2. cbn [app].
    refine (inv_pieces _ _ _ _ _ H2). intros x y _.
    rewrite (times_cons x y _ (_ :: ps)), (times_cons x y _ ps).
    rewrite (times_cons x y (q2, p) ((q1, p) :: ps)), (times_cons x y (q1, p) ps).
    cbn [mk since snd]. lia.
  - (* pass 1 *)
    destruct F as (D1 & D2 & -> & ->). rewrite D1, D2. cbn [corner andb orb piece app eqb negb].
    destruct (drawn_some e1 D1) as [i O1]. rewrite (held_none e2 q2 D2) in H. apply drawn_none in D2.
    rewrite (held_drawn e1 q1 i O1) in H. cbn [app] in H.
    destruct (inv_draw _ _ _ _ _ _ p H) as (r & HR & _ & H1).
    rewrite (add_out_extended o e1 p i r O1 HR). cbn [swap_both swap_sides swap_outs handing].
    eexists (pre ++ (_, p) :: (_, p) :: post). split; [apply FS|]. split; [apply MK; repeat split|].
    refine (inv_perm _ _ _ _ (PN _ _ _ _) _).
    unfold held. cbn [fst snd out hand set_out set_hand]. rewrite O1, D2. cbn [app]. exact H1.
  - (* pass 2 *)
    destruct F as (D1 & D2 & -> & ->). rewrite D1, D2. cbn [corner andb orb piece app eqb negb].
    destruct (drawn_some e2 D2) as [k O2]. rewrite (held_none e1 q1 D1) in H. apply drawn_none in D1.
    rewrite (held_drawn e2 q2 k O2) in H. cbn [app] in H.
    destruct (inv_draw _ _ _ _ _ _ p H) as (r & HR & _ & H1).
    rewrite (add_out_extended o e2 p k r O2 HR). cbn [swap_both swap_sides swap_outs handing].
    eexists (pre ++ (_, p) :: (_, p) :: post). split; [apply FS|]. split; [apply MK; repeat split|].
    refine (inv_perm _ _ _ _ (PN _ _ _ _) _).
    unfold held. cbn [fst snd out hand set_out set_hand]. rewrite O2, D1. cbn [app]. exact H1.
Qed.

(** ** Events *)
Definition follows (j : job) (st : state) (v : survey) : Prop :=
  exists l, map fst l = ael st /\ map mk l = strands v /\ sounds j 0 0 (ael st) /\ inv (pens l) (polys st) (pieces v).

Lemma cut : forall (A : Type) n (l : list A) x r, skipn n l = x :: r ->
  exists pre, firstn n l = pre /\ length pre = n /\ l = pre ++ x :: r.
Proof.
  intros A n l x r H. exists (firstn n l). split; [reflexivity|]. split.
  - apply firstn_length_le. destruct (Nat.le_gt_cases n (length l)); [assumption|].
    rewrite skipn_all2 in H by lia. discriminate.
  - rewrite <- H. symmetry. apply firstn_skipn.
Qed.

Lemma cross_pens : forall j e1 e2 q1 q2 pre post, let '(g1, g2) := cross_counts j e1 e2 in
  pens (pre ++ (g1, q1) :: (g2, q2) :: post) = pens (pre ++ (e1, q1) :: (e2, q2) :: post).
Proof.
  intros. pose proof (cross_keeps j e1 e2) as H. destruct (cross_counts j e1 e2) as [g1 g2].
  destruct H as (_ & _ & O1 & H1 & _ & _ & O2 & H2). rewrite !pens_app, !pens_cons. unfold held.
  cbn [fst snd]. rewrite O1, H1, O2, H2. reflexivity.
Qed.

Lemma step_follows : forall j st v ev st', follows j st v -> step j st ev = Done st' ->
  follows j st' (advance j v ev).
Proof.
  intros j st v ev st' (l & HE & HS & HC & HI) H.
  pose proof (step_sounds j st ev HC) as HC'. rewrite H in HC'.
  destruct ev as [n k d p b|n p b|n p|n p b]; cbn [step] in H; unfold advance; rewrite <- HS.
  - (* minimum *)
    destruct (Nat.leb n (length (ael st))) eqn:EN; [|discriminate]. cbn [andb] in H.
    destruct ((d =? 1) || (d =? -1))%Z eqn:E; [|discriminate].
    assert (U : unit_step d).
    { apply orb_true_iff in E. destruct E as [E|E]; apply Z.eqb_eq in E; [left|right]; exact E. }
    injection H as <-. unfold insert_min in *.
    pose proof HC as HC2. rewrite <- (firstn_skipn n (ael st)) in HC2.
    pose proof (min_sounds j (firstn n (ael st)) (skipn n (ael st)) k d (polys st) p b LeftSide RightSide HC2 U) as HM.
    destruct (set_winding j (firstn n (ael st)) k d) as [c c2]. cbv zeta in HM.
    set (lb := Edge k d c c2 LeftSide None) in *. set (rb := Edge k (- d) c c2 RightSide None) in *.
    rewrite <- HE in *. rewrite firstn_map, skipn_map in *.
    assert (MK : forall f1 f2, like f1 lb -> like f2 rb ->
       map mk (firstn n l ++ (f1, p) :: (f2, p) :: skipn n l) =
       firstn n (map mk l) ++ Strand k d p :: Strand k (- d) p :: skipn n (map mk l)).
    { intros f1 f2 L1 L2. rewrite map_app. cbn [map]. rewrite (like_mk lb f1 p L1), (like_mk rb f2 p L2).
      rewrite firstn_map, skipn_map. reflexivity. }
    destruct (contributing j lb) eqn:EC.
    + destruct (local_min (polys st) lb rb p b) as [[o' f1] f2] eqn:EM.
      destruct HM as (_ & L1 & L2 & _).
      exists (firstn n l ++ (f1, p) :: (f2, p) :: skipn n l). cbn [ael polys strands pieces].
      split; [rewrite map_app; reflexivity|]. split; [apply MK; assumption|]. split; [exact HC'|].
      refine (inv_perm _ _ _ _ (Permutation_sym (pens_two _ _ _ _)) _). rewrite firstn_skipn.
      apply (inv_open _ _ _ p) in HI.
      unfold local_min, add_out in EM. destruct b; cbn in EM; injection EM as <- <- <-;
        unfold held; cbn [fst snd out hand set_out set_hand app].
      * exact HI.
      * refine (inv_perm _ _ _ _ _ HI). apply perm_swap.
    + destruct HM as (_ & L1 & L2 & _).
      exists (firstn n l ++ (lb, p) :: (rb, p) :: skipn n l). cbn [ael polys strands pieces].
      split; [rewrite map_app; reflexivity|]. split; [apply MK; apply like_refl|]. split; [exact HC'|].
      refine (inv_perm _ _ _ _ (Permutation_sym (pens_two _ _ _ _)) _). rewrite firstn_skipn. exact HI.
  - (* crossing *)
    rewrite <- HE in H. rewrite !firstn_map, !skipn_map in *.
    destruct (skipn n l) as [|[e1 q1] [|[e2 q2] post]] eqn:ES; try discriminate H.
    destruct (cut _ _ _ _ _ ES) as (pre & EF & EL & EQ). rewrite EF in *. clear EF ES. cbn [map fst] in H |- *.
    pose proof HC as HC2. rewrite <- HE, EQ, map_app in HC2. apply sounds_app in HC2. destruct HC2 as [_ HC2].
    cbn [map fst] in HC2.
    pose proof (intersect_sounds j (polys st) e1 e2 p b _ _ _ HC2) as HX.
    rewrite intersect_act in H, HX. pose proof (cross_keeps j e1 e2) as HK.
    pose proof (cross_pens j e1 e2 q1 q2 pre post) as HP.
    assert (B1 : borders j (map mk l) n = drawn e1).
    { rewrite EQ, <- EL, borders_light. symmetry. apply HC2. }
    assert (B2 : borders j (map mk l) (S n) = drawn e2).
    { rewrite EQ, <- EL, borders_light2. symmetry. apply HC2. }
    assert (A2 : borders j (map mk (pre ++ (e2, q2) :: (e1, q1) :: post)) n =
                 light j (end_s 0 (map fst pre)) (end_c 0 (map fst pre)) e2).
    { rewrite <- EL, borders_light. reflexivity. }
    assert (A1 : borders j (map mk (pre ++ (e2, q2) :: (e1, q1) :: post)) (S n) =
                 light j (go_s e2 (end_s 0 (map fst pre))) (go_c e2 (end_c 0 (map fst pre))) e1).
    { rewrite <- EL, borders_light2. reflexivity. }
    destruct HC2 as ([_ L1] & [_ L2] & _).
    destruct (cross_counts j e1 e2) as [g1 g2].
    destruct HK as (P1 & D1 & O1 & _ & P2 & D2 & O2 & _).
    assert (DR1 : drawn g1 = drawn e1) by (unfold drawn; rewrite O1; reflexivity).
    assert (DR2 : drawn g2 = drawn e2) by (unfold drawn; rewrite O2; reflexivity).
    assert (M1 : forall z, mk (g1, z) = mk (e1, z)) by (intros z; unfold mk; cbn [fst snd]; rewrite P1, D1; reflexivity).
    assert (M2 : forall z, mk (g2, z) = mk (e2, z)) by (intros z; unfold mk; cbn [fst snd]; rewrite P2, D2; reflexivity).
    set (a := decide j (drawn e1) (drawn e2) g1 g2) in *.
    assert (HF : fits a (drawn g1) (drawn g2)
                   (light j (go_s e2 (end_s 0 (map fst pre))) (go_c e2 (end_c 0 (map fst pre))) e1)
                   (light j (end_s 0 (map fst pre)) (end_c 0 (map fst pre)) e2)).
    { destruct (perform a (polys st) g1 g2 p b) as [[[o' f1] f2] h]. destruct HX as [_ HX].
      rewrite <- L1, <- L2 in HX. rewrite DR1, DR2. exact HX. }
    rewrite EQ, <- HP in HI.
    pose proof (perform_inv a (polys st) g1 g2 q1 q2 p b _ _ pre post (pieces v) HF HI) as HV.
    destruct (perform a (polys st) g1 g2 p b) as [[[o' f1] f2] h].
    injection H as <-. cbv zeta in HV. destruct HV as (l' & V1 & V2 & V3).
    change (map mk pre ++ mk (e2, q2) :: mk (e1, q1) :: map mk post) with
      (map mk pre ++ map mk ((e2, q2) :: (e1, q1) :: post)). rewrite <- map_app.
    rewrite B1, B2, A1, A2. rewrite DR1, DR2 in V2, V3. rewrite M1, M2 in V3.
    destruct (corner _ _ _ _).
    + exists l'. split; [exact V1|]. split; [|split; [exact HC'|exact V3]].
      rewrite V2, !map_app. cbn [map strands]. rewrite M1, M2. reflexivity.
    + exists l'. split; [exact V1|]. split; [|split; [exact HC'|exact V3]].
      rewrite V2, !map_app. cbn [map strands]. rewrite M1, M2. reflexivity.
  - (* vertex *)
    rewrite <- HE in H. rewrite !firstn_map, !skipn_map in *.
    destruct (skipn n l) as [|[e q] post] eqn:ES; try discriminate H.
    destruct (cut _ _ _ _ _ ES) as (pre & EF & EL & EQ). rewrite EF in *. clear EF ES. cbn [map fst] in H |- *.
    assert (B : borders j (map mk l) n = drawn e).
    { pose proof HC as HC2. rewrite <- HE, EQ, map_app in HC2. apply sounds_app in HC2. destruct HC2 as [_ HC2].
      rewrite EQ, <- EL, borders_light. symmetry. apply HC2. }
    rewrite B. destruct (drawn e) eqn:D.
    + destruct (drawn_some e D) as [i O]. rewrite EQ in HI.
      apply (inv_perm _ _ _ _ (pens_one _ _ _)) in HI. rewrite (held_drawn e q i O) in HI. cbn [app] in HI.
      destruct (inv_draw _ _ _ _ _ _ p HI) as (r & HR & _ & HD).
      rewrite (add_out_extended _ e p i r O HR) in H. injection H as <-.
      exists (pre ++ (e, p) :: post). cbn [ael polys strands pieces]. split; [rewrite map_app; reflexivity|].
      split; [rewrite map_app; reflexivity|]. split; [exact HC'|].
      refine (inv_perm _ _ _ _ (Permutation_sym (pens_one _ _ _)) _). rewrite (held_drawn e p i O). exact HD.
    + injection H as <-. exists l. auto.
  - (* maximum *)
    rewrite <- HE in H. rewrite !firstn_map, !skipn_map in *.
    destruct (skipn n l) as [|[e1 q1] [|[e2 q2] post]] eqn:ES; try discriminate H.
    destruct (cut _ _ _ _ _ ES) as (pre & EF & EL & EQ). rewrite EF in *. clear EF ES. cbn [map fst] in H |- *.
    pose proof HC as HC2. rewrite <- HE, EQ, map_app in HC2. apply sounds_app in HC2. destruct HC2 as [_ HC2].
    assert (B1 : borders j (map mk l) n = drawn e1).
    { rewrite EQ, <- EL, borders_light. symmetry. apply HC2. }
    assert (B2 : borders j (map mk l) (S n) = drawn e2).
    { rewrite EQ, <- EL, borders_light2. symmetry. apply HC2. }
    rewrite B1, B2.
    destruct (same_kind (poly e1) (poly e2)) eqn:K; [|discriminate H].
    destruct (delta e1 + delta e2 =? 0)%Z eqn:D; [|discriminate H]. cbn [andb] in H.
    rewrite EQ in HI. apply (inv_perm _ _ _ _ (pens_two _ _ _ _)) in HI.
    destruct (out e1) as [i|] eqn:O1; destruct (out e2) as [k|] eqn:O2; try discriminate H.
    + rewrite (held_drawn e1 q1 i O1), (held_drawn e2 q2 k O2) in HI. cbn [app] in HI.
      assert (D1 : drawn e1 = true) by (unfold drawn; rewrite O1; reflexivity).
      assert (D2 : drawn e2 = true) by (unfold drawn; rewrite O2; reflexivity).
      rewrite D1, D2. cbn [piece app mk since snd fst].
      destruct b.
      * pose proof (local_max_inv _ e1 e2 q1 q2 p _ _ i k O1 O2 HI) as HM.
        destruct (local_max (polys st) e1 e2 p) as [[[o' f1] f2] h]. injection H as <-.
        destruct HM as (l' & M1 & M2 & M3). exists l'. cbn [ael polys strands pieces].
        rewrite map_app in M1, M2. split; [exact M1|]. split; [exact M2|]. split; [exact HC'|exact M3].
      * apply (inv_perm _ _ _ _ (perm_swap _ _ _)) in HI.
        pose proof (local_max_inv _ e2 e1 q2 q1 p _ _ k i O2 O1 HI) as HM.
        destruct (local_max (polys st) e2 e1 p) as [[[o' f1] f2] h]. injection H as <-.
        destruct HM as (l' & M1 & M2 & M3). exists l'. cbn [ael polys strands pieces].
        rewrite map_app in M1, M2. split; [exact M1|]. split; [exact M2|]. split; [exact HC'|].
        refine (inv_pieces _ _ _ _ _ M3). intros x y _.
        rewrite (times_cons x y (q1, p) ((q2, p) :: pieces v)), (times_cons x y (q2, p) (pieces v)),
          (times_cons x y (q2, p) ((q1, p) :: pieces v)), (times_cons x y (q1, p) (pieces v)). lia.
    + injection H as <-.
      assert (D1 : drawn e1 = false) by (unfold drawn; rewrite O1; reflexivity).
      assert (D2 : drawn e2 = false) by (unfold drawn; rewrite O2; reflexivity).
      rewrite (held_none e1 q1 D1), (held_none e2 q2 D2) in HI. cbn [app] in HI.
      rewrite D1, D2. cbn [piece app].
      exists (pre ++ post). cbn [ael polys strands pieces]. rewrite !map_app.
      split; [reflexivity|]. split; [reflexivity|]. split; [exact HC'|exact HI].
Qed.

Lemma start_follows : forall j, follows j start (Survey [] []).
Proof.
  intros j. exists []. split; [reflexivity|]. split; [reflexivity|]. split; [exact I|].
  constructor.
  - intros i. cbn. lia.
  - intros i s q [].
  - intros [|i] r H; discriminate H.
  - intros p q _. reflexivity.
Qed.
Lemma sweep_follows : forall j evs st v st', follows j st v -> sweep j st evs = Done st' ->
  follows j st' (fold_left (advance j) evs v).
Proof.
  intros j evs. induction evs as [|ev evs IH]; intros st v st' HF H; cbn [sweep fold_left] in *.
  - injection H as <-. exact HF.
  - destruct (step j st ev) as [s| |] eqn:E; try discriminate H.
    apply (IH s); [|exact H]. apply (step_follows j st v ev s HF E).
Qed.
Lemma sweep_no_throw : forall j evs st, sounds j 0 0 (ael st) -> sweep j st evs <> Throws.
Proof.
  intros j evs. induction evs as [|ev evs IH]; intros st H; cbn [sweep]; [discriminate|].
  pose proof (step_sounds j st ev H) as HS. destruct (step j st ev) as [s| |]; [|discriminate|contradiction].
  apply IH. exact HS.
Qed.
