(** C37, C53, C38 for cells with RobustPaths. *)

From Coq Require Import Reals Lra Lia List ZArith Bool.
From Verif Require Import Graph SpecGraph Plane SpecPlane PlaneProofs Hier SpecHier HierProofs HierQuery PropQuery PropFlat
  Copy PropCopy Curve Engine Flex SpecFlex FlexProofs FlexMove Hobby Robust SpecRobust PropRobust PropRobustJoin RobustExample RobustMove PropRobustMove.
Import ListNotations.
Open Scope R_scope.

(** RobustPaths as the paths of a cell: get_polygons (path.py 1984-2166; nothing if
    it raises), [zip(layers, datatypes)], to_polygonset (path.py 2168-2191),
    transform and the assignment of layers and datatypes in Cell.flatten. *)
Definition robust_ops fuel hob eng : pathops robust :=
  PathOps (fun r => match snd (r_get fuel hob eng r) with Some d => d | None => [] end)
          (fun r => combine (r_layers r) (r_dts r)) (fun r => (r_len r =? 0)%nat) r_transform r_set_specs.

(** Sides that are straight, and meet at the joints or are parallel there. *)
Definition exact_joint (arm : Z) (s t : sub) : Prop :=
  let v0 := psub (s_at s 1 arm) (s_at s 0 arm) in let v1 := psub (s_at t 1 arm) (s_at t 0 arm) in
  s_at s 1 arm = s_at t 0 arm \/ (cross v0 v1) ^ 2 < tiny * len2 v0 * len2 v1.
Fixpoint exact_joints (arm : Z) (path : list sub) : Prop :=
  match path with
  | s :: ((t :: _) as rest) => exact_joint arm s t /\ exact_joints arm rest
  | _ => True
  end.
Definition straight_exact (path : list sub) : Prop :=
  forall arm, arm = (-1)%Z \/ arm = 1%Z -> (forall s, In s path -> straight_side s arm) /\ exact_joints arm path.
(** Paths that follow all placements that are reflected only if [b] and magnified
    only if [m]. *)
Definition end_follows (b m : bool) (en : cap) (path : list sub) : Prop :=
  match en with
  | Flush | CustomCap _ => True
  | Extended => b = false
  | Lengths _ _ => b = false /\ m = false
  | RoundCap | SmoothCap => b = false /\ m = false /\ match path with [] => True | s0 :: _ => moving s0 0 /\ moving (last path s0) 1 end
  end.
Section Place.
Variables (fuel : nat) (hob : pt * pt -> R * R -> pt * pt) (eng : op -> list zpath -> list zpath -> list zpath).
Hypothesis enough : (2 <= fuel)%nat.
Hypothesis smooth : smooth_follows hob.
Notation now := (r_now fuel hob eng). Notation uncut := (r_uncut fuel hob eng). Notation coherent := (r_coherent fuel hob eng).
Notation ops := (robust_ops fuel hob eng).

Definition shape_follows (b m : bool) (r : robust) : Prop :=
  forall en path, In (path, en) (combine (r_paths r) (r_ends r)) ->
    end_follows b m en path /\ (b = true -> forall s, In s path -> moving s 0 /\ moving s 1) /\ (m = true -> straight_exact path).
Definition robust_follows (b m : bool) (r : robust) : Prop := coherent r /\ uncut r /\ shape_follows b m r.
(** Those placements; elements of arrays that are also magnified are excluded. *)
Definition placed_as (b m : bool) (x : inst) : Prop :=
  factor (fst x) <> 0 /\ (p_refl (fst x) = true -> b = true) /\ (Rabs (factor (fst x)) <> 1 -> m = true) /\
  (factor (fst x) = 1 \/ match p_arr (fst x) with None => True | Some (_, _, sp) => (INR (fst (snd x)) * fst sp, INR (snd (snd x)) * snd sp) = (0, 0) end).

Lemma robust_polys r : coherent r -> po_polys ops r = match now r with Some d => d | None => [] end.
Proof.
  intro C. cbn [po_polys robust_ops]. unfold r_now. destruct (r_cache r) as [d|] eqn:E.
  - specialize (C d E). unfold r_now in C. rewrite C. unfold r_get. now rewrite E.
  - destruct r. cbn in E. subst. reflexivity.
Qed.
Lemma fresh_robust r : r_cache r = None -> coherent r.
Proof. intros E d H. congruence. Qed.
Lemma robust_content (g : pt -> pt) r q : coherent r -> coherent q -> now q = option_map (dict_map g) (now r) ->
  path_content ops q = map (fun sp => (fst sp, map g (snd sp))) (path_content ops r).
Proof.
  intros C C' E. unfold path_content. rewrite !robust_polys, E by assumption.
  destruct (now r) as [d|]; [|reflexivity]. cbn [option_map]. unfold dict_map. rewrite flat_map_map, map_flat_map.
  apply flat_map_ext. intros [s l]. cbn [fst snd]. rewrite !map_map. reflexivity.
Qed.
Lemma exact_fair k tol path : straight_exact path -> straight_robust k tol path.
Proof.
  intros S arm A. destruct (S arm A) as [S1 S2]. split; [exact S1|]. clear S S1. induction path as [|s [|e path] IH]; try exact I.
  destruct S2 as [J S2]. split; [|now apply IH]. destruct J as [J|J]; [now left|right; now left].
Qed.
(** The calls these placements make. *)
Lemma shape_carries b m org rot mag refl arr r : shape_follows b m r -> opt 1 mag <> 0 -> (refl = true -> b = true) -> (Rabs (opt 1 mag) <> 1 -> m = true) ->
  (opt 1 mag = 1 \/ opt (0, 0) arr = (0, 0)) -> carries (RTransform org rot mag refl arr) r.
Proof.
  intros S K B M A. split; [exact A|]. split; [cbn [grows]; now apply Rabs_pos_lt|]. intros en path I. destruct (S en path I) as (E & MV & ST). cbn [reflects grows].
  assert (B' : b = false -> refl = false) by (intros ->; destruct refl; [specialize (B eq_refl); discriminate|reflexivity]).
  assert (M' : m = false -> Rabs (opt 1 mag) = 1) by (intros ->; destruct (Req_dec (Rabs (opt 1 mag)) 1) as [X|X]; [exact X|specialize (M X); discriminate]).
  split; [|split].
  - unfold end_follows in E. unfold cap_follows. destruct en; tauto.
  - intros ->. apply MV. now apply B.
  - destruct (Req_dec (Rabs (opt 1 mag)) 1) as [X|X]; [now left|right]. apply exact_fair. apply ST. now apply M.
Qed.
(** ** The shape of a moved path *)
Section Moved.
Variables (rb : bool) (k t : R) (d : pt).
Hypothesis kpos : 0 < k.
Notation F := (rigid rb k t d).
Lemma side_moved s s' arm : moved_by F s s' -> straight_side s arm -> straight_side s' arm.
Proof.
  intros D (H & E & p & v & N & S). split; [|split].
  - now rewrite (moved_h _ _ _ D).
  - now rewrite (err_F rb k t d s s' D).
  - exists (F p), (lin rb k t v). split; [apply lin_zero; [lra|exact N]|]. intros u U. rewrite (moved_at _ _ _ D), (S u U), rigid_add, lin_smul. reflexivity.
Qed.
Lemma joint_moved s s' e e' arm : moved_by F s s' -> moved_by F e e' -> exact_joint arm s e -> exact_joint arm s' e'.
Proof.
  intros D E [J|J]; unfold exact_joint; cbv zeta; rewrite !(moved_at _ _ _ D), !(moved_at _ _ _ E).
  - left. now rewrite J.
  - right. rewrite !rigid_sub, L_cross, !lin_len2. cbv zeta in J.
    set (x := cross _ _) in *; set (y := len2 (psub (s_at s 1 arm) (s_at s 0 arm))) in *. set (z := len2 (psub (s_at e 1 arm) (s_at e 0 arm))) in *.
    replace ((sg rb * k ^ 2 * x) ^ 2) with (sg rb ^ 2 * (k ^ 4 * x ^ 2)) by ring. rewrite sg2.
    replace (tiny * (k ^ 2 * y) * (k ^ 2 * z)) with (k ^ 4 * (tiny * y * z)) by ring.
    rewrite Rmult_1_l. apply Rmult_lt_compat_l; [|exact J]. apply pow_lt. exact kpos.
Qed.
Lemma exact_moved path path' : Forall2 (moved_by F) path path' -> straight_exact path -> straight_exact path'.
Proof.
  intros P S arm A. destruct (S arm A) as [S1 S2]. split.
  - intros s' I. clear S2 S. induction P as [|s s0 path path' D P IH]; [destruct I|]. destruct I as [<-|I].
    + apply (side_moved s); [exact D|]. apply S1. now left.
    + apply IH; [|exact I]. intros x J. apply S1. now right.
  - clear S1 S. induction P as [|s s0 path path' D P IH]; [exact I|]. destruct P as [|e e0 rest rest' E P]; [exact I|].
    destruct S2 as [J S2]. split; [now apply (joint_moved s s0 e e0)|]. now apply IH.
Qed.
Lemma moving_moved s s' u : moved_by F s s' -> moving s u -> moving s' u.
Proof. intros D M arm A. rewrite (grad_F rb k t d s s' D). apply lin_zero; [lra|]. now apply M. Qed.
Lemma shape_moved b m r q : Forall2 (Forall2 (moved_by F)) (r_paths r) (r_paths q) -> r_ends q = r_ends r ->
  shape_follows b m r -> shape_follows b m q.
Proof.
  unfold shape_follows. intros P -> S. generalize dependent (r_ends r). generalize dependent (r_paths q). generalize dependent (r_paths r). clear r q.
  intros ps qs P. induction P as [|p p' ps qs H P IH]; intros es S en path I; [destruct I|].
  destruct es as [|e es]; [destruct I|]. cbn [combine] in *. destruct I as [X|I].
  - injection X as <- <-. destruct (S e p (or_introl eq_refl)) as (S1 & S2 & S3). split; [|split].
    + unfold end_follows in *. destruct e; auto.
      all: destruct S1 as (-> & -> & S1); repeat split; auto.
      all: destruct H as [|s s' l l' D H]; [exact I|]; destruct S1 as [M0 M1]; split; [now apply (moving_moved s)|].
      all: apply (moving_moved (last (s :: l) s)); [|exact M1].
      all: apply (last_moved rb k t d (s :: l) (s' :: l') s s'); [now constructor|exact D].
    + intros B s' J. specialize (S2 B). clear S1 S3 S. induction H as [|x x' l l' D H IHH]; [destruct J|]. destruct J as [<-|J].
      * destruct (S2 x (or_introl eq_refl)) as [M0 M1]. split; now apply (moving_moved x).
      * apply IHH; [|exact J]. intros y K. apply S2. now right.
    + intro M. apply (exact_moved p); auto.
  - apply (IH es); [|exact I]. intros en0 path0 J. apply S. now right.
Qed.
End Moved.
Lemma transform_follows b m (org : option pt) rot mag refl (arr : option pt) r : uncut r -> shape_follows b m r -> opt 1 mag <> 0 -> (refl = true -> b = true) ->
  (Rabs (opt 1 mag) <> 1 -> m = true) -> (opt 1 mag = 1 \/ opt (0, 0) arr = (0, 0)) ->
  robust_follows b m (r_transform org rot mag refl arr r) /\
  now (r_transform org rot mag refl arr r) = option_map (dict_map (moves (RTransform org rot mag refl arr))) (now r).
Proof.
  intros U S K B M A. set (c := RTransform org rot mag refl arr). set (q := r_transform org rot mag refl arr r).
  assert (CA : forall r', r_paths r' = r_paths r -> r_ends r' = r_ends r -> carries c r').
  { intros r' E1 E2. apply (shape_carries b m); auto. unfold shape_follows. rewrite E1, E2. exact S. }
  assert (D : do_rcall fuel hob eng c r = Some q) by reflexivity.
  destruct (transform_rest org rot mag refl arr r) as (E1 & E2 & E3 & E4 & E5 & E6 & E7). fold q in E1, E2, E3, E4, E5, E6, E7.
  split.
  - split; [now apply fresh_robust|]. split.
    + destruct U as [U|U]; [left; now rewrite E5|right]. rewrite E5. intros d s l p G I J.
      assert (Y : r_no_limit q = r_transform org rot mag refl arr (r_no_limit r)) by (unfold q, r_transform; destruct arr, refl, mag, rot, org; reflexivity).
      rewrite Y in G. rewrite (C37_robustpath fuel hob eng c (r_no_limit r) _ enough smooth eq_refl (CA (r_no_limit r) eq_refl eq_refl)) in G; [|left; cbn; lia|reflexivity].
      destruct (now (r_no_limit r)) as [e|] eqn:N; [|discriminate]. cbn [option_map] in G.
      assert (G' : dict_map (moves c) e = d) by congruence. subst d. unfold dict_map in I. apply in_map_iff in I as ([s' l'] & Q & I).
      cbn [fst snd] in Q. injection Q as <- <-. apply in_map_iff in J as (p' & <- & J). rewrite map_length. apply (U e s' l' p'); auto.
    + destruct (call_by fuel hob eng c r q A D) as [P _]. destruct (moves_rigid c A eq_refl) as (t & d & MR).
      assert (K' : 0 < grows c) by now apply Rabs_pos_lt.
      apply (shape_moved (reflects c) (grows c) t d K' b m r q); [|exact E1|exact S].
      clear - P MR. induction P as [|x y l l' H P IH]; constructor; auto. clear - H MR. induction H; constructor; auto. eapply moved_ext; [exact MR|assumption].
  - apply (C37_robustpath fuel hob eng c r q enough smooth eq_refl (CA r eq_refl eq_refl) U D).
Qed.

(** Placing a path that follows places its polygons, for references and array
    elements, and the placed path follows again. *)
Theorem C37_robust_follow : forall b m, paths_follow ops (robust_follows b m) (placed_as b m).
Proof.
  intros b m r x (C & U & S) (K & B & M & A). destruct x as [pl ij] eqn:Ex. rewrite <- Ex. cbn [fst snd] in *.
  set (arr := match p_arr pl with None => None | Some (_, _, sp) => Some (fst sp * INR (fst ij), snd sp * INR (snd ij)) end).
  assert (E : path_moved ops [x] r = r_transform (p_org pl) (rads (p_rot pl)) (p_mag pl) (p_refl pl) arr r).
  { rewrite Ex. unfold path_moved. cbn [fold_right fst snd po_move robust_ops]. fold arr. destruct (p_arr pl) as [[[n m'] sp]|]; reflexivity. }
  assert (F : opt 1 (p_mag pl) = factor pl) by reflexivity.
  assert (AR : opt 1 (p_mag pl) = 1 \/ opt (0, 0) arr = (0, 0)).
  { rewrite F. destruct A as [A|A]; [now left|right]. unfold arr. destruct (p_arr pl) as [[[n m'] sp]|]; [|reflexivity]. cbn [opt].
    injection A as A1 A2. f_equal; lra. }
  destruct (transform_follows b m (p_org pl) (rads (p_rot pl)) (p_mag pl) (p_refl pl) arr r U S K B M AR) as [FO NO].
  rewrite E. split; [exact FO|].
  rewrite (robust_content _ r _ C (proj1 FO) NO). apply map_ext. intros [sp p]. unfold place_poly. cbn [fst snd]. f_equal. apply map_ext. intro q.
  unfold chain_map. cbn [fold_right]. rewrite Ex. cbn [moves].
  assert (AN : opt 0 (rads (p_rot pl)) = angle pl) by (unfold angle, rads; destruct (p_rot pl); reflexivity).
  assert (OR : opt (0, 0) (p_org pl) = origin pl) by reflexivity.
  rewrite AN, F, OR. unfold inst_map, arr, element. destruct (p_arr pl) as [[[n m'] sp']|]; cbn [opt];
    apply pt_eq; unfold rigid, similar, turn, padd, smul, flip; destruct (p_refl pl); cbn [fst snd]; ring.
Qed.
(** So for every chain of placements. *)
Theorem C37_robust_chain : forall b m ch r, robust_follows b m r -> (forall x, In x ch -> placed_as b m x) ->
  robust_follows b m (path_moved ops ch r) /\ path_content ops (path_moved ops ch r) = map (place_poly ch) (path_content ops r).
Proof.
  intros b m ch r F. induction ch as [|x ch IH]; intro U.
  - split; [exact F|]. change (path_moved ops [] r) with r. rewrite <- (map_id (path_content ops r)) at 1. apply map_ext. intros [s p]. unfold place_poly. cbn [fst snd].
    f_equal. rewrite <- (map_id p) at 1. apply map_ext. reflexivity.
  - destruct IH as [A B]; [intros y I; apply U; now right|].
    destruct (C37_robust_follow b m (path_moved ops ch r) x A (U x (or_introl eq_refl))) as [A' B'].
    split; [exact A'|]. change (path_moved ops (x :: ch) r) with (path_moved ops [x] (path_moved ops ch r)). rewrite B', B, map_map.
    apply map_ext. intros [s p]. unfold place_poly. cbn [fst snd]. f_equal. rewrite map_map. apply map_ext. reflexivity.
Qed.
(** The paths returned by get_paths have the polygons that get_polygons shows for
    them. *)
Theorem C37_robust_paths : forall b m (h : heap place (stuff robust)) c L, defined_at h c -> expansion h c L ->
  holds h L (robust_follows b m) (placed_as b m) ->
  exists ps, paths_fuel ops h (S (h_ncell h)) None c = Some ps /\
    flat_map (path_content ops) ps =
    flat_map (fun ec => map (place_poly (snd ec)) (flat_map (path_content ops) (s_paths (stuff_of h (fst ec))))) L.
Proof.
  intros b m h c L D X H. eexists. split; [apply (C55_paths ops h c None L D X)|].
  replace (filter (in_depth None) L) with L.
  - assert (G : forall M, incl M L -> flat_map (path_content ops) (flat_map (fun ec => map (path_moved ops (snd ec)) (s_paths (stuff_of h (fst ec)))) M) =
      flat_map (fun ec => map (place_poly (snd ec)) (flat_map (path_content ops) (s_paths (stuff_of h (fst ec))))) M).
    { induction M as [|[e ch] M IH]; intro I; [reflexivity|]. cbn [flat_map fst snd]. rewrite flat_map_app, IH by (intros y J; apply I; now right).
      f_equal. destruct (H e ch (I _ (or_introl eq_refl))) as [HP HX]. rewrite flat_map_map, map_flat_map.
      induction (s_paths (stuff_of h e)) as [|p ps IHp]; [reflexivity|]. cbn [flat_map].
      rewrite (proj2 (C37_robust_chain b m ch p (HP p (or_introl eq_refl)) HX)). f_equal. apply IHp. intros q J. apply HP. now right. }
    apply G. intros x I. exact I.
  - clear. induction L as [|[e [|x ch]] L IH]; [reflexivity| |]; cbn [filter]; unfold in_depth at 1; cbn [snd]; now rewrite <- IH.
Qed.

(** C53: gdspy.copy of a RobustPath, operation.py 302-332: a deep copy, translated
    unless both displacements are zero. *)
Definition copy_robust (v : pt) (r : robust) : option robust := copy_translated (fun v r => Some (r_translate v r)) v r.
Theorem C53_robustpath : forall v r, coherent r -> uncut r -> shape_follows false false r ->
  exists q, copy_robust v r = Some q /\
    path_content ops q = map (fun sp => (fst sp, map (shift v) (snd sp))) (path_content ops r).
Proof.
  intros v r C U S. unfold copy_robust. destruct (copied_cases (fun v r => Some (r_translate v r)) v r) as [[-> ->]| ->].
  - exists r. split; [reflexivity|]. rewrite <- (map_id (path_content ops r)) at 1. apply map_ext. intros [s p]. cbn [fst snd]. f_equal.
    rewrite <- (map_id p) at 1. apply map_ext. intros [x y]. unfold shift; cbn. f_equal; ring.
  - exists (r_translate v r). split; [reflexivity|].
    rewrite (robust_content (moves (RTranslate v)) r (r_translate v r) C).
    + reflexivity.
    + now apply fresh_robust.
    + apply (C37_robustpath fuel hob eng (RTranslate v) r); auto. split; [reflexivity|]. split; [cbn; lra|]. intros en path I.
      destruct (S en path I) as (E & _ & _). cbn [reflects grows]. split; [|split; [discriminate|now left]].
      unfold end_follows in E. unfold cap_follows. destruct en; tauto.
Qed.
(** C38: what Cell.copy asks of paths. *)
Theorem C38_robustpaths : forall b mg mo r, robust_follows b mg r -> (m_x mo = true -> b = true) -> (Rabs (ms mo) <> 1 -> mg = true) -> ms mo <> 0 ->
  path_content ops (po_move ops (m_v mo) (m_t mo) (m_s mo) (m_x mo) None r) = map (move_poly mo) (path_content ops r).
Proof.
  intros b mg mo r (C & U & S) X M K. change (po_move ops (m_v mo) (m_t mo) (m_s mo) (m_x mo) None r) with (r_transform (m_v mo) (m_t mo) (m_s mo) (m_x mo) None r).
  destruct (transform_follows b mg (m_v mo) (m_t mo) (m_s mo) (m_x mo) None r U S K X M (or_intror eq_refl)) as [FO NO].
  rewrite (robust_content _ r _ C (proj1 FO) NO). apply map_ext. intros [s p]. unfold move_poly. cbn [fst snd]. f_equal. apply map_ext. intro q.
  unfold motion_map. cbn [moves]. change (opt 0 (m_t mo)) with (mt mo). change (opt 1 (m_s mo)) with (ms mo). change (opt (0, 0) (m_v mo)) with (mv mo).
  apply pt_eq; unfold rigid, similar, turn, padd, smul, flip; destruct (m_x mo); cbn [fst snd opt]; ring.
Qed.
End Place.
Print Assumptions C37_robust_follow.
Print Assumptions C37_robust_chain.
Print Assumptions C37_robust_paths.
Print Assumptions C53_robustpath.
Print Assumptions C38_robustpaths.
