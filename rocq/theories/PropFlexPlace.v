(** C37, C53, C38, C21 for cells with FlexPaths; what transform gets wrong. *)

From Coq Require Import Reals Lra Lia List ZArith Bool.
From Verif Require Import Graph SpecGraph Plane SpecPlane PlaneProofs Hier SpecHier HierProofs HierQuery PropQuery PropFlat
  Copy PropCopy Curve Engine Flex SpecFlex FlexProofs FlexMove PropFlexMove.
Import ListNotations.
Open Scope R_scope.

(** FlexPaths as the paths of a cell: get_polygons (path.py 380-916; nothing if it
    raises), [zip(layers, datatypes)], to_polygonset (path.py 918-941), transform
    and the assignment of layers and datatypes in Cell.flatten. *)
Definition flex_ops fuel hob eng : pathops flex :=
  PathOps (fun f => match snd (f_get fuel hob eng f) with Some d => d | None => [] end)
          (fun f => combine (f_layers f) (f_dts f)) (fun f => (length (f_pts f) <? 2)%nat) f_transform set_specs.

Section Place.
Variables (fuel : nat) (hob : pt * pt -> R * R -> pt * pt) (eng : op -> list zpath -> list zpath -> list zpath).
Hypothesis enough : (2 <= fuel)%nat.
Notation now := (now fuel hob eng). Notation uncut := (uncut fuel hob eng). Notation coherent := (coherent fuel hob eng).
Notation ops := (flex_ops fuel hob eng).

(** Paths that follow placements, and those placements. *)
Definition follows (f : flex) : Prop := straight_path f /\ no_lengths f /\ scaled_widths f /\ uncut f /\ coherent f.
Definition unreflected (x : inst) : Prop := p_refl (fst x) = false /\ 0 < factor (fst x).

Lemma coherent_polys f : coherent f -> po_polys ops f = match now f with Some d => d | None => [] end.
Proof.
  intro C. cbn [po_polys flex_ops]. unfold SpecFlex.now. destruct (f_cache f) as [d|] eqn:E.
  - specialize (C d E). unfold SpecFlex.now in C. rewrite C. unfold f_get. now rewrite E.
  - destruct f. cbn in E. subst. reflexivity.
Qed.
Lemma fresh_coherent f : f_cache f = None -> coherent f.
Proof. intros E d H. congruence. Qed.
Lemma content_map g f f' : coherent f -> coherent f' -> now f' = option_map (dict_map g) (now f) ->
  path_content ops f' = map (fun sp => (fst sp, map g (snd sp))) (path_content ops f).
Proof.
  intros C C' E. unfold path_content. rewrite !coherent_polys, E by assumption.
  destruct (now f) as [d|]; [|reflexivity]. cbn [option_map]. unfold dict_map. rewrite flat_map_map, map_flat_map.
  apply flat_map_ext. intros [s l]. cbn [fst snd]. rewrite !map_map. reflexivity.
Qed.
Lemma transform_uncut org rot mag arr f : 0 < given_r 1 mag -> straight_path f -> uncut f ->
  given_r 1 mag = 1 \/ no_lengths f /\ scaled_widths f -> uncut (f_transform org rot mag false arr f).
Proof.
  intros K S U W. destruct U as [M|U].
  - left. unfold f_transform. destruct mag; exact M.
  - right. intros d s l p G I J. assert (X : f_max (f_transform org rot mag false arr f) = f_max f) by (unfold f_transform; destruct mag; reflexivity).
    rewrite X. assert (Y : no_limit (f_transform org rot mag false arr f) = f_transform org rot mag false arr (no_limit f)) by (unfold f_transform; destruct mag; reflexivity).
    rewrite Y in G. change (snd (f_get fuel hob eng (f_transform org rot mag false arr (no_limit f))) = Some d) in G.
    assert (Z : now (f_transform org rot mag false arr (no_limit f)) = snd (f_get fuel hob eng (f_transform org rot mag false arr (no_limit f)))).
    { unfold SpecFlex.now. unfold f_transform at 1 2. destruct mag; reflexivity. }
    rewrite <- Z in G. rewrite (C37_transform fuel hob eng enough) in G; auto; [|now left; cbn; lia].
    destruct (now (no_limit f)) as [e|] eqn:N; [|discriminate]. cbn [option_map] in G.
    assert (G' : dict_map (similar (padd (given org) (turn (given_r 0 rot) (given arr))) (given_r 0 rot) (given_r 1 mag) false) e = d) by congruence.
    subst d. unfold dict_map in I. apply in_map_iff in I as ([s' l'] & Q & I). cbn [fst snd] in Q. injection Q as <- <-.
    apply in_map_iff in J as (p' & <- & J). rewrite map_length. apply (U e s' l' p'); auto.
Qed.

(** C37: placing a path that follows places its polygons, for references and array
    elements, and the placed path follows again. *)
Theorem C37_follow : paths_follow ops follows unreflected.
Proof.
  intros f x (S & NL & SW & U & C) [NR K]. destruct x as [pl ij] eqn:Ex. rewrite <- Ex. cbn [fst] in *.
  set (arr := match p_arr pl with None => None | Some (_, _, sp) => Some (fst sp * INR (fst ij), snd sp * INR (snd ij)) end).
  assert (E : path_moved ops [x] f = f_transform (p_org pl) (rads (p_rot pl)) (p_mag pl) false arr f).
  { rewrite Ex. unfold path_moved. cbn [fold_right fst snd po_move flex_ops]. rewrite NR. fold arr. destruct (p_arr pl) as [[[n m] sp]|]; reflexivity. }
  assert (F : given_r 1 (p_mag pl) = factor pl) by reflexivity.
  assert (C' : coherent (f_transform (p_org pl) (rads (p_rot pl)) (p_mag pl) false arr f)).
  { apply fresh_coherent. unfold f_transform. destruct (p_mag pl); reflexivity. }
  rewrite E. split.
  - split; [|split; [|split; [|split]]].
    + unfold straight_path. replace (f_corners _) with (f_corners f) by (unfold f_transform; destruct (p_mag pl); reflexivity).
      replace (f_ends _) with (f_ends f) by (unfold f_transform; destruct (p_mag pl); reflexivity). exact S.
    + unfold no_lengths. replace (f_ends _) with (f_ends f) by (unfold f_transform; destruct (p_mag pl); reflexivity). exact NL.
    + unfold scaled_widths. replace (f_wt _) with (f_wt f) by (unfold f_transform; destruct (p_mag pl); reflexivity).
      replace (f_gds _) with (f_gds f) by (unfold f_transform; destruct (p_mag pl); reflexivity). exact SW.
    + apply transform_uncut; auto.
    + exact C'.
  - pose proof (C37_transform fuel hob eng enough (p_org pl) (rads (p_rot pl)) (p_mag pl) arr f K S U (or_intror (conj NL SW))) as T.
    rewrite (content_map _ f _ C C' T). apply map_ext. intros [sp p]. unfold place_poly. cbn [fst snd]. f_equal. apply map_ext. intro q.
    unfold chain_map. cbn [fold_right]. rewrite Ex. cbn [inst_map fst snd].
    assert (A : given_r 0 (rads (p_rot pl)) = angle pl) by (unfold angle, rads; destruct (p_rot pl); reflexivity).
    rewrite A, F. unfold inst_map, arr, element, given, origin. rewrite NR. destruct (p_arr pl) as [[[n m] sp']|]; [|].
    + f_equal. f_equal. unfold flip. f_equal. cbn [fst snd]. f_equal; ring.
    + apply pt_eq; unfold similar, turn, padd; cbn [fst snd]; ring.
Qed.
(** So for every chain of placements. *)
Theorem C37_chain : forall ch f, follows f -> (forall x, In x ch -> unreflected x) ->
  follows (path_moved ops ch f) /\ path_content ops (path_moved ops ch f) = map (place_poly ch) (path_content ops f).
Proof.
  intros ch f F. induction ch as [|x ch IH]; intro U.
  - split; [exact F|]. change (path_moved ops [] f) with f. rewrite <- (map_id (path_content ops f)) at 1. apply map_ext. intros [s p]. unfold place_poly. cbn [fst snd].
    f_equal. rewrite <- (map_id p) at 1. apply map_ext. reflexivity.
  - destruct IH as [A B]; [intros y I; apply U; now right|].
    destruct (C37_follow (path_moved ops ch f) x A (U x (or_introl eq_refl))) as [A' B'].
    split; [exact A'|]. change (path_moved ops (x :: ch) f) with (path_moved ops [x] (path_moved ops ch f)). rewrite B', B, map_map.
    apply map_ext. intros [s p]. unfold place_poly. cbn [fst snd]. f_equal. rewrite map_map. apply map_ext. reflexivity.
Qed.
(** The paths returned by get_paths have the polygons that get_polygons shows for
    them: those of the cell's own and all referenced paths, each in its place. *)
Theorem C37_get_paths : forall (h : heap place (stuff flex)) c L, defined_at h c -> expansion h c L ->
  holds h L follows unreflected ->
  exists ps, paths_fuel ops h (S (h_ncell h)) None c = Some ps /\
    flat_map (path_content ops) ps =
    flat_map (fun ec => map (place_poly (snd ec)) (flat_map (path_content ops) (s_paths (stuff_of h (fst ec))))) L.
Proof.
  intros h c L D X H. eexists. split; [apply (C55_paths ops h c None L D X)|].
  replace (filter (in_depth None) L) with L.
  - assert (G : forall M, incl M L -> flat_map (path_content ops) (flat_map (fun ec => map (path_moved ops (snd ec)) (s_paths (stuff_of h (fst ec)))) M) =
      flat_map (fun ec => map (place_poly (snd ec)) (flat_map (path_content ops) (s_paths (stuff_of h (fst ec))))) M).
    { induction M as [|[e ch] M IH]; intro I; [reflexivity|]. cbn [flat_map fst snd]. rewrite flat_map_app, IH by (intros y J; apply I; now right).
      f_equal. destruct (H e ch (I _ (or_introl eq_refl))) as [HP HX]. rewrite flat_map_map, map_flat_map.
      induction (s_paths (stuff_of h e)) as [|p ps IHp]; [reflexivity|]. cbn [flat_map].
      rewrite (proj2 (C37_chain ch p (HP p (or_introl eq_refl)) HX)). f_equal. apply IHp. intros q J. apply HP. now right. }
    apply G. intros x I. exact I.
  - clear. induction L as [|[e [|x ch]] L IH]; [reflexivity| |]; cbn [filter]; unfold in_depth at 1; cbn [snd]; now rewrite <- IH.
Qed.

(** C53: gdspy.copy of a FlexPath, operation.py 302-332: a deep copy, translated
    unless both displacements are zero. *)
Definition copy_flex (v : pt) (f : flex) : option flex := copy_translated (fun v f => Some (f_translate v f)) v f.
Theorem C53_flexpath : forall v f, (forall p q a, hob (sh v p, sh v q) a = sh2 v (hob (p, q) a)) ->
  (forall c, In c (f_corners f) -> corner_moves v c) -> (forall e, In e (f_ends f) -> cap_moves v e) -> uncut f -> coherent f ->
  exists g, copy_flex v f = Some g /\
    path_content ops g = map (fun sp => (fst sp, map (shift v) (snd sp))) (path_content ops f).
Proof.
  intros v f Hh HC HE U C. unfold copy_flex. destruct (copied_cases (fun v f => Some (f_translate v f)) v f) as [[-> ->]| ->].
  - exists f. split; [reflexivity|]. rewrite <- (map_id (path_content ops f)) at 1. apply map_ext. intros [s p]. cbn [fst snd]. f_equal.
    rewrite <- (map_id p) at 1. apply map_ext. intros [x y]. unfold shift; cbn. f_equal; ring.
  - exists (f_translate v f). split; [reflexivity|].
    rewrite (content_map (fun p => padd p v) f (f_translate v f) C).
    + reflexivity.
    + now apply fresh_coherent.
    + now apply C37_translate.
Qed.
(** C38: what Cell.copy asks of paths. *)
Theorem C38_flexpaths : forall m f, follows f -> m_x m = false -> 0 < ms m ->
  path_content ops (po_move ops (m_v m) (m_t m) (m_s m) (m_x m) None f) = map (move_poly m) (path_content ops f).
Proof.
  intros m f (S & NL & SW & U & C) X K. cbn [po_move flex_ops]. rewrite X.
  assert (C' : coherent (f_transform (m_v m) (m_t m) (m_s m) false None f)) by (apply fresh_coherent; unfold f_transform; destruct (m_s m); reflexivity).
  rewrite (content_map _ f _ C C'
    (C37_transform fuel hob eng enough (m_v m) (m_t m) (m_s m) None f K S U (or_intror (conj NL SW)))).
  apply map_ext. intros [s p]. unfold move_poly. cbn [fst snd]. f_equal. apply map_ext. intro q. unfold motion_map. rewrite X.
  change (given_r 0 (m_t m)) with (mt m). change (given_r 1 (m_s m)) with (ms m). change (given (m_v m)) with (mv m).
  apply pt_eq; unfold similar, turn, given, padd; cbn [fst snd]; ring.
Qed.
End Place.

(** ** Examples, and what transform and scale get wrong *)

(** A horizontal path of one section, of width 2. *)
Definition bar (x o : R) (en : cap) : flex :=
  Flex 1 [(0, 0); (x, 0)] [[2]; [2]] [[o]; [o]] [en] [Miter] [None] [1%Z] [0%Z] (/ 100) (/ 1000) 0 false true None.
Lemma normal_right x0 x1 y : x0 < x1 -> normal (x0, y) (x1, y) = (0, 1).
Proof.
  intro L. unfold normal, len, len2, psub. cbn [fst snd]. replace ((x1 - x0) ^ 2 + (y - y) ^ 2) with ((x1 - x0) * (x1 - x0)) by ring.
  rewrite sqrt_square by lra. f_equal; field; lra.
Qed.
Lemma normal_left x0 x1 y : x1 < x0 -> normal (x0, y) (x1, y) = (0, -1).
Proof.
  intro L. unfold normal, len, len2, psub. cbn [fst snd]. replace ((x1 - x0) ^ 2 + (y - y) ^ 2) with ((x0 - x1) * (x0 - x1)) by ring.
  rewrite sqrt_square by lra. f_equal; field; lra.
Qed.
Lemma len_right x0 x1 y : x0 < x1 -> len (psub (x1, y) (x0, y)) = x1 - x0.
Proof.
  intro L. unfold len, len2, psub. cbn [fst snd]. replace ((x1 - x0) ^ 2 + (y - y) ^ 2) with ((x1 - x0) * (x1 - x0)) by ring.
  rewrite sqrt_square by lra. reflexivity.
Qed.
Lemma bar_flush_right fuel hob tol x w o : 0 < x -> outline2 (S fuel) hob Flush tol (0, 0) (x, 0) w w o o =
  Some [(0, o - / 2 * w); (0, o + / 2 * w); (x, o + / 2 * w); (x, o - / 2 * w)].
Proof.
  intro X. unfold outline2. cbv zeta. rewrite (normal_right 0 x 0) by lra.
  replace (padd (0, 0) (smul o (0, 1))) with (0, o) by (apply pt_eq; cbn; ring).
  replace (padd (x, 0) (smul o (0, 1))) with (x, o) by (apply pt_eq; cbn; ring).
  rewrite normal_right by lra. f_equal. repeat (f_equal; try (apply pt_eq; cbn; ring)).
Qed.
Lemma bar_flush_left fuel hob tol x w o : x < 0 -> outline2 (S fuel) hob Flush tol (0, 0) (x, 0) w w o o =
  Some [(0, - o + / 2 * w); (0, - o - / 2 * w); (x, - o - / 2 * w); (x, - o + / 2 * w)].
Proof.
  intro X. unfold outline2. cbv zeta. rewrite (normal_left 0 x 0) by lra.
  replace (padd (0, 0) (smul o (0, -1))) with (0, - o) by (apply pt_eq; cbn; ring).
  replace (padd (x, 0) (smul o (0, -1))) with (x, - o) by (apply pt_eq; cbn; ring).
  rewrite normal_left by lra. f_equal. repeat (f_equal; try (apply pt_eq; cbn; ring)).
Qed.
Lemma bar_lengths fuel hob tol x w a b : 0 < x -> outline2 (S fuel) hob (Lengths a b) tol (0, 0) (x, 0) w w 0 0 =
  Some [(- a, - / 2 * w); (- a, / 2 * w); (x + b, / 2 * w); (x + b, - / 2 * w)].
Proof.
  intro X. unfold outline2. cbv zeta. rewrite (normal_right 0 x 0) by lra.
  replace (padd (0, 0) (smul 0 (0, 1))) with (0, 0) by (apply pt_eq; cbn; ring).
  replace (padd (x, 0) (smul 0 (0, 1))) with (x, 0) by (apply pt_eq; cbn; ring).
  rewrite normal_right, len_right by lra. destruct (Req_EM_T w w) as [_|N]; [|congruence].
  f_equal. repeat (f_equal; try (apply pt_eq; unfold psub, padd, smul; cbn [fst snd]; field; lra)).
Qed.
Lemma now_two fuel hob eng f p q r : f_pts f = [p; q] -> p <> q -> f_n f = 1%nat -> (f_max f <= 4)%nat ->
  two_outline (S fuel) hob f p q 0 = Some r ->
  now (S fuel) hob eng f = Some [((nth 0 (f_layers f) 0%Z, nth 0 (f_dts f) 0%Z), [r])].
Proof.
  intros P N O M T. destruct f as [n pts ww oo en co be la dt to pr mx gd wt ca]. cbn [f_pts f_n f_max f_layers f_dts] in *. subst pts n.
  unfold now. rewrite get_fresh by reflexivity. set (g := set_cache _ None).
  assert (E : flat2 g = false).
  { change (flat2 g) with (same_pt p q). unfold same_pt. destruct (Req_EM_T (len2 (psub q p)) 0) as [Z|]; [|reflexivity]. exfalso. apply N.
    apply len2_zero in Z. destruct p, q. unfold psub in Z. cbn in Z. injection Z as A B. f_equal; lra. }
  assert (T' : out_of (S fuel) hob g 0 = Some r) by exact T.
  rewrite E. change (f_n g) with 1%nat. cbn [seq fill]. rewrite T'.
  assert (U : cut_up (S fuel) eng g r = Some [r]).
  { unfold cut_up, fracture. change (f_max g) with mx. destruct (Nat.ltb_spec 4 mx); [lia|reflexivity]. }
  rewrite U. reflexivity.
Qed.
Section Wrong.
Variables (hob : pt * pt -> R * R -> pt * pt) (eng : op -> list zpath -> list zpath -> list zpath).
Notation now := (now 2 hob eng).
Lemma bar_now x o : 0 < x -> now (bar x o Flush) = Some [((1%Z, 0%Z), [[(0, o - / 2 * 2); (0, o + / 2 * 2); (x, o + / 2 * 2); (x, o - / 2 * 2)]])].
Proof.
  intro X. apply (now_two 1 hob eng (bar x o Flush) (0, 0) (x, 0)); try reflexivity.
  - intro E. injection E. lra.
  - cbn. lia.
  - exact (bar_flush_right 1 hob (/ 100) x 2 o X).
Qed.
(** The hypotheses of the theorems above are met by a bar above the axis and by a
    copy of it that has been rotated, magnified and displaced. *)
Example C37_follow_case : follows 2 hob eng (bar 10 3 Flush) /\
  unreflected (Place (Some (5, 0)) (Some 90) (Some 2) false None, (0%nat, 0%nat)) /\
  path_content (flex_ops 2 hob eng) (bar 10 3 Flush) = [((1%Z, 0%Z), [(0, 2); (0, 4); (10, 4); (10, 2)])].
Proof.
  split; [|split].
  - split; [|split; [|split; [|split]]].
    + split; [intros c [<-|[]]; auto|intros e [<-|[]]; exact I].
    + intros e [<-|[]]; exact I.
    + now left.
    + left. cbn. lia.
    + now apply fresh_coherent.
  - split; [reflexivity|]. cbn. lra.
  - unfold path_content. rewrite coherent_polys by now apply fresh_coherent. rewrite bar_now by lra. cbn [flat_map map app].
    replace (3 - / 2 * 2) with 2 by lra. replace (3 + / 2 * 2) with 4 by lra. reflexivity.
Qed.
(** A reflected bar stays on its side of the axis: transform with [x_reflection]
    does not negate the offsets. *)
Theorem C37_reflect_refuted : exists f d p, straight_path f /\ uncut 2 hob eng f /\ now f = Some [d] /\
  now (f_transform None None None true None f) = Some [(fst d, [p])] /\
  (forall q v, In q (snd d) -> In v (map (flip true) q) -> snd v < 0) /\ (forall v, In v p -> 0 < snd v).
Proof.
  exists (bar 10 3 Flush). eexists. exists [(0, 3 - / 2 * 2); (0, 3 + / 2 * 2); (10, 3 + / 2 * 2); (10, 3 - / 2 * 2)]. split; [split; [intros c [<-|[]]; auto|intros e [<-|[]]; exact I]|].
  split; [left; cbn; lia|]. split; [apply bar_now; lra|]. split; [|split].
  - cbn [fst]. apply (now_two 1 hob eng (f_transform None None None true None (bar 10 3 Flush)) (0, 0) (10, 0)); try reflexivity.
    + cbn [f_transform bar set_spine f_pts map]. unfold pmul, padd. cbn [fst snd]. repeat (f_equal; try lra).
    + intro E. injection E. lra.
    + cbn. lia.
    + exact (bar_flush_right 1 hob (/ 100) 10 2 3 ltac:(lra)).
  - intros q v [<-|[]] I. cbn [map flip fst snd] in I. repeat (destruct I as [<-|I]; [cbn [snd]; lra|]). destruct I.
  - intros v I. repeat (destruct I as [<-|I]; [cbn [snd]; lra|]). destruct I.
Qed.
(** Scaling by a negative factor: a bar on the left of its spine should stay there
    (it is turned by half a turn), but comes out on the right. *)
Theorem C37_scale_negative_refuted : exists f d p, straight_path f /\ uncut 2 hob eng f /\ now f = Some [d] /\
  now (f_scale (-1) (0, 0) f) = Some [(fst d, [p])] /\
  (forall q v, In q (snd d) -> In v (map (smul (-1)) q) -> snd v < 0) /\ (forall v, In v p -> 0 < snd v).
Proof.
  exists (bar 10 3 Flush). eexists. exists [(0, - (3 * -1) + / 2 * (2 * -1)); (0, - (3 * -1) - / 2 * (2 * -1)); (-10, - (3 * -1) - / 2 * (2 * -1)); (-10, - (3 * -1) + / 2 * (2 * -1))].
  split; [split; [intros c [<-|[]]; auto|intros e [<-|[]]; exact I]|].
  split; [left; cbn; lia|]. split; [apply bar_now; lra|]. split; [|split].
  - cbn [fst]. apply (now_two 1 hob eng (f_scale (-1) (0, 0) (bar 10 3 Flush)) (0, 0) (-10, 0)); try reflexivity.
    + cbn [f_scale bar set_spine set_ends f_pts map]. unfold smul, padd, psub. cbn [fst snd]. repeat (f_equal; try lra).
    + intro E. injection E. lra.
    + cbn. lia.
    + assert (X := bar_flush_left 1 hob (/ 100) (-10) (2 * -1) (3 * -1) ltac:(lra)). exact X.
  - intros q v [<-|[]] I. cbn [map] in I. unfold smul in I. cbn [fst snd] in I. repeat (destruct I as [<-|I]; [cbn [snd]; lra|]). destruct I.
  - intros v I. repeat (destruct I as [<-|I]; [cbn [snd]; lra|]). destruct I.
Qed.
(** End extensions given as lengths are not magnified by transform (they are by
    scale): a bar from -3 to 13 doubled reaches 23, not 26. *)
Theorem C37_lengths_refuted : exists f d p, straight_path f /\ uncut 2 hob eng f /\ now f = Some [d] /\
  now (f_transform None None (Some 2) false None f) = Some [(fst d, [p])] /\
  (exists q v, In q (snd d) /\ In v (map (smul 2) q) /\ fst v = 26) /\ (forall v, In v p -> fst v <= 23).
Proof.
  exists (bar 10 0 (Lengths 3 3)), ((1%Z, 0%Z), [[(- 3, - / 2 * 2); (- 3, / 2 * 2); (10 + 3, / 2 * 2); (10 + 3, - / 2 * 2)]]).
  exists [(- 3, - / 2 * (2 * 2)); (- 3, / 2 * (2 * 2)); (20 + 3, / 2 * (2 * 2)); (20 + 3, - / 2 * (2 * 2))].
  split; [split; [intros c [<-|[]]; auto|intros e [<-|[]]; exact I]|].
  split; [left; cbn; lia|]. split; [|split; [|split]].
  - apply (now_two 1 hob eng (bar 10 0 (Lengths 3 3)) (0, 0) (10, 0)); try reflexivity.
    + intro E. injection E. lra.
    + cbn. lia.
    + exact (bar_lengths 1 hob (/ 100) 10 2 3 3 ltac:(lra)).
  - cbn [fst]. apply (now_two 1 hob eng (f_transform None None (Some 2) false None (bar 10 0 (Lengths 3 3))) (0, 0) (20, 0)); try reflexivity.
    + cbn [f_transform bar set_spine f_pts map]. unfold pmul, padd, smul. cbn [fst snd]. repeat (f_equal; try lra).
    + intro E. injection E. lra.
    + cbn. lia.
    + unfold two_outline, f_transform, bar, set_spine. cbn [f_w f_o f_ends f_wt orb scale_rows map nth_error nth f_tol].
      replace (0 * 2) with 0 by ring. exact (bar_lengths 1 hob (/ 100) 20 (2 * 2) 3 3 ltac:(lra)).
  - exists [(- 3, - / 2 * 2); (- 3, / 2 * 2); (10 + 3, / 2 * 2); (10 + 3, - / 2 * 2)], (26, 2).
    split; [now left|]. split; [|reflexivity]. right. right. left. unfold smul. cbn [fst snd]. f_equal; lra.
  - intros v I. repeat (destruct I as [<-|I]; [cbn [fst]; lra|]). destruct I.
Qed.
End Wrong.

Print Assumptions C37_follow.
Print Assumptions C37_chain.
Print Assumptions C37_get_paths.
Print Assumptions C53_flexpath.
Print Assumptions C38_flexpaths.
Print Assumptions C37_reflect_refuted.
Print Assumptions C37_scale_negative_refuted.
Print Assumptions C37_lengths_refuted.
