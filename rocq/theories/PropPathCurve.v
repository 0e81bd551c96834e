(** Curved sections of Path: Path.parametric, bezier and smooth (C73, C74, C76). *)

From Coq Require Import Reals Lra Lia List ZArith Bool.
From Verif Require Import Plane PlaneProofs SpecPlane Curve SpecCurve CurveProofs PropCurve Flex PropFlexEnds Path SpecPath PropPath PropPathJoin.
Import ListNotations.
Open Scope R_scope.

(** ** The refinement loop *)
Lemma halve_refine : forall fuel f err delta prev rest l d, halve fuel f err delta prev rest = Some (l, d) -> refine fuel f err prev rest = Some l.
Proof.
  induction fuel as [|n IH]; intros f err delta prev rest l d H; destruct rest as [|next more]; cbn [halve refine] in *; try discriminate;
    try (injection H as <- _; reflexivity).
  rewrite (Rplus_comm (fst next)) in H. replace (padd (snd next) (snd prev)) with (padd (snd prev) (snd next)) in H
    by (unfold padd; f_equal; ring).
  destruct (Rlt_dec err _); [eapply IH; exact H|]. destruct (halve n f err delta next more) as [[l' d']|] eqn:E; [|discriminate].
  injection H as <- _. cbn [fst]. now rewrite (IH _ _ _ _ _ _ _ E).
Qed.
Lemma halve_delta : forall fuel f err delta prev rest l d, halve fuel f err delta prev rest = Some (l, d) -> 0 < delta ->
  links Rlt (fst prev) (map fst rest) -> 0 < d <= delta.
Proof.
  induction fuel as [|n IH]; intros f err delta prev rest l d H P L; destruct rest as [|next more]; cbn [halve] in *; try discriminate;
    try (injection H as _ <-; lra).
  destruct L as [L1 L2]. cbn [map] in L1. destruct (Rlt_dec err _).
  - apply IH in H.
    + pose proof (Rmin_l delta (fst next - / 2 * (fst next + fst prev))). lra.
    + apply Rmin_pos; lra.
    + cbn [map fst links]. repeat split; [lra|lra|exact L2].
  - destruct (halve n f err delta next more) as [[l' d']|] eqn:E; [|discriminate]. injection H as _ <-. cbn [snd].
    apply IH in E; [exact E|exact P|exact L2].
Qed.
Lemma linspace_links : forall n, (2 <= n)%nat -> exists us, linspace 0 1 n = 0 :: us /\ us <> [] /\ links Rlt 0 us /\ last us 0 = 1 /\ 0 < hd 0 us.
Proof.
  intros n N. destruct n as [|[|n]]; try lia. unfold linspace. cbn [seq map]. set (g := fun i => 0 + INR i * ((1 - 0) / INR (S (S n) - 1))).
  assert (P : 0 < INR (S (S n) - 1)) by (apply lt_0_INR; lia).
  assert (G0 : g 0%nat = 0) by (unfold g; cbn [INR]; ring). exists (g 1%nat :: map g (seq 2 n)).
  assert (L : links Rlt (g 0%nat) (map g (seq 1 (S n)))).
  { apply links_map_seq. intros i _. unfold g. rewrite S_INR. assert (0 < / INR (S (S n) - 1)) by (now apply Rinv_0_lt_compat). unfold Rdiv. nra. }
  change (map g (seq 1 (S n))) with (g 1%nat :: map g (seq 2 n)) in L. rewrite G0 in L.
  split; [f_equal; exact G0|]. split; [discriminate|]. split; [exact L|]. split; [|exact (proj1 L)].
  change (g 1%nat :: map g (seq 2 n)) with (map g (seq 1 (S n))). transitivity (last (map g (seq 1 (S n))) (g 0%nat)); [now rewrite G0|]. rewrite (PropCurve.last_map g (seq 1 (S n)) 0%nat), last_seq. unfold g.
  replace (0 + S n)%nat with (S (S n) - 1)%nat by lia. field. lra.
Qed.

(** ** The parts of a section *)
Lemma chunks_map : forall {X Y} (h : X -> Y) fuel m l, chunks fuel m (map h l) = map (map h) (chunks fuel m l).
Proof.
  intros X Y h fuel. induction fuel as [|k IH]; intros m l; [reflexivity|]. destruct l as [|a [|b l]]; try reflexivity.
  change (map h (a :: b :: l)) with (h a :: h b :: map h l). cbn [chunks]. change (h a :: h b :: map h l) with (map h (a :: b :: l)).
  rewrite map_length, skipn_map, firstn_map, IH. reflexivity.
Qed.
Lemma chunks_overlapping : forall {X} fuel m (l : list X), (2 <= m)%nat -> (length l <= fuel)%nat -> (2 <= length l)%nat ->
  overlapping l (chunks fuel m l) /\ forall c, In c (chunks fuel m l) -> (2 <= length c <= m)%nat.
Proof.
  intros X fuel. induction fuel as [|k IH]; intros m l M F L; [lia|]. destruct l as [|a [|b l]]; try (cbn in L; lia).
  cbn [chunks]. set (w := a :: b :: l) in *. clearbody w. destruct (Nat.le_gt_cases (length w) m) as [Hm|Hm].
  - rewrite firstn_all2 by exact Hm. rewrite Nat.min_r by exact Hm.
    assert (R : chunks k m (skipn (length w - 1) w) = []).
    { assert (length (skipn (length w - 1) w) = 1%nat) by (rewrite skipn_length; lia).
      destruct (skipn (length w - 1) w) as [|x [|y q]]; cbn in H; try lia. destruct k; reflexivity. }
    rewrite R. split; [now constructor|]. intros c [<-|[]]. lia.
  - rewrite Nat.min_l by lia. set (q := skipn (m - 1) w).
    assert (Lq : length q = (length w - (m - 1))%nat) by (unfold q; apply skipn_length).
    destruct (IH m q M) as [O I]; [lia|lia|].
    destruct q as [|x q'] eqn:Q; [cbn in Lq; lia|].
    assert (W : w = firstn (m - 1) w ++ x :: q') by (rewrite <- Q; symmetry; apply firstn_skipn).
    assert (Lf : length (firstn (m - 1) w) = (m - 1)%nat) by (rewrite firstn_length; lia).
    assert (Fm : firstn m w = firstn (m - 1) w ++ [x]).
    { rewrite W at 1. rewrite firstn_app, Lf. replace (m - (m - 1))%nat with 1%nat by lia. cbn [firstn].
      rewrite firstn_firstn. now replace (Nat.min m (m - 1)) with (m - 1)%nat by lia. }
    rewrite Fm. split.
    + rewrite W at 1. constructor; [|exact O]. intro Z. rewrite Z in Lf. cbn in Lf. lia.
    + intros c [<-|J]; [|now apply I]. rewrite app_length, Lf. cbn. lia.
Qed.
Lemma overlapping_facts : forall {X} (l : list X) cs d, overlapping l cs -> cs <> [] /\ hd d (nth 0 cs []) = hd d l /\
  last (nth (length cs - 1) cs []) d = last l d /\
  (forall j, (S j < length cs)%nat -> last (nth j cs []) d = hd d (nth (S j) cs [])) /\
  (forall c, In c cs -> incl c l).
Proof.
  intros X l cs d H. induction H as [l L|a x b rest A H [N [Hh [Hl [Hj Hi]]]]].
  - repeat split; [discriminate|intros j J; cbn in J; lia|]. intros c [<-|[]]. apply incl_refl.
  - repeat split; [discriminate| | | |].
    + destruct a as [|y a]; [now elim A|]. reflexivity.
    + destruct rest as [|c0 rest]; [now elim N|]. cbn [length]. replace (S (S (length rest)) - 1)%nat with (S (length rest)) by lia.
      change (nth (S (length rest)) ((a ++ [x]) :: c0 :: rest) []) with (nth (length rest) (c0 :: rest) []).
      cbn [length] in Hl. rewrite Nat.sub_succ, Nat.sub_0_r in Hl. rewrite Hl. clear. induction a as [|y a IH]; [reflexivity|].
      cbn [app]. rewrite IH. destruct (a ++ x :: b) eqn:E; [now destruct a|reflexivity].
    + intros j J. destruct j as [|j].
      * cbn [nth]. rewrite last_last. destruct rest as [|c0 rest]; [now elim N|]. cbn [nth] in Hh |- *. rewrite Hh. reflexivity.
      * cbn [nth]. apply Hj. cbn in J. lia.
    + intros c [<-|J]; [|intros y Y; apply in_or_app; right; now apply (Hi c J)].
      intros y Y. apply in_app_or in Y. apply in_or_app. destruct Y as [Y|[->|[]]]; [now left|right; now left].
Qed.

(** ** What parametric draws *)
Lemma links_mid : forall l a b, links Rlt a (l ++ [b]) -> a < b /\ forall x, In x l -> a < x < b.
Proof.
  induction l as [|y l IH]; intros a b H; cbn [app links] in H.
  - split; [exact (proj1 H)|]. intros x [].
  - destruct H as [H1 H2]. destruct (IH y b H2) as [A B]. split; [lra|]. intros x [<-|I]; [lra|]. specialize (B x I). lra.
Qed.
Definition left_of (v : pt) : pt := smul (/ len v) (- snd v, fst v).
Lemma all_leftward : forall ds dx, all_some (map leftward ds) = Some dx -> dx = map left_of ds /\ forall v, In v ds -> len v <> 0.
Proof.
  induction ds as [|v ds IH]; intros dx H; cbn [map all_some] in H.
  - injection H as <-. split; [reflexivity|intros v []].
  - unfold leftward at 1 in H. destruct (Req_EM_T (len v) 0) as [|N]; [discriminate|].
    destruct (all_some (map leftward ds)) as [r|] eqn:E; [|discriminate]. injection H as <-. destruct (IH r eq_refl) as [-> I].
    split; [reflexivity|]. intros x [<-|J]; [exact N|now apply I].
Qed.
Lemma left_rightward : forall v, left_of v = smul (-1) (rightward (unit_vec v)).
Proof. intros v. unfold left_of, rightward, unit_vec, len, len2, smul. cbn [fst snd]. f_equal; ring. Qed.
Lemma combine_maps : forall {X Y Z} (f : X -> Y) (g : X -> Z) l, combine (map f l) (map g l) = map (fun x => (f x, g x)) l.
Proof. induction l as [|x l IH]; [reflexivity|]. cbn. now rewrite IH. Qed.
Lemma slopes_spec : forall f df h us ds, links Rlt 0 us -> last us 0 = 1 -> us <> [] ->
  slopes f df h (map (fun u => (u, f u)) (0 :: us)) = Some ds -> ds = map (direction_at f df h) (0 :: us).
Proof.
  intros f df h us ds L E N H. destruct df as [g|]; cbn [slopes] in H.
  - injection H as <-. rewrite map_map. reflexivity.
  - destruct (@exists_last _ us N) as [mid [b ->]]. rewrite last_last in E. subst b.
    destruct (links_mid _ _ _ L) as [_ M].
    replace (map (fun u => (u, f u)) (0 :: mid ++ [1])) with (((0, f 0) :: map (fun u => (u, f u)) mid) ++ [(1, f 1)]) in H
      by (cbn [map]; rewrite map_app; reflexivity).
    rewrite removelast_last in H. cbn [tl] in H. rewrite last_last in H. cbn [app hd snd] in H. rewrite map_map in H. cbn [fst] in H.
    match type of H with match ?x with _ => _ end = _ => destruct x eqn:X; [discriminate|] end. rewrite <- X in H. injection H as <-.
    assert (D0 : direction_at f None h 0 = psub (f h) (f 0)) by (cbn; destruct (Req_EM_T 0 0) as [_|Y]; [reflexivity|now elim Y]).
    assert (D1 : direction_at f None h 1 = psub (f 1) (f (1 - h))).
    { cbn. destruct (Req_EM_T 1 0); [lra|]. destruct (Req_EM_T 1 1) as [_|Y]; [reflexivity|now elim Y]. }
    cbn [map]. rewrite map_app. cbn [map]. rewrite D0, D1. f_equal. f_equal. apply map_ext_in. intros u I. specialize (M u I).
    unfold direction_at. destruct (Req_EM_T u 0); [lra|]. destruct (Req_EM_T u 1); [lra|]. reflexivity.
Qed.
Lemma track_width : forall fw old u, track (/ 2) fw old u = / 2 * along_section fw (2 * old) u.
Proof. intros [|x|g] old u; cbn; field. Qed.
Lemma track_dist : forall fd old u, track 1 fd old u = along_section fd old u.
Proof. intros [|x|g] old u; cbn; ring. Qed.
Lemma track_end_1 : forall k x old, track_end k x old 1 = track k x old 1.
Proof. intros k [|x|g] old; cbn; ring. Qed.

Definition row_at (base g : R -> pt) (fw fd : final) (s : path) (u : R) : row :=
  (base u, left_of (g u), track (/ 2) fw (p_w s) u, track 1 fd (p_dist s) u).
Lemma parametric_facts : forall fuel f df tol ev mx fw fd rel la dt s s', p_parametric fuel f df tol ev mx fw fd rel la dt s = Some s' ->
  exists us h, let g := direction_at f df h in let base u := if rel then padd (f u) (p_at s) else f u in
  0 < h /\ us <> [] /\ links Rlt 0 us /\ last us 0 = 1 /\ links (flat f (tol ^ 2)) 0 us /\
  (exists vs, linspace 0 1 ev = 0 :: vs /\ sub vs us) /\
  (forall u, In u (0 :: us) -> len (g u) <> 0) /\
  p_polys s' = p_polys s ++
    flat_map (fun c => map (strip (p_n s) (map (row_at base g fw fd s) c)) (seq 0 (p_n s))) (chunks (length (0 :: us)) (chunk_size mx (length (0 :: us))) (0 :: us)) /\
  p_at s' = base 1 /\ p_w s' = track (/ 2) fw (p_w s) 1 /\ p_dist s' = track 1 fd (p_dist s) 1 /\ p_n s' = p_n s /\
  toward (p_dir s') = unit_vec (g 1) /\
  p_len s' = p_len s + chord_sum (map f (0 :: us)).
Proof.
  intros fuel f df tol ev mx fw fd rel la dt s s' H. unfold p_parametric in H.
  destruct (le_lt_dec ev 1) as [EV|EV].
  { destruct ev as [|[|ev]]; [| |lia]; unfold linspace in H; cbn in H; discriminate. }
  destruct (linspace_links ev EV) as [vs [V [VN [VL [VE VH]]]]]. rewrite V in H. destruct vs as [|u1 vs]; [now elim VN|].
  set (us0 := u1 :: vs) in *. cbn [hd us0] in VH.
  destruct (halve fuel f (tol ^ 2) u1 (0, f 0) (map (fun u => (u, f u)) us0)) as [[more d]|] eqn:E; [|discriminate].
  assert (F : map fst (map (fun u => (u, f u)) us0) = us0) by (rewrite map_map; apply map_id).
  pose proof (halve_delta _ _ _ _ _ _ _ _ E VH) as DL. cbn [fst] in DL. rewrite F in DL. specialize (DL VL).
  apply halve_refine in E. destruct (refine_ok f (tol ^ 2) fuel (0, f 0) _ more E) as (A & B & C & D & G).
  { reflexivity. } { apply Forall_forall. intros x I. apply in_map_iff in I as (u & <- & _). reflexivity. } { now rewrite F. }
  rewrite F in *. cbn [fst] in *. set (us := map fst more) in *.
  assert (MU : more = map (fun u => (u, f u)) us).
  { unfold us. rewrite map_map. rewrite <- (map_id more) at 1. apply map_ext_in. intros [u p] I. rewrite Forall_forall in A. specialize (A _ I).
    unfold on_curve in A. cbn in *. now rewrite A. }
  assert (UE : last us 0 = 1) by (now rewrite G). assert (UN : us <> []) by (intro Z; rewrite Z in UE; cbn in UE; lra).
  clearbody us. rewrite MU in H. clear E F G A. change ((0, f 0) :: map (fun u => (u, f u)) us) with (map (fun u => (u, f u)) (0 :: us)) in H.
  destruct (slopes f df (d * / 2) (map (fun u => (u, f u)) (0 :: us))) as [ds|] eqn:SL; [|discriminate].
  apply slopes_spec in SL; [|exact B|exact UE|exact UN].
  destruct (all_some (map leftward ds)) as [dx|] eqn:AL; [|discriminate]. destruct (all_leftward _ _ AL) as [-> LN].
  destruct (tag_list (p_n s) la) as [las|]; [|discriminate]. destruct (tag_list (p_n s) dt) as [dts|]; [|discriminate].
  exists us, (d * / 2). cbn zeta. set (g := direction_at f df (d * / 2)) in *. subst ds.
  set (base := fun u => if rel then padd (f u) (p_at s) else f u).
  assert (X0 : map (fun up : R * pt => if rel then padd (snd up) (p_at s) else snd up) (map (fun u => (u, f u)) (0 :: us)) = map base (0 :: us))
    by (rewrite map_map; reflexivity).
  assert (XW : map (fun up : R * pt => track (/ 2) fw (p_w s) (fst up)) (map (fun u => (u, f u)) (0 :: us)) = map (track (/ 2) fw (p_w s)) (0 :: us))
    by (rewrite map_map; reflexivity).
  assert (XD : map (fun up : R * pt => track 1 fd (p_dist s) (fst up)) (map (fun u => (u, f u)) (0 :: us)) = map (track 1 fd (p_dist s)) (0 :: us))
    by (rewrite map_map; reflexivity).
  assert (XS : map snd (map (fun u => (u, f u)) (0 :: us)) = map f (0 :: us)) by (rewrite map_map; reflexivity).
  assert (LL : forall {Y} (k : R -> Y) y, last (map k (0 :: us)) y = k 1).
  { intros Y k y. destruct (@exists_last _ us UN) as [mid [b Eb]]. rewrite Eb in UE |- *. rewrite last_last in UE. subst b.
    change (0 :: mid ++ [1]) with ((0 :: mid) ++ [1]). rewrite map_app. cbn [map]. now rewrite last_last. }
  rewrite X0, XW, XD, XS in H. rewrite (map_map g left_of), !combine_maps in H.
  change (fun x : R => (base x, left_of (g x), track (/ 2) fw (p_w s) x, track 1 fd (p_dist s) x)) with (row_at base g fw fd s) in H.
  rewrite !map_length in H.
  rewrite !chunks_map in H. rewrite !LL in H. cbn [fst] in H. rewrite !track_end_1 in H. injection H as <-.
  cbn [p_polys p_at p_w p_dist p_n p_dir p_len].
  split; [lra|]. split; [exact UN|]. split; [exact B|]. split; [exact UE|]. split; [exact C|].
  split; [exists us0; now split|]. split.
  { intros u I. apply LN. now apply in_map. }
  split; [|split; [reflexivity|split; [reflexivity|split; [reflexivity|split; [reflexivity|split; [|reflexivity]]]]]].
  - f_equal. rewrite !flat_map_concat_map, map_map. reflexivity.
  - assert (N1 : len (g 1) <> 0).
    { apply LN. apply in_map. right. rewrite <- UE. destruct (@exists_last _ us UN) as [mid [b ->]]. rewrite last_last. apply in_or_app. right. now left. }
    cbn [toward]. unfold left_of, smul. cbn [fst snd]. replace (- (/ len (g 1) * - snd (g 1))) with (snd (g 1) / len (g 1)) by (field; exact N1).
    replace (/ len (g 1) * fst (g 1)) with (fst (g 1) / len (g 1)) by (field; exact N1).
    assert (N2 : g 1 <> (0, 0)).
    { intro Z. apply N1. rewrite Z. unfold len, len2. cbn [fst snd]. replace (0 ^ 2 + 0 ^ 2) with 0 by ring. apply sqrt_0. }
    assert (PL : 0 < len (g 1)) by (unfold len in *; pose proof (sqrt_pos (len2 (g 1))); lra).
    assert (SQ : len (g 1) ^ 2 = fst (g 1) ^ 2 + snd (g 1) ^ 2).
    { unfold len. rewrite <- Rsqr_pow2, Rsqr_sqrt; [reflexivity|]. unfold len2. generalize (pow2_ge_0 (fst (g 1))) (pow2_ge_0 (snd (g 1))). lra. }
    destruct (cos_atan2 (snd (g 1) / len (g 1)) (fst (g 1) / len (g 1))) as [Hc Hs].
    { intro Z. injection Z as Z1 Z2. apply N2. apply injective_projections; cbn [fst snd].
      - apply (f_equal (fun x => x * len (g 1))) in Z1. rewrite Rmult_0_l in Z1. rewrite <- Z1. field. lra.
      - apply (f_equal (fun x => x * len (g 1))) in Z2. rewrite Rmult_0_l in Z2. rewrite <- Z2. field. lra. }
    assert (ONE : sqrt ((fst (g 1) / len (g 1)) ^ 2 + (snd (g 1) / len (g 1)) ^ 2) = 1).
    { replace ((fst (g 1) / len (g 1)) ^ 2 + (snd (g 1) / len (g 1)) ^ 2) with ((fst (g 1) ^ 2 + snd (g 1) ^ 2) / len (g 1) ^ 2) by (field; lra).
      rewrite <- SQ. replace (len (g 1) ^ 2 / len (g 1) ^ 2) with 1 by (field; lra). apply sqrt_1. }
    rewrite ONE in Hc, Hs. rewrite Hc, Hs. unfold unit_vec, smul. fold (len2 (g 1)). fold (len (g 1)). f_equal; field; lra.
Qed.

Lemma edge_flank : forall n i base g fw fd s sg u, (i < n)%nat ->
  edge n sg (reversed n i) (row_at base g fw fd s u) =
  flank base g (fun u => place n i (along_section fd (p_dist s) u) - sg * (along_section fw (2 * p_w s) u / 2)) u.
Proof.
  intros n i base g fw fd s sg u I. unfold edge, row_at, flank. rewrite left_rightward, track_width, track_dist. unfold place, reversed.
  rewrite !minus_INR by lia. change (INR 1) with 1. unfold padd, smul. cbn [fst snd]. f_equal; lra.
Qed.
(** The polygons of a curved section.  There are parameters [us] from 0 to 1, among
    them those asked for, where the middle of each chord is within the tolerance of the
    curve; they are split into overlapping parts.  The polygon of path [i] for a part
    follows the curve at both sides of the path. *)
Theorem C76_parametric : forall fuel f df tol ev mx fw fd rel la dt s s', p_parametric fuel f df tol ev mx fw fd rel la dt s = Some s' ->
  (forall u, 0 <= u <= 1 -> along_section fw (2 * p_w s) u <> 0) ->
  exists us h, let g := direction_at f df h in let base u := if rel then padd (f u) (p_at s) else f u in
  let width := along_section fw (2 * p_w s) in let dist := along_section fd (p_dist s) in
  0 < h /\ links Rlt 0 us /\ last us 0 = 1 /\ links (flat f (tol ^ 2)) 0 us /\
  (exists vs, linspace 0 1 ev = 0 :: vs /\ sub vs us) /\
  (forall u, In u (0 :: us) -> g u <> (0, 0)) /\
  p_at s' = base 1 /\ p_w s' = width 1 / 2 /\ p_dist s' = dist 1 /\ p_n s' = p_n s /\ toward (p_dir s') = unit_vec (g 1) /\
  exists cs ps, overlapping (0 :: us) cs /\ p_polys s' = p_polys s ++ ps /\ length ps = (length cs * p_n s)%nat /\
    forall i j, (i < p_n s)%nat -> (j < length cs)%nat ->
      nth (j * p_n s + reversed (p_n s) i) ps [] =
      map (flank base g (fun u => place (p_n s) i (dist u) - width u / 2)) (nth j cs []) ++
      rev (map (flank base g (fun u => place (p_n s) i (dist u) + width u / 2)) (nth j cs [])).
Proof.
  intros fuel f df tol ev mx fw fd rel la dt s s' H WN.
  destruct (parametric_facts _ _ _ _ _ _ _ _ _ _ _ _ _ H) as [us [h F]]. exists us, h. cbn zeta in F |- *.
  set (g := direction_at f df h) in *. set (base := fun u => if rel then padd (f u) (p_at s) else f u) in *.
  destruct F as (F1 & F2 & F3 & F4 & F5 & F6 & F7 & F8 & F9 & F10 & F11 & F12 & F13 & _).
  set (L := 0 :: us) in *. set (cs := chunks (length L) (chunk_size mx (length L)) L) in *.
  assert (LL : (2 <= length L)%nat) by (unfold L; cbn; destruct us; [now elim F2|cbn; lia]).
  assert (CS : (2 <= chunk_size mx (length L))%nat).
  { unfold chunk_size. destruct (mx <? 4)%nat eqn:M; [exact LL|]. apply Nat.ltb_ge in M. apply Nat.div_le_lower_bound; lia. }
  destruct (chunks_overlapping (length L) (chunk_size mx (length L)) L CS (le_n _) LL) as [O SZ]. fold cs in O, SZ.
  destruct (overlapping_facts L cs 0 O) as [_ [_ [_ [_ IN]]]].
  split; [exact F1|]. split; [exact F3|]. split; [exact F4|]. split; [exact F5|]. split; [exact F6|]. split.
  { intros u I Z. apply (F7 u I). rewrite Z. unfold len, len2. cbn [fst snd]. replace (0 ^ 2 + 0 ^ 2) with 0 by ring. apply sqrt_0. }
  split; [exact F9|]. split; [rewrite F10, track_width; lra|]. split; [now rewrite F11, track_dist|]. split; [exact F12|]. split; [exact F13|].
  exists cs. eexists. split; [exact O|]. split; [exact F8|]. rewrite flat_map_concat_map. split.
  { rewrite (concat_lengths _ (p_n s)), map_length; [reflexivity|]. intros x I. apply in_map_iff in I. destruct I as [c [<- _]]. now rewrite map_length, seq_length. }
  intros i j I J. rewrite (nth_concat _ (p_n s)).
  2:{ intros x X. apply in_map_iff in X. destruct X as [c [<- _]]. now rewrite map_length, seq_length. }
  2:{ unfold reversed. lia. }
  2:{ now rewrite map_length. }
  rewrite (nth_map_lt _ _ j []) by exact J. assert (RI : (reversed (p_n s) i < p_n s)%nat) by (unfold reversed; lia).
  rewrite (nth_map_lt _ _ _ 0%nat) by (now rewrite seq_length). rewrite seq_nth by exact RI. cbn [Nat.add].
  assert (CI : In (nth j cs []) cs) by (now apply nth_In).
  set (c := nth j cs []) in *. pose proof (SZ c CI) as SC. pose proof (IN c CI) as IC.
  assert (RG : forall u, In u c -> 0 <= u <= 1).
  { intros u Iu. specialize (IC u Iu). unfold L in IC. destruct IC as [<-|Iu']; [lra|].
    destruct (@exists_last _ us F2) as [mid [b Eb]]. rewrite Eb in F3, F4, Iu'. rewrite last_last in F4. subst b. destruct (links_mid _ _ _ F3) as [_ M].
    apply in_app_or in Iu'. destruct Iu' as [Iu'|[<-|[]]]; [specialize (M u Iu')|]; lra. }
  assert (WR : forall u, In u c -> row_w (row_at base g fw fd s u) <> 0).
  { intros u Iu. unfold row_at, row_w. cbn [fst snd]. rewrite track_width. specialize (WN u (RG u Iu)). lra. }
  assert (HL : row_w (hd row0 (map (row_at base g fw fd s) c)) <> 0 /\ row_w (last (map (row_at base g fw fd s) c) row0) <> 0).
  { split.
    - destruct c as [|u c]; [cbn in SC; lia|]. cbn [map hd]. apply WR. now left.
    - destruct (@exists_last _ c) as [mid [b Eb]]; [intro Z; rewrite Z in SC; cbn in SC; lia|]. rewrite Eb, map_app. cbn [map]. rewrite last_last. apply WR.
      rewrite Eb. apply in_or_app. right. now left. }
  unfold strip. destruct (Req_EM_T (row_w (last _ _)) 0) as [Z|_]; [now elim (proj2 HL)|]. destruct (Req_EM_T (row_w (hd _ _)) 0) as [Z|_]; [now elim (proj1 HL)|].
  rewrite !map_map. f_equal; [|f_equal].
  - apply map_ext. intros u. rewrite edge_flank by exact I. unfold flank. f_equal. f_equal. lra.
  - apply map_ext. intros u. rewrite edge_flank by exact I. unfold flank. f_equal. f_equal. lra.
Qed.
Lemma from_to_map : forall {X} (h : X -> pt) l d, l <> [] -> from_to (map h l) (h (hd d l)) (h (last l d)).
Proof.
  intros X h l d N. split; [|split].
  - destruct l; [now elim N|discriminate].
  - destruct l; [now elim N|reflexivity].
  - destruct (@exists_last _ l N) as [a [b ->]]. rewrite map_app. cbn [map]. now rewrite !last_last.
Qed.
(** Curves that start at the end of the path, in its direction and with its width and
    distance, go on from it; the parallel paths come in the reverse order. *)
Theorem C73_parametric : forall fuel f df tol ev mx fw fd rel la dt s s', p_parametric fuel f df tol ev mx fw fd rel la dt s = Some s' ->
  (forall u, 0 <= u <= 1 -> along_section fw (2 * p_w s) u <> 0) ->
  (if rel then padd (f 0) (p_at s) else f 0) = p_at s ->
  (forall h, 0 < h -> unit_vec (direction_at f df h 0) = toward (p_dir s)) ->
  along_section fw (2 * p_w s) 0 = 2 * p_w s -> along_section fd (p_dist s) 0 = p_dist s ->
  exists ps, p_polys s' = p_polys s ++ ps /\ continues (reversed (p_n s)) s s' ps.
Proof.
  intros fuel f df tol ev mx fw fd rel la dt s s' H WN B0 G0 W0 D0.
  destruct (C76_parametric _ _ _ _ _ _ _ _ _ _ _ _ _ H WN) as [us [h F]]. cbn zeta in F.
  destruct F as (F1 & F3 & F4 & _ & _ & _ & F9 & F10 & F11 & F12 & F13 & cs & ps & O & P & LP & F).
  exists ps. split; [exact P|]. intros i I. exists (length cs).
  destruct (overlapping_facts _ _ 0 O) as [CN [HH [HL [HJ _]]]].
  set (g := direction_at f df h) in *. set (base := fun u => if rel then padd (f u) (p_at s) else f u) in *.
  set (kl := fun u => place (p_n s) i (along_section fd (p_dist s) u) - along_section fw (2 * p_w s) u / 2) in *.
  set (kr := fun u => place (p_n s) i (along_section fd (p_dist s) u) + along_section fw (2 * p_w s) u / 2) in *.
  set (gate := fun u => (flank base g kl u, flank base g kr u)).
  exists (fun j => gate (if (j <? length cs)%nat then hd 0 (nth j cs []) else 1)).
  assert (CL : (0 < length cs)%nat) by (destruct cs; [now elim CN|cbn; lia]).
  split; [exact LP|]. split; [|split].
  - rewrite (proj2 (Nat.ltb_lt 0 _) CL), HH. cbn [hd]. unfold gate, mouth, flank, kl, kr, place. fold base in B0. change (base 0 = p_at s) in B0.
    rewrite B0. unfold g. rewrite (G0 h F1), W0, D0. f_equal; f_equal; f_equal; lra.
  - rewrite Nat.ltb_irrefl. unfold gate, mouth, flank, kl, kr, place. rewrite F9, F10, F11, F12, F13. reflexivity.
  - intros j J. rewrite (F i j I J). rewrite (proj2 (Nat.ltb_lt j _) J).
    assert (NE : nth j cs [] <> []).
    { assert (X : forall c, In c cs -> c <> []).
      { clear - O. induction O as [l L|a x b rest A O IH]; intros c [<-|J]; try (destruct J; fail).
        - intro Z. rewrite Z in L. cbn in L. lia.
        - destruct a; discriminate.
        - now apply IH. }
      apply X. now apply nth_In. }
    assert (EN : (if (S j <? length cs)%nat then hd 0 (nth (S j) cs []) else 1) = last (nth j cs []) 0).
    { destruct (S j <? length cs)%nat eqn:Z.
      - apply Nat.ltb_lt in Z. symmetry. now apply HJ.
      - apply Nat.ltb_ge in Z. replace j with (length cs - 1)%nat by lia. rewrite HL.
        destruct us as [|u us]; [cbn in F4; lra|]. rewrite <- F4. symmetry. apply (CurveProofs.last_cons 0 0). }
    rewrite EN. eexists _, _. split; [apply (from_to_map (flank base g kl) _ 0 NE)|]. split; [apply (from_to_map (flank base g kr) _ 0 NE)|].
    exists [], (map (flank base g kl) (nth j cs []) ++ rev (map (flank base g kr) (nth j cs []))). split; [reflexivity|]. left. now rewrite app_nil_r.
Qed.
Print Assumptions C76_parametric.
Print Assumptions C73_parametric.
