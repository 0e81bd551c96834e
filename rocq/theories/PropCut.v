(** C28 (fracture), C29 (slice) and C30 (boolean).  The clipping engine is arbitrary
    where nothing is said about it. *)

From Coq Require Import Reals Lra Lia List ZArith Bool Permutation Sorting.Sorted.
From Verif Require Import Plane SpecEngine Engine PropEngine.
Import ListNotations.
Open Scope R_scope.

(** * C28 *)
Arguments Nat.ltb : simpl never.
Arguments Nat.div : simpl never.

Lemma insert_perm : forall x l, Permutation (insert x l) (x :: l).
Proof.
  intros x l. induction l as [|y l IH]; [apply Permutation_refl|]. cbn [insert].
  destruct (Rle_dec x y); [apply Permutation_refl|].
  eapply perm_trans; [apply perm_skip, IH|apply perm_swap].
Qed.
Lemma rsort_perm : forall l, Permutation (rsort l) l.
Proof.
  induction l as [|x l IH]; [constructor|]. cbn [rsort fold_right].
  eapply perm_trans; [apply insert_perm|]. now apply perm_skip.
Qed.
Lemma insert_sorted : forall x l, StronglySorted Rle l -> StronglySorted Rle (insert x l).
Proof.
  intros x l H. induction H as [|y l H IH F]; cbn [insert]; [repeat constructor|].
  destruct (Rle_dec x y) as [L|L].
  - constructor; [now constructor|]. constructor; [exact L|]. eapply Forall_impl; [|exact F]. intros z; cbn; lra.
  - constructor; [exact IH|]. apply (Permutation_Forall (Permutation_sym (insert_perm x l))).
    constructor; [lra|exact F].
Qed.
Lemma rsort_sorted : forall l, StronglySorted Rle (rsort l).
Proof. induction l as [|x l IH]; [constructor|]. now apply insert_sorted. Qed.
Lemma rsort_length : forall l, length (rsort l) = length l.
Proof. intros l. apply Permutation_length, rsort_perm. Qed.

(** Every cut index is valid, and none is the first vertex. *)
Lemma cut_index_bound : forall len m i, (4 < m)%nat -> (m < len)%nat -> (1 <= i <= len / m)%nat ->
  (0 < cut_index len (len / m) i < len)%nat.
Proof.
  intros len m i M L I. set (n := (len / m)%nat) in *.
  assert (N : (m * n <= len)%nat) by (unfold n; apply Nat.mul_div_le; lia).
  assert (NR : 0 < INR n + 1) by (pose proof (pos_INR n); lra).
  assert (LR : INR m * INR n <= INR len) by (rewrite <- mult_INR; now apply le_INR).
  assert (M5 : 5 <= INR m) by (replace 5 with (INR 5) by (cbn; lra); apply le_INR; lia).
  assert (ML : INR m + 1 <= INR len) by (rewrite <- S_INR; now apply le_INR).
  assert (I1 : 1 <= INR i) by (replace 1 with (INR 1) by reflexivity; apply le_INR; lia).
  assert (I2 : INR i <= INR n) by (apply le_INR; lia).
  assert (Q : 5 / 2 <= INR len / (INR n + 1)).
  { apply Rmult_le_reg_r with (INR n + 1); [exact NR|]. unfold Rdiv at 2. rewrite Rmult_assoc, Rinv_l, Rmult_1_r by lra.
    assert (INR n * 5 <= INR len) by (eapply Rle_trans; [|exact LR]; rewrite Rmult_comm; apply Rmult_le_compat_r; lra). lra. }
  set (q := INR len / (INR n + 1)) in *.
  assert (QL : q * (INR n + 1) = INR len) by (unfold q; field; lra).
  unfold cut_index. replace (INR i * INR len / (INR n + 1) + / 2) with (INR i * q + / 2) by (unfold q; field; lra).
  set (x := INR i * q + / 2).
  assert (X1 : 3 <= x) by (unfold x; assert (1 * q <= INR i * q) by (apply Rmult_le_compat_r; lra); lra).
  assert (X2 : x <= INR len - 2).
  { unfold x. assert (INR i * q <= INR n * q) by (apply Rmult_le_compat_r; lra). lra. }
  destruct (base_Int_part x) as [A B].
  assert (K1 : (2 < Int_part x)%Z) by (apply lt_IZR; lra).
  assert (K2 : (Int_part x < Z.of_nat len)%Z) by (apply lt_IZR; rewrite <- INR_IZR_INZ; lra).
  lia.
Qed.
Lemma all_some_map : forall {X Y} (f : X -> option Y) l, (forall x, In x l -> exists y, f x = Some y) ->
  exists ys, all_some (map f l) = Some ys /\ Forall2 (fun x y => f x = Some y) l ys.
Proof.
  intros X Y f l. induction l as [|x l IH]; intros H; [exists []; split; [reflexivity|constructor]|].
  destruct (H x) as [y E]; [now left|]. destruct IH as (ys & A & B); [intros; apply H; now right|].
  exists (y :: ys). cbn [map all_some]. rewrite E, A. split; [reflexivity|now constructor].
Qed.
Lemma Forall2_len : forall {X Y} (P : X -> Y -> Prop) l m, Forall2 P l m -> length l = length m.
Proof. intros X Y P l m H. induction H; cbn; congruence. Qed.
Lemma cuts_defined : forall pts m, (4 < m)%nat -> (m < length pts)%nat ->
  exists cuts, cuts_of pts (length pts / m) = Some cuts /\ length cuts = (length pts / m)%nat /\ incl cuts pts.
Proof.
  intros pts m M L. unfold cuts_of.
  destruct (all_some_map (fun i => nth_error pts (cut_index (length pts) (length pts / m) i)) (seq 1 (length pts / m))) as (cuts & A & B).
  - intros i I. apply in_seq in I. destruct (nth_error pts _) as [y|] eqn:E; [now exists y|].
    apply nth_error_None in E. pose proof (cut_index_bound (length pts) m i M L). lia.
  - exists cuts. split; [exact A|]. split; [rewrite <- (Forall2_len _ _ _ B); apply seq_length|].
    clear A. intros c I. induction B as [|i y l l' E B IH]; [destruct I|].
    destruct I as [<-|I]; [exact (nth_error_In _ _ E)|auto].
Qed.

Section AnyEngine.
Variable eng : op -> list zpath -> list zpath -> list zpath.

Lemma chop_defined : forall s p cuts axis, p <> [] -> exists r, chop eng s p cuts axis = Some r.
Proof.
  intros s p cuts axis N. unfold chop. destruct (bounding_box (parse_polygon s true p)) as [[[[x0 x1] y0] y1]|] eqn:E.
  - eexists. reflexivity.
  - exfalso. destruct (C56_normalised s p) as (_ & _ & _ & P). destruct (parse_polygon s true p); [|discriminate].
    apply Permutation_nil in P. destruct p; [now destruct N|discriminate].
Qed.

(** A polygon with too many vertices is always cut without an error, at coordinates of
    its vertices, into strips along its longer side. *)
Theorem C28_cuts : forall s m (p : poly), (4 < m)%nat -> (m < length p)%nat ->
  exists cuts axis pieces,
    fracture_one eng s m p = Some (concat pieces) /\ chop eng s p cuts axis = Some pieces /\
    length cuts = (length p / m)%nat /\
    (forall c, In c cuts -> exists v, In v p /\ c = if axis then snd v else fst v).
Proof.
  intros s m p M L. unfold fracture_one.
  set (horizontal := if Rlt_dec _ _ then false else true).
  assert (E : length (rsort (map fst p)) = length p) by (rewrite rsort_length; apply map_length).
  assert (E' : length (rsort (map snd p)) = length p) by (rewrite rsort_length; apply map_length).
  set (pts := if horizontal then rsort (map snd p) else rsort (map fst p)).
  assert (EP : length pts = length p) by (unfold pts; now destruct horizontal).
  destruct (cuts_defined pts m M) as (cuts & A & B & C); [lia|].
  rewrite E. rewrite EP in A, B. rewrite A.
  destruct (chop_defined s p cuts horizontal) as [r R]; [intros ->; cbn in L; lia|].
  exists cuts, horizontal, r. rewrite R. split; [reflexivity|]. split; [reflexivity|]. split; [exact B|].
  intros c I. apply C in I. unfold pts in I. destruct horizontal.
  - apply (Permutation_in _ (rsort_perm _)) in I. apply in_map_iff in I. destruct I as (v & <- & I). now exists v.
  - apply (Permutation_in _ (rsort_perm _)) in I. apply in_map_iff in I. destruct I as (v & <- & I). now exists v.
Qed.

(** [cut_from s p q]: q is what is left of p after cutting it one or more times. *)
Inductive cut_from (s : R) : poly -> poly -> Prop :=
| cut_once : forall p cuts axis pieces q, chop eng s p cuts axis = Some pieces -> In q (concat pieces) -> cut_from s p q
| cut_again : forall p q r, cut_from s p q -> cut_from s q r -> cut_from s p r.

Fixpoint zip3 (ps : list poly) (ls ds : list Z) : list (poly * Z * Z) :=
  match ps, ls, ds with
  | p :: ps, l :: ls, d :: ds => (p, l, d) :: zip3 ps ls ds
  | _, _, _ => []
  end.
Definition small (m : nat) (x : poly * Z * Z) : bool := (length (fst (fst x)) <=? m)%nat.

Lemma zip3_app : forall ps ls ds ps' ls' ds', length ps = length ls -> length ps = length ds ->
  zip3 (ps ++ ps') (ls ++ ls') (ds ++ ds') = zip3 ps ls ds ++ zip3 ps' ls' ds'.
Proof.
  induction ps as [|p ps IH]; intros [|l ls] [|d ds] ps' ls' ds' E F; try discriminate; [reflexivity|].
  cbn [app zip3]. f_equal. apply IH; now injection E; injection F.
Qed.
Lemma zip3_repeat : forall ps l d, zip3 ps (repeat l (length ps)) (repeat d (length ps)) = map (fun p => (p, l, d)) ps.
Proof. induction ps as [|p ps IH]; intros; [reflexivity|]. cbn. now rewrite IH. Qed.
Lemma zip3_nth : forall ps ls ds i p l d, nth_error ps i = Some p -> nth_error ls i = Some l -> nth_error ds i = Some d ->
  In (p, l, d) (zip3 ps ls ds).
Proof.
  induction ps as [|q ps IH]; intros [|l' ls] [|d' ds] [|i] p l d A B C; try discriminate; cbn in *.
  - left. congruence.
  - right. eapply IH; eauto.
Qed.
Lemma split_nth : forall {X} i (l : list X) x, nth_error l i = Some x -> l = firstn i l ++ x :: skipn (S i) l.
Proof.
  intros X. induction i as [|i IH]; intros [|y l] x E; try discriminate.
  - injection E as ->. reflexivity.
  - cbn [firstn app]. f_equal. exact (IH l x E).
Qed.

Lemma firstn_S_nth : forall {X} i (l : list X) x, nth_error l i = Some x -> firstn (S i) l = firstn i l ++ [x].
Proof.
  intros X. induction i as [|i IH]; intros [|y l] x E; try discriminate; cbn [nth_error] in E.
  - injection E as ->. reflexivity.
  - cbn [firstn app]. f_equal. exact (IH l x E).
Qed.
Lemma fracture_loop_spec : forall fuel s m ii (ps : list poly) ls ds ps' ls' ds',
  length ls = length ps -> length ds = length ps -> (ii <= length ps)%nat ->
  Forall (fun p : poly => (length p <= m)%nat) (firstn ii ps) ->
  fracture_loop eng fuel s m ii ps ls ds = Some (ps', ls', ds') ->
  length ls' = length ps' /\ length ds' = length ps' /\
  Forall (fun p : poly => (length p <= m)%nat) ps' /\
  exists new, zip3 ps' ls' ds' = filter (small m) (zip3 ps ls ds) ++ new /\
              Forall (fun x => exists p : poly, In (p, snd (fst x), snd x) (zip3 ps ls ds) /\ (m < length p)%nat /\
                                         cut_from s p (fst (fst x))) new.
Proof.
  induction fuel as [|fuel IH]; intros s m ii ps ls ds ps' ls' ds' LL LD LI F E; [discriminate|].
  cbn [fracture_loop] in E. destruct (nth_error ps ii) as [p|] eqn:P.
  - destruct (Nat.ltb_spec m (length p)) as [B|B].
    + destruct (fracture_one eng s m p) as [new|] eqn:FR; [|discriminate].
      destruct (nth_error ls ii) as [l|] eqn:NL; [|discriminate]. destruct (nth_error ds ii) as [d|] eqn:ND; [|discriminate].
      pose proof (split_nth _ _ _ P) as SP. pose proof (split_nth _ _ _ NL) as SL. pose proof (split_nth _ _ _ ND) as SD.
      assert (IL : (ii < length ps)%nat) by (apply nth_error_Some; congruence).
      assert (K1 : length (firstn ii ps) = ii) by (rewrite firstn_length; lia).
      assert (K2 : length (firstn ii ls) = ii) by (rewrite firstn_length; lia).
      assert (K3 : length (firstn ii ds) = ii) by (rewrite firstn_length; lia).
      set (p1 := firstn ii ps) in *. set (p2 := skipn (S ii) ps) in *.
      set (l1 := firstn ii ls) in *. set (l2 := skipn (S ii) ls) in *.
      set (d1 := firstn ii ds) in *. set (d2 := skipn (S ii) ds) in *.
      assert (T2 : length p2 = length l2 /\ length p2 = length d2).
      { unfold p2, l2, d2. rewrite !skipn_length. lia. }
      assert (Z : zip3 ps ls ds = zip3 p1 l1 d1 ++ (p, l, d) :: zip3 p2 l2 d2).
      { rewrite SP, SL, SD. rewrite zip3_app by lia. reflexivity. }
      assert (ZN : zip3 (pop ii ps ++ new) (pop ii ls ++ repeat l (length new)) (pop ii ds ++ repeat d (length new))
                   = zip3 p1 l1 d1 ++ zip3 p2 l2 d2 ++ map (fun q => (q, l, d)) new).
      { unfold pop. fold p1 p2 l1 l2 d1 d2. rewrite <- !app_assoc. rewrite zip3_app by lia. f_equal.
        rewrite zip3_app by lia. f_equal. apply zip3_repeat. }
      apply IH in E.
      * destruct E as (A1 & A2 & A3 & nw & Zn & Fn). repeat (split; [assumption|]).
        exists (filter (small m) (map (fun q => (q, l, d)) new) ++ nw). split.
        -- rewrite Zn, ZN, Z, !filter_app. cbn [filter].
           assert (SB : small m (p, l, d) = false) by (apply Nat.leb_gt; exact B). rewrite SB. now rewrite <- !app_assoc.
        -- assert (C : forall q, In q new -> cut_from s p q).
           { intros q I. unfold fracture_one in FR. destruct (cuts_of _ _) as [cuts|]; [|discriminate].
             destruct (chop _ _ _ _ _) as [pieces|] eqn:CH; [|discriminate]. cbn [option_map] in FR. injection FR as <-. econstructor; eauto. }
           apply Forall_app. split.
           ++ apply Forall_forall. intros x I. apply filter_In in I. destruct I as [I _]. apply in_map_iff in I.
              destruct I as (q & <- & I). exists p. cbn [fst snd]. split; [rewrite Z; apply in_or_app; right; now left|]. auto.
           ++ eapply Forall_impl; [|exact Fn]. intros [[q l'] d'] (p' & I & B' & C'). cbn [fst snd] in *.
              rewrite ZN in I. rewrite !in_app_iff in I. destruct I as [I|[I|I]].
              ** exists p'. split; [rewrite Z; apply in_or_app; now left|auto].
              ** exists p'. split; [rewrite Z; apply in_or_app; right; now right|auto].
              ** apply in_map_iff in I. destruct I as (r & Er & I). injection Er as -> -> ->.
                 exists p. split; [rewrite Z; apply in_or_app; right; now left|]. split; [exact B|]. eapply cut_again; eauto.
      * unfold pop. rewrite !app_length, repeat_length. fold p1 p2 l1 l2. lia.
      * unfold pop. rewrite !app_length, repeat_length. fold p1 p2 d1 d2. lia.
      * unfold pop. rewrite !app_length. fold p1 p2. lia.
      * unfold pop. rewrite <- app_assoc, firstn_app. fold p1. rewrite K1, Nat.sub_diag. cbn [firstn].
        rewrite app_nil_r. rewrite firstn_all2 by lia. exact F.
    + apply IH in E; try assumption.
      * apply nth_error_Some. congruence.
      * rewrite (firstn_S_nth _ _ _ P). apply Forall_app. split; [exact F|]. constructor; [exact B|constructor].
  - injection E as <- <- <-. apply nth_error_None in P. rewrite firstn_all2 in F by lia.
    repeat (split; [assumption|]). exists []. rewrite app_nil_r. split; [|constructor].
    symmetry. clear - F. revert ls ds. induction F as [|p ps L F IH]; intros [|l ls] [|d ds]; try reflexivity.
    cbn [zip3 filter]. unfold small at 1. cbn [fst]. replace (length p <=? m)%nat with true by (symmetry; now apply Nat.leb_le).
    f_equal. apply IH.
Qed.

(** When fracture ends, no polygon has more than [max_points] vertices; those that had few
    enough are unchanged, first and in order, with their layer and datatype; the others are
    replaced by what is left of them after cutting, with their layer and datatype. *)
Theorem C28_fracture : forall fuel precision m (ps : list poly) ls ds ps' ls' ds',
  (4 < m)%nat -> length ls = length ps -> length ds = length ps ->
  fracture eng fuel precision m ps ls ds = Some (ps', ls', ds') ->
  length ls' = length ps' /\ length ds' = length ps' /\
  Forall (fun p : poly => (length p <= m)%nat) ps' /\
  exists new, zip3 ps' ls' ds' = filter (small m) (zip3 ps ls ds) ++ new /\
              Forall (fun x => exists p : poly, In (p, snd (fst x), snd x) (zip3 ps ls ds) /\ (m < length p)%nat /\
                                         cut_from (1 / precision) p (fst (fst x))) new.
Proof.
  intros fuel precision m ps ls ds ps' ls' ds' M LL LD E. unfold fracture in E.
  replace (4 <? m)%nat with true in E by (symmetry; now apply Nat.ltb_lt).
  apply (fracture_loop_spec _ _ _ _ _ _ _ _ _ _ LL LD) in E; [exact E|lia|constructor].
Qed.
Theorem C28_few : forall fuel precision m ps ls ds, (m <= 4)%nat ->
  fracture eng fuel precision m ps ls ds = Some (ps, ls, ds).
Proof. intros. unfold fracture. replace (4 <? m)%nat with false by (symmetry; now apply Nat.ltb_ge). reflexivity. Qed.
(** More fuel does not change the result. *)
Theorem C28_fuel : forall fuel precision m ps ls ds r,
  fracture eng fuel precision m ps ls ds = Some r -> fracture eng (S fuel) precision m ps ls ds = Some r.
Proof.
  intros fuel precision m ps ls ds r. unfold fracture. destruct (4 <? m)%nat; [|auto].
  generalize 0%nat as ii. revert ps ls ds. induction fuel as [|fuel IH]; intros ps ls ds ii E; [discriminate|].
  remember (S fuel) as f. cbn [fracture_loop]. subst f. cbn [fracture_loop] in E.
  destruct (nth_error ps ii) as [p|]; [|exact E]. destruct (m <? length p)%nat; [|now apply IH].
  destruct (fracture_one eng (1 / precision) m p) as [new|]; [|discriminate].
  destruct (nth_error ls ii) as [l|]; [|discriminate]. destruct (nth_error ds ii) as [d|]; [|discriminate]. now apply IH.
Qed.
(** If the pieces of a polygon are always smaller than it, fracture ends. *)
Theorem C28_terminates : forall precision m (ps : list poly) ls ds, (4 < m)%nat -> length ls = length ps -> length ds = length ps ->
  (forall (p : poly) new, fracture_one eng (1 / precision) m p = Some new -> (m < length p)%nat ->
                 Forall (fun q => (length q < length p)%nat) new) ->
  exists fuel r, fracture eng fuel precision m ps ls ds = Some r.
Proof.
  intros precision m ps ls ds M LL LD SM. unfold fracture.
  replace (4 <? m)%nat with true by (symmetry; now apply Nat.ltb_lt).
  (* pending polygons: those from index ii on; induct on their sizes *)
  assert (G : forall w ii (ps : list poly) ls ds, length ls = length ps -> length ds = length ps ->
             Forall (fun p : poly => (length p < w)%nat) (skipn ii ps) -> forall k, (length (skipn ii ps) <= k)%nat ->
             exists fuel r, fracture_loop eng fuel (1 / precision) m ii ps ls ds = Some r).
  { induction w as [|w IHw].
    - intros ii ps0 ls0 ds0 L1 L2 F k K. destruct (skipn ii ps0) eqn:E; [|now inversion F].
      exists 1%nat. cbn [fracture_loop]. replace (nth_error ps0 ii) with (@None poly); [eexists; reflexivity|].
      symmetry. apply nth_error_None. assert (length (skipn ii ps0) = 0)%nat by now rewrite E. rewrite skipn_length in H. lia.
    - (* polygons of size exactly w come first by count *)
      assert (CNT : forall c ii (ps : list poly) ls ds, length ls = length ps -> length ds = length ps ->
                forall done rest, skipn ii ps = done ++ rest -> length done = c ->
                Forall (fun p : poly => (length p < S w)%nat) done -> Forall (fun p => (length p < w)%nat) rest ->
                exists fuel r, fracture_loop eng fuel (1 / precision) m ii ps ls ds = Some r).
      { induction c as [|c IHc]; intros ii ps0 ls0 ds0 L1 L2 done rest E C F1 F2.
        - destruct done; [|discriminate]. cbn in E. apply (IHw ii ps0 ls0 ds0 L1 L2) with (k := length rest); [now rewrite E|now rewrite E].
        - destruct done as [|p done]; [discriminate|]. injection C as C. inversion F1 as [|? ? W F1']; subst.
          assert (NP : nth_error ps0 ii = Some p).
          { rewrite <- (firstn_skipn ii ps0) at 1. rewrite E.
            assert (LE : (ii < length ps0)%nat).
            { assert (length (skipn ii ps0) = S (length (done ++ rest))) by now rewrite E. rewrite skipn_length in H. lia. }
            rewrite nth_error_app2 by (rewrite firstn_length; lia). rewrite firstn_length.
            replace (ii - Nat.min ii (length ps0))%nat with 0%nat by lia. reflexivity. }
          pose proof (split_nth _ _ _ NP) as SP.
          assert (LE : (ii < length ps0)%nat) by (apply nth_error_Some; congruence).
          assert (TAIL : skipn (S ii) ps0 = done ++ rest).
          { rewrite SP in E. rewrite skipn_app in E. rewrite firstn_length in E.
            replace (ii - Nat.min ii (length ps0))%nat with 0%nat in E by lia.
            rewrite skipn_all2 in E by (rewrite firstn_length; lia). cbn [skipn app] in E. injection E as E. exact E. }
          destruct (Nat.ltb_spec m (length p)) as [B|B].
          + destruct (C28_cuts (1 / precision) m p M B) as (cuts & axis & pieces & FR & _ & _ & _).
            destruct (nth_error ls0 ii) as [l|] eqn:NL; [|apply nth_error_None in NL; lia].
            destruct (nth_error ds0 ii) as [d|] eqn:ND; [|apply nth_error_None in ND; lia].
            set (new := concat pieces) in *.
            destruct (IHc ii (pop ii ps0 ++ new) (pop ii ls0 ++ repeat l (length new)) (pop ii ds0 ++ repeat d (length new)))
              with (done := done) (rest := rest ++ new) as (fuel & r & R).
            * unfold pop. rewrite !app_length, repeat_length, !firstn_length, !skipn_length. lia.
            * unfold pop. rewrite !app_length, repeat_length, !firstn_length, !skipn_length. lia.
            * unfold pop. rewrite TAIL, <- !app_assoc. rewrite skipn_app, firstn_length.
              replace (ii - Nat.min ii (length ps0))%nat with 0%nat by lia.
              rewrite skipn_all2 by (rewrite firstn_length; lia). reflexivity.
            * reflexivity.
            * exact F1'.
            * apply Forall_app. split; [exact F2|]. eapply Forall_impl; [|exact (SM p new FR B)]. intros q; cbn; lia.
            * exists (S fuel), r. cbn [fracture_loop]. rewrite NP.
              replace (m <? length p)%nat with true by (symmetry; now apply Nat.ltb_lt). now rewrite FR, NL, ND.
          + destruct (IHc (S ii) ps0 ls0 ds0 L1 L2 done rest TAIL eq_refl F1' F2) as (fuel & r & R).
            exists (S fuel), r. cbn [fracture_loop]. rewrite NP.
            replace (m <? length p)%nat with false by (symmetry; now apply Nat.ltb_ge). exact R. }
      intros ii ps0 ls0 ds0 L1 L2 F k K. apply (CNT (length (skipn ii ps0)) ii ps0 ls0 ds0 L1 L2 (skipn ii ps0) []).
      + now rewrite app_nil_r.
      + reflexivity.
      + exact F.
      + constructor. }
  destruct (G (S (fold_right Nat.max 0%nat (map (@length _) ps))) 0%nat ps ls ds LL LD) with (k := length ps) as (fuel & r & R).
  - cbn [skipn]. clear. induction ps as [|p ps IH]; constructor.
    + cbn [map fold_right]. lia.
    + eapply Forall_impl; [|exact IH]. intros q; cbn [map fold_right]. lia.
  - reflexivity.
  - exists fuel, r. exact R.
Qed.
End AnyEngine.

(** * What is covered

    [cov p] says that a fixed point [q] (in grid steps, not on a grid line) is covered by
    the polygon [p].  An engine is correct at [q] if its results cover [q] when the set
    operation on its operands does. *)

Definition sem (o : op) (a b : Prop) : Prop :=
  match o with Or => a \/ b | And => a /\ b | Xor => (a /\ ~ b) \/ (b /\ ~ a) | Not => a /\ ~ b end.
Definition strictly (a b : Z) (x : R) : Prop := IZR a < x < IZR b \/ IZR b < x < IZR a.
Record coverage (q : R * R) (cov : zpath -> Prop) : Prop := {
  off_grid : forall k, fst q <> IZR k /\ snd q <> IZR k;
  cov_rev : forall p, cov (rev p) <-> cov p;
  cov_rect : forall x0 x1 y0 y1, cov (rect x0 x1 y0 y1) <-> strictly x0 x1 (fst q) /\ strictly y0 y1 (snd q);
  cov_box : forall p x0 x1 y0 y1, bounding_box p = Some (x0, x1, y0, y1) -> cov p ->
            IZR x0 < fst q < IZR x1 /\ IZR y0 < snd q < IZR y1 }.
Definition correct_at (cov : zpath -> Prop) (eng : op -> list zpath -> list zpath -> list zpath) : Prop :=
  forall o a b, Exists cov (eng o a b) <-> sem o (Exists cov a) (Exists cov b).
(** The same for the polygons the user sees, which the engine snaps to the grid. *)
Definition covered (precision : R) (cov : zpath -> Prop) (l : list poly) : Prop :=
  Exists (fun p => cov (parse_polygon (1 / precision) true p)) l.

Lemma strips_length : forall cuts pos last, length (strips pos cuts last) = S (length cuts).
Proof. induction cuts as [|c r IH]; intros; [reflexivity|]. cbn [strips length]. now rewrite IH. Qed.
Lemma strips_cover : forall cuts lo hi x, (forall k, x <> IZR k) -> IZR lo < x < IZR hi ->
  Exists (fun s => strictly (fst s) (snd s) x) (strips lo cuts hi).
Proof.
  induction cuts as [|c r IH]; intros lo hi x N H; cbn [strips]; [left; left; exact H|].
  destruct (Rlt_dec x (IZR c)) as [L|L]; [left; left; cbn [fst snd]; lra|].
  right. apply IH; [exact N|]. specialize (N c). lra.
Qed.
(** The strips between sorted cuts: a point that is on none of them is in strip [i] when
    the first [i] cuts are below it and the others above. *)
Definition between_cuts (cuts : list Z) (i : nat) (x : R) : Prop :=
  (forall j c, (j < i)%nat -> nth_error cuts j = Some c -> IZR c < x) /\
  (forall j c, (i <= j)%nat -> nth_error cuts j = Some c -> x < IZR c).
Lemma strips_index : forall cuts lo hi x i a b, StronglySorted Z.le cuts -> IZR lo < x < IZR hi ->
  nth_error (strips lo cuts hi) i = Some (a, b) -> (strictly a b x <-> between_cuts cuts i x).
Proof.
  assert (G : forall cuts lo hi x i a b, StronglySorted Z.le cuts -> IZR lo < x < IZR hi ->
    nth_error (strips lo cuts hi) i = Some (a, b) -> (between_cuts cuts i x -> strictly a b x)).
  { induction cuts as [|c r IH]; intros lo hi x i a b SS H E [A B]; cbn [strips] in E.
    - destruct i; [injection E as <- <-; now left|destruct i; discriminate].
    - destruct i as [|i]; cbn [nth_error] in E.
      + injection E as <- <-. left. split; [lra|]. apply (B 0%nat c); [lia|reflexivity].
      + inversion SS as [|? ? S' F]; subst. apply (IH c hi x i a b S'); [|exact E|].
        * split; [|lra]. apply (A 0%nat c); [lia|reflexivity].
        * split; [intros j d J; apply (A (S j) d); lia|intros j d J; apply (B (S j) d); lia]. }
  intros cuts lo hi x i a b SS H E. split; [|now apply (G cuts lo hi)]. revert lo i a b SS H E.
  induction cuts as [|c r IH]; intros lo i a b SS H E T; cbn [strips] in E.
  - split; intros j d _ C; destruct j; discriminate.
  - inversion SS as [|? ? S' F]; subst. destruct i as [|i]; cbn [nth_error] in E.
    + injection E as <- <-. split; [intros; lia|]. intros j d _ C.
      assert (X : x < IZR c) by (destruct T; lra). destruct j as [|j]; cbn [nth_error] in C; [now injection C as <-|].
      apply nth_error_In in C. rewrite Forall_forall in F. apply F in C. apply IZR_le in C. lra.
    + assert (X : IZR c < x).
      { destruct (Rlt_dec (IZR c) x) as [L|L]; [exact L|]. exfalso.
        (* every strip from c on lies above c, or ends at hi *)
        clear IH G. revert c i a b SS S' F E T L. induction r as [|d r IHr]; intros c i a b SS S' F E T L; cbn [strips] in E.
        - destruct i; [|destruct i; discriminate]. injection E as <- <-. destruct T; lra.
        - inversion F as [|? ? D F']; subst. apply IZR_le in D. destruct i as [|i]; cbn [nth_error] in E.
          + injection E as <- <-. destruct T; lra.
          + inversion S' as [|? ? S'' F'']; subst. apply (IHr d i a b); auto. lra. }
      destruct (IH c i a b S' (conj X (proj2 H)) E T) as [A B]. split.
      * intros [|j] d J C; cbn [nth_error] in C; [now injection C as <-|]. apply (A j d); [lia|exact C].
      * intros [|j] d J C; [lia|]. apply (B j d); [lia|exact C].
Qed.

Lemma cround_le : forall x y, x <= y -> (cround x <= cround y)%Z.
Proof.
  intros x y H. destruct (Z_le_gt_dec (cround x) (cround y)) as [L|G]; [exact L|]. exfalso.
  destruct (cround_nearest x) as [A B], (cround_nearest y) as [C D].
  assert (M : IZR (cround y) + 1 <= IZR (cround x)) by (rewrite <- plus_IZR; apply IZR_le; lia).
  set (a := cround x) in *. set (b := cround y) in *.
  assert (A' : - / 2 <= x - IZR a <= / 2) by (unfold Rabs in A; destruct (Rcase_abs _); lra).
  assert (C' : - / 2 <= y - IZR b <= / 2) by (unfold Rabs in C; destruct (Rcase_abs _); lra).
  assert (E : x - IZR a = - / 2) by lra. assert (F : y - IZR b = / 2) by lra. assert (x = y) by lra. subst y.
  assert (a = b); [|lia]. apply (nearest_unique x); apply cround_nearest.
Qed.
Lemma map_sorted : forall (f : R -> Z) l, (forall x y, x <= y -> (f x <= f y)%Z) ->
  StronglySorted Rle l -> StronglySorted Z.le (map f l).
Proof.
  intros f l M H. induction H as [|x l H IH F]; constructor; [exact IH|].
  apply Forall_map. eapply Forall_impl; [|exact F]. intros; now apply M.
Qed.

Lemma Exists_map_iff : forall {X Y} (f : X -> Y) (P : Y -> Prop) l, Exists P (map f l) <-> Exists (fun x => P (f x)) l.
Proof.
  intros X Y f P l. rewrite !Exists_exists. split.
  - intros (y & I & H). apply in_map_iff in I. destruct I as (x & <- & I). now exists x.
  - intros (x & I & H). exists (f x). split; [now apply in_map|exact H].
Qed.
Lemma Exists_iff : forall {X} (P Q : X -> Prop) l, (forall x, P x <-> Q x) -> (Exists P l <-> Exists Q l).
Proof. intros X P Q l H. split; apply Exists_impl; intros x; apply H. Qed.

Section Covered.
Variable q : R * R.
Variable cov : zpath -> Prop.
Hypothesis C : coverage q cov.
Variable eng : op -> list zpath -> list zpath -> list zpath.
Hypothesis E : correct_at cov eng.
Variable precision : R.
Hypothesis PP : 0 < precision.
Let s := 1 / precision.

Lemma s_pos : 0 < s.
Proof. unfold s. apply Rmult_lt_0_compat; [lra|now apply Rinv_0_lt_compat]. Qed.
Lemma cov_unsnap : forall z, cov (parse_polygon s true (map (unsnap s) z)) <-> cov z.
Proof.
  intros z. assert (F : map (snap s) (map (unsnap s) z) = z).
  { rewrite map_map. rewrite <- (map_id z) at 2. apply map_ext. intros p. apply C56_stable. pose proof s_pos. lra. }
  destruct (C56_normalised s (map (unsnap s) z)) as [[G|G] _]; rewrite G, F; [reflexivity|].
  apply (cov_rev _ _ C).
Qed.
Lemma covered_unsnap : forall l, covered precision cov (map (map (unsnap s)) l) <-> Exists cov l.
Proof. intros l. unfold covered. rewrite Exists_map_iff. apply Exists_iff. intros z. apply cov_unsnap. Qed.
Lemma covered_app : forall a b, covered precision cov (a ++ b) <-> covered precision cov a \/ covered precision cov b.
Proof. intros. apply Exists_app. Qed.
Lemma exists_one : forall z : zpath, Exists cov [z] <-> cov z.
Proof. intros z. split; [intros H; inversion H as [? ? K|? ? K]; [exact K|inversion K]|now left]. Qed.

(** One strip of one polygon. *)
Lemma chop_cov : forall p cuts axis pieces, chop eng s p cuts axis = Some pieces ->
  let zc := map (fun c => cround (s * c)) cuts in
  let x := if axis then snd q else fst q in
  length pieces = S (length cuts) /\
  exists lo hi, (cov (parse_polygon s true p) -> IZR lo < x < IZR hi) /\
  forall i l, nth_error pieces i = Some l ->
    exists a b, nth_error (strips lo zc hi) i = Some (a, b) /\
                (covered precision cov l <-> cov (parse_polygon s true p) /\ strictly a b x).
Proof.
  intros p cuts axis pieces H zc x. unfold chop in H.
  destruct (bounding_box (parse_polygon s true p)) as [[[[x0 x1] y0] y1]|] eqn:B; [|discriminate].
  fold zc in H. injection H as <-. split.
  { rewrite map_length. destruct axis; rewrite map_length, strips_length; unfold zc; now rewrite map_length. }
  pose proof (cov_box _ _ C _ _ _ _ _ B) as BX.
  exists (if axis then y0 else x0), (if axis then y1 else x1). split.
  { intros V. destruct (BX V). unfold x. now destruct axis. }
  intros i l N. rewrite nth_error_map in N.
  assert (W : exists a b, nth_error (strips (if axis then y0 else x0) zc (if axis then y1 else x1)) i = Some (a, b) /\
                          l = map (map (unsnap s)) (eng And [parse_polygon s true p] [if axis then rect x0 x1 a b else rect a b y0 y1])).
  { destruct axis; rewrite nth_error_map in N; destruct (nth_error (strips _ _ _) i) as [[a b]|]; try discriminate;
      cbn [option_map fst snd] in N; injection N as <-; now exists a, b. }
  destruct W as (a & b & W & ->). exists a, b. split; [exact W|].
  rewrite covered_unsnap, (E And). cbn [sem]. rewrite !exists_one.
  split; intros [V R]; (split; [exact V|]); destruct (BX V) as [X Y].
  - destruct axis; apply (cov_rect _ _ C) in R; unfold x; tauto.
  - destruct axis; apply (cov_rect _ _ C); unfold x in R; (split; [|]; try exact R); left; assumption.
Qed.
Lemma off_q : forall axis : bool, forall k, (if axis then snd q else fst q) <> IZR k.
Proof. intros axis k. destruct (off_grid _ _ C k). now destruct axis. Qed.
Lemma in_concat_nth : forall {X} (P : X -> Prop) (l : list (list X)), Exists P (concat l) <-> exists i m, nth_error l i = Some m /\ Exists P m.
Proof.
  intros X P l. rewrite Exists_exists. split.
  - intros (x & I & H). apply in_concat in I. destruct I as (m & I & J). apply In_nth_error in I. destruct I as [i I].
    exists i, m. split; [exact I|]. apply Exists_exists. now exists x.
  - intros (i & m & I & H). apply Exists_exists in H. destruct H as (x & J & H). exists x. split; [|exact H].
    apply in_concat. exists m. split; [exact (nth_error_In _ _ I)|exact J].
Qed.
(** All strips together: cutting loses nothing and adds nothing. *)
Lemma chop_all : forall p cuts axis pieces, chop eng s p cuts axis = Some pieces ->
  (covered precision cov (concat pieces) <-> cov (parse_polygon s true p)).
Proof.
  intros p cuts axis pieces H. destruct (chop_cov _ _ _ _ H) as (L & lo & hi & B & P).
  set (zc := map (fun c => cround (s * c)) cuts) in *. set (x := if axis then snd q else fst q) in *.
  unfold covered. rewrite in_concat_nth. split.
  - intros (i & m & I & V). destruct (P i m I) as (a & b & _ & W). now apply W in V.
  - intros V. pose proof (strips_cover zc lo hi x (off_q axis) (B V)) as S. apply Exists_exists in S.
    destruct S as ([a b] & I & S). apply In_nth_error in I. destruct I as [i I].
    assert (LI : (i < length pieces)%nat).
    { rewrite L. assert (i < length (strips lo zc hi))%nat by (apply nth_error_Some; congruence).
      rewrite strips_length in H0. unfold zc in H0. now rewrite map_length in H0. }
    destruct (nth_error pieces i) as [m|] eqn:N; [|apply nth_error_None in N; lia].
    exists i, m. split; [exact N|]. destruct (P i m N) as (a' & b' & I' & W). rewrite I in I'. injection I' as <- <-.
    apply W. split; assumption.
Qed.
(** fracture keeps the covered region. *)
Theorem C28_region : forall fuel m ps ls ds ps' ls' ds',
  fracture eng fuel precision m ps ls ds = Some (ps', ls', ds') ->
  (covered precision cov ps' <-> covered precision cov ps).
Proof.
  intros fuel m ps ls ds ps' ls' ds'. unfold fracture. destruct (4 <? m)%nat; [|intros H; injection H as -> -> ->; reflexivity].
  generalize 0%nat as ii. revert ps ls ds. induction fuel as [|fuel IH]; intros ps ls ds ii H; [discriminate|].
  cbn [fracture_loop] in H. destruct (nth_error ps ii) as [p|] eqn:P; [|injection H as -> -> ->; reflexivity].
  destruct (m <? length p)%nat; [|exact (IH _ _ _ _ H)].
  destruct (fracture_one eng (1 / precision) m p) as [new|] eqn:F; [|discriminate].
  destruct (nth_error ls ii) as [l|]; [|discriminate]. destruct (nth_error ds ii) as [d|]; [|discriminate].
  rewrite (IH _ _ _ _ H). rewrite (split_nth _ _ _ P) at 2. unfold pop. rewrite <- app_assoc, !covered_app.
  change (?x :: ?l) with ([x] ++ l). rewrite covered_app.
  assert (N : covered precision cov new <-> covered precision cov [p]).
  { unfold fracture_one in F. destruct (cuts_of _ _) as [cuts|]; [|discriminate].
    destruct (chop _ _ _ _ _) as [pieces|] eqn:CH; [|discriminate]. cbn [option_map] in F. injection F as <-.
    rewrite (chop_all _ _ _ _ CH). unfold covered. split; [intros V; now left|]. intros V; inversion V as [? ? K|? ? K]; [exact K|inversion K]. }
  rewrite N. tauto.
Qed.

(** * C30 *)
Definition result_polys (r : option (list poly * list Z * list Z)) : list poly :=
  match r with None => [] | Some (ps, _, _) => ps end.
Lemma clip_cov : forall o a b, covered precision cov (clip eng s o a b) <-> sem o (covered precision cov a) (covered precision cov b).
Proof.
  intros o a b. unfold clip. rewrite covered_unsnap, (E o). unfold covered. destruct o; cbn [sem]; rewrite !Exists_map_iff; reflexivity.
Qed.
Lemma covered_nil : covered precision cov [] <-> False.
Proof. split; [intros H; inversion H|tauto]. Qed.

(** boolean covers what the set operation on the operands covers, also when the second
    operand is empty, except for 'and' (and 'or' of nothing). *)
Theorem C30_boolean : forall fuel o1 o2 o m layer dt r,
  supported o1 -> supported o2 -> (polys_of o2 = [] -> o <> And) ->
  py_boolean eng fuel o1 o2 o precision m layer dt = Some r ->
  (covered precision cov (result_polys r) <->
   sem o (covered precision cov (polys_of o1)) (covered precision cov (polys_of o2))).
Proof.
  intros fuel o1 o2 o m layer dt r S1 S2 A H. unfold py_boolean in H. rewrite (gather_spec o1 S1), (gather_spec o2 S2) in H.
  assert (SET : forall l, option_map Some (fracture eng fuel precision m l (repeat layer (length l)) (repeat dt (length l))) = Some r ->
                          (covered precision cov (result_polys r) <-> covered precision cov l)).
  { clear H. intros l F. destruct (fracture _ _ _ _ _ _ _) as [[[ps ls] ds]|] eqn:FR; [|discriminate]. cbn [option_map] in F. injection F as <-.
    cbn [result_polys]. exact (C28_region _ _ _ _ _ _ _ _ FR). }
  assert (RUN : forall a b, match clip eng (1 / precision) o a b with
                            | [] => Some None
                            | p :: l => option_map Some (fracture eng fuel precision m (p :: l) (repeat layer (length (p :: l))) (repeat dt (length (p :: l))))
                            end = Some r -> (covered precision cov (result_polys r) <-> sem o (covered precision cov a) (covered precision cov b))).
  { intros a b F. pose proof (clip_cov o a b) as K. unfold s in K. destruct (clip eng (1 / precision) o a b) as [|p l].
    - injection F as <-. exact K.
    - rewrite (SET _ F). exact K. }
  destruct (polys_of o2) as [|p2 r2] eqn:P2; [|exact (RUN _ _ H)].
  destruct o.
  - destruct (polys_of o1) as [|p1 r1] eqn:P1; [discriminate|]. rewrite (RUN _ _ H). cbn [sem].
    rewrite covered_nil. rewrite <- covered_app, <- app_removelast_last by discriminate. tauto.
  - now destruct (A eq_refl).
  - destruct (polys_of o1) as [|p1 r1]; [injection H as <-; cbn [result_polys sem]; rewrite covered_nil; tauto|].
    rewrite (SET _ H). cbn [sem]. rewrite covered_nil. tauto.
  - destruct (polys_of o1) as [|p1 r1]; [injection H as <-; cbn [result_polys sem]; rewrite covered_nil; tauto|].
    rewrite (SET _ H). cbn [sem]. rewrite covered_nil. tauto.
Qed.
(** 'and' with an empty second operand: the last polygon of the first operand is used
    instead, so the same polygon twice gives that polygon and not nothing. *)
Theorem C30_and_empty_refuted : forall fuel p m layer dt r,
  cov (parse_polygon s true p) -> py_boolean eng fuel (OList [IPoly p; IPoly p]) ONone And precision m layer dt = Some r ->
  covered precision cov (result_polys r) /\
  ~ sem And (covered precision cov [p; p]) (covered precision cov (polys_of ONone)).
Proof.
  intros fuel p m layer dt r V H. split; [|cbn; rewrite covered_nil; tauto].
  unfold py_boolean in H. cbn in H. fold s in H.
  assert (K : covered precision cov (clip eng s And [p] [p])) by (apply clip_cov; cbn; split; now left).
  destruct (clip eng s And [p] [p]) as [|a l] eqn:CL; [now apply covered_nil in K|].
  destruct (fracture _ _ _ _ _ _ _) as [[[ps ls] ds]|] eqn:FR; [|discriminate]. cbn [option_map] in H. injection H as <-.
  cbn [result_polys]. apply (C28_region _ _ _ _ _ _ _ _ FR). exact K.
Qed.

(** * C29 *)
Lemma extend_each_spec : forall r c, length r = length c -> extend_each r c = map (fun ab => fst ab ++ snd ab) (combine r c).
Proof.
  induction r as [|a r IH]; intros [|b c] H; try discriminate; [reflexivity|]. cbn [extend_each combine map fst snd].
  f_equal. apply IH. now injection H.
Qed.
Lemma extend_nth : forall r c i m, length r = length c -> nth_error (extend_each r c) i = Some m ->
  exists a b, nth_error r i = Some a /\ nth_error c i = Some b /\ m = a ++ b.
Proof.
  induction r as [|a r IH]; intros [|b c] i m H N; try discriminate; cbn [extend_each] in N; [destruct i; discriminate|].
  destruct i as [|i]; cbn [nth_error] in *; [injection N as <-; now exists a, b|].
  apply (IH c i m); [now injection H|exact N].
Qed.
Lemma extend_length : forall r c, length r = length c -> length (extend_each r c) = length r.
Proof. induction r as [|a r IH]; intros [|b c] H; try discriminate; [reflexivity|]. cbn [extend_each length]. rewrite IH; [reflexivity|now injection H]. Qed.
Lemma slice_all_spec : forall polys pos axis res, StronglySorted Rle pos -> length res = S (length pos) ->
  Forall (fun p => p <> []) polys ->
  exists out, slice_all eng s pos axis polys res = Some out /\ length out = S (length pos) /\
  forall i m, nth_error out i = Some m -> exists m0, nth_error res i = Some m0 /\
    (covered precision cov m <->
     covered precision cov m0 \/
     (covered precision cov polys /\ between_cuts (map (fun c => cround (s * c)) pos) i (if axis then snd q else fst q))).
Proof.
  induction polys as [|p polys IH]; intros pos axis res SS L F.
  - exists res. split; [reflexivity|]. split; [exact L|]. intros i m N. exists m. split; [exact N|]. rewrite covered_nil. tauto.
  - inversion F as [|? ? NE F']; subst. cbn [slice_all].
    destruct (chop_defined eng s p pos axis NE) as [c K]. rewrite K.
    destruct (chop_cov _ _ _ _ K) as (LC & lo & hi & B & P).
    destruct (IH pos axis (extend_each res c) SS) as (out & O & LO & Q); [now rewrite extend_length; lia|exact F'|].
    exists out. split; [exact O|]. split; [exact LO|]. intros i m N. destruct (Q i m N) as (m1 & N1 & W).
    apply extend_nth in N1; [|lia]. destruct N1 as (a & b & NA & NB & ->). exists a. split; [exact NA|].
    rewrite W, covered_app. destruct (P i b NB) as (u & v & ST & X). rewrite X.
    change (covered precision cov (p :: polys)) with (covered precision cov ([p] ++ polys)). rewrite covered_app.
    assert (ONE : covered precision cov [p] <-> cov (parse_polygon s true p)).
    { unfold covered. split; [intros V; inversion V as [? ? Y|? ? Y]; [exact Y|inversion Y]|now left]. }
    rewrite ONE.
    assert (ZS : StronglySorted Z.le (map (fun c0 => cround (s * c0)) pos)).
    { apply map_sorted; [|exact SS]. intros y z YZ. apply cround_le. apply Rmult_le_compat_l; [pose proof s_pos; lra|exact YZ]. }
    pose proof (fun V => strips_index _ _ _ _ _ _ _ ZS (B V) ST) as IX. tauto.
Qed.
Lemma mapi_nth : forall {X Y} (f : nat -> X -> Y) l k i, nth_error (mapi f k l) i = option_map (f (k + i)%nat) (nth_error l i).
Proof.
  intros X Y f. induction l as [|x l IH]; intros k i; [destruct i; reflexivity|].
  destruct i as [|i]; cbn [mapi nth_error option_map]; [now rewrite Nat.add_0_r|]. rewrite IH. now rewrite <- plus_n_Sm.
Qed.
Lemma mapi_length : forall {X Y} (f : nat -> X -> Y) l k, length (mapi f k l) = length l.
Proof. intros X Y f. induction l as [|x l IH]; intros k; [reflexivity|]. cbn. now rewrite IH. Qed.
Definition entry_polys (e : option (list poly * Z * Z)) : list poly := match e with None => [] | Some (l, _, _) => l end.

(** slice: one entry more than positions; entry [i] covers what the operand covers between
    the snapped positions i-1 and i in increasing order, on layer i and datatype i of the
    given lists (repeated). *)
Theorem C29_slice : forall o position axis layer dt,
  supported o -> Forall (fun p => p <> []) (polys_of o) ->
  exists res, py_slice eng o position axis precision layer dt = Some res /\
    length res = S (length position) /\
    forall i e, nth_error res i = Some e ->
      (covered precision cov (entry_polys e) <->
       covered precision cov (polys_of o) /\
       between_cuts (map (fun c => cround (1 / precision * c)) (rsort position)) i (if axis then snd q else fst q)) /\
      match e with
      | None => True
      | Some (l, la, d) => l <> [] /\ la = nth (i mod length layer) layer 0%Z /\ d = nth (i mod length dt) dt 0%Z
      end.
Proof.
  intros o position axis layer dt S F. unfold py_slice. rewrite gather_spec by exact S.
  destruct (slice_all_spec (polys_of o) (rsort position) axis (repeat [] (Datatypes.S (length (rsort position))))) as (out & O & L & Q).
  - apply rsort_sorted.
  - apply repeat_length.
  - exact F.
  - unfold s in O. rewrite O. cbn [option_map]. eexists. split; [reflexivity|]. split; [rewrite mapi_length, L; now rewrite rsort_length|].
    intros i e N. rewrite mapi_nth in N. destruct (nth_error out i) as [m|] eqn:M; [|discriminate].
    cbn [option_map Nat.add] in N. injection N as <-. destruct (Q i m M) as (m0 & N0 & W).
    assert (m0 = []) by (apply nth_error_In, repeat_spec in N0; exact N0). subst m0.
    rewrite covered_nil in W. fold s. split.
    + destruct m as [|a m]; [|]; cbn [entry_polys]; rewrite W; tauto.
    + destruct m as [|a m]; [exact I|]. split; [discriminate|split; reflexivity].
Qed.
End Covered.

(** The pieces themselves, for any engine: entry [i] has the pieces of strip [i] of each
    polygon, in the order of the polygons, and is None when there is none. *)
Lemma slice_pieces : forall eng s pos axis polys res out,
  length res = S (length pos) -> slice_all eng s pos axis polys res = Some out ->
  exists pss, Forall2 (fun p ps => chop eng s p pos axis = Some ps) polys pss /\
  forall i m, nth_error out i = Some m -> m = nth i res [] ++ flat_map (fun ps => nth i ps []) pss.
Proof.
  intros eng s pos axis. induction polys as [|p polys IH]; intros res out L H; cbn [slice_all] in H.
  - injection H as <-. exists []. split; [constructor|]. intros i m N. cbn [flat_map]. rewrite app_nil_r.
    symmetry. apply (nth_error_nth _ _ _ N).
  - destruct (chop eng s p pos axis) as [c|] eqn:K; [|discriminate].
    assert (LC : length c = S (length pos)).
    { unfold chop in K. destruct (bounding_box _) as [[[[x0 x1] y0] y1]|]; [|discriminate]. injection K as <-.
      rewrite map_length. destruct axis; now rewrite map_length, strips_length, map_length. }
    destruct (IH (extend_each res c) out) as (pss & F & Q); [rewrite extend_length; lia|exact H|].
    exists (c :: pss). split; [now constructor|]. intros i m N. rewrite (Q i m N). cbn [flat_map]. rewrite app_assoc. f_equal.
    destruct (nth_error (extend_each res c) i) as [x|] eqn:X.
    + rewrite (nth_error_nth _ _ _ X). apply extend_nth in X; [|lia]. destruct X as (a & b & A & B & ->).
      now rewrite (nth_error_nth _ _ _ A), (nth_error_nth _ _ _ B).
    + apply nth_error_None in X. rewrite extend_length in X by lia. rewrite !nth_overflow; [reflexivity|lia|lia|].
      rewrite extend_length; lia.
Qed.
Theorem C29_pieces : forall eng o position axis precision layer dt res,
  supported o -> py_slice eng o position axis precision layer dt = Some res ->
  exists pss, Forall2 (fun p ps => chop eng (1 / precision) p (rsort position) axis = Some ps) (polys_of o) pss /\
  forall i e, nth_error res i = Some e -> entry_polys e = flat_map (fun ps => nth i ps []) pss.
Proof.
  intros eng o position axis precision layer dt res S H. unfold py_slice in H. rewrite gather_spec in H by exact S.
  destruct (slice_all _ _ _ _ _ _) as [out|] eqn:O; [|discriminate]. cbn [option_map] in H. injection H as <-.
  apply slice_pieces in O; [|apply repeat_length]. destruct O as (pss & F & Q). exists pss. split; [exact F|].
  intros i e N. rewrite mapi_nth in N. destruct (nth_error out i) as [m|] eqn:M; [|discriminate].
  cbn [option_map Nat.add] in N. injection N as <-. pose proof (Q i m M) as W.
  replace (nth i (repeat [] (Datatypes.S (length (rsort position)))) []) with (@nil poly) in W.
  - cbn [app] in W. rewrite <- W. now destruct m.
  - symmetry. clear. generalize (Datatypes.S (length (rsort position))). intros n. revert i. induction n as [|n IH]; intros [|i]; try reflexivity. apply IH.
Qed.

(** Everything in the result of boolean is on the requested layer and datatype. *)
Theorem C30_layers : forall eng fuel o1 o2 o precision m layer dt ps ls ds,
  py_boolean eng fuel o1 o2 o precision m layer dt = Some (Some (ps, ls, ds)) ->
  ls = repeat layer (length ps) /\ ds = repeat dt (length ps).
Proof.
  intros eng fuel o1 o2 o precision m layer dt ps ls ds H.
  assert (SET : forall l, option_map Some (fracture eng fuel precision m l (repeat layer (length l)) (repeat dt (length l))) = Some (Some (ps, ls, ds)) ->
                          ls = repeat layer (length ps) /\ ds = repeat dt (length ps)).
  { clear H. intros l F. destruct (fracture _ _ _ _ _ _ _) as [r|] eqn:FR; [|discriminate]. cbn [option_map] in F. injection F as ->.
    assert (G : forall fuel ii l a b, a = repeat layer (length l) -> b = repeat dt (length l) ->
              fracture_loop eng fuel (1 / precision) m ii l a b = Some (ps, ls, ds) -> ls = repeat layer (length ps) /\ ds = repeat dt (length ps)).
    { clear. induction fuel as [|fuel IH]; intros ii l a b A B H; [discriminate|]. cbn [fracture_loop] in H.
      destruct (nth_error l ii) as [p|] eqn:P; [|injection H as -> -> ->; auto].
      destruct (m <? length p)%nat; [|exact (IH _ _ _ _ A B H)].
      destruct (fracture_one _ _ _ _) as [new|]; [|discriminate].
      destruct (nth_error a ii) as [x|] eqn:X; [|discriminate]. destruct (nth_error b ii) as [y|] eqn:Y; [|discriminate].
      assert (x = layer) by (subst a; exact (repeat_spec _ _ _ (nth_error_In _ _ X))).
      assert (y = dt) by (subst b; exact (repeat_spec _ _ _ (nth_error_In _ _ Y))). subst x y.
      assert (R : forall (z : Z) n, pop ii (repeat z (length l)) ++ repeat z n = repeat z (length (pop ii l) + n)).
      { intros z n. rewrite repeat_app. f_equal. unfold pop. rewrite app_length, repeat_app. f_equal.
        - clear. revert ii. induction l as [|w l IHl]; intros [|ii]; try reflexivity. cbn. f_equal. apply IHl.
        - clear. revert ii. induction l as [|w l IHl]; intros ii; [now destruct ii|]. destruct ii as [|ii]; [reflexivity|]. apply (IHl ii). }
      apply IH in H; [exact H| |]; subst; rewrite R, app_length; reflexivity. }
    unfold fracture in FR. destruct (4 <? m)%nat; [exact (G _ _ _ _ _ eq_refl eq_refl FR)|]. now injection FR as <- <- <-. }
  unfold py_boolean in H. destruct (gather_polys o1) as [p1|]; [|discriminate]. destruct (gather_polys o2) as [p2|]; [|discriminate].
  assert (RUN : forall a b, match clip eng (1 / precision) o a b with
                            | [] => Some None
                            | p :: l => option_map Some (fracture eng fuel precision m (p :: l) (repeat layer (length (p :: l))) (repeat dt (length (p :: l))))
                            end = Some (Some (ps, ls, ds)) -> ls = repeat layer (length ps) /\ ds = repeat dt (length ps)).
  { intros a b F. destruct (clip eng (1 / precision) o a b) as [|p l]; [discriminate|exact (SET _ F)]. }
  destruct p2 as [|q2 r2]; [|exact (RUN _ _ H)].
  destruct o, p1 as [|q1 r1]; try discriminate; try exact (RUN _ _ H); exact (SET _ H).
Qed.
(** 'or' and 'and' of two empty operands raise. *)
Theorem C30_empty_refuted : forall eng fuel o precision m layer dt, o = Or \/ o = And ->
  py_boolean eng fuel ONone (OList []) o precision m layer dt = None.
Proof. intros eng fuel o precision m layer dt [->| ->]; reflexivity. Qed.
(** A FlexPath is accepted as an operand but not inside a list, where a RobustPath is. *)
Theorem C30_flexpath_refuted : forall eng fuel l o2 o precision m layer dt,
  py_boolean eng fuel (OList [IFlex l]) o2 o precision m layer dt = None /\
  gather_polys (OObject l) = Some l /\ gather_polys (OList [IRobust l]) = Some l.
Proof. intros. split; [reflexivity|]. split; [reflexivity|]. cbn. now rewrite app_nil_r. Qed.

(** An engine that is correct at (1/2, 1/2), for a notion of covering that has the
    required properties: some vertices on each side. *)
Definition covb (p : zpath) : bool :=
  (existsb (fun v => fst v <=? 0)%Z p && existsb (fun v => 1 <=? fst v)%Z p) &&
  (existsb (fun v => snd v <=? 0)%Z p && existsb (fun v => 1 <=? snd v)%Z p).
Definition half : R * R := (/ 2, / 2).
Lemma half_not_int : forall k, / 2 <> IZR k.
Proof.
  intros k H. assert (A : 0 < IZR k) by lra. assert (B : IZR k < 1) by lra. apply lt_IZR in A, B. lia.
Qed.
Lemma half_between : forall a b, strictly a b (/ 2) <-> ((a <= 0 \/ b <= 0) /\ (1 <= a \/ 1 <= b))%Z.
Proof.
  intros a b. unfold strictly.
  assert (P : forall k, IZR k < / 2 <-> (k <= 0)%Z).
  { intros k. split; intros H; [assert (IZR k < 1) by lra; apply lt_IZR in H0; lia|apply IZR_le in H; lra]. }
  assert (Q : forall k, / 2 < IZR k <-> (1 <= k)%Z).
  { intros k. split; intros H; [assert (0 < IZR k) by lra; apply lt_IZR in H0; lia|apply IZR_le in H; lra]. }
  rewrite !P, !Q. lia.
Qed.
Lemma half_coverage : coverage half (fun p => covb p = true).
Proof.
  constructor.
  - intros k. split; apply half_not_int.
  - intros p. unfold covb. assert (R : forall f : zpt -> bool, existsb f (rev p) = existsb f p).
    { intros f. apply eq_true_iff_eq. rewrite !existsb_exists. split; intros (v & I & H); exists v; (split; [|exact H]); now apply in_rev in I || apply in_rev. }
    now rewrite !R.
  - intros x0 x1 y0 y1. unfold half. cbn [fst snd]. rewrite !half_between. unfold covb, rect. cbn [existsb fst snd].
    rewrite !andb_true_iff, !orb_true_iff, !Z.leb_le. lia.
  - intros p x0 x1 y0 y1 B H. pose proof (bounding_box_in _ _ B) as I. unfold covb in H.
    rewrite !andb_true_iff, !existsb_exists in H.
    destruct H as [[(a & Ia & A) (b & Ib & Bb)] [(c & Ic & Cc) (d & Id & D)]].
    apply Z.leb_le in A, Bb, Cc, D. apply I in Ia, Ib, Ic, Id. cbn in Ia, Ib, Ic, Id. unfold half. cbn [fst snd].
    assert (IZR x0 <= 0) by (apply IZR_le; lia). assert (1 <= IZR x1) by (apply IZR_le; lia).
    assert (IZR y0 <= 0) by (apply IZR_le; lia). assert (1 <= IZR y1) by (apply IZR_le; lia). lra.
Qed.
Definition engine1 (o : op) (a b : list zpath) : list zpath :=
  let x := existsb covb a in let y := existsb covb b in
  if match o with Or => x || y | And => x && y | Xor => xorb x y | Not => x && negb y end then [rect 0 1 0 1] else [].
Lemma engine1_correct : correct_at (fun p => covb p = true) engine1.
Proof.
  intros o a b. unfold engine1.
  assert (X : forall l, Exists (fun p => covb p = true) l <-> existsb covb l = true) by (intros l; rewrite Exists_exists, existsb_exists; reflexivity).
  assert (S : sem o (Exists (fun p => covb p = true) a) (Exists (fun p => covb p = true) b) <->
              sem o (existsb covb a = true) (existsb covb b = true)) by (destruct o; cbn [sem]; rewrite !X; reflexivity).
  rewrite S, X. destruct o, (existsb covb a), (existsb covb b); cbn; intuition discriminate.
Qed.
Definition square1 : poly := [(0, 0); (3, 0); (3, 3); (0, 3)].
Lemma square1_grid : parse_polygon (1 / 1) true square1 = [(0, 0); (3, 0); (3, 3); (0, 3)]%Z.
Proof. unfold parse_polygon, square1. cbn [map]. rewrite !snap_int. reflexivity. Qed.
(** A square that covers the point, not (nothing), or'ed and cut. *)
Example C30_demo :
  py_boolean engine1 1 (OSet [square1]) ONone Not 1 0 7 2 = Some (Some ([square1], [7%Z], [2%Z])) /\
  covered 1 (fun p => covb p = true) [square1] /\
  exists r, py_boolean engine1 1 (OSet [square1]) (OSet [square1]) Or 1 0 7 2 = Some r /\ covered 1 (fun p => covb p = true) (result_polys r).
Proof.
  split; [reflexivity|]. assert (V : covered 1 (fun p => covb p = true) [square1]) by (left; rewrite square1_grid; reflexivity).
  split; [exact V|]. unfold py_boolean, clip. cbn [gather_polys map]. rewrite square1_grid. cbn. eexists. split; [reflexivity|].
  cbn [result_polys]. left. change [unsnap (1 / 1) (0%Z, 0%Z); unsnap (1 / 1) (1%Z, 0%Z); unsnap (1 / 1) (1%Z, 1%Z); unsnap (1 / 1) (0%Z, 1%Z)]
    with (map (unsnap (1 / 1)) (rect 0 1 0 1)).
  apply (cov_unsnap half _ half_coverage 1 ltac:(lra)). reflexivity.
Qed.
Example C29_demo : exists res, py_slice engine1 (OSet [square1]) [2; 1] false 1 [5%Z] [6%Z; 7%Z] = Some res /\ length res = 3%nat /\
  exists l, nth_error res 0 = Some (Some (l, 5%Z, 6%Z)).
Proof.
  destruct (C29_slice half _ half_coverage engine1 engine1_correct 1 ltac:(lra) (OSet [square1]) [2; 1] false [5%Z] [6%Z; 7%Z]) as (res & E & L & P).
  - exact I.
  - constructor; [discriminate|constructor].
  - exists res. split; [exact E|]. split; [exact L|].
    destruct (nth_error res 0) as [e|] eqn:N; [|apply nth_error_None in N; cbn in L; lia].
    destruct (P 0%nat e N) as [W LD]. destruct e as [[[l la] d]|].
    + destruct LD as (_ & -> & ->). now exists l.
    + exfalso. cbn [entry_polys] in W. assert (X : covered 1 (fun p => covb p = true) []); [|inversion X].
      apply W. split; [left; rewrite square1_grid; reflexivity|]. split; [intros; lia|].
      intros j c _ J. cbn [half fst].
      assert (G : In c (map (fun c => cround (1 / 1 * c)) (rsort [2; 1]))) by exact (nth_error_In _ _ J).
      apply in_map_iff in G. destruct G as (x & <- & G). apply (Permutation_in _ (rsort_perm _)) in G.
      assert (K : forall k, cround (1 / 1 * IZR k) = k) by (intros k; pose proof (snap_int k k) as U; unfold snap in U; cbn [fst snd] in U; congruence).
      destruct G as [<-|[<-|[]]]; rewrite K; lra.
Qed.
(** A polygon of five collinear runs: six vertices with max_points 5 are cut once, at the
    coordinate of a vertex. *)
Example C28_demo : forall eng, exists cuts axis pieces,
  fracture_one eng (1 / 1) 5 [(0, 0); (9, 0); (9, 2); (5, 3); (2, 4); (0, 2)] = Some (concat pieces) /\
  chop eng (1 / 1) [(0, 0); (9, 0); (9, 2); (5, 3); (2, 4); (0, 2)] cuts axis = Some pieces /\ length cuts = 1%nat.
Proof.
  intros eng. destruct (C28_cuts eng (1 / 1) 5 [(0, 0); (9, 0); (9, 2); (5, 3); (2, 4); (0, 2)]) as (c & a & p & A & B & L & _); [lia|cbn; lia|].
  exists c, a, p. now repeat split.
Qed.

Print Assumptions C28_cuts.
Print Assumptions C28_fracture.
Print Assumptions C28_few.
Print Assumptions C28_fuel.
Print Assumptions C28_terminates.
Print Assumptions C28_region.
Print Assumptions C29_slice.
Print Assumptions C29_pieces.
Print Assumptions C30_boolean.
Print Assumptions C30_layers.
Print Assumptions C30_and_empty_refuted.
Print Assumptions C30_empty_refuted.
Print Assumptions C30_flexpath_refuted.
