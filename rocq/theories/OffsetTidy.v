(** Lemmas on the outlines that AddPath and FixOrientations leave. *)

From Coq Require Import Reals Lra Lia List ZArith Bool Permutation.
From Verif Require Import Plane Engine Flex LinkHoles SpecEngine SpecLink SpecOffset Offset PropEngine PropLink Winding OffsetFacts OffsetLoop.
Import ListNotations.
Open Scope R_scope.

Lemma winding_around q l : winding q l = around q (map real l).
Proof.
  unfold winding, around. rewrite edges_map, sum_map. apply sum_ext_in. intros e _. reflexivity.
Qed.
Lemma apart_same e : apart e = false <-> fst e = snd e.
Proof. destruct e as [[a b] [c d]]. unfold apart. cbn [fst snd]. rewrite negb_false_iff, andb_true_iff, !Z.eqb_eq. split; [intros [-> ->]; reflexivity|intro E; now injection E]. Qed.
Lemma apart_diff e : apart e = true <-> fst e <> snd e.
Proof. destruct (apart e) eqn:E; [|apply apart_same in E]; split; intro H; try congruence. intro K. apply apart_same in K. congruence. Qed.

Definition chain {A} (p : A) (l : list A) (z : A) : list (A * A) := combine (p :: l) (l ++ [z]).
Lemma chain_cons : forall A (p x : A) l z, chain p (x :: l) z = (p, x) :: chain x l z.
Proof. reflexivity. Qed.
Lemma edges_chain : forall A (p : A) r, edges (p :: r) = chain p r p.
Proof. reflexivity. Qed.
Lemma chain_same : forall m (p : zpt), filter apart (chain p (repeat p m) p) = [].
Proof.
  induction m as [|m IH]; intro p; cbn [repeat]; [cbn [chain combine app filter]|rewrite chain_cons; cbn [filter]]; replace (apart (p, p)) with false by (symmetry; now apply apart_same).
  - reflexivity.
  - apply IH.
Qed.
Lemma chain_repeat : forall (r : zpath) m x p, filter apart (chain x (r ++ repeat p m) p) = filter apart (chain x r p).
Proof.
  induction r as [|y r IH]; intros m x p.
  - cbn [app]. destruct m as [|m]; [reflexivity|]. cbn [repeat]. rewrite chain_cons. change (chain x [] p) with [(x, p)]. cbn [filter].
    rewrite chain_same. reflexivity.
  - cbn [app]. rewrite !chain_cons. cbn [filter]. now rewrite IH.
Qed.
Lemma chain_distinct : forall (l : zpath) x z, filter apart (chain x (distinct x l) z) = filter apart (chain x l z).
Proof.
  induction l as [|y l IH]; intros x z; [reflexivity|]. cbn [distinct]. destruct (zsame x y) eqn:E.
  - apply zsame_spec in E. subst y. rewrite chain_cons. cbn [filter]. replace (apart (x, x)) with false by (symmetry; now apply apart_same). apply IH.
  - rewrite !chain_cons. cbn [filter]. now rewrite IH.
Qed.
Lemma last_distinct : forall (l : zpath) x, last (x :: distinct x l) x = last (x :: l) x.
Proof.
  assert (G : forall (l : zpath) x d, last (x :: distinct x l) d = last (x :: l) d).
  { induction l as [|y l IH]; intros x d; [reflexivity|]. cbn [distinct]. destruct (zsame x y) eqn:E.
    - apply zsame_spec in E. subst y. rewrite IH. reflexivity.
    - change (last (x :: y :: distinct y l) d) with (last (y :: distinct y l) d). rewrite IH. reflexivity. }
  intros l x. apply G.
Qed.
Lemma chain_apart : forall (l : zpath) x z, last (x :: l) x <> z -> filter apart (chain x (distinct x l) z) = chain x (distinct x l) z.
Proof.
  assert (G : forall (l : zpath) x z d, last (x :: l) d <> z -> filter apart (chain x (distinct x l) z) = chain x (distinct x l) z).
  { induction l as [|y l IH]; intros x z d N.
    - cbn [distinct]. change (chain x [] z) with [(x, z)]. cbn [filter]. cbn [last] in N. replace (apart (x, z)) with true by (symmetry; now apply apart_diff). reflexivity.
    - cbn [distinct]. destruct (zsame x y) eqn:E.
      + apply zsame_spec in E. subst y. apply (IH x z d). exact N.
      + rewrite chain_cons. cbn [filter]. assert (apart (x, y) = true). { apply apart_diff. cbn [fst snd]. intro K. apply zsame_spec in K. congruence. }
        rewrite H. f_equal. apply (IH y z d). exact N. }
  intros l x z. apply G.
Qed.
Lemma high_spec : forall p (r : zpath) n, (n <= length r)%nat -> let h := Offset.high (p :: r) n in
  (h <= n)%nat /\ (exists m, firstn n r = firstn h r ++ repeat p m) /\ (h = O \/ last (p :: firstn h r) p <> p).
Proof.
  intros p r. induction n as [|n IH]; intro L; cbn [Offset.high].
  - split; [lia|]. split; [exists O; reflexivity|now left].
  - cbn [nth]. destruct (zsame p (nth n r (0, 0)%Z)) eqn:E.
    + destruct (IH ltac:(lia)) as (H1 & (m & H2) & H3). split; [lia|]. split; [|exact H3].
      exists (S m). apply zsame_spec in E.
      assert (F : firstn (S n) r = firstn n r ++ [p]).
      { rewrite E. clear - L. revert n L. induction r as [|x r IH]; intros n L; [cbn in L; lia|]. destruct n as [|n]; [reflexivity|].
        cbn [length] in L. change (x :: firstn (S n) r = x :: (firstn n r ++ [nth n r (0, 0)%Z])). f_equal. apply IH. lia. }
      rewrite F, H2, <- app_assoc. f_equal. clear. induction m as [|m IH]; [reflexivity|]. cbn [repeat app]. f_equal. exact IH.
    + split; [lia|]. split; [exists O; cbn [repeat]; now rewrite app_nil_r|]. right.
      intro K. assert (F : last (p :: firstn (S n) r) p = nth n r (0, 0)%Z).
      { clear - L. assert (G : forall (r : zpath) n d x0, (S n <= length r)%nat -> last (x0 :: firstn (S n) r) d = nth n r (0, 0)%Z).
        { clear. induction r as [|x r IH]; intros n d x0 L; [cbn in L; lia|]. destruct n as [|n]; [reflexivity|].
          cbn [length] in L. change (last (x :: firstn (S n) r) d = nth n r (0, 0)%Z). apply IH. lia. }
        now apply G. }
      rewrite F in K. assert (zsame p (nth n r (0, 0)%Z) = true) by (apply zsame_spec; congruence). congruence.
Qed.
(** What is left are the edges with different ends. *)
Lemma contour_edges : forall path, filter apart (edges (contour_of path)) = filter apart (edges path) /\
  ((2 <= length (contour_of path))%nat -> edges (contour_of path) = filter apart (edges path)).
Proof.
  intros [|p r]; [split; reflexivity|]. unfold contour_of. replace (length (p :: r) - 1)%nat with (length r) by (cbn [length]; lia).
  destruct (high_spec p r (length r) (le_n _)) as (H1 & (m & H2) & H3). set (h := Offset.high (p :: r) (length r)) in *. rewrite firstn_all in H2.
  set (r' := firstn h r) in *. rewrite !edges_chain.
  assert (E : filter apart (chain p (distinct p r') p) = filter apart (chain p r p)). { rewrite chain_distinct. transitivity (filter apart (chain p (r' ++ repeat p m) p)); [symmetry; apply chain_repeat|now rewrite <- H2]. }
  split; [exact E|]. intro L. rewrite <- E. symmetry. destruct H3 as [H3|H3].
  - exfalso. unfold r' in L. rewrite H3 in L. cbn in L. lia.
  - now apply chain_apart.
Qed.
Lemma contour_proper : forall path, (3 <= length (contour_of path))%nat -> proper (contour_of path).
Proof.
  intros path L. split; [exact L|]. destruct (contour_edges path) as [_ E]. rewrite E by lia. intros e I. apply filter_In in I. now apply apart_diff.
Qed.
Lemma proper_filter : forall l, proper l -> filter apart (edges l) = edges l.
Proof. intros l [_ H]. induction (edges l) as [|e es IH]; [reflexivity|]. cbn [filter]. rewrite (proj2 (apart_diff e)) by (apply H; now left). f_equal. apply IH. intros x I. apply H. now right. Qed.
Lemma last_any : forall (l : zpath) x d d', last (x :: l) d = last (x :: l) d'.
Proof. induction l as [|a l IH]; intros; [reflexivity|apply (IH a)]. Qed.
Lemma contour_id : forall l, proper l -> contour_of l = l.
Proof.
  intros [|p r] [L P]; [reflexivity|]. unfold contour_of. replace (length (p :: r) - 1)%nat with (length r) by (cbn [length]; lia).
  assert (Lr : last r p <> p).
  { cbn [length] in L. assert (I : In (last r p, p) (edges (p :: r))).
    { rewrite edges_chain. clear. assert (G : forall (r : zpath) x z, In (last r x, z) (chain x r z)).
      { clear. induction r as [|y r IH]; intros x z; [cbn; now left|]. rewrite chain_cons. right. specialize (IH y z).
        replace (last (y :: r) x) with (last r y); [exact IH|]. destruct r as [|a r]; [reflexivity|]. apply (last_any r a). }
      apply G. }
    apply (P _ I). }
  assert (Hh : Offset.high (p :: r) (length r) = length r).
  { destruct r as [|y r]; [cbn in L; lia|]. cbn [length Offset.high]. cbn [nth].
    assert (N : nth (length r) (y :: r) (0, 0)%Z = last (y :: r) p). { clear. revert y. induction r as [|a r IH]; intro y; [reflexivity|]. cbn [length]. change (nth (length r) (a :: r) (0, 0)%Z = last (a :: r) p). apply IH. }
    cbn [length nth] in N |- *. rewrite N. destruct (zsame p (last (y :: r) p)) eqn:E; [|reflexivity]. apply zsame_spec in E. congruence. }
  rewrite Hh, firstn_all. f_equal. clear Hh Lr L. rewrite edges_chain in P.
  assert (G : forall (r : zpath) x z, (forall e, In e (chain x r z) -> fst e <> snd e) -> distinct x r = r).
  { clear. induction r as [|y r IH]; intros x z P; [reflexivity|]. rewrite chain_cons in P. cbn [distinct].
    destruct (zsame x y) eqn:E; [apply zsame_spec in E; exfalso; apply (P (x, y)); [now left|exact E]|]. f_equal. apply (IH y z). intros e I. apply P. now right. }
  now apply (G r p p).
Qed.

Lemma sum_filter : forall (A : Type) (g : A -> Z) p (l : list A), (forall x, p x = false -> g x = 0%Z) -> sum_over g (filter p l) = sum_over g l.
Proof. intros A g p l H. induction l as [|x l IH]; [reflexivity|]. cbn [filter]. destruct (p x) eqn:E; rewrite !sum_cons, IH; [reflexivity|]. rewrite (H x E). lia. Qed.
Lemma winding_filter q l : winding q l = sum_over (passes q) (filter apart (edges l)).
Proof.
  unfold winding. symmetry. apply sum_filter. intros [a b] E. apply apart_same in E. cbn [fst snd] in E. subst b.
  change (rpasses q (real a, real a) = 0%Z). apply passes_same.
Qed.
Lemma winding_contour q path : winding q (contour_of path) = winding q path.
Proof. rewrite !winding_filter. now rewrite (proj1 (contour_edges path)). Qed.
Lemma winding_short q c : (length c < 3)%nat -> winding q c = 0%Z.
Proof.
  destruct c as [|a [|b [|c r]]]; intro L; try reflexivity; [| |cbn in L; lia]; rewrite winding_around; cbn [map]; unfold around, edges; cbn [app combine]; rewrite !sum_cons; unfold sum_over; cbn [fold_right].
  - rewrite passes_same. reflexivity.
  - rewrite (passes_rev q (real a) (real b)). lia.
Qed.
Lemma shoelace_sum l : shoelace l = sum_over (fun e => fst (fst e) * snd (snd e) - fst (snd e) * snd (fst e))%Z (edges l).
Proof. reflexivity. Qed.
Lemma shoelace_contour path : shoelace (contour_of path) = shoelace path.
Proof.
  rewrite !shoelace_sum. set (g := fun e : zpt * zpt => (fst (fst e) * snd (snd e) - fst (snd e) * snd (fst e))%Z).
  assert (G : forall x, apart x = false -> g x = 0%Z). { intros [a b] E. apply apart_same in E. cbn [fst snd] in E. subst b. unfold g. cbn [fst snd]. lia. }
  rewrite <- (sum_filter _ g apart (edges (contour_of path)) G), <- (sum_filter _ g apart (edges path) G). now rewrite (proj1 (contour_edges path)).
Qed.
Lemma area_shoelace l : (3 <= length l)%nat -> area2 l = shoelace l.
Proof.
  intro L. assert (E : area2 l = (- area_sum (last l (0, 0)%Z) l)%Z) by (destruct l as [|a [|b [|c r]]]; try reflexivity; cbn in L; lia). rewrite E. clear E.
  destruct l as [|p r]; [cbn in L; lia|]. rewrite shoelace_sum, edges_chain. set (g := fun e : zpt * zpt => (fst (fst e) * snd (snd e) - fst (snd e) * snd (fst e))%Z).
  assert (G : forall (l : zpath) j z, (area_sum j l + g (last (j :: l) j, z) = fst j * snd j - fst (last (j :: l) j) * snd (last (j :: l) j) - sum_over g (chain j l z) + 2 * g (last (j :: l) j, z))%Z).
  { assert (LD : forall (l : zpath) x d d', last (x :: l) d = last (x :: l) d') by (induction l as [|a l IH]; intros; [reflexivity|apply (IH a)]).
    induction l as [|i l IH]; intros j z.
    - cbn [area_sum last]. change (chain j [] z) with [(j, z)]. rewrite sum_cons. unfold sum_over. cbn [fold_right]. lia.
    - rewrite chain_cons, sum_cons. cbn [area_sum]. change (last (j :: i :: l) j) with (last (i :: l) j). rewrite (LD l i j i). specialize (IH i z).
      set (t := last (i :: l) i) in *. assert (Eg : g (j, i) = (fst j * snd i - fst i * snd j)%Z) by reflexivity. lia. }
  assert (LD : forall (l : zpath) x d d', last (x :: l) d = last (x :: l) d') by (induction l as [|a l IH]; intros; [reflexivity|apply (IH a)]).
  cbn [area_sum]. specialize (G r p p). rewrite (LD r p (0, 0)%Z p). set (t := last (p :: r) p) in *. unfold g at 1 3 in G. cbn [fst snd] in G. lia.
Qed.

(** ** All the outlines *)
Definition kept (l : list zpath) : list zpath := filter (fun c => (3 <=? length c)%nat) (map contour_of l).
Lemma add_paths_list l : n_list (add_paths l) = kept l.
Proof.
  unfold add_paths, kept. assert (G : forall l s, n_list (fold_left add_path l s) = n_list s ++ filter (fun c => (3 <=? length c)%nat) (map contour_of l)).
  { clear. induction l as [|p l IH]; intro s; [cbn; now rewrite app_nil_r|]. cbn [fold_left map filter]. rewrite IH. unfold add_path.
    destruct (Nat.ltb_spec (length (contour_of p)) 3); destruct (Nat.leb_spec 3 (length (contour_of p))); try lia; [reflexivity|]. cbn [n_list]. now rewrite <- app_assoc. }
  apply G.
Qed.
Lemma kept_proper l : Forall proper (kept l).
Proof. apply Forall_forall. intros c I. apply filter_In in I. destruct I as [I L]. apply in_map_iff in I. destruct I as (p & <- & _). apply contour_proper. now apply Nat.leb_le in L. Qed.
Lemma kept_winding q l : sum_over (winding q) (kept l) = sum_over (winding q) l.
Proof.
  unfold kept. rewrite sum_filter.
  - rewrite sum_map. apply sum_ext_in. intros p _. apply winding_contour.
  - intros c E. apply winding_short. apply Nat.leb_gt in E. exact E.
Qed.
Lemma kept_in l c : In c (kept l) -> exists p, In p l /\ c = contour_of p /\ edges c = filter apart (edges p) /\ shoelace c = shoelace p.
Proof.
  intro I. apply filter_In in I. destruct I as [I L]. apply in_map_iff in I. destruct I as (p & <- & I). apply Nat.leb_le in L. exists p.
  split; [exact I|]. split; [reflexivity|]. split; [apply contour_edges; lia|apply shoelace_contour].
Qed.
(** An edge around which something is, is kept. *)
Lemma kept_edge l p e : In p l -> In e (edges p) -> fst e <> snd e -> (3 <= length (contour_of p))%nat -> exists c, In c (kept l) /\ In e (edges c).
Proof.
  intros I E N L. exists (contour_of p). split.
  - apply filter_In. split; [now apply in_map|now apply Nat.leb_le].
  - rewrite (proj2 (contour_edges p)) by lia. apply filter_In. split; [exact E|now apply apart_diff].
Qed.
Lemma low_in : forall l, match n_low (add_paths l) with Some (c, _) => In c (kept l) | None => True end.
Proof.
  intro l. rewrite <- add_paths_list. unfold add_paths.
  assert (G : forall l s, (match n_low s with Some (c, _) => In c (n_list s) | None => True end) ->
            match n_low (fold_left add_path l s) with Some (c, _) => In c (n_list (fold_left add_path l s)) | None => True end).
  { clear. induction l as [|p l IH]; intros s H; [exact H|]. cbn [fold_left]. apply IH. unfold add_path.
    destruct (length (contour_of p) <? 3)%nat; [exact H|]. cbn [n_low n_list]. destruct (n_low s) as [[c ip]|].
    - destruct (lower _ _); apply in_app_iff; [right; now left|now left].
    - apply in_app_iff. right. now left. }
  apply G. exact I.
Qed.
Lemma fix_none l : (forall c, In c (kept l) -> (0 <= shoelace c)%Z) -> fix_orientations (add_paths l) = kept l.
Proof.
  intro H. unfold fix_orientations. pose proof (low_in l) as Lo. rewrite add_paths_list. destruct (n_low (add_paths l)) as [[c ip]|]; [|reflexivity].
  assert (P : (3 <= length c)%nat) by (apply (proj1 (Forall_forall _ _) (kept_proper l) c Lo)).
  unfold oriented. rewrite area_shoelace by exact P. rewrite (proj2 (Z.leb_le _ _) (H c Lo)). reflexivity.
Qed.
