(** C84: expanding and shrinking polygons. *)

From Coq Require Import Reals Lra Lia List ZArith Bool Permutation.
From Verif Require Import Plane Engine Flex LinkHoles SpecEngine SpecLink SpecOffset Offset PropEngine PropLink Winding OffsetFacts OffsetLoop OffsetTidy.
Import ListNotations.
Open Scope R_scope.

(** ** One outline *)
Lemma lim_bound limit : 0 < miter_lim limit <= / 2.
Proof.
  unfold miter_lim. destruct (Rlt_dec 2 limit) as [H|H]; [|lra]. assert (4 < limit * limit) by nra.
  split; [apply Rdiv_lt_0_compat; lra|]. apply Rmult_le_reg_r with (limit * limit); [lra|]. unfold Rdiv. rewrite Rmult_assoc, Rinv_l by lra. lra.
Qed.
Lemma reach_spec jt limit : sqrt (reach2 jt (miter_lim limit)) = reach jt limit.
Proof.
  unfold reach2, reach, miter_lim. destruct jt; [reflexivity| |apply sqrt_1]. unfold Rmax. destruct (Rlt_dec 2 limit) as [H|H].
  - destruct (Rle_dec 2 limit); [|lra]. replace (2 / (2 / (limit * limit))) with (limit * limit) by (field; nra). apply sqrt_square. lra.
  - replace (2 / / 2) with (2 * 2) by field. rewrite sqrt_square by lra. destruct (Rle_dec 2 limit); lra.
Qed.
Lemma reach_1 jt limit : 1 <= reach jt limit.
Proof. rewrite <- reach_spec, <- sqrt_1. pose proof (reach2_1 jt _ (lim_bound limit)). apply sqrt_le_1; lra. Qed.
Lemma steps_2 arc delta steps : 2 <= Rabs delta -> arc_steps arc delta = Some steps -> 2 <= steps.
Proof.
  intros D. unfold arc_steps. pose proof PI_RGT_0 as PP. pose proof PI2_3_2 as P3. set (y := arc_y arc delta).
  assert (Y : 0 < y <= Rabs delta / 4 \/ y = / 4).
  { unfold y, arc_y. destruct (Rle_dec arc 0); [now right|]. left. destruct (Rlt_dec _ _); lra. }
  assert (Y' : 0 < y / Rabs delta <= / 4).
  { split; [apply Rdiv_lt_0_compat; lra|]. apply Rmult_le_reg_r with (Rabs delta); [lra|]. unfold Rdiv. rewrite Rmult_assoc, Rinv_l by lra. lra. }
  destruct (Rlt_dec _ (-1)); [lra|]. set (x := 1 - y / Rabs delta) in *.
  assert (A : 0 < acos x <= PI / 2).
  { split.
    - pose proof (acos_bound x) as B. destruct (Req_dec (acos x) 0) as [E|E]; [|lra]. exfalso. assert (C : cos (acos x) = x) by (apply cos_acos; unfold x; lra).
      rewrite E, cos_0 in C. unfold x in C. lra.
    - rewrite <- acos_0. destruct (Rle_dec (acos x) (acos 0)) as [L|L]; [exact L|]. exfalso.
      assert (C : cos (acos x) = x) by (apply cos_acos; unfold x; lra). rewrite acos_0 in L. pose proof (acos_bound x).
      assert (cos (acos x) < cos (PI / 2)) by (apply cos_decreasing_1; lra). rewrite cos_PI2 in H0. unfold x in *. lra. }
  intro E. injection E as <-. assert (2 <= PI / acos x).
  { apply Rmult_le_reg_r with (acos x); [lra|]. unfold Rdiv. rewrite Rmult_assoc, Rinv_l by lra. lra. }
  destruct (Rlt_dec _ _); [|exact H]. nra.
Qed.
Definition nxt (n i : nat) : nat := if (S i =? n)%nat then O else S i.
Lemma edges_nxt n : edges (seq 0 n) = map (fun i => (i, nxt n i)) (seq 0 n).
Proof.
  destruct n as [|m]; [reflexivity|]. cbn [seq]. unfold edges. change (0%nat :: seq 1 m) with (seq 0 (S m)).
  assert (G : forall m k z N, N = (k + S m)%nat -> combine (seq k (S m)) (seq (S k) m ++ [z]) = map (fun i => (i, if (S i =? N)%nat then z else S i)) (seq k (S m))).
  { clear. induction m as [|m IH]; intros k z N E.
    - cbn [seq app combine map]. replace (S k =? N)%nat with true by (symmetry; apply Nat.eqb_eq; lia). reflexivity.
    - change (seq k (S (S m))) with (k :: seq (S k) (S m)). change (seq (S k) (S m) ++ [z]) with (S k :: (seq (S (S k)) m ++ [z])).
      cbn [map]. replace (S k =? N)%nat with false by (symmetry; apply Nat.eqb_neq; lia).
      change (combine (k :: seq (S k) (S m)) (S k :: seq (S (S k)) m ++ [z])) with ((k, S k) :: combine (seq (S k) (S m)) (seq (S (S k)) m ++ [z])). f_equal.
      apply IH. lia. }
  apply (G m O O (S m)). lia.
Qed.
Lemma edges_nxt_in n i j : In (i, j) (edges (seq 0 n)) -> j = nxt n i /\ (i < n)%nat.
Proof. rewrite edges_nxt. intro I. apply in_map_iff in I. destruct I as (k & E & I). injection E as <- <-. apply in_seq in I. split; [reflexivity|lia]. Qed.
Lemma two_edges n i j k : In (i, j) (edges (seq 0 n)) -> In (j, k) (edges (seq 0 n)) -> In ((i, j), (j, k)) (edges (edges (seq 0 n))).
Proof.
  intros I J. rewrite (edges_nxt n) at 1. rewrite edges_map. apply in_map_iff. exists (i, j). split; [|exact I]. cbn [fst snd].
  apply edges_nxt_in in I. apply edges_nxt_in in J. destruct I as [-> _], J as [-> _]. reflexivity.
Qed.
Lemma normal_parts a b : a <> b -> let L := long (a, b) in
  normal a b = ((snd (real b) - snd (real a)) / L, - ((fst (real b) - fst (real a)) / L)) /\ 1 <= L.
Proof.
  intros N L. split; [|now apply normal_spec]. unfold normal. destruct (zsame b a) eqn:E; [apply zsame_spec in E; congruence|].
  unfold L, long, dist2, real. cbn [fst snd]. rewrite !minus_IZR. unfold Rdiv. rewrite Rmult_1_l. reflexivity.
Qed.
Lemma needle_idx delta src : proper src -> no_needles delta src -> no_needle delta src.
Proof.
  intros P H i j k I J m n. assert (Es : src = map (vtx src) (seq 0 (length src))) by (symmetry; apply map_nth_seq).
  pose proof (H (vtx src i, vtx src j) (vtx src j, vtx src k)) as K. rewrite (proper_filter _ P) in K.
  assert (In ((vtx src i, vtx src j), (vtx src j, vtx src k)) (edges (edges src))).
  { rewrite Es at 5. rewrite edges_map, edges_map. apply in_map_iff. exists ((i, j), (j, k)). split; [reflexivity|]. now apply two_edges. }
  specialize (K H0). cbv zeta in K. cbn [fst snd] in K.
  assert (Nij : vtx src i <> vtx src j) by (apply (proj2 P _ (edge_idx src i j I))). assert (Njk : vtx src j <> vtx src k) by (apply (proj2 P _ (edge_idx src j k J))).
  destruct (normal_parts _ _ Nij) as [Em Lm]. destruct (normal_parts _ _ Njk) as [En Ln]. fold (vtx src i) (vtx src j) (vtx src k) in m, n. unfold m, n. rewrite Em, En.
  set (L1 := long (vtx src i, vtx src j)) in *. set (L2 := long (vtx src j, vtx src k)) in *.
  set (ux := fst (real (vtx src j)) - fst (real (vtx src i))) in *. set (uy := snd (real (vtx src j)) - snd (real (vtx src i))) in *.
  set (wx := fst (real (vtx src k)) - fst (real (vtx src j))) in *. set (wy := snd (real (vtx src k)) - snd (real (vtx src j))) in *.
  clearbody L1 L2 ux uy wx wy. unfold dot, crs. cbn [fst snd]. assert (P12 : 0 < / (L1 * L2)) by (apply Rinv_0_lt_compat; nra).
  destruct K as [K|K]; [left|right].
  - replace (uy / L1 * (wy / L2) + - (ux / L1) * - (wx / L2)) with ((ux * wx + uy * wy) * / (L1 * L2)) by (field; split; lra). apply Rmult_le_pos; lra.
  - replace ((uy / L1 * - (wx / L2) - wy / L2 * - (ux / L1)) * delta) with (delta * (ux * wy - uy * wx) * / (L1 * L2)) by (field; split; lra).
    rewrite Rabs_mult, (Rabs_right (/ (L1 * L2))) by lra. apply Rmult_le_reg_r with (L1 * L2); [nra|]. rewrite Rmult_assoc, Rinv_l by nra. lra.
Qed.
Lemma rounded_near p : dist2 p (real (rounded p)) <= / 2.
Proof.
  unfold dist2, real, rounded. cbn [fst snd].
  assert (G : forall x, (x - IZR (cround x)) * (x - IZR (cround x)) <= / 4).
  { intro x. destruct (cround_nearest x) as [H _]. set (d := x - IZR (cround x)) in *.
    assert (- / 2 <= d <= / 2) by (revert H; unfold Rabs; destruct (Rcase_abs d); lra). nra. }
  pose proof (G (fst p)). pose proof (G (snd p)). lra.
Qed.
Lemma gained_sgz d a b : gained d a b = (sgz d * (b - a))%Z.
Proof. unfold gained, sgz. destruct (Rlt_dec d 0); lia. Qed.

(** Each outline is moved by the distance. *)
Theorem C84_outline : forall jt limit arc delta contours dest,
  do_offset jt limit arc delta contours = Some dest ->
  Forall proper contours -> reach jt limit + 1 <= Rabs delta ->
  (jt <> RoundJoin -> delta < 0 -> Forall (no_needles delta) contours) ->
  Forall2 (moved_outline (reach jt limit) delta) contours dest.
Proof.
  intros jt limit arc delta contours dest H P D Nd. pose proof (reach_1 jt limit) as R1.
  unfold do_offset in H. assert (NZ : near_zero delta = false).
  { unfold near_zero. assert (/ 10 ^ 20 <= 1) by (rewrite <- Rinv_1; apply Rinv_le_contravar; [lra|apply pow_R1_Rle; lra]).
    destruct (Rlt_dec (- / 10 ^ 20) delta); [|reflexivity]. destruct (Rlt_dec delta (/ 10 ^ 20)); [|reflexivity]. exfalso. revert D. unfold Rabs. destruct (Rcase_abs delta); lra. }
  rewrite NZ in H. destruct (arc_steps arc delta) as [steps|] eqn:Es; [|discriminate]. cbn [option_map] in H. injection H as <-.
  pose proof (steps_2 arc delta steps ltac:(lra) Es) as S2.
  assert (G : forall src, In src contours -> moved_outline (reach jt limit) delta src (map rounded (outline jt delta (miter_lim limit) steps src))).
  { intros src I q Aw. assert (Ps : proper src) by now apply (proj1 (Forall_forall _ _) P).
    assert (Hn : jt <> RoundJoin -> delta < 0 -> no_needle delta src).
    { intros HR Hneg. apply needle_idx; [exact Ps|]. now apply (proj1 (Forall_forall _ _) (Nd HR Hneg)). }
    rewrite <- reach_spec in D.
    assert (Eq : winding q (map rounded (outline jt delta (miter_lim limit) steps src)) = around q (outline jt delta (miter_lim limit) steps src)).
    { rewrite winding_around. symmetry. apply (moved_around (/ 2)); [lra| |exact Aw].
      generalize (outline jt delta (miter_lim limit) steps src). clear. induction l as [|p l IH]; constructor; [apply rounded_near|exact IH]. }
    rewrite Eq, gained_sgz, (winding_around q src). pose proof (lim_bound limit) as LB. split; [|split].
    - now apply loop_grows.
    - intros e Ie Ne. apply loop_beside with e; try assumption. now rewrite reach_spec.
    - intro N. rewrite <- reach_spec. now apply loop_near with steps. }
  clear - G. induction contours as [|c l IH]; constructor; [apply G; now left|]. apply IH. intros s I. apply G. now right.
Qed.

(** ** All outlines, and the areas they fill *)
Definition total (q : pt) (l : list zpath) : Z := sum_over (winding q) l.

(** The sweep line is right about [q]: the outlines it gives go around [q] once if those
    it was given go around [q] a positive number of times, otherwise not at all. *)
Definition fills_positive (eng : bool -> list zpath -> list ptree) (l : list zpath) (q : pt) : Prop :=
  total q (flat_map all_contours (eng true l)) = if (0 <? total q l)%Z then 1%Z else 0%Z.
(** The same for a negative number of times, and in the other direction.  The frame is
    around everything, so it is given back as the only outermost outline, or one like it. *)
Definition fills_negative (eng : bool -> list zpath -> list ptree) (l : list zpath) (fr : zpath) (q : pt) : Prop :=
  exists o kids, eng false (l ++ [fr]) = [Node o kids] /\ winding q o = winding q fr /\
  total q (flat_map all_contours (eng false (l ++ [fr]))) = if (total q (l ++ [fr]) <? 0)%Z then (-1)%Z else 0%Z.
Definition fills_negative_paths (eng : bool -> list zpath -> list zpath) (l : list zpath) (fr : zpath) (q : pt) : Prop :=
  exists o rest, eng false (l ++ [fr]) = o :: rest /\ winding q o = winding q fr /\
  total q (o :: rest) = if (total q (l ++ [fr]) <? 0)%Z then (-1)%Z else 0%Z.
(** Nothing goes around a point outside of the box. *)
Definition boxed (bounds : list zpath -> Z * Z * Z * Z) (l : list zpath) (q : pt) : Prop :=
  let '(x0, y0, x1, y1) := bounds l in
  (x0 <= x1)%Z /\ (y0 <= y1)%Z /\
  (total q l <> 0%Z -> IZR x0 <= fst q <= IZR x1 /\ IZR y0 <= snd q <= IZR y1).
Definition sweeps (eng : bool -> list zpath -> list ptree) (bounds : list zpath -> Z * Z * Z * Z) (d : R) (l : list zpath) (q : pt) : Prop :=
  if Rlt_dec 0 d then fills_positive eng l q else fills_negative eng l (frame bounds l) q /\ boxed bounds l q.

Lemma frame_winding bounds l q : boxed bounds l q ->
  (winding q (frame bounds l) = 0 \/ winding q (frame bounds l) = -1)%Z /\ (total q l <> 0%Z -> winding q (frame bounds l) = (-1)%Z).
Proof.
  unfold boxed, frame. destruct (bounds l) as [[[x0 y0] x1] y1]. intros (Hx & Hy & B).
  rewrite winding_around. cbn [map]. rewrite around4.
  assert (Fl : forall a b c : R, rpasses q ((a, c), (b, c)) = 0%Z) by (intros; apply passes_flat; reflexivity).
  unfold real. cbn [fst snd]. rewrite !Fl. assert (X : IZR (x0 - 10) < IZR (x1 + 10)) by (apply IZR_lt; lia). assert (Y : IZR (y0 - 10) < IZR (y1 + 10)) by (apply IZR_lt; lia).
  assert (Bx : total q l <> 0%Z -> IZR (x0 - 10) < fst q < IZR (x1 + 10) /\ IZR (y0 - 10) < snd q < IZR (y1 + 10)).
  { intro N. destruct (B N). rewrite !minus_IZR, !plus_IZR. lra. }
  set (X0 := IZR (x0 - 10)) in *. set (X1 := IZR (x1 + 10)) in *. set (Y0 := IZR (y0 - 10)) in *. set (Y1 := IZR (y1 + 10)) in *. clearbody X0 X1 Y0 Y1.
  unfold rpasses, rside. cbn [fst snd].
  split; [|intro N; specialize (Bx N)]; decs; cbn; try (now left); try (now right); try reflexivity; exfalso; try lra; nra.
Qed.
Lemma total_app q a b : total q (a ++ b) = (total q a + total q b)%Z.
Proof. apply sum_app. Qed.
Lemma execute_total eng bounds dest d q : sweeps eng bounds d dest q ->
  total q (flat_map all_contours (execute eng bounds dest d)) = if (0 <? total q dest)%Z then 1%Z else 0%Z.
Proof.
  unfold sweeps, execute. destruct (Rlt_dec 0 d) as [H|H]; [intro F; exact F|].
  intros [(o & kids & E & Wo & T) B]. destruct (frame_winding _ _ _ B) as [F1 F2]. rewrite E in *.
  transitivity (total q (flat_map all_contours kids)); [destruct kids; reflexivity|].
  cbn [flat_map all_contours app] in T. rewrite app_nil_r in T. unfold total in T at 1. rewrite sum_cons, Wo in T.
  fold (total q (flat_map all_contours kids)) in T. rewrite total_app in T. change (total q [frame bounds dest]) with (winding q (frame bounds dest) + 0)%Z in T.
  set (w := winding q (frame bounds dest)) in *. set (W := total q dest) in *.
  destruct (Z.ltb_spec (W + (w + 0)) 0); destruct (Z.ltb_spec 0 W); try lia; destruct (Z.eq_dec W 0) as [E0|E0]; try lia; specialize (F2 E0); lia.
Qed.
Lemma paths_total eng bounds dest q : fills_negative_paths eng dest (frame bounds dest) q -> boxed bounds dest q ->
  total q (execute_paths eng bounds dest 0) = if (0 <? total q dest)%Z then 1%Z else 0%Z.
Proof.
  intros (o & rest & E & Wo & T) B. destruct (frame_winding _ _ _ B) as [F1 F2]. unfold execute_paths. destruct (Rlt_dec 0 0); [lra|]. rewrite E. cbn [tl].
  unfold total in T at 1. rewrite sum_cons, Wo in T. fold (total q rest) in T. rewrite total_app in T. change (total q [frame bounds dest]) with (winding q (frame bounds dest) + 0)%Z in T.
  set (w := winding q (frame bounds dest)) in *. set (W := total q dest) in *.
  destruct (Z.ltb_spec (W + (w + 0)) 0); destruct (Z.ltb_spec 0 W); try lia; destruct (Z.eq_dec W 0) as [E0|E0]; try lia; specialize (F2 E0); lia.
Qed.

Lemma moved_total k d : forall contours dest q, Forall2 (moved_outline k d) contours dest -> Forall (fun z => away (/ 2) q (map real z)) dest ->
  (0 <= gained d (total q contours) (total q dest))%Z /\
  (forall c e, In c contours -> In e (edges c) -> next_to (k + 1) d q e -> (1 <= gained d (total q contours) (total q dest))%Z) /\
  (total q contours <> total q dest -> exists c e, In c contours /\ In e (edges c) /\ close_to (k * Rabs d) q e).
Proof.
  intros contours dest q F. induction F as [|c z cs zs M F IH]; intro A.
  - split; [unfold gained; destruct (Rlt_dec d 0); cbn; lia|]. split; [intros c e []|]. intro N. now destruct N.
  - inversion A; subst. destruct (IH H2) as (I1 & I2 & I3). destruct (M q H1) as (M1 & M2 & M3).
    assert (E : gained d (total q (c :: cs)) (total q (z :: zs)) = (gained d (winding q c) (winding q z) + gained d (total q cs) (total q zs))%Z).
    { unfold total. rewrite !sum_cons. unfold gained. destruct (Rlt_dec d 0); lia. }
    rewrite E. split; [lia|]. split.
    + intros c' e [<-|I] Ie Ne; [specialize (M2 e Ie Ne)|specialize (I2 c' e I Ie Ne)]; lia.
    + intro N. destruct (Z.eq_dec (winding q z) (winding q c)) as [Eq|Eq].
      * destruct I3 as (c' & e & Hc & He); [|exists c', e; split; [now right|exact He]]. unfold total in *. rewrite !sum_cons in N. lia.
      * destruct (M3 Eq) as (e & He). exists c, e. split; [now left|exact He].
Qed.

(** What one sees of the result at a point [q]: [before], the number of times the polygons go
    around it, and [after], that of the result. *)
Definition offset_at (k d : R) (polys : list zpath) (out : list zpath) (q : pt) : Prop :=
  let before := total q polys in
  let after := total q out in
  (after = 0%Z \/ after = 1%Z) /\
  (** growing keeps what was inside, shrinking adds nothing *)
  (0 < d -> (0 < before)%Z -> after = 1%Z) /\
  (d < 0 -> after = 1%Z -> (0 < before)%Z) /\
  (** the rectangle next to each edge is added, or taken away *)
  (forall p e, In p polys -> (3 <= length (filter apart (edges p)))%nat -> In e (edges p) -> next_to (k + 1) d q e ->
     (0 < d -> (0 <= before)%Z -> after = 1%Z) /\ (d < 0 -> (before <= 1)%Z -> after = 0%Z)) /\
  (** nothing changes far from the edges *)
  ((after = 1%Z <-> (0 < before)%Z) \/ exists p e, In p polys /\ In e (edges p) /\ close_to (k * Rabs d) q e).

(** Away from the new outlines and from the bridges to the holes. *)
Definition clear_of (dest : list zpath) (tree : list ptree) (q : pt) : Prop :=
  Forall (fun z => away (/ 2) q (map real z)) dest /\
  Forall (fun l => l <> []) (flat_map all_contours tree) /\
  forall f l e, In f (flat_map families tree) -> In l (fst f :: snd f) -> In e (edges l) -> ~ near (Z.of_nat (length (snd f))) q e.

Lemma degenerate_next m d q e : 0 <= m -> next_to m d q e -> fst e <> snd e.
Proof.
  intros M (x & y & Hx & _) E. destruct e as [a b]. cbn [fst snd] in E. subst b. unfold long, dist2 in Hx. cbn [fst snd] in Hx.
  replace ((fst (real a) - fst (real a)) * (fst (real a) - fst (real a)) + (snd (real a) - snd (real a)) * (snd (real a) - snd (real a))) with 0 in Hx by ring. rewrite sqrt_0 in Hx. lra.
Qed.
Lemma needles_contour d p c : edges c = filter apart (edges p) -> no_needles d p -> no_needles d c.
Proof.
  intros E H e e' I. apply H. rewrite E in I. replace (filter apart (filter apart (edges p))) with (filter apart (edges p)) in I; [exact I|].
  generalize (edges p). clear. induction l as [|x l IH]; [reflexivity|]. cbn [filter]. destruct (apart x) eqn:A; [|exact IH]. cbn [filter]. rewrite A. f_equal. exact IH.
Qed.
Lemma edges_length : forall (A : Type) (l : list A), length (edges l) = length l.
Proof. intros A [|p r]; [reflexivity|]. unfold edges. rewrite combine_length, app_length. cbn [length]. lia. Qed.
Lemma filter_contour p : (3 <= length (filter apart (edges p)))%nat -> (3 <= length (contour_of p))%nat.
Proof.
  intro L. rewrite <- (proj1 (contour_edges p)) in L. assert (G : forall (A : Type) (g : A -> bool) l, (length (filter g l) <= length l)%nat).
  { clear. intros A g l. induction l as [|x l IH]; [cbn; lia|]. cbn [filter]. destruct (g x); cbn [length]; lia. }
  pose proof (G _ apart (edges (contour_of p))). rewrite edges_length in H. lia.
Qed.

(** The new outlines, their union, and the bridges. *)
Lemma offset_core jt limit arc delta paths dest eng bounds psort out :
  fix_orientations (add_paths paths) = kept paths ->
  do_offset jt limit arc delta (kept paths) = Some dest -> tree2paths psort (execute eng bounds dest delta) = Some out ->
  sorts psort -> reach jt limit + 1 <= Rabs delta -> (jt <> RoundJoin -> delta < 0 -> Forall (no_needles delta) paths) ->
  forall q, sweeps eng bounds delta dest q -> clear_of dest (execute eng bounds dest delta) q ->
  offset_at (reach jt limit) delta paths out q.
Proof.
  intros _ Hd Ht Hs Hr Hn q Sw (Aw & Ne & Nr). pose proof (reach_1 jt limit) as R1.
  assert (M : Forall2 (moved_outline (reach jt limit) delta) (kept paths) dest).
  { apply (C84_outline jt limit arc); try assumption; [apply kept_proper|]. intros HR Hneg. specialize (Hn HR Hneg). apply Forall_forall. intros c I.
    destruct (kept_in _ _ I) as (p & Ip & _ & E & _). apply (needles_contour _ p c E). now apply (proj1 (Forall_forall _ _) Hn). }
  destruct (moved_total _ _ _ _ q M Aw) as (T1 & T2 & T3).
  assert (Ek : total q (kept paths) = total q paths) by apply kept_winding. rewrite Ek in *.
  assert (Eo : total q out = if (0 <? total q dest)%Z then 1%Z else 0%Z).
  { rewrite <- (execute_total eng bounds dest delta q Sw). now apply (C83_total psort). }
  unfold offset_at. rewrite Eo. set (before := total q paths) in *. set (W := total q dest) in *.
  assert (D0 : delta <> 0) by (intro E; rewrite E, Rabs_R0 in Hr; lra).
  unfold gained in *. split; [destruct (0 <? W)%Z; auto|]. split; [|split; [|split]].
  - intros Hp Hb. destruct (Rlt_dec delta 0); [lra|]. destruct (Z.ltb_spec 0 W); lia.
  - intros Hp Hb. destruct (Rlt_dec delta 0); [|lra]. destruct (Z.ltb_spec 0 W); lia.
  - intros p e Ip L Ie Nx. assert (Nd : fst e <> snd e) by (apply (degenerate_next (reach jt limit + 1) delta q e ltac:(lra) Nx)).
    destruct (kept_edge paths p e Ip Ie Nd (filter_contour p L)) as (c & Ic & Iec). specialize (T2 c e Ic Iec Nx).
    split; intros Hp Hb; destruct (Rlt_dec delta 0); try lra; destruct (Z.ltb_spec 0 W); lia.
  - destruct (Z.eq_dec before W) as [E|E].
    + left. rewrite E. destruct (Z.ltb_spec 0 W); split; intro; try reflexivity; try lia.
    + right. destruct (T3 E) as (c & e & Ic & Ie & Cl). destruct (kept_in _ _ Ic) as (p & Ip & _ & Ec & _).
      exists p, e. split; [exact Ip|]. split; [|exact Cl]. rewrite Ec in Ie. now apply filter_In in Ie.
Qed.
Definition offset_limit (jt : join) (tolerance : R) : R := match jt with Miter => tolerance | _ => 2 end.
Definition offset_arc (jt : join) (distance scaling tolerance : R) : R :=
  match jt with RoundJoin => distance * scaling * (1 - cos (PI / tolerance)) | _ => / 4 end.
Lemma reach_limit jt tolerance : reach jt (offset_limit jt tolerance) = reach jt tolerance.
Proof. destruct jt; reflexivity. Qed.

Lemma parsed_kept polys scaling : let paths := map (parse_polygon scaling true) polys in fix_orientations (add_paths paths) = kept paths.
Proof.
  intro paths. apply fix_none. intros c I. destruct (kept_in _ _ I) as (p & Ip & _ & _ & ->). unfold paths in Ip. apply in_map_iff in Ip. destruct Ip as (poly & <- & _).
  apply (C56_normalised scaling poly).
Qed.

(** [offset] on the grid of the precision. *)
Theorem C84_result : forall eng eng_paths bounds psort polys distance jt tolerance scaling out,
  let delta := distance * scaling in
  let paths := map (parse_polygon scaling true) polys in
  clipper_offset eng eng_paths bounds psort polys distance jt tolerance scaling false = Some out ->
  sorts psort -> reach jt tolerance + 1 <= Rabs delta ->
  (jt <> RoundJoin -> delta < 0 -> Forall (no_needles delta) paths) ->
  exists dest, do_offset jt (offset_limit jt tolerance) (offset_arc jt distance scaling tolerance) delta (fix_orientations (add_paths paths)) = Some dest /\
  forall q, sweeps eng bounds delta dest q -> clear_of dest (execute eng bounds dest delta) q ->
  offset_at (reach jt tolerance) delta paths out q.
Proof.
  intros eng eng_paths bounds psort polys distance jt tolerance scaling out delta paths H S R Nd.
  unfold clipper_offset in H. fold paths delta in H. change (match jt with Miter => tolerance | _ => 2 end) with (offset_limit jt tolerance) in H.
  change (match jt with RoundJoin => delta * (1 - cos (PI / tolerance)) | _ => / 4 end) with (offset_arc jt distance scaling tolerance) in H.
  destruct (do_offset jt (offset_limit jt tolerance) (offset_arc jt distance scaling tolerance) delta (fix_orientations (add_paths paths))) as [dest|] eqn:E; [|discriminate].
  exists dest. split; [reflexivity|]. intros q Sw Cl. rewrite <- reach_limit in R |- *. pose proof (parsed_kept polys scaling) as K. cbv zeta in K. fold paths in K.
  rewrite K in E. exact (offset_core jt _ _ delta paths dest eng bounds psort out K E H S R Nd q Sw Cl).
Qed.

(** A distance of zero joins the polygons. *)
Theorem C84_zero : forall eng eng_paths bounds psort polys jt tolerance scaling out q,
  let paths := map (parse_polygon scaling true) polys in
  let dest := fix_orientations (add_paths paths) in
  clipper_offset eng eng_paths bounds psort polys 0 jt tolerance scaling false = Some out ->
  sorts psort -> sweeps eng bounds 0 dest q -> clear_of [] (execute eng bounds dest 0) q ->
  total q out = if (0 <? total q paths)%Z then 1%Z else 0%Z.
Proof.
  intros eng eng_paths bounds psort polys jt tolerance scaling out q paths dest H S Sw (_ & Ne & Nr).
  unfold clipper_offset in H. fold paths in H. fold dest in H. rewrite Rmult_0_l in H. unfold do_offset in H.
  assert (NZ : near_zero 0 = true). { unfold near_zero. assert (0 < / 10 ^ 20) by (apply Rinv_0_lt_compat, pow_lt; lra). destruct (Rlt_dec _ 0); [|lra]. destruct (Rlt_dec 0 _); [reflexivity|lra]. }
  rewrite NZ in H. rewrite (C83_total psort _ out q S Ne H Nr : total q out = _). rewrite (execute_total _ _ _ _ _ Sw : sum_over (winding q) _ = _).
  unfold dest. rewrite (parsed_kept polys scaling : fix_orientations (add_paths paths) = kept paths). now rewrite (kept_winding q paths : total q (kept paths) = total q paths).
Qed.

(** ** Joining first *)

(** The outlines through the highest vertex, the leftmost of these, are counter-clockwise. *)
Definition outer_on_top (l : list zpath) : Prop :=
  forall c p, In c l -> In p c ->
  (forall c' p', In c' l -> In p' c' -> (snd p' < snd p)%Z \/ (snd p' = snd p /\ fst p <= fst p')%Z) -> (0 <= shoelace c)%Z.

Lemma lower_spec a b : lower a b = true <-> ((snd b < snd a)%Z \/ (snd a = snd b /\ fst a < fst b)%Z).
Proof. unfold lower. rewrite orb_true_iff, andb_true_iff, !Z.ltb_lt, Z.eqb_eq. tauto. Qed.
Definition at_least (p p' : zpt) : Prop := (snd p' < snd p)%Z \/ (snd p' = snd p /\ fst p <= fst p')%Z.
Lemma lower_not a b : lower a b = false -> at_least b a.
Proof.
  intro H. unfold at_least. assert (N : ~ ((snd b < snd a)%Z \/ (snd a = snd b /\ fst a < fst b)%Z)) by (intro K; apply lower_spec in K; congruence). lia.
Qed.
Lemma lower_yes a b : lower a b = true -> at_least a b.
Proof. intro H. apply lower_spec in H. unfold at_least. lia. Qed.
Lemma at_least_trans a b c : at_least a b -> at_least b c -> at_least a c.
Proof. unfold at_least. lia. Qed.
Lemma lowest_spec c : c <> [] -> In (lowest c) c /\ forall p, In p c -> at_least (lowest c) p.
Proof.
  destruct c as [|a r]; intro N; [now destruct N|]. unfold lowest. clear N.
  assert (G : forall (l : zpath) x, (fold_left (fun k y => if lower y k then y else k) l x = x \/ In (fold_left (fun k y => if lower y k then y else k) l x) l) /\
     at_least (fold_left (fun k y => if lower y k then y else k) l x) x /\ forall p, In p l -> at_least (fold_left (fun k y => if lower y k then y else k) l x) p).
  { clear. induction l as [|y l IH]; intro x; cbn [fold_left].
    - split; [now left|]. split; [unfold at_least; lia|intros p []].
    - destruct (IH (if lower y x then y else x)) as (I1 & I2 & I3).
      assert (X : at_least (if lower y x then y else x) x /\ at_least (if lower y x then y else x) y).
      { destruct (lower y x) eqn:E; [split; [now apply lower_yes|unfold at_least; lia]|split; [unfold at_least; lia|now apply lower_not]]. }
      destruct X as [X1 X2]. split; [|split].
      + destruct I1 as [->|I1]; [destruct (lower y x); [right; now left|now left]|right; now right].
      + now apply (at_least_trans _ _ _ I2).
      + intros p [<-|I]; [now apply (at_least_trans _ _ _ I2)|now apply I3]. }
  destruct (G r a) as (G1 & G2 & G3). split.
  - destruct G1 as [->|G1]; [now left|now right].
  - intros p [<-|I]; [exact G2|now apply G3].
Qed.
Lemma low_spec l : match n_low (add_paths l) with
  | Some (c, p) => In c (kept l) /\ In p c /\ forall c' p', In c' (kept l) -> In p' c' -> at_least p p'
  | None => kept l = []
  end.
Proof.
  rewrite <- add_paths_list. unfold add_paths. set (Q := fun s : nodes => match n_low s with
    | Some (c, p) => In c (n_list s) /\ In p c /\ forall c' p', In c' (n_list s) -> In p' c' -> at_least p p' | None => n_list s = [] end).
  assert (G : forall l s, Q s -> Q (fold_left add_path l s)).
  { clear l. induction l as [|x l IH]; intros s H; [exact H|]. cbn [fold_left]. apply IH. unfold add_path. destruct (Nat.ltb_spec (length (contour_of x)) 3) as [L|L]; [exact H|].
    destruct (lowest_spec (contour_of x)) as [L1 L2]; [intro E; rewrite E in L; cbn in L; lia|]. set (c := contour_of x) in *. unfold Q in *. cbn [n_low n_list].
    destruct (n_low s) as [[c0 p0]|].
    - destruct H as (H1 & H2 & H3). destruct (lower (lowest c) p0) eqn:E.
      + split; [apply in_app_iff; right; now left|]. split; [exact L1|]. intros c' p' I J. apply in_app_iff in I. destruct I as [I|[<-|[]]]; [|now apply L2].
        apply (at_least_trans _ p0); [now apply lower_yes|now apply (H3 c')].
      + split; [apply in_app_iff; now left|]. split; [exact H2|]. intros c' p' I J. apply in_app_iff in I. destruct I as [I|[<-|[]]]; [now apply (H3 c')|].
        apply (at_least_trans _ (lowest c)); [now apply lower_not|now apply L2].
    - split; [apply in_app_iff; right; now left|]. split; [exact L1|]. rewrite H. intros c' p' [<-|[]] J. now apply L2. }
  apply (G l). reflexivity.
Qed.
Lemma fix_kept l : outer_on_top (kept l) -> fix_orientations (add_paths l) = kept l.
Proof.
  intro O. unfold fix_orientations. pose proof (low_spec l) as Lo. rewrite add_paths_list. destruct (n_low (add_paths l)) as [[c p]|]; [|reflexivity].
  destruct Lo as (L1 & L2 & L3). assert (P : (3 <= length c)%nat) by (apply (proj1 (Forall_forall _ _) (kept_proper l) c L1)).
  unfold oriented. rewrite area_shoelace by exact P. rewrite (proj2 (Z.leb_le _ _)); [reflexivity|]. now apply (O c p).
Qed.
Lemma kept_id l : Forall proper l -> kept l = l.
Proof.
  intro F. unfold kept. induction F as [|c l P F IH]; [reflexivity|]. cbn [map filter]. rewrite (contour_id c P). rewrite (proj2 (Nat.leb_le _ _) (proj1 P)). now rewrite IH.
Qed.

(** With [join_first], it is the union of the polygons that is moved. *)
Theorem C84_join_first : forall eng eng_paths bounds psort polys distance jt tolerance scaling out,
  let delta := distance * scaling in
  let paths := map (parse_polygon scaling true) polys in
  let contours := fix_orientations (add_paths paths) in
  let joined := execute_paths eng_paths bounds contours 0 in
  clipper_offset eng eng_paths bounds psort polys distance jt tolerance scaling true = Some out ->
  sorts psort -> reach jt tolerance + 1 <= Rabs delta ->
  Forall proper joined -> outer_on_top joined ->
  (jt <> RoundJoin -> delta < 0 -> Forall (no_needles delta) joined) ->
  exists dest, do_offset jt (offset_limit jt tolerance) (offset_arc jt distance scaling tolerance) delta joined = Some dest /\
  forall q, sweeps eng bounds delta dest q -> clear_of dest (execute eng bounds dest delta) q ->
  fills_negative_paths eng_paths contours (frame bounds contours) q -> boxed bounds contours q ->
  total q joined = (if (0 <? total q paths)%Z then 1%Z else 0%Z) /\ offset_at (reach jt tolerance) delta joined out q.
Proof.
  intros eng eng_paths bounds psort polys distance jt tolerance scaling out delta paths contours joined H S R P O Nd.
  unfold clipper_offset in H. fold paths delta in H. fold contours in H.
  assert (NZ : do_offset Bevel 2 (/ 4) 0 contours = Some contours).
  { unfold do_offset, near_zero. assert (0 < / 10 ^ 20) by (apply Rinv_0_lt_compat, pow_lt; lra). destruct (Rlt_dec _ 0); [|lra]. destruct (Rlt_dec 0 _); [reflexivity|lra]. }
  rewrite NZ in H. cbn [option_map] in H. fold joined in H.
  change (match jt with Miter => tolerance | _ => 2 end) with (offset_limit jt tolerance) in H.
  change (match jt with RoundJoin => delta * (1 - cos (PI / tolerance)) | _ => / 4 end) with (offset_arc jt distance scaling tolerance) in H.
  assert (Kj : kept joined = joined) by now apply kept_id.
  assert (Fj : fix_orientations (add_paths joined) = kept joined) by (apply fix_kept; now rewrite Kj).
  destruct (do_offset jt (offset_limit jt tolerance) (offset_arc jt distance scaling tolerance) delta (fix_orientations (add_paths joined))) as [dest|] eqn:E; [|discriminate].
  rewrite Fj in E. exists dest. split; [rewrite <- Kj; exact E|]. intros q Sw Cl Fn Bx. split.
  - unfold joined. rewrite (paths_total _ _ _ _ Fn Bx). unfold contours. rewrite (parsed_kept polys scaling : fix_orientations (add_paths paths) = kept paths).
    now rewrite (kept_winding q paths : total q (kept paths) = total q paths).
  - rewrite <- reach_limit in R |- *. exact (offset_core jt _ _ delta joined dest eng bounds psort out Fj E H S R Nd q Sw Cl).
Qed.
