(** Lemmas on the loop over the vertices of an outline. *)

From Coq Require Import Reals Lra Lia List ZArith Bool Permutation.
From Verif Require Import Plane Engine Flex LinkHoles SpecEngine SpecLink SpecOffset Offset PropEngine PropLink Winding OffsetFacts.
Import ListNotations.
Open Scope R_scope.

Lemma edges_map : forall (A B : Type) (f : A -> B) l, edges (map f l) = map (fun e => (f (fst e), f (snd e))) (edges l).
Proof.
  intros A B f [|p r]; [reflexivity|]. unfold edges. cbn [map].
  change (f p :: map f r) with (map f (p :: r)). replace (map f r ++ [f p]) with (map f (r ++ [p])) by (rewrite map_app; reflexivity).
  generalize (p :: r) (r ++ [p]). clear. induction l as [|x l IH]; intros [|y m]; try reflexivity. cbn [map combine fst snd]. now rewrite IH.
Qed.
Lemma sum_map : forall (A B : Type) (f : A -> B) (g : B -> Z) l, sum_over g (map f l) = sum_over (fun x => g (f x)) l.
Proof. intros A B f g l. induction l as [|x l IH]; [reflexivity|]. cbn [map]. now rewrite !sum_cons, IH. Qed.
Lemma edges_seq : forall n i j, In (i, j) (edges (seq 0 n)) -> (i < n)%nat /\ (j = S i /\ (j < n)%nat \/ i = (n - 1)%nat /\ j = O).
Proof.
  intros n i j I. destruct n as [|n]; [destruct I|]. cbn [seq] in I. unfold edges in I.
  assert (G : forall m k z, In (i, j) (combine (k :: seq (S k) m) (seq (S k) m ++ [z])) -> (k <= i < k + S m)%nat /\ (j = S i /\ (j < k + S m)%nat \/ i = (k + m)%nat /\ j = z)).
  { clear. induction m as [|m IH]; intros k z I.
    - cbn in I. destruct I as [E|[]]. injection E as <- <-. split; [lia|right; lia].
    - cbn [seq] in I. change ((S k :: seq (S (S k)) m) ++ [z]) with (S k :: (seq (S (S k)) m ++ [z])) in I.
      change (combine (k :: S k :: seq (S (S k)) m) (S k :: seq (S (S k)) m ++ [z])) with ((k, S k) :: combine (S k :: seq (S (S k)) m) (seq (S (S k)) m ++ [z])) in I.
      destruct I as [E|I]; [injection E as <- <-; split; [lia|left; lia]|]. destruct (IH _ _ I) as [H1 [[H2 H3]|[H2 H3]]]; (split; [lia|]); [left|right]; lia. }
  destruct (G _ _ _ I) as [H1 [[H2 H3]|[H2 H3]]]; (split; [lia|]); [left|right]; lia.
Qed.
Lemma map_nth_seq : forall (A : Type) (d : A) l, map (fun j => nth j l d) (seq 0 (length l)) = l.
Proof.
  intros A d l. induction l as [|x l IH]; [reflexivity|]. cbn [length seq map nth]. f_equal. rewrite <- seq_shift, map_map. exact IH.
Qed.
Lemma edge_vertex : forall (A : Type) (l : list A) x, In x l -> exists y, In (x, y) (edges l).
Proof.
  intros A [|p r] x I; [destruct I|]. unfold edges.
  assert (G : forall (l m : list A), (length l <= length m)%nat -> In x l -> exists y, In (x, y) (combine l m)).
  { clear. induction l as [|a l IH]; intros [|b m] L J; [destruct J|destruct J|cbn in L; lia|]. cbn [combine]. destruct J as [->|J]; [exists b; now left|].
    destruct (IH m) as [y K]; [cbn in L; lia|exact J|]. exists y. now right. }
  apply G; [rewrite app_length; cbn; lia|exact I].
Qed.

(** ** Normals *)
Lemma zsame_spec a b : zsame a b = true <-> a = b.
Proof.
  destruct a as [a1 a2], b as [b1 b2]. unfold zsame. cbn [fst snd]. rewrite andb_true_iff, !Z.eqb_eq. split; [intros [-> ->]; reflexivity|intro E; now injection E].
Qed.
Lemma normal_spec a b : a <> b -> 1 <= long (a, b) /\ dot (normal a b) (normal a b) = 1 /\
  real b = (fst (real a) + long (a, b) * fst (rot (normal a b)), snd (real a) + long (a, b) * snd (rot (normal a b))).
Proof.
  intro Nab. unfold normal. destruct (zsame b a) eqn:E; [apply zsame_spec in E; congruence|]. clear E.
  unfold long, dist2, real, dot, rot. cbn [fst snd]. rewrite !minus_IZR.
  set (dx := IZR (fst b) - IZR (fst a)). set (dy := IZR (snd b) - IZR (snd a)).
  assert (Q : 1 <= dx * dx + dy * dy).
  { unfold dx, dy. rewrite <- !minus_IZR, <- !mult_IZR, <- plus_IZR. apply IZR_le.
    destruct a as [a1 a2], b as [b1 b2]. cbn [fst snd]. assert (b1 - a1 <> 0 \/ b2 - a2 <> 0)%Z.
    { destruct (Z.eq_dec (b1 - a1) 0); [|now left]. right. intro. apply Nab. f_equal; lia. }
    assert (SQ : forall x, (x <> 0 -> 1 <= x * x)%Z) by (clear; intros; nia). assert (S0 : forall x, (0 <= x * x)%Z) by (clear; intros; nia).
    pose proof (S0 (b1 - a1)%Z). pose proof (S0 (b2 - a2)%Z). destruct H as [H|H]; apply SQ in H; lia. }
  set (L := sqrt (dx * dx + dy * dy)). assert (L2 : L * L = dx * dx + dy * dy) by (apply sqrt_sqrt; lra).
  assert (L1 : 1 <= L). { unfold L. rewrite <- sqrt_1. apply sqrt_le_1; lra. }
  split; [exact L1|]. split.
  - replace (dy * (1 / L) * (dy * (1 / L)) + - (dx * (1 / L)) * - (dx * (1 / L))) with ((dx * dx + dy * dy) / (L * L)) by (field; lra). rewrite <- L2. field. lra.
  - f_equal; unfold dx, dy; field_simplify; lra.
Qed.
(** The rectangles of the specification in these terms. *)
Lemma next_to_spec m d q a b : a <> b -> next_to m d q (a, b) -> exists x z, m < x < long (a, b) - m /\ 0 < sg d * z < Rabs d - m /\
  q = (fst (real a) + x * fst (rot (normal a b)) + z * fst (normal a b), snd (real a) + x * snd (rot (normal a b)) + z * snd (normal a b)).
Proof.
  intros Nab (x & y & Hx & Hy & E). cbn [fst snd] in E.
  exists x, (if Rlt_dec d 0 then - y else y). split; [exact Hx|]. split; [unfold sg; destruct (Rlt_dec d 0); lra|].
  destruct (normal_spec a b Nab) as (L1 & _ & _). rewrite E. set (z := if Rlt_dec d 0 then - y else y). clearbody z.
  unfold normal. destruct (zsame b a) eqn:Eq; [apply zsame_spec in Eq; congruence|]. unfold rot. cbn [fst snd]. unfold real at 1 2 3 4 5 6 7 8. cbn [fst snd]. rewrite !minus_IZR.
  unfold long, dist2 in *. cbn [fst snd] in *. unfold real in *. cbn [fst snd] in *.
  set (L := sqrt _) in *. f_equal; field; lra.
Qed.

(** Points in the triangles of a strip or a fan. *)
Lemma convex : forall D p (x1 y1 x2 y2 : R) r, 0 <= p -> 0 <= r -> p + r <= 1 -> x1 * x1 + y1 * y1 <= D * D -> x2 * x2 + y2 * y2 <= D * D ->
  (p * x1 + r * x2) * (p * x1 + r * x2) + (p * y1 + r * y2) * (p * y1 + r * y2) <= D * D.
Proof.
  intros D p x1 y1 x2 y2 r P R0 PR A B.
  assert (C : x1 * x2 + y1 * y2 <= D * D). { pose proof (Rle_0_sqr (x1 - x2)) as H. pose proof (Rle_0_sqr (y1 - y2)) as G. unfold Rsqr in *. lra. }
  replace ((p * x1 + r * x2) * (p * x1 + r * x2) + (p * y1 + r * y2) * (p * y1 + r * y2)) with (p * p * (x1 * x1 + y1 * y1) + 2 * (p * r) * (x1 * x2 + y1 * y2) + r * r * (x2 * x2 + y2 * y2)) by ring.
  assert (PP : 0 <= p * p) by apply Rle_0_sqr. assert (Pr : 0 <= 2 * (p * r)) by (pose proof (Rmult_le_pos _ _ P R0); lra). assert (RR : 0 <= r * r) by apply Rle_0_sqr.
  pose proof (Rmult_le_compat_l _ _ _ PP A) as H1. pose proof (Rmult_le_compat_l _ _ _ Pr C) as H2. pose proof (Rmult_le_compat_l _ _ _ RR B) as H3.
  assert (Q : (p + r) * (p + r) <= 1). { replace 1 with (1 * 1) by ring. apply Rmult_le_compat; lra. }
  pose proof (Rmult_le_compat_r (D * D) _ _ (Rle_0_sqr D) Q) as H4. lra.
Qed.
Lemma close_strip D v w X Y q : dist2 X (real v) <= D * D -> dist2 Y (real w) <= D * D ->
  in_triangle (real v) X (real w) q \/ in_triangle X Y (real w) q -> close_to D q (v, w).
Proof.
  intros DX DY H. pose proof (Rle_0_sqr D) as D0. unfold Rsqr in D0.
  unfold close_to. cbn [fst snd]. unfold dist2 in *. destruct H as [(x & y & z & Hx & Hy & Hz & Es & E1 & E2)|(x & y & z & Hx & Hy & Hz & Es & E1 & E2)].
  - exists z. split; [lra|]. unfold mid. cbn [fst snd]. rewrite E1, E2.
    pose proof (convex D y (fst X - fst (real v)) (snd X - snd (real v)) 0 0 0 Hy ltac:(lra) ltac:(lra) DX ltac:(lra)) as G.
    eapply Rle_trans; [|exact G]. apply Req_le. replace x with (1 - y - z) by lra. ring.
  - exists (y + z). split; [lra|]. unfold mid. cbn [fst snd]. rewrite E1, E2.
    pose proof (convex D x (fst X - fst (real v)) (snd X - snd (real v)) (fst Y - fst (real w)) (snd Y - snd (real w)) y Hx Hy ltac:(lra) DX DY) as G.
    eapply Rle_trans; [|exact G]. apply Req_le. replace x with (1 - y - z) by lra. ring.
Qed.
Lemma close_fan D v w a b q : dist2 a (real v) <= D * D -> dist2 b (real v) <= D * D -> in_triangle (real v) a b q -> close_to D q (v, w).
Proof.
  intros DX DY (x & y & z & Hx & Hy & Hz & Es & E1 & E2).
  unfold close_to. cbn [fst snd]. exists 0. split; [lra|]. unfold mid, dist2 in *. cbn [fst snd]. rewrite E1, E2.
  pose proof (convex D y _ _ _ _ z Hy Hz ltac:(lra) DX DY) as G. eapply Rle_trans; [|exact G]. apply Req_le. replace x with (1 - y - z) by lra. ring.
Qed.

Notation O2 := (0%R, 0%R).
Section Loop.
Variable jt : join.
Variables (delta lim steps : R) (src : zpath).
Hypothesis Hsteps : 2 <= steps.
Hypothesis Hl : 0 < lim <= / 2.
Hypothesis Hsrc : proper src.
Let f := sqrt (reach2 jt lim).
Hypothesis HD : f + 1 <= Rabs delta.
(** Shrinking, with bevels or miters: no edge turns back by so much that the ends of the
    two normals are less than a unit from being opposite. *)
Definition no_needle : Prop := forall i j k, In (i, j) (edges (seq 0 (length src))) -> In (j, k) (edges (seq 0 (length src))) ->
  let m := normal (nth i src (0, 0)%Z) (nth j src (0, 0)%Z) in let n := normal (nth j src (0, 0)%Z) (nth k src (0, 0)%Z) in
  0 <= dot m n \/ 1 <= Rabs (crs m n * delta).
Hypothesis Hneedle : jt <> RoundJoin -> delta < 0 -> no_needle.

Let len := length src.
Definition vtx (j : nat) : zpt := nth j src (0, 0)%Z.
Definition nrm (j : nat) : pt := nth j (normals src) (0, 0).
Definition point (k j : nat) := offset_point jt delta lim steps (vtx j) (nrm k) (nrm j).
Fixpoint kst (j : nat) : nat :=
  match j with O => (len - 1)%nat | S i => if snd (point (kst i) i) then i else kst i end.
Definition piece (j : nat) : list pt := fst (point (kst j) j).

Let len3 : (3 <= len)%nat. Proof. apply Hsrc. Qed.
Let f1 : 1 <= f.
Proof. unfold f. rewrite <- sqrt_1. apply sqrt_le_1; [lra| |]; pose proof (reach2_1 jt lim Hl); lra. Qed.
Let ff : f * f = reach2 jt lim.
Proof. unfold f. apply sqrt_sqrt. pose proof (reach2_1 jt lim Hl). lra. Qed.
Let delta0 : delta <> 0.
Proof. intro E. rewrite E, Rabs_R0 in HD. lra. Qed.
Let dd : Rabs delta * Rabs delta = delta * delta.
Proof. rewrite <- Rabs_mult. apply Rabs_right. apply Rle_ge, Rle_0_sqr. Qed.

Lemma loop_concat : forall m i, offset_loop jt delta lim steps src (normals src) (seq i m) (kst i) = concat (map piece (seq i m)).
Proof.
  induction m as [|m IH]; intro i; [reflexivity|]. cbn [seq offset_loop map concat].
  fold (vtx i) (nrm (kst i)) (nrm i). fold (point (kst i) i). unfold piece at 1. destruct (point (kst i) i) as [new moved] eqn:E. cbn [fst]. f_equal.
  rewrite <- IH. f_equal. cbn [kst]. rewrite E. reflexivity.
Qed.
Lemma outline_concat : outline jt delta lim steps src = concat (map piece (seq 0 len)).
Proof. unfold outline. fold len. rewrite <- loop_concat. reflexivity. Qed.

Lemma edge_idx i j : In (i, j) (edges (seq 0 len)) -> In (vtx i, vtx j) (edges src).
Proof.
  intro I. assert (E : src = map vtx (seq 0 len)) by (symmetry; apply map_nth_seq). rewrite E, edges_map.
  apply in_map_iff. exists (i, j). split; [reflexivity|exact I].
Qed.
Lemma idx_edge a b : In (a, b) (edges src) -> exists i j, In (i, j) (edges (seq 0 len)) /\ vtx i = a /\ vtx j = b.
Proof.
  assert (E : src = map vtx (seq 0 len)) by (symmetry; apply map_nth_seq). rewrite E at 1. rewrite edges_map. intro I.
  apply in_map_iff in I. destruct I as ([i j] & Eq & I). injection Eq as <- <-. exists i, j. auto.
Qed.
Lemma apart_idx i j : In (i, j) (edges (seq 0 len)) -> vtx i <> vtx j.
Proof. intro I. destruct Hsrc as [_ H]. apply (H _ (edge_idx i j I)). Qed.
Lemma nrm_edge i j : In (i, j) (edges (seq 0 len)) -> nrm i = normal (vtx i) (vtx j).
Proof.
  intro I. destruct (edges_seq _ _ _ I) as [Hi [[-> Hj]|[-> ->]]]; unfold nrm, normals; fold len.
  - rewrite app_nth1 by (rewrite map_length, seq_length; lia).
    set (g := fun j : nat => normal (nth j src (0, 0)%Z) (nth (S j) src (0, 0)%Z)).
    rewrite (nth_indep _ (0, 0) (g O)) by (rewrite map_length, seq_length; lia). rewrite map_nth, seq_nth by lia. reflexivity.
  - rewrite app_nth2 by (rewrite map_length, seq_length; lia). rewrite map_length, seq_length, Nat.sub_diag. reflexivity.
Qed.
Lemma has_next i : (i < len)%nat -> exists j, In (i, j) (edges (seq 0 len)).
Proof. intro H. apply edge_vertex. apply in_seq. lia. Qed.
Lemma has_prev j : (j < len)%nat -> In (match j with O => (len - 1)%nat | S i => i end, j) (edges (seq 0 len)).
Proof.
  intro H. destruct j as [|i].
  - destruct (has_next (len - 1)) as [j I]; [lia|]. destruct (edges_seq _ _ _ I) as [_ [[E1 E2]|[_ ->]]]; [lia|exact I].
  - destruct (has_next i) as [j I]; [lia|]. destruct (edges_seq _ _ _ I) as [_ [[-> _]|[E _]]]; [exact I|lia].
Qed.
Lemma nrm_unit i : (i < len)%nat -> dot (nrm i) (nrm i) = 1.
Proof. intro H. destruct (has_next i H) as [j I]. rewrite (nrm_edge i j I). now apply normal_spec, apart_idx. Qed.
Lemma kst_lt j : (j <= len)%nat -> (kst j < len)%nat.
Proof. induction j as [|j IH]; intro H; cbn [kst]; [lia|]. destruct (snd _); [lia|apply IH; lia]. Qed.
(** The normal used is that of the last edge, or close to it. *)
Lemma kst_near j : (j < len)%nat -> let p := match j with O => (len - 1)%nat | S i => i end in
  (kst j = p \/ Rabs (crs (nrm (kst j)) (nrm p) * delta) < 1 /\ 0 < dot (nrm (kst j)) (nrm p)) /\
  corner_ok jt delta lim (vtx j) (nrm (kst j)) (nrm j) (point (kst j) j).
Proof.
  induction j as [|i IH]; intros Hj p.
  - split; [now left|]. apply point_ok; try assumption; try (apply nrm_unit; try lia; apply kst_lt; lia).
    intros HR Hneg. cbn [kst]. destruct (has_next O ltac:(lia)) as [j I]. pose proof (has_prev O ltac:(lia)) as J. cbv beta iota in J.
    pose proof (Hneedle HR Hneg _ _ _ J I) as Nd. cbv zeta in Nd. fold (vtx (len - 1)) (vtx 0) (vtx j) in Nd. rewrite <- (nrm_edge _ _ J), <- (nrm_edge _ _ I) in Nd.
    set (m := nrm (len - 1)) in *. set (n := nrm 0) in *. destruct (Req_dec (crs m n) 0) as [E|E]; [|now left]. right.
    rewrite E, Rmult_0_l, Rabs_R0 in Nd. destruct Nd as [Nd|Nd]; [|lra].
    pose proof (unit_cs m n (nrm_unit (len - 1) ltac:(lia)) (nrm_unit 0 ltac:(lia))) as U. rewrite E in U. destruct (Req_dec (dot m n) 0) as [Z|Z]; [rewrite Z in U; lra|lra].
  - destruct (IH ltac:(lia)) as [_ Hok]. clear IH.
    assert (NR : kst (S i) = p \/ Rabs (crs (nrm (kst (S i))) (nrm p) * delta) < 1 /\ 0 < dot (nrm (kst (S i))) (nrm p)).
    { cbn [kst]. unfold p. destruct (snd (point (kst i) i)) eqn:M; [now left|]. right.
      destruct Hok as (_ & _ & H & _). rewrite M in H. destruct H as (_ & _ & H1 & H2). now split. }
    split; [exact NR|]. apply point_ok; try assumption; try (apply nrm_unit; try lia; apply kst_lt; lia).
    intros HR Hneg. destruct (has_next (S i) Hj) as [j I]. pose proof (has_prev (S i) Hj) as J. cbv beta iota in J.
    pose proof (Hneedle HR Hneg _ _ _ J I) as Nd. cbv zeta in Nd. fold (vtx i) (vtx (S i)) (vtx j) in Nd. rewrite <- (nrm_edge _ _ J), <- (nrm_edge _ _ I) in Nd.
    unfold p in NR. set (k := nrm (kst (S i))) in *. set (n := nrm (S i)) in *.
    pose proof (unit_cs k n (nrm_unit _ (kst_lt (S i) ltac:(lia))) (nrm_unit _ Hj)) as U.
    destruct (Req_dec (crs k n) 0) as [E|E]; [|now left]. right. rewrite E in U.
    destruct (Rlt_dec 0 (dot k n)) as [P|P]; [exact P|]. exfalso.
    assert (Dk : dot k n = -1). { assert (Z : (dot k n + 1) * (dot k n - 1) = 0) by lra. apply Rmult_integral in Z. destruct Z; lra. }
    pose proof (in_terms k n (nrm_unit _ (kst_lt (S i) ltac:(lia)))) as T. rewrite E, Dk in T.
    assert (Tn : fst n = - fst k /\ snd n = - snd k) by (rewrite T; unfold comb; cbn [fst snd]; split; ring). destruct Tn as [T1 T2].
    set (m := nrm i) in *. assert (C1 : crs m n = crs k m) by (unfold crs; rewrite T1, T2; ring). assert (D1 : dot m n = - dot k m) by (unfold dot; rewrite T1, T2; ring).
    rewrite C1, D1 in Nd. destruct NR as [NR|[N1 N2]]; [|lra].
    assert (k = m) by (unfold k, m; now rewrite NR). rewrite H in *. pose proof (nrm_unit i ltac:(lia)) as Um. fold m in Um. 
    replace (crs m m) with 0 in Nd by (unfold crs; ring). rewrite Rmult_0_l, Rabs_R0 in Nd. lra.
Qed.
Lemma strip_idx i j : In (i, j) (edges (seq 0 len)) ->
  strip_ok delta f (long (vtx i, vtx j)) (vtx i) (vtx j) (nrm i) (last (piece i) (0, 0)) (hd (0, 0) (piece j)) /\
  dist2 (last (piece i) (0, 0)) (real (vtx i)) <= (f * Rabs delta) * (f * Rabs delta) /\
  dist2 (hd (0, 0) (piece j)) (real (vtx j)) <= (f * Rabs delta) * (f * Rabs delta).
Proof.
  intro I. destruct (edges_seq _ _ _ I) as [Hi Hij]. assert (Hj : (j < len)%nat) by (destruct Hij as [[_ H]|[_ ->]]; lia).
  destruct (kst_near i Hi) as [_ (NEi & _ & Li & Ri & _)]. destruct (kst_near j Hj) as [_ (NEj & Hdj & _ & Rj & _)].
  fold (piece i) in *. fold (piece j) in *.
  destruct (normal_spec _ _ (apart_idx i j I)) as (L1 & U1 & W). rewrite <- (nrm_edge i j I) in U1, W.
  replace (f * Rabs delta * (f * Rabs delta)) with (reach2 jt lim * (delta * delta)) by (rewrite <- ff, <- dd; ring).
  assert (RX : dist2 (last (piece i) (0, 0)) (real (vtx i)) <= reach2 jt lim * (delta * delta)).
  { apply Ri. rewrite (app_removelast_last (0, 0) NEi) at 2. apply in_app_iff. right. now left. }
  assert (RY : dist2 (hd (0, 0) (piece j)) (real (vtx j)) <= reach2 jt lim * (delta * delta)).
  { apply Rj. destruct (piece j); [now destruct NEj|now left]. }
  split; [|split; assumption].
  destruct Hdj as (y & Hy & Ey). rewrite Ey in *.
  destruct (snd (point (kst i) i)) eqn:M.
  - destruct Li as (x & Hx & Ex). rewrite Ex in *.
    assert (Kj : nrm (kst j) = nrm i). { destruct Hij as [[-> _]|[-> ->]]; [cbn [kst]; rewrite M; reflexivity|reflexivity]. }
    rewrite Kj. apply strip_A; assumption.
  - destruct Li as (Ex & _ & H1 & H2). rewrite Ex in *.
    assert (Uu : dot (nrm (kst i)) (nrm (kst i)) = 1) by (apply nrm_unit, kst_lt; lia).
    destruct Hij as [[Ej _]|[Ei Ej]].
    + assert (Kj : nrm (kst j) = nrm (kst i)) by (rewrite Ej; cbn [kst]; rewrite M; reflexivity).
      rewrite Kj in *. apply strip_B; try assumption.
      rewrite ahead_dist in RY by exact Uu. rewrite <- ff, <- dd in RY. apply Rsqr_incr_0_var; [|apply Rmult_le_pos; [lra|apply Rabs_pos]]. unfold Rsqr.
      assert (0 <= delta * delta) by nra. replace (f * Rabs delta * (f * Rabs delta)) with (f * f * (Rabs delta * Rabs delta)) by ring. lra.
    + assert (Kj : nrm (kst j) = nrm i) by (rewrite Ej, Ei; reflexivity). rewrite Kj in *. now apply (strip_C delta f _ _ _ (nrm (kst i))).
Qed.

(** The outline in terms of strips and fans. *)
Lemma outline_sum q : around q (outline jt delta lim steps src) =
  (around q (map real src) + sum_over (fun j => sum_over (around q) (fan (real (vtx j)) (piece j))) (seq 0 len) +
   sum_over (fun e => around q [real (vtx (fst e)); last (piece (fst e)) O2; hd O2 (piece (snd e)); real (vtx (snd e))]) (edges (seq 0 len)))%Z.
Proof.
  pose proof (apart_sum q O2 (map (fun j => (real (vtx j), piece j)) (seq 0 len))) as A.
  rewrite edges_map, !sum_map, !map_map in A. cbn [fst snd] in A.
  rewrite outline_concat. change (map piece (seq 0 len)) with (map (fun x => piece x) (seq 0 len)). rewrite A.
  - f_equal. f_equal. f_equal. replace (map (fun x => real (vtx x)) (seq 0 len)) with (map real (map vtx (seq 0 len))) by apply map_map. f_equal. apply map_nth_seq.
  - apply Forall_forall. intros b I. apply in_map_iff in I. destruct I as (j & <- & I). apply in_seq in I. cbn [snd]. now apply (kst_near j ltac:(lia)).
Qed.
Lemma strip_sign q i j : In (i, j) (edges (seq 0 len)) -> (0 <= sgz delta * around q [real (vtx i); last (piece i) O2; hd O2 (piece j); real (vtx j)])%Z.
Proof.
  intro I. destruct (strip_idx i j I) as ((A & B & _) & _). rewrite split_quad. pose proof (tri_sign _ q _ _ _ A). pose proof (tri_sign _ q _ _ _ B). lia.
Qed.
Lemma fan_sign q j t : (j < len)%nat -> In t (fan (real (vtx j)) (piece j)) -> (0 <= sgz delta * around q t)%Z.
Proof.
  intros Hj I. destruct (kst_near j Hj) as [_ (_ & _ & _ & _ & F)]. destruct (F t I) as (a & b & -> & _ & _ & S). now apply tri_sign.
Qed.
Lemma sum_scale : forall (A : Type) k (g : A -> Z) l, (k * sum_over g l = sum_over (fun x => k * g x) l)%Z.
Proof. intros A k g l. induction l as [|x l IH]; [unfold sum_over; cbn; lia|]. rewrite !sum_cons, <- IH. lia. Qed.

Lemma loop_grows q : (0 <= sgz delta * (around q (outline jt delta lim steps src) - around q (map real src)))%Z.
Proof.
  rewrite outline_sum. match goal with |- (0 <= _ * (?a + ?b + ?c - ?a))%Z => replace (a + b + c - a)%Z with (b + c)%Z by lia end.
  rewrite Z.mul_add_distr_l, !sum_scale.
  assert (0 <= sum_over (fun x => sgz delta * sum_over (around q) (fan (real (vtx x)) (piece x))) (seq 0 len))%Z.
  { apply sum_nonneg. intros j I. apply in_seq in I. rewrite sum_scale. apply sum_nonneg. intros t T. apply (fan_sign q j t); [lia|exact T]. }
  assert (0 <= sum_over (fun x => sgz delta * around q [real (vtx (fst x)); last (piece (fst x)) O2; hd O2 (piece (snd x)); real (vtx (snd x))]) (edges (seq 0 len)))%Z.
  { apply sum_nonneg. intros [i j] I. now apply strip_sign. }
  lia.
Qed.
Lemma loop_beside q e : In e (edges src) -> next_to (f + 1) delta q e -> (1 <= sgz delta * (around q (outline jt delta lim steps src) - around q (map real src)))%Z.
Proof.
  intros I Nx. destruct e as [a b]. destruct (idx_edge a b I) as (i & j & J & <- & <-).
  destruct (next_to_spec _ _ _ _ _ (apart_idx i j J) Nx) as (x & z & Hx & Hz & Eq). rewrite <- (nrm_edge i j J) in Eq.
  destruct (strip_idx i j J) as ((_ & _ & S) & _). destruct (S q x z Hx Hz Eq) as (S1 & S2 & S3 & S4).
  pose proof (quad_sign delta q _ _ _ _ S1 S2 S3 S4) as Q.
  rewrite outline_sum. match goal with |- (1 <= _ * (?a + ?b + ?c - ?a))%Z => replace (a + b + c - a)%Z with (b + c)%Z by lia end.
  rewrite Z.mul_add_distr_l, !sum_scale.
  assert (0 <= sum_over (fun x => sgz delta * sum_over (around q) (fan (real (vtx x)) (piece x))) (seq 0 len))%Z.
  { apply sum_nonneg. intros k K. apply in_seq in K. rewrite sum_scale. apply sum_nonneg. intros t T. apply (fan_sign q k t); [lia|exact T]. }
  pose proof (sum_one _ (fun x => sgz delta * around q [real (vtx (fst x)); last (piece (fst x)) O2; hd O2 (piece (snd x)); real (vtx (snd x))])%Z (edges (seq 0 len)) (i, j) J) as O.
  cbn [fst snd] in O. assert (forall e, In e (edges (seq 0 len)) -> 0 <= sgz delta * around q [real (vtx (fst e)); last (piece (fst e)) O2; hd O2 (piece (snd e)); real (vtx (snd e))])%Z.
  { intros [k l] K. now apply strip_sign. }
  specialize (O H0). assert (G : forall a b c, (1 <= a -> a <= b -> 0 <= c -> 1 <= c + b)%Z) by (intros; lia). exact (G _ _ _ Q O H).
Qed.
Lemma loop_near q : around q (outline jt delta lim steps src) <> around q (map real src) -> exists e, In e (edges src) /\ close_to (f * Rabs delta) q e.
Proof.
  intro N. rewrite outline_sum in N. assert (P : 0 <= f * Rabs delta) by (apply Rmult_le_pos; [lra|apply Rabs_pos]).
  destruct (Z.eq_dec (sum_over (fun j => sum_over (around q) (fan (real (vtx j)) (piece j))) (seq 0 len)) 0) as [E|E].
  - rewrite E in N. destruct (sum_some _ (fun e => around q [real (vtx (fst e)); last (piece (fst e)) O2; hd O2 (piece (snd e)); real (vtx (snd e))]) (edges (seq 0 len))) as ([i j] & I & H); [lia|].
    cbn [fst snd] in H. exists (vtx i, vtx j). split; [now apply edge_idx|]. destruct (strip_idx i j I) as ((A & B & _) & RX & RY).
    rewrite split_quad in H. apply (close_strip _ _ _ (last (piece i) O2) (hd O2 (piece j))); try assumption.
    destruct (Z.eq_dec (around q [real (vtx i); last (piece i) O2; real (vtx j)]) 0) as [K|K]; [right|left].
    + apply (tri_in delta); [exact B|lia].
    + now apply (tri_in delta).
  - apply sum_some in E. destruct E as (j & I & H). apply in_seq in I. apply sum_some in H. destruct H as (t & T & H).
    destruct (has_next j ltac:(lia)) as [k K]. exists (vtx j, vtx k). split; [now apply edge_idx|].
    destruct (kst_near j ltac:(lia)) as [_ (_ & _ & _ & Rj & F)]. destruct (F t T) as (a & b & -> & Ia & Ib & S).
    assert (EQ : f * Rabs delta * (f * Rabs delta) = reach2 jt lim * (delta * delta)) by (rewrite <- ff, <- dd; ring).
    apply (close_fan _ _ _ a b); [rewrite EQ; now apply Rj|rewrite EQ; now apply Rj|]. now apply (tri_in delta).
Qed.
End Loop.
