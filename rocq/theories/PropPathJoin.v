(** The sections of a Path join up (C73) and its polygons are small enough (C74). *)

From Coq Require Import Reals Lra Lia List ZArith Bool.
From Verif Require Import Plane PlaneProofs SpecPlane Curve Flex Path SpecPath PropPath.
Import ListNotations.
Open Scope R_scope.

Lemma lateral_spec : forall n d i, lateral n d i = place n i d.
Proof. intros. unfold lateral, place. lra. Qed.
Lemma lateral_reversed : forall n d i, (i < n)%nat -> lateral n d (reversed n i) = - lateral n d i.
Proof.
  intros n d i L. unfold lateral, reversed. rewrite !minus_INR by lia. cbn [INR]. lra.
Qed.
Lemma linspace_nth : forall a b n k, (k < n)%nat -> nth k (linspace a b n) 0 = a + INR k * ((b - a) / INR (n - 1)).
Proof. intros a b n k L. unfold linspace. rewrite (nth_map_lt _ _ _ 0%nat) by (rewrite seq_length; exact L). now rewrite seq_nth. Qed.
Lemma linspace_length : forall a b n, length (linspace a b n) = n.
Proof. intros. unfold linspace. now rewrite map_length, seq_length. Qed.
Lemma linspace_first : forall a b n, (1 <= n)%nat -> nth 0 (linspace a b n) 0 = a.
Proof. intros. rewrite linspace_nth by lia. cbn. ring. Qed.
Lemma linspace_last : forall a b n, (2 <= n)%nat -> nth (n - 1) (linspace a b n) 0 = b.
Proof. intros. rewrite linspace_nth by lia. field. apply not_0_INR. lia. Qed.
Lemma hd_nth : forall {X} (l : list X) d, hd d l = nth 0 l d.
Proof. intros X [|x l] d; reflexivity. Qed.
Lemma last_nth : forall {X} (l : list X) d, last l d = nth (length l - 1) l d.
Proof.
  induction l as [|x l IH]; intros d; [reflexivity|]. destruct l as [|y l]; [reflexivity|].
  change (last (x :: y :: l) d) with (last (y :: l) d). rewrite IH. cbn [length]. now rewrite !Nat.sub_succ, !Nat.sub_0_r.
Qed.

(** ** Straight sections *)

Lemma seg_joins : forall h p q w0 w1 d0 d1, w0 <> 0 -> w1 <> 0 ->
  let right := rightward (toward h) in
  joins (padd p (smul (d0 - w0) right), padd p (smul (d0 + w0) right)) (padd q (smul (d1 - w1) right), padd q (smul (d1 + w1) right))
    (seg_poly (cos_of h) (sin_of h) p q w0 w1 d0 d1).
Proof.
  intros h p q w0 w1 d0 d1 N0 N1 right. unfold seg_poly. destruct (Req_EM_T w1 0) as [X|_]; [contradiction|].
  destruct (Req_EM_T w0 0) as [X|_]; [contradiction|].
  assert (F : forall (z : pt) k, (fst z + k * sin_of h, snd z - k * cos_of h) = padd z (smul k right)).
  { intros z k. unfold right. rewrite toward_cs. unfold padd, smul, rightward. cbn [fst snd]. f_equal; ring. }
  rewrite !F. exists [padd p (smul (d0 - w0) right); padd q (smul (d1 - w1) right)], [padd p (smul (d0 + w0) right); padd q (smul (d1 + w1) right)].
  repeat split; try discriminate. exists [padd p (smul (d0 - w0) right)]. eexists. split; [reflexivity|]. right. reflexivity.
Qed.
(** A straight section: from the end of the path, turned to the direction of the
    section, to its new end. *)
Theorem C73_segment : forall fuel g s s', do_pcall fuel (leg_call g) s = Some s' -> p_w s <> 0 -> p_w s' <> 0 ->
  exists ps, p_polys s' = p_polys s ++ ps /\ continues in_order (with_dir s (p_dir s')) s' ps.
Proof.
  intros fuel g s s' E N0 N1. change (do_pcall fuel (leg_call g) s) with (do_pcall 0 (leg_call g) s) in E.
  destruct (segment_facts g s s' E) as [D [W [X [N [A [_ F]]]]]]. destruct (F (visible_left _ _ N0)) as [_ P]. eexists. split; [exact P|].
  rewrite <- D. intros i I. cbn [with_dir p_n] in *.
  exists 1%nat, (fun j => match j with O => mouth (with_dir s (p_dir s')) i | _ => mouth s' i end).
  rewrite map_length, seq_length. repeat split; [lia|]. intros j J. replace j with 0%nat by lia. cbn [Nat.mul Nat.add in_order].
  rewrite (nth_map_lt _ _ i 0%nat) by (rewrite seq_length; exact I). rewrite seq_nth by exact I. cbn [Nat.add].
  unfold mouth. cbn [with_dir p_dir p_n p_dist p_at p_w]. rewrite N. rewrite <- !lateral_spec. now apply seg_joins.
Qed.

(** ** Arcs *)

Lemma polar_nth : forall c a r k, (k < length a)%nat -> (k < length r)%nat ->
  nth k (map (polar c) (combine a r)) (0, 0) = polar c (nth k a 0, nth k r 0).
Proof.
  intros c a r k A B. rewrite (nth_map_lt _ _ k (0, 0)) by (rewrite combine_length; lia). f_equal.
  revert r k A B. induction a as [|x a IH]; intros r k A B; [cbn in A; lia|]. destruct r as [|y r]; [cbn in B; lia|].
  destruct k as [|k]; [reflexivity|]. cbn. apply IH; cbn in A, B; lia.
Qed.
Lemma arc_side : forall c a0 a1 r0 r1 k, (2 <= k)%nat ->
  from_to (map (polar c) (combine (linspace a0 a1 k) (linspace r0 r1 k))) (polar c (a0, r0)) (polar c (a1, r1)).
Proof.
  intros c a0 a1 r0 r1 k K. assert (L : length (map (polar c) (combine (linspace a0 a1 k) (linspace r0 r1 k))) = k).
  { rewrite map_length, combine_length, !linspace_length. lia. }
  split; [|split].
  - intro Z. rewrite Z in L. cbn in L. lia.
  - rewrite hd_nth, polar_nth by (rewrite linspace_length; lia). now rewrite !linspace_first by lia.
  - rewrite last_nth, L, polar_nth by (rewrite linspace_length; lia). now rewrite !linspace_last by lia.
Qed.
Lemma from_to_rev : forall l a b, from_to l a b -> from_to (rev l) b a.
Proof.
  intros l a b [N [H L]]. split; [|split].
  - intro Z. apply N. rewrite <- (rev_involutive l), Z. reflexivity.
  - rewrite <- L. destruct l as [|x l] using rev_ind; [now elim N|]. rewrite rev_app_distr, last_last. reflexivity.
  - rewrite <- H. destruct l as [|x l]; [now elim N|]. cbn [rev hd]. apply last_last.
Qed.
Lemma arc_poly_joins : forall c np a0 a1 r0 r1 w0 w1 p, (4 <= np)%nat -> w0 <> 0 -> w1 <> 0 ->
  arc_poly c np a0 a1 r0 r1 w0 w1 = Some p ->
  joins (polar c (a0, r0 - w0), polar c (a0, r0 + w0)) (polar c (a1, r1 - w1), polar c (a1, r1 + w1)) p /\
  joins (polar c (a0, r0 + w0), polar c (a0, r0 - w0)) (polar c (a1, r1 + w1), polar c (a1, r1 - w1)) p.
Proof.
  intros c np a0 a1 r0 r1 w0 w1 p L N0 N1 H. unfold arc_poly in H.
  destruct (Req_EM_T w1 0) as [X|_]; [contradiction|]. destruct (Req_EM_T w0 0) as [X|_]; [contradiction|].
  destruct (_ =? 0)%nat; [discriminate|]. injection H as <-. rewrite !Nat.add_0_r.
  assert (H2 : (2 <= np / 2)%nat) by (apply Nat.div_le_lower_bound; lia).
  assert (H1 : (2 <= np - np / 2)%nat) by (pose proof (Nat.div_le_upper_bound np 2 (np - 2)); lia).
  pose proof (arc_side c a0 a1 (r0 + w0) (r1 + w1) _ H1) as S1. pose proof (arc_side c a1 a0 (r1 - w1) (r0 - w0) _ H2) as S2.
  pose proof (from_to_rev _ _ _ S2) as S3.
  split; [exists (rev (map (polar c) (combine (linspace a1 a0 (np / 2)) (linspace (r1 - w1) (r0 - w0) (np / 2))))),
           (map (polar c) (combine (linspace a0 a1 (np - np / 2)) (linspace (r0 + w0) (r1 + w1) (np - np / 2))))
         |exists (map (polar c) (combine (linspace a0 a1 (np - np / 2)) (linspace (r0 + w0) (r1 + w1) (np - np / 2)))),
           (rev (map (polar c) (combine (linspace a1 a0 (np / 2)) (linspace (r1 - w1) (r0 - w0) (np / 2)))))];
    (split; [assumption|]; split; [assumption|]; exists [], (map (polar c) (combine (linspace a0 a1 (np - np / 2)) (linspace (r0 + w0) (r1 + w1) (np - np / 2))) ++
      map (polar c) (combine (linspace a1 a0 (np / 2)) (linspace (r1 - w1) (r0 - w0) (np / 2)))); split; [reflexivity|]; rewrite app_nil_r, rev_involutive).
  - now right.
  - now left.
Qed.
Lemma nth_concat : forall {X} (gs : list (list X)) n j i d, (forall g, In g gs -> length g = n) -> (i < n)%nat ->
  (j < length gs)%nat -> nth (j * n + i) (concat gs) d = nth i (nth j gs []) d.
Proof.
  intros X gs n. induction gs as [|g gs IH]; intros j i d H I J; [cbn in J; lia|]. cbn [concat].
  assert (G : length g = n) by (apply H; left; reflexivity). destruct j as [|j].
  - cbn [Nat.mul Nat.add nth]. now rewrite app_nth1 by lia.
  - rewrite app_nth2 by (cbn; lia). replace (S j * n + i - length g)%nat with (j * n + i)%nat by (cbn; lia). cbn [nth].
    apply IH; [intros x Hx; apply H; now right|exact I|cbn in J; lia].
Qed.
(** The polygons of an arc. *)
Lemma arc_points_used : forall r a0 a1 tol npo mx fw fd la dt s s', p_arc r a0 a1 tol npo mx fw fd la dt s = Some s' ->
  exists np, points_used r a0 a1 tol npo s s' = Some np.
Proof.
  intros r a0 a1 tol npo mx fw fd la dt s s' H. destruct (arc_facts _ _ _ _ _ _ _ _ _ _ _ _ H) as [_ [_ [Ew [Ed [En _]]]]].
  unfold p_arc in H. rewrite <- Ew, <- Ed in H. fold (points_used r a0 a1 tol npo s s') in H.
  destruct (points_used r a0 a1 tol npo s s') as [np|]; [now exists np|discriminate].
Qed.
Lemma arc_groups : forall r a0 a1 tol npo np mx fw fd la dt s s', p_arc r a0 a1 tol npo mx fw fd la dt s = Some s' ->
  visible (p_w s) (p_w s') = true -> points_used r a0 a1 tol npo s s' = Some np ->
  let m := piece_count np mx in
  let c := psub (p_at s) (smul r (cos a0, sin a0)) in
  let th j := a0 + INR j * ((a1 - a0) / INR m) in
  let W j := p_w s + INR j * ((p_w s' - p_w s) / INR m) in
  let D j := p_dist s + INR j * ((p_dist s' - p_dist s) / INR m) in
  (0 < m)%nat /\ exists ps, p_polys s' = p_polys s ++ ps /\ length ps = (m * p_n s)%nat /\
  forall i j, (i < p_n s)%nat -> (j < m)%nat ->
    arc_poly c (np / m) (th j) (th (j + 1)%nat) (r + lateral (p_n s) (D j) i) (r + lateral (p_n s) (D (j + 1)%nat) i) (W j) (W (j + 1)%nat)
      = Some (nth (j * p_n s + i) ps []).
Proof.
  intros r a0 a1 tol npo np mx fw fd la dt s s' H N PU. cbn zeta. destruct (arc_facts _ _ _ _ _ _ _ _ _ _ _ _ H) as [_ [_ [Ew [Ed [En _]]]]].
  unfold p_arc in H. rewrite <- Ew, <- Ed in H. fold (points_used r a0 a1 tol npo s s') in H. rewrite PU in H.
  destruct (piece_count np mx =? 0)%nat eqn:Z; [discriminate|]. apply Nat.eqb_neq in Z.
  split; [lia|]. rewrite N in H.
  match type of H with match ?x with _ => _ end = _ => destruct x as [gs|] eqn:E; [|discriminate] end.
  destruct (tag_list (p_n s) la) as [las|] eqn:E1; [|discriminate]. destruct (tag_list (p_n s) dt) as [dts|] eqn:E2; [|discriminate].
  assert (P : p_polys s' = p_polys s ++ concat gs) by (injection H as <-; reflexivity). clear H.
  exists (concat gs). split; [exact P|].
  assert (G : forall g, In g gs -> length g = p_n s).
  { intros x I. pose proof (all_some_in _ _ E _ I) as J. apply in_map_iff in J. destruct J as [j [J _]]. unfold arc_piece in J.
    apply all_some_length in J. now rewrite map_length, seq_length in J. }
  pose proof (all_some_length _ _ E) as L. rewrite map_length, seq_length in L. split; [now rewrite (concat_lengths _ (p_n s)), L|].
  intros i j I J. rewrite (nth_concat gs (p_n s)) by (try assumption; now rewrite L).
  pose proof (all_some_nth _ _ j [] E) as Nj. rewrite map_length, seq_length in Nj. specialize (Nj J).
  rewrite (nth_map_lt _ _ j 0%nat) in Nj by (now rewrite seq_length). rewrite seq_nth in Nj by exact J. cbn [Nat.add] in Nj.
  unfold arc_piece in Nj. pose proof (all_some_nth _ _ i [] Nj) as Ni. rewrite map_length, seq_length in Ni. specialize (Ni I).
  rewrite (nth_map_lt _ _ i 0%nat) in Ni by (now rewrite seq_length). rewrite seq_nth in Ni by exact I. cbn [Nat.add] in Ni.
  etransitivity; [|exact Ni]. unfold at_. rewrite !linspace_nth by lia. replace (piece_count np mx + 1 - 1)%nat with (piece_count np mx) by lia. reflexivity.
Qed.
Lemma between : forall w0 w1 m j, 0 < w0 -> 0 < w1 -> (0 < m)%nat -> (j <= m)%nat -> 0 < w0 + INR j * ((w1 - w0) / INR m).
Proof.
  intros w0 w1 m j A B M J. assert (P : 0 < INR m) by (apply lt_0_INR; lia). assert (Q : 0 <= INR j <= INR m) by (split; [apply pos_INR|apply le_INR; lia]).
  replace (w0 + INR j * ((w1 - w0) / INR m)) with ((w0 * (INR m - INR j) + w1 * INR j) / INR m) by (field; lra).
  apply Rdiv_lt_0_compat; [|exact P]. destruct (Req_dec (INR j) 0) as [Zj|Zj]; [rewrite Zj; nra|nra].
Qed.
Lemma polar_pt : forall c a r, polar c (a, r) = padd c (smul r (cos a, sin a)).
Proof. intros. unfold polar, padd, smul. cbn [fst snd]. f_equal; ring. Qed.

(** An arc seen from a path that arrives in its initial direction: counterclockwise
    the paths keep their order, clockwise they come in the reverse order. *)
Theorem C73_arc : forall radius a0 a1 tol npo np mx fw fd la dt s s', p_arc radius a0 a1 tol npo mx fw fd la dt s = Some s' ->
  points_used radius a0 a1 tol npo s s' = Some np -> enough_points np mx -> 0 < p_w s -> 0 < p_w s' -> a0 <> a1 ->
  exists ps, p_polys s' = p_polys s ++ ps /\
    continues (if Rlt_dec a0 a1 then in_order else reversed (p_n s))
      (with_dir s (Toward (if Rlt_dec a0 a1 then a0 + PI / 2 else a0 - PI / 2))) s' ps.
Proof.
  intros radius a0 a1 tol npo np mx fw fd la dt s s' H PU EP W0 W1 NA. unfold enough_points in EP.
  destruct (arc_groups _ _ _ _ _ np _ _ _ _ _ _ _ H) as [M [ps [P [L G]]]]; [apply visible_left; lra|exact PU|].
  destruct (arc_facts _ _ _ _ _ _ _ _ _ _ _ _ H) as [At [Dr [_ [_ [N _]]]]].
  exists ps. split; [exact P|]. intros i I. cbn [with_dir p_n] in I.
  set (m := piece_count np mx) in *. set (c := psub (p_at s) (smul radius (cos a0, sin a0))) in *.
  set (th := fun j => a0 + INR j * ((a1 - a0) / INR m)) in *.
  set (W := fun j => p_w s + INR j * ((p_w s' - p_w s) / INR m)) in *.
  set (D := fun j => p_dist s + INR j * ((p_dist s' - p_dist s) / INR m)) in *. cbn [with_dir p_n].
  assert (PM : 0 < INR m) by (apply lt_0_INR; exact M).
  assert (T0 : th 0%nat = a0) by (unfold th; cbn [INR]; ring). assert (Tm : th m = a1) by (unfold th; field; lra).
  assert (V0 : W 0%nat = p_w s) by (unfold W; cbn [INR]; ring). assert (Vm : W m = p_w s') by (unfold W; field; lra).
  assert (X0 : D 0%nat = p_dist s) by (unfold D; cbn [INR]; ring). assert (Xm : D m = p_dist s') by (unfold D; field; lra).
  assert (WP : forall j, (j <= m)%nat -> W j <> 0) by (intros j J; apply Rgt_not_eq; unfold W; now apply between).
  assert (G' : forall i j, (i < p_n s)%nat -> (j < m)%nat ->
    arc_poly c (np / m) (th j) (th (j + 1)%nat) (radius + lateral (p_n s) (D j) i) (radius + lateral (p_n s) (D (j + 1)%nat) i) (W j) (W (j + 1)%nat)
      = Some (nth (j * p_n s + i) ps [])) by exact G.
  clear G. rename G' into G. exists m. clearbody th W D. cbn [with_dir p_n]. unfold mouth. cbn [with_dir p_dir p_n p_dist p_w p_at]. rewrite Dr, N, At. rewrite <- !lateral_spec.
  assert (C0 : p_at s = padd c (smul radius (cos a0, sin a0))) by (unfold c, padd, psub, smul; destruct (p_at s); cbn [fst snd]; f_equal; ring).
  destruct (Rlt_dec a0 a1) as [LT|GE].
  - exists (fun j => (polar c (th j, radius + lateral (p_n s) (D j) i - W j), polar c (th j, radius + lateral (p_n s) (D j) i + W j))).
    split; [exact L|]. rewrite T0, Tm, V0, Vm, X0, Xm. cbn [toward]. split; [|split].
    + rewrite !polar_pt, C0. unfold rightward. cbn [fst snd]. rewrite cos_plus, sin_plus, cos_PI2, sin_PI2. unfold padd, smul. cbn [fst snd].
      f_equal; f_equal; ring.
    + rewrite !polar_pt. unfold rightward. cbn [fst snd]. replace (PI * / 2) with (PI / 2) by reflexivity. rewrite cos_plus, sin_plus, cos_PI2, sin_PI2.
      unfold padd, smul. cbn [fst snd]. f_equal; f_equal; ring.
    + intros j J. unfold in_order. specialize (G i j I J). replace (j + 1)%nat with (S j) in G by lia.
      apply (arc_poly_joins c (np / m) _ _ _ _ _ _ _ EP) in G; [|apply WP; lia|apply WP; lia]. exact (proj1 G).
  - exists (fun j => (polar c (th j, radius - lateral (p_n s) (D j) i + W j), polar c (th j, radius - lateral (p_n s) (D j) i - W j))).
    split; [exact L|]. rewrite T0, Tm, V0, Vm, X0, Xm. cbn [toward]. split; [|split].
    + rewrite !polar_pt, C0. unfold rightward. cbn [fst snd]. rewrite cos_minus, sin_minus, cos_PI2, sin_PI2. unfold padd, smul. cbn [fst snd].
      f_equal; f_equal; ring.
    + rewrite !polar_pt. unfold rightward. cbn [fst snd]. replace (PI * / 2) with (PI / 2) by reflexivity. rewrite cos_minus, sin_minus, cos_PI2, sin_PI2.
      unfold padd, smul. cbn [fst snd]. f_equal; f_equal; ring.
    + intros j J. assert (R' : (reversed (p_n s) i < p_n s)%nat) by (unfold reversed; lia). specialize (G _ j R' J). replace (j + 1)%nat with (S j) in G by lia.
      rewrite !lateral_reversed in G by exact I.
      apply (arc_poly_joins c (np / m) _ _ _ _ _ _ _ EP) in G; [|apply WP; lia|apply WP; lia]. exact (proj2 G).
Qed.
Lemma mouth_dir : forall s h i, toward h = toward (p_dir s) -> mouth (with_dir s h) i = mouth s i.
Proof. intros s h i E. unfold mouth. cbn [with_dir p_dir p_n p_dist p_w p_at]. now rewrite E. Qed.
Lemma continues_dir : forall o s h h' s' ps, toward h = toward (p_dir s) -> toward h' = toward (p_dir s') ->
  continues o (with_dir s h) (with_dir s' h') ps -> continues o s s' ps.
Proof.
  intros o s h h' s' ps E E' C i I. destruct (C i I) as [m [F [L [A [B J]]]]]. exists m, F. rewrite mouth_dir in A, B by assumption. now repeat split.
Qed.
(** A turn goes on from the end of the path: left turns keep the order of the
    parallel paths, right turns reverse it. *)
Theorem C73_turn : forall radius t tol npo np mx fw fd la dt s s', p_turn radius t tol npo mx fw fd la dt s = Some s' ->
  points_used radius 0 (turn_by t) tol npo s s' = Some np -> enough_points np mx -> 0 < p_w s -> 0 < p_w s' -> (forall a, t = By a -> a <> 0) ->
  exists ps, p_polys s' = p_polys s ++ ps /\
    continues (if Rlt_dec (turn_by t) 0 then reversed (p_n s) else in_order) s s' ps.
Proof.
  intros radius t tol npo np mx fw fd la dt s s' H PU EP W0 W1 N. destruct (C45_turn _ _ _ _ _ _ _ _ _ _ _ H N) as [T _].
  unfold p_turn in H. pose proof (deltas_spec t N) as D. destruct (deltas t) as [[di df] ex]. destruct D as [D1 [D2 D3]].
  destruct (p_arc _ _ _ _ _ _ _ _ _ _ _) as [q|] eqn:E; [|discriminate].
  assert (NZ : turn_by t <> 0) by (pose proof PI_RGT_0; destruct t; cbn [turn_by]; try lra; now apply N).
  assert (WQ : p_w q = p_w s') by (injection H as <-; now destruct (ex && named (p_dir s))%bool).
  assert (PQ : p_polys q = p_polys s') by (injection H as <-; now destruct (ex && named (p_dir s))%bool).
  assert (QS : s' = with_dir q (p_dir s')) by (injection H as <-; destruct (ex && named (p_dir s))%bool; [reflexivity|now destruct q]).
  set (a := turn_angle (p_dir s)) in *.
  assert (PU' : points_used radius (a + di) (a + df) tol npo (with_dir s (Toward a)) q = Some np).
  { rewrite <- PU. unfold points_used. destruct npo; [reflexivity|]. cbn [with_dir p_dist p_n p_w]. rewrite WQ.
    replace (p_dist q) with (p_dist s') by (rewrite QS; reflexivity). unfold auto_points.
    replace (a + df - (a + di)) with (turn_by t - 0) by lra. reflexivity. }
  destruct (C73_arc _ _ _ _ _ _ _ _ _ _ _ _ _ E PU' EP) as [ps [P C]]; [exact W0|now rewrite WQ|lra|].
  exists ps. rewrite <- PQ. split; [exact P|].
  assert (TD : toward (p_dir q) = toward (p_dir s')).
  { rewrite T. destruct (arc_facts _ _ _ _ _ _ _ _ _ _ _ _ E) as [_ [Dr _]]. rewrite Dr, (toward_angle (p_dir s)). fold a. unfold spin. cbn [toward fst snd].
    assert (DA : (if Rlt_dec (a + di) (a + df) then a + df + PI * / 2 else a + df - PI * / 2) = a + turn_by t)
      by (destruct (Rlt_dec (turn_by t) 0); destruct (Rlt_dec (a + di) (a + df)); lra).
    rewrite DA, cos_plus, sin_plus. f_equal; ring. }
  cbn [with_dir p_n] in C.
  assert (O : (if Rlt_dec (a + di) (a + df) then in_order else reversed (p_n s)) = (if Rlt_dec (turn_by t) 0 then reversed (p_n s) else in_order)).
  { destruct (Rlt_dec (a + di) (a + df)); destruct (Rlt_dec (turn_by t) 0); try reflexivity; exfalso; lra. }
  rewrite O in C. eapply (continues_dir _ s (Toward a) (p_dir q)); [symmetry; apply toward_angle|exact TD|].
  replace (with_dir s' (p_dir q)) with q by (rewrite QS; now destruct q).
  assert (DA : (if Rlt_dec (a + di) (a + df) then a + di + PI / 2 else a + di - PI / 2) = a)
    by (destruct (Rlt_dec (turn_by t) 0); destruct (Rlt_dec (a + di) (a + df)); lra).
  rewrite DA in C. exact C.
Qed.
(** The number of points from the tolerance is enough, unless [max_points] is very small. *)
Theorem C73_enough : forall radius a0 a1 tol np mx s s', points_used radius a0 a1 tol None s s' = Some np -> mx = 0%nat \/ (6 <= mx)%nat ->
  enough_points np mx.
Proof.
  intros radius a0 a1 tol np mx s s' H M. unfold points_used, auto_points in H. destruct (Req_EM_T _ 0); [discriminate|].
  destruct (Rle_dec _ _); [|discriminate]. destruct (Rlt_dec _ _); [|discriminate].
  apply (f_equal (fun o => match o with Some z => z | None => 0%nat end)) in H. cbv beta iota in H.
  match type of H with Nat.max 6 (2 + 2 * ?x) = _ => generalize dependent x end. intros x H.
  assert (EV : exists y, np = (2 * y)%nat /\ (3 <= y)%nat).
  { destruct (Nat.le_gt_cases (2 + 2 * x) 6) as [A|A]; [exists 3%nat|exists (1 + x)%nat]; lia. }
  clear H x. destruct EV as [y [-> Y]]. unfold enough_points, piece_count. destruct M as [->|M]; [rewrite Nat.div_1_r; lia|].
  destruct mx as [|mx']; [lia|]. set (mx := S mx') in *. set (p := ((2 * y + (mx - 1)) / mx)%nat).
  assert (P1 : (p * mx <= 2 * y + (mx - 1))%nat) by (rewrite Nat.mul_comm; apply Nat.mul_div_le; lia).
  assert (P2 : (1 <= p)%nat) by (apply Nat.div_le_lower_bound; lia).
  apply Nat.div_le_lower_bound; [lia|]. assert (p = 1 \/ p = 2 \/ 3 <= p)%nat as [E|[E|E]] by lia; nia.
Qed.
Print Assumptions C73_enough.
Print Assumptions C73_segment.
Print Assumptions C73_arc.
Print Assumptions C73_turn.
