(** C76, C78: Bézier sections and smooth sections of Path. *)

From Coq Require Import Reals Lra Lia List Arith ZArith Bool.
From Verif Require Import Plane PlaneProofs Curve SpecCurve CurveProofs PropCurve Flex SpecFlex PropFlexEnds
  Path SpecPath PropPath PropPathJoin PropPathCurve PropPathMore SpecRobust SpecSpine PropRobustSpine PropRobustSmooth SpecRound SpecSmooth Smooth Gauss PropSmooth PropSmoothAhead PropSmoothMore
  SpecPathMove PropPathMove SpecPathSmooth.
Import ListNotations.
Open Scope R_scope.

(** ** Bézier sections *)

(** [drawn_along] depends only on the values of the curve *)
Lemma flat_ext : forall f f' tol u v, (forall x, f x = f' x) -> flat f tol u v -> flat f' tol u v.
Proof. intros f f' tol u v E. unfold flat. now rewrite !E. Qed.
Lemma links_impl : forall {X} (r r' : X -> X -> Prop) l a, (forall x y, r x y -> r' x y) -> links r a l -> links r' a l.
Proof. intros X r r' l. induction l as [|b l IH]; intros a H L; [exact L|]. destruct L as [A B]. split; [now apply H|]. now apply IH. Qed.
Lemma flank_ext : forall f f' g k u, (forall x, f x = f' x) -> flank f g k u = flank f' g k u.
Proof. intros f f' g k u E. unfold flank. now rewrite E. Qed.
Lemma drawn_ext : forall f f' fw fd tol ev s s' ps, (forall u, f u = f' u) -> drawn_along f fw fd tol ev s s' ps -> drawn_along f' fw fd tol ev s s' ps.
Proof.
  intros f f' fw fd tol ev s s' ps E (us & g & V & L1 & L2 & L3 & VS & NZ & A & W & D & T & cs & O & LP & P).
  exists us, g. split; [intro u; eapply velocity_ext; [exact E|apply V]|].
  split; [exact L1|]. split; [exact L2|]. split; [eapply links_impl; [|exact L3]; intros x y; now apply flat_ext|]. split; [exact VS|]. split; [exact NZ|].
  split; [now rewrite <- E|]. split; [exact W|]. split; [exact D|]. split; [exact T|]. exists cs. split; [exact O|]. split; [exact LP|].
  intros i j I J. rewrite (P i j I J). f_equal; [|f_equal]; apply map_ext; intro u; now apply flank_ext.
Qed.
Lemma flat_shift : forall f p tol u v, flat f tol u v -> flat (fun u => padd (f u) p) tol u v.
Proof.
  intros f p tol u v. unfold flat, dist2, dot, psub, smul, padd. cbn [fst snd]. intro H.
  match goal with |- ?x <= _ => match type of H with ?y <= _ => replace x with y; [exact H|] end end. field.
Qed.
Lemma pairwise_length : forall {X Y} (f : X -> X -> Y) l, length (pairwise f l) = (length l - 1)%nat.
Proof. intros X Y f l. induction l as [|x [|y l] IH]; try reflexivity. cbn [pairwise length] in *. rewrite IH. lia. Qed.
Lemma velocity_shift : forall f p u v, velocity f u v -> velocity (fun u => padd (f u) p) u v.
Proof.
  intros f p u v [A B]. unfold padd. split; cbn [fst snd].
  - rewrite <- (Rplus_0_r (fst v)). apply (derivable_pt_lim_plus (fun x => fst (f x)) (fun _ => fst p)); [exact A|apply derivable_pt_lim_const].
  - rewrite <- (Rplus_0_r (snd v)). apply (derivable_pt_lim_plus (fun x => snd (f x)) (fun _ => snd p)); [exact B|apply derivable_pt_lim_const].
Qed.
(** A Bézier section is drawn along the Bézier curve of the end of the path and the
    control points. *)
Theorem C76_bezier : forall fuel ctrl tol ev mx fw fd rel la dt s s', p_bezier fuel ctrl tol ev mx fw fd rel la dt s = Some s' ->
  let all := p_at s :: map (p_place rel s) ctrl in
  p_n s' = p_n s /\ section_along (fun u => (bernstein (map fst all) u, bernstein (map snd all) u)) fw fd tol ev s s'.
Proof.
  intros fuel ctrl tol ev mx fw fd rel la dt s s' H all.
  assert (N : p_n s' = p_n s) by apply (C34_path_call fuel (PBezier ctrl tol ev mx fw fd rel la dt) _ _ H).
  split; [exact N|]. intros WN. unfold p_bezier in H. destruct ctrl as [|c l]; [discriminate|].
  destruct (C76_parametric _ _ _ _ _ _ _ _ _ _ _ _ _ H WN) as (us & h & P). cbv zeta in P.
  set (pts := (if rel then (0, 0) else p_at s) :: c :: l) in *.
  destruct P as (_ & L1 & L2 & L3 & VS & NZ & A & W & D & _ & T & cs & ps & O & E & LP & P).
  exists ps. split; [exact E|]. apply (drawn_ext (fun u => p_place rel s (bezier pts u))).
  { intros u. assert (AE : all = map (p_place rel s) pts).
    { unfold all, pts. cbn [map]. f_equal. unfold p_place. destruct rel; [|reflexivity]. destruct (p_at s). unfold padd. cbn [fst snd]. f_equal; ring. }
    rewrite AE, <- C31_bernstein by discriminate. symmetry. apply bezier_map; [discriminate|]. intros p q. unfold p_place. destruct rel; [|reflexivity].
    unfold padd, smul. cbn [fst snd]. f_equal; ring. }
  assert (VL : forall u, velocity (bezier pts) u (direction_at (bezier pts) (Some (bezier (pairwise (fun p q => smul (INR (length pts - 1)) (psub q p)) pts))) h u)).
  { intros u. cbn [direction_at]. rewrite <- map_pairwise. apply (bezier_velocity pts). unfold pts. cbn [length]. lia. }
  exists us, (direction_at (bezier pts) (Some (bezier (pairwise (fun p q => smul (INR (length pts - 1)) (psub q p)) pts))) h).
  split; [intro u; unfold p_place; destruct rel; [apply velocity_shift|]; apply VL|].
  split; [exact L1|]. split; [exact L2|].
  split; [eapply links_impl; [|exact L3]; intros x y; unfold p_place; destruct rel; [apply flat_shift|exact (fun z => z)]|].
  split; [exact VS|]. split; [exact NZ|]. split; [exact A|]. split; [exact W|]. split; [exact D|]. split; [exact T|].
  exists cs. split; [exact O|]. split; [exact LP|]. exact P.
Qed.
Print Assumptions C76_bezier.

(** ** smooth *)

Lemma nth_combine_lt : forall {X Y} (l : list X) (m : list Y) i d e, (i < length l)%nat -> (i < length m)%nat ->
  nth i (combine l m) (d, e) = (nth i l d, nth i m e).
Proof.
  intros X Y l. induction l as [|x l IH]; intros m i d e L M; [cbn in L; lia|]. destruct m as [|y m]; [cbn in M; lia|].
  destruct i as [|i]; [reflexivity|]. cbn [combine nth length] in *. apply IH; lia.
Qed.
Section Sections.
Variables (fuel : nat) (tol : R) (ev mx : nat) (la dt : tags).
Definition bez (ab : pt * pt) (e : pt) (fw fd : final) (s : path) : option path := p_bezier fuel [fst ab; snd ab; e] tol ev mx fw fd false la dt s.
Lemma sections_path : forall secs fws fds s s', p_sections fuel secs fws fds tol ev mx la dt s = Some s' ->
  exists st : nat -> path, st 0%nat = s /\ st (length secs) = s' /\
    forall i, (i < length secs)%nat -> let x := nth i secs ((0, 0), (0, 0), (0, 0)) in
      bez (fst x) (snd x) (nth i fws Same) (nth i fds Same) (st i) = Some (st (S i)).
Proof.
  induction secs as [|[[a b] e] r IH]; intros fws fds s s' H.
  - injection H as <-. exists (fun _ => s). repeat split. intros i I. cbn in I. lia.
  - destruct fws as [|fw fws]; [discriminate|]. destruct fds as [|fd fds]; [discriminate|]. cbn [p_sections] in H.
    destruct (p_bezier fuel [a; b; e] tol ev mx fw fd false la dt s) as [s1|] eqn:B; [|discriminate].
    destruct (IH _ _ _ _ H) as (st & S0 & SL & ST). exists (fun i => match i with 0%nat => s | S i => st i end).
    split; [reflexivity|]. split; [exact SL|]. intros [|i] I.
    + cbn [nth]. rewrite S0. exact B.
    + cbn [length] in I. exact (ST i ltac:(lia)).
Qed.
Lemma smooth_path : forall (hs : list pt -> list (pt * pt)) (cyc : bool) l fws fds rel s s', l <> [] ->
  let z := p_at s :: map (p_place rel s) l in let n := length z in let arcs := if cyc then n else (n - 1)%nat in
  length (hs z) = arcs -> as_many fws arcs -> as_many fds arcs ->
  p_smooth fuel hs cyc l tol ev mx fws fds rel la dt s = Some s' ->
  exists st : nat -> path, st 0%nat = s /\ st arcs = s' /\
    forall i, (i < arcs)%nat -> bez (nth i (hs z) ((0, 0), (0, 0))) (nth (S i mod n) z (0, 0)) (given fws i) (given fds i) (st i) = Some (st (S i)).
Proof.
  intros hs cyc l fws fds rel s s' NE z n arcs LH LW LD H. unfold p_smooth in H.
  replace (if rel then p_at s :: map (fun p => padd p (p_at s)) l else p_at s :: l) with z in H
    by (unfold z, p_place; destruct rel; [reflexivity|now rewrite map_id]).
  set (fw := match fws with Some l0 => l0 | None => repeat Same (length (hs z)) end) in H.
  set (fd := match fds with Some l0 => l0 | None => repeat Same (length (hs z)) end) in H.
  assert (LFW : length fw = arcs) by (unfold fw; destruct fws; [exact LW|now rewrite repeat_length]).
  assert (LFD : length fd = arcs) by (unfold fd; destruct fds; [exact LD|now rewrite repeat_length]).
  assert (GW : forall i, nth i fw Same = given fws i) by (intro i; unfold fw, given; destruct fws; [reflexivity|apply nth_repeat]).
  assert (GD : forall i, nth i fd Same = given fds i) by (intro i; unfold fd, given; destruct fds; [reflexivity|apply nth_repeat]).
  assert (NL : n = S (length l)) by (unfold n, z; cbn [length]; now rewrite map_length).
  set (secs := map (fun ke : pt * pt * pt => (fst (fst ke), snd (fst ke), snd ke)) (combine (hs z) (tl z))) in H.
  assert (LS : length secs = length l).
  { unfold secs. rewrite map_length, combine_length, LH. unfold z. cbn [tl]. rewrite map_length. unfold arcs. destruct cyc; lia. }
  destruct (p_sections fuel secs fw fd tol ev mx la dt s) as [s1|] eqn:PS; [|discriminate].
  destruct (sections_path _ _ _ _ _ PS) as (st & S0 & SL & ST). rewrite LS in SL, ST.
  assert (SE : forall i, (i < length l)%nat -> bez (nth i (hs z) ((0, 0), (0, 0))) (nth (S i mod n) z (0, 0)) (given fws i) (given fds i) (st i) = Some (st (S i))).
  { intros i I. specialize (ST i I). cbv zeta in ST. rewrite GW, GD in ST. rewrite Nat.mod_small by lia. rewrite <- ST.
    assert (X : nth i secs ((0, 0), (0, 0), (0, 0)) = (nth i (hs z) ((0, 0), (0, 0)), nth (S i) z (0, 0))).
    { assert (HL : (i < length (hs z))%nat) by (rewrite LH; unfold arcs; destruct cyc; lia).
      assert (HZ : (i < length (tl z))%nat) by (unfold z; cbn [tl]; rewrite map_length; exact I).
      unfold secs. rewrite (nth_map_lt _ _ (((0, 0), (0, 0)), (0, 0)) _ i) by (rewrite combine_length, LH; unfold z; cbn [tl]; rewrite map_length; unfold arcs; destruct cyc; lia).
      rewrite nth_combine_lt; [|exact HL|exact HZ]. rewrite nth_tl_S. cbn [fst snd]. f_equal. symmetry. apply surjective_pairing. }
    rewrite X. reflexivity. }
  unfold arcs in *. destruct cyc.
  - assert (HN : hs z <> []) by (intro Z; rewrite Z in LH; cbn in LH; lia).
    assert (FN : fw <> []) by (intro Z; rewrite Z in LFW; cbn in LFW; lia). assert (DN : fd <> []) by (intro Z; rewrite Z in LFD; cbn in LFD; lia).
    destruct (@exists_last _ _ HN) as (h1 & [a b] & HE). destruct (@exists_last _ _ FN) as (f1 & w & FE). destruct (@exists_last _ _ DN) as (d1 & d & DE).
    rewrite HE, FE, DE, !rev_app_distr in H. cbn [rev app] in H.
    assert (L1 : length h1 = length l).
    { transitivity (length (hs z) - 1)%nat; [rewrite HE, app_length; cbn; lia|rewrite LH; lia]. }
    assert (L2 : length f1 = length l) by (transitivity (length fw - 1)%nat; [rewrite FE, app_length; cbn; lia|rewrite LFW; lia]).
    assert (L3 : length d1 = length l) by (transitivity (length fd - 1)%nat; [rewrite DE, app_length; cbn; lia|rewrite LFD; lia]).
    exists (fun i => if (i <=? length l)%nat then st i else s'). split; [exact S0|]. split; [destruct (Nat.leb_spec n (length l)); [lia|reflexivity]|].
    intros i I. destruct (Nat.leb_spec i (length l)) as [Y|Y]; [|lia]. destruct (Nat.leb_spec (S i) (length l)) as [Z|Z]; [apply SE; lia|].
    assert (i = length l) by lia. subst i. replace (S (length l)) with n by exact NL. rewrite Nat.mod_same by lia. rewrite SL, <- GW, <- GD, HE, FE, DE.
    rewrite <- L1 at 1. rewrite <- L2 at 1. rewrite <- L3. rewrite !nth_middle. exact H.
  - injection H as <-. exists st. split; [exact S0|]. replace (n - 1)%nat with (length l) in * by lia. split; [exact SL|exact SE].
Qed.
End Sections.

Lemma velocity_unique : forall f u v w, velocity f u v -> velocity f u w -> v = w.
Proof. intros f u v w [A B] [A' B']. apply injective_projections; eapply uniqueness_limite; eassumption. Qed.
Lemma unit_scaled : forall k a, 0 < k -> unit_vec (smul k (cos a, sin a)) = (cos a, sin a).
Proof.
  intros k a K. unfold unit_vec, smul. cbn [fst snd]. pose proof (sin2_cos2 a) as E. unfold Rsqr in E.
  replace ((k * cos a) ^ 2 + (k * sin a) ^ 2) with (k ^ 2) by (transitivity (k ^ 2 * (sin a * sin a + cos a * cos a)); [rewrite E; ring|ring]).
  rewrite sqrt_pow2 by lra. f_equal; field; lra.
Qed.
(** smooth draws a section along each arc between consecutive points, with the control
    points computed for them; the last arc of a closed curve leads back to the start.
    If the control points are those of a spline, each section continues the one before. *)
Theorem C78_path : forall fuel (hs : list pt -> list (pt * pt)) (cyc : bool) l tol ev mx fws fds rel la dt s s', l <> [] ->
  let z := p_at s :: map (p_place rel s) l in let n := length z in let arcs := if cyc then n else (n - 1)%nat in
  let p i := nth (i mod n) z (0, 0) in let c i := nth i (hs z) ((0, 0), (0, 0)) in
  let arc i := cubic (p i) (fst (c i)) (snd (c i)) (p (S i)) in
  length (hs z) = arcs -> as_many fws arcs -> as_many fds arcs ->
  do_pcall fuel (PSmooth hs cyc l tol ev mx fws fds rel la dt) s = Some s' ->
  exists st : nat -> path, st 0%nat = s /\ st arcs = s' /\
    (forall i, (i <= arcs)%nat -> p_at (st i) = p i /\ p_n (st i) = p_n s) /\
    (forall i, (i < arcs)%nat -> section_along (arc i) (given fws i) (given fds i) tol ev (st i) (st (S i))) /\
    forall k to ti a th ph, spline arcs p to ti c a th ph -> (S k < arcs)%nat -> p k <> p (S k) -> p (S k) <> p (S (S k)) ->
      0 < to k -> 0 < ti (S k) -> 0 < to (S k) -> 0 < ti (S (S k)) ->
      ~ (turned (p k) (p (S k)) (a k) PI /\ turned (p k) (p (S k)) (a (S k)) PI) ->
      ~ (turned (p (S k)) (p (S (S k))) (a (S k)) PI /\ turned (p (S k)) (p (S (S k))) (a (S (S k))) PI) ->
      (forall u, 0 <= u <= 1 -> along_section (given fws k) (2 * p_w (st k)) u <> 0) ->
      (forall u, 0 <= u <= 1 -> along_section (given fws (S k)) (2 * p_w (st (S k))) u <> 0) ->
      along_section (given fws (S k)) (2 * p_w (st (S k))) 0 = 2 * p_w (st (S k)) ->
      along_section (given fds (S k)) (p_dist (st (S k))) 0 = p_dist (st (S k)) ->
      exists ps, p_polys (st (S (S k))) = p_polys (st (S k)) ++ ps /\ continues (reversed (p_n s)) (st (S k)) (st (S (S k))) ps.
Proof.
  intros fuel hs cyc l tol ev mx fws fds rel la dt s s' NE z n arcs p c arc LH LW LD H.
  destruct (smooth_path fuel tol ev mx la dt hs cyc l fws fds rel s s' NE LH LW LD H) as (st & S0 & SL & ST). fold z n arcs in SL, ST.
  exists st. split; [exact S0|]. split; [exact SL|].
  assert (PA : forall i, (i <= arcs)%nat -> p_at (st i) = p i /\ p_n (st i) = p_n s).
  { induction i as [|i IH]; intro I.
    - rewrite S0. split; [|reflexivity]. unfold p. rewrite Nat.mod_0_l by (unfold n, z; discriminate). reflexivity.
    - destruct (IH ltac:(lia)) as [_ IN]. specialize (ST i ltac:(lia)). unfold bez in ST. destruct (C73_bezier _ _ _ _ _ _ _ _ _ _ _ _ _ ST) as [A _].
      destruct (C76_bezier _ _ _ _ _ _ _ _ _ _ _ _ ST) as [N _]. split; [exact A|]. now rewrite N. }
  split; [exact PA|]. split.
  - intros i I WN. destruct (PA i ltac:(lia)) as [PI_ _]. specialize (ST i I). destruct (C76_bezier _ _ _ _ _ _ _ _ _ _ _ _ ST) as [N SA].
    destruct (SA WN) as (ps & E & D). exists ps. split; [exact E|]. eapply drawn_ext; [|exact D]. intro u. cbn [map p_place]. rewrite PI_.
    exact (cubic_bernstein (p i) (fst (c i)) (snd (c i)) (p (S i)) u).
  - intros k to ti a th ph SP K N1 N2 T1 T2 T3 T4 B1 B2 W1 W2 CW CD.
    destruct (C78_ahead _ _ _ _ _ _ _ _ k SP ltac:(lia) N1 T1 T2 B1) as (L & M & LP & MP & _ & E2).
    destruct (C78_ahead _ _ _ _ _ _ _ _ (S k) SP ltac:(lia) N2 T3 T4 B2) as (L' & M' & LP' & MP' & E1' & _).
    set (u := (cos (a (S k)), sin (a (S k)))) in *.
    assert (TW : toward (p_dir (st (S k))) = u).
    { destruct (PA k ltac:(lia)) as [PK _]. destruct (C76_bezier _ _ _ _ _ _ _ _ _ _ _ _ (ST k ltac:(lia))) as [_ SA].
      destruct (SA W1) as (ps & _ & D). apply (drawn_ext _ (arc k)) in D.
      2:{ intro x. cbn [map p_place]. rewrite PK. exact (cubic_bernstein (p k) (fst (c k)) (snd (c k)) (p (S k)) x). }
      destruct D as (us & g & V & _ & _ & _ & _ & _ & _ & _ & _ & T & _). rewrite T.
      rewrite (velocity_unique (arc k) 1 (g 1) (smul (3 * M) u) (V 1)); [apply unit_scaled; lra|].
      apply (cubic_velocity (p k) (fst (c k)) (snd (c k)) (p (S k))). rewrite E2. apply injective_projections; unfold padd, psub, smul; cbn [fst snd]; ring. }
    destruct (PA (S k) ltac:(lia)) as [PK PN]. assert (ST2 := ST (S k) ltac:(lia)). unfold bez in ST2. destruct (C73_bezier _ _ _ _ _ _ _ _ _ _ _ _ _ ST2) as [_ J].
    rewrite PN in J. apply (J L'); [exact LP'| |exact W2|exact CW|exact CD].
    rewrite TW, PK. change (nth (S k) (hs z) ((0, 0), (0, 0))) with (c (S k)). rewrite E1'. apply injective_projections; unfold padd, psub, smul; cbn [fst snd]; ring.
Qed.
Print Assumptions C78_path.

(** ** A case *)
Lemma halve_more : forall n m f err delta prev rest r, halve n f err delta prev rest = Some r -> (n <= m)%nat -> halve m f err delta prev rest = Some r.
Proof.
  induction n as [|n IH]; intros m f err delta prev [|next more] r H L; cbn [halve] in H; try discriminate.
  - destruct m; exact H.
  - destruct m; exact H.
  - destruct m as [|m]; [lia|]. cbn [halve]. destruct (Rlt_dec err _) as [X|X]; [now apply IH; [|lia]|].
    destruct (halve n f err delta next more) as [[l d]|] eqn:E; [|discriminate]. rewrite (IH m _ _ _ _ _ _ E) by lia. exact H.
Qed.
Lemma bezier_more : forall n m l tol ev mx fw fd rel la dt s r, p_bezier n l tol ev mx fw fd rel la dt s = Some r -> (n <= m)%nat ->
  p_bezier m l tol ev mx fw fd rel la dt s = Some r.
Proof.
  intros n m l tol ev mx fw fd rel la dt s r H L. unfold p_bezier in *. destruct l as [|c l]; [exact H|]. unfold p_parametric in *.
  destruct (linspace 0 1 ev) as [|u0 [|u1 us]]; try discriminate. destruct (halve n _ _ _ _ _) as [x|] eqn:E; [|discriminate].
  rewrite (halve_more _ m _ _ _ _ _ _ E L). exact H.
Qed.
(** Non-vacuity: a spline through two more points, for two parallel paths. *)
Example C78_path_case : exists fuel s', let hs := fun _ : list pt => [((1, 0), (2, 1)); ((4, 1), (5, 0))] in
  do_pcall fuel (PSmooth hs false [(3, 1); (6, 0)] (1/10) 9 8 (Some [To 3; To 4]) None true (Tag 1) (Tag 0)) (new_path 2 (0, 0) 2 6) = Some s' /\
  p_at s' = (6, 0) /\ p_w s' = 2 /\
  exists s1, section_along (cubic (0, 0) (1, 0) (2, 1) (3, 1)) (To 3) Same (1/10) 9 (new_path 2 (0, 0) 2 6) s1 /\
             section_along (cubic (3, 1) (4, 1) (5, 0) (6, 0)) (To 4) Same (1/10) 9 s1 s' /\ p_w s1 = 3 / 2.
Proof.
  assert (V : forall p a b e, fst a - fst p > 0 -> fst b - fst a > 0 -> fst e - fst b > 0 -> forall u, 0 <= u <= 1 ->
    bezier (pairwise (fun p q => smul (INR 3) (psub q p)) [p; a; b; e]) u <> (0, 0)).
  { intros p a b e A B C u U Z. cbn in Z. unfold padd, smul, psub in Z. cbn [fst snd] in Z. injection Z as Z _.
    set (x := fst a - fst p) in *. set (y := fst b - fst a) in *. set (w := fst e - fst b) in *. clearbody x y w.
    assert (Q : 0 <= (1 - u) * (1 - u) * x /\ 0 <= u * (1 - u) * y /\ 0 <= u * u * w) by (repeat split; repeat apply Rmult_le_pos; lra).
    destruct (Req_dec u 0) as [-> | N].
    - assert (0 < 3 * x \/ 0 < 3 * w) by (left; lra). lra.
    - assert (0 < u * u * w) by (repeat apply Rmult_lt_0_compat; lra). assert (0 < (1 - u) * (1 - u) * x \/ u = 1) by (destruct (Req_dec u 1); [now right|left; repeat apply Rmult_lt_0_compat; lra]).
      lra. }
  destruct (bezier_defined [(1, 0); (2, 1); (3, 1)] (1/10) 9 8 (To 3) Same false (Tag 1) (Tag 0) (new_path 2 (0, 0) 2 6)) as [f1 [s1 E1]];
    [discriminate|lra|lia|discriminate|discriminate| |].
  { intros u U. apply V; cbn; lra. }
  pose proof (C73_bezier _ _ _ _ _ _ _ _ _ _ _ _ _ E1) as [A1 _]. cbn [last] in A1.
  destruct (bezier_defined [(4, 1); (5, 0); (6, 0)] (1/10) 9 8 (To 4) Same false (Tag 1) (Tag 0) s1) as [f2 [s2 E2]];
    [discriminate|lra|lia|discriminate|discriminate| |].
  { rewrite A1. intros u U. apply V; cbn; lra. }
  exists (Nat.max f1 f2), s2. cbv zeta.
  match goal with |- do_pcall ?f ?k ?s = _ /\ _ => assert (E : do_pcall f k s = Some s2) end.
  { cbn [do_pcall]. unfold p_smooth. cbn [new_path p_at map combine tl fst snd repeat length p_sections].
    unfold padd. cbn [fst snd]. rewrite !Rplus_0_r. rewrite (bezier_more _ _ _ _ _ _ _ _ _ _ _ _ _ E1) by lia. now rewrite (bezier_more _ _ _ _ _ _ _ _ _ _ _ _ _ E2) by lia. }
  split; [exact E|]. 
  pose proof (C73_bezier _ _ _ _ _ _ _ _ _ _ _ _ _ E2) as [A2 _]. cbn [last] in A2. split; [exact A2|].
  destruct (C76_bezier _ _ _ _ _ _ _ _ _ _ _ _ E1) as [_ D1]. destruct (C76_bezier _ _ _ _ _ _ _ _ _ _ _ _ E2) as [_ D2]. cbn [map p_place] in D1, D2. rewrite A1 in D2.
  assert (W1 : p_w s1 = 3 / 2).
  { destruct D1 as (ps & _ & us & g & _ & _ & _ & _ & _ & _ & _ & W & _); [intros u U; cbn; lra|]. rewrite W. cbn. lra. }
  assert (W2 : p_w s2 = 2).
  { destruct D2 as (ps & _ & us & g & _ & _ & _ & _ & _ & _ & _ & W & _); [intros u U; rewrite W1; cbn; lra|]. rewrite W. cbn. lra. }
  split; [exact W2|]. exists s1. split; [|split; [|exact W1]].
  - intros WN. destruct (D1 WN) as (ps & Q & D). exists ps. split; [exact Q|]. eapply drawn_ext; [|exact D]. intro u. apply (cubic_bernstein (0, 0)).
  - intros WN. destruct (D2 WN) as (ps & Q & D). exists ps. split; [exact Q|]. eapply drawn_ext; [|exact D]. intro u. apply (cubic_bernstein (3, 1)).
Qed.
