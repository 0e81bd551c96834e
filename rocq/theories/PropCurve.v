(** Curves: C31 (Bezier evaluation), C32 (adaptive sampling), C33 (relative and
    absolute commands), C46 (get_points), C59 (smooth commands), C60 (end points),
    C62 (interpolation). *)

From Coq Require Import Reals Lra Lia List ZArith Bool.
From Verif Require Import Plane SpecPlane Curve SpecCurve CurveProofs.
Import ListNotations.
Open Scope R_scope.

(** ** C31 *)

Theorem C31_ends : forall a l, bezier (a :: l) 0 = a /\ bezier (a :: l) 1 = last (a :: l) (0, 0).
Proof. intros a l. split; [apply bezier_0|apply bezier_1; discriminate]. Qed.

Theorem C31_bernstein : forall ctrl u, ctrl <> [] ->
  bezier ctrl u = (bernstein (map fst ctrl) u, bernstein (map snd ctrl) u).
Proof.
  intros ctrl u N. unfold bernstein. rewrite !map_length.
  apply injective_projections; cbn [fst snd]; [rewrite bezier_fst by auto|rewrite bezier_snd by auto]; rewrite cast_bernstein; reflexivity.
Qed.

Theorem C31_affine : forall (m : affine) ctrl u, ctrl <> [] ->
  bezier (map (affine_map m) ctrl) u = affine_map m (bezier ctrl u).
Proof.
  intros m ctrl u N. apply bezier_map; [auto|]. intros [a b] [c d]. unfold affine_map, padd, smul; cbn [fst snd]. f_equal; ring.
Qed.

(** In every half-plane a x + b y <= c with all the control points. *)
Theorem C31_hull : forall ctrl u a b c, ctrl <> [] -> 0 <= u <= 1 ->
  (forall p, In p ctrl -> a * fst p + b * snd p <= c) -> a * fst (bezier ctrl u) + b * snd (bezier ctrl u) <= c.
Proof.
  intros ctrl u a b c N U H. apply (bezier_in (fun p => a * fst p + b * snd p <= c)); auto.
  intros [x y] [z w]; unfold padd, smul; cbn [fst snd]; intros H1 H2.
  apply (Rmult_le_compat_l u) in H1; [|lra]. apply (Rmult_le_compat_l (1 - u)) in H2; [|lra]. lra.
Qed.

Theorem C31_reverse : forall ctrl u, ctrl <> [] -> bezier (rev ctrl) u = bezier ctrl (1 - u).
Proof.
  intros ctrl u N. assert (Nr : rev ctrl <> []) by (intro E; apply N; rewrite <- (rev_involutive ctrl), E; reflexivity).
  set (k := (length ctrl - 1)%nat). assert (K : (k < length ctrl)%nat) by (unfold k; destruct ctrl; [congruence|cbn [length]; lia]).
  assert (G : forall (l : list R), length l = length ctrl ->
     cast k (fun j => nth j (rev l) 0) 0 u = cast k (fun j => nth j l 0) 0 (1 - u)).
  { intros l E. rewrite (cast_ext k _ (fun j => nth (k - j) l 0)).
    - rewrite (cast_rev k (fun j => nth j l 0)) by lia. f_equal. lia.
    - intros j Hj. rewrite rev_nth by lia. f_equal. unfold k. lia. }
  apply injective_projections; [rewrite !bezier_fst by auto|rewrite !bezier_snd by auto]; rewrite rev_length, map_rev; apply G; apply map_length.
Qed.

(** ** C32 *)

(** [q] continues [pts] by the curve with the given control points (starting at
    the end of [pts]): points of the curve at strictly increasing parameters up to 1,
    consecutive ones passing the tolerance test. *)
Definition drawn1 (tol : R) (pts ctrl q : list pt) : Prop :=
  let f := bezier (last pts (0, 0) :: ctrl) in
  exists us, q = pts ++ map f us /\ links Rlt 0 us /\ last us 0 = 1 /\ links (flat f tol) 0 us.
(** One curve after the other. *)
Inductive drawn (tol : R) : list pt -> list (list pt) -> list pt -> Prop :=
| drawn_nil : forall pts, drawn tol pts [] pts
| drawn_cons : forall pts ctrl q rest r, drawn1 tol pts ctrl q -> drawn tol q rest r -> drawn tol pts (ctrl :: rest) r.

Lemma on_curve_map f l : Forall (on_curve f) l -> map snd l = map f (map fst l).
Proof. induction 1 as [|x l H _ IH]; [reflexivity|]. cbn. unfold on_curve in H. now rewrite H, IH. Qed.
Lemma sample_ok fuel f tol u0 uu out : sample fuel f tol (u0 :: uu) = Some out -> links Rlt u0 uu ->
  map snd out = map f (map fst out) /\ links Rlt u0 (map fst out) /\ links (flat f tol) u0 (map fst out) /\
  sub uu (map fst out) /\ last (map fst out) u0 = last uu u0.
Proof.
  unfold sample. cbn [map]. intros E L.
  assert (F : map fst (map (fun u => (u, f u)) uu) = uu) by (rewrite map_map; apply map_id).
  destruct (refine_ok f tol fuel (u0, f u0) _ out E) as (A & B & C & D & G).
  - reflexivity.
  - apply Forall_forall. intros x H. apply in_map_iff in H as (u & <- & _). reflexivity.
  - now rewrite F.
  - rewrite F in *. cbn [fst] in *. split; [now apply on_curve_map|]. auto.
Qed.
Lemma five_links : links Rlt 0 [/ 5; / 2; 4 / 5; 1].
Proof. cbn. repeat split; lra. Qed.
Theorem C32_section : forall fuel tol pts ctrl q, section fuel tol pts ctrl = Some q ->
  drawn1 tol pts ctrl q /\ exists us, q = pts ++ map (bezier (last pts (0, 0) :: ctrl)) us /\ sub [/ 5; / 2; 4 / 5; 1] us.
Proof.
  intros fuel tol pts ctrl q E. unfold section in E. set (f := bezier _) in *.
  destruct (sample fuel f tol five) as [out|] eqn:S; [|discriminate]. injection E as <-.
  destruct (sample_ok _ _ _ _ _ _ S five_links) as (A & B & C & D & G). rewrite A. split.
  - exists (map fst out). fold f. auto.
  - exists (map fst out). auto.
Qed.

Lemma cubics_drawn fuel tol gs : forall pts q, cubics fuel tol pts gs = Some q ->
  drawn tol pts (map (fun g => [fst (fst g); snd (fst g); snd g]) gs) q.
Proof.
  induction gs as [|[[a b] e] gs IH]; intros pts q E; cbn in E; [injection E as <-; constructor|].
  destruct (section fuel tol pts [a; b; e]) as [p|] eqn:S; [|discriminate]. cbn [map fst snd].
  econstructor; [apply (C32_section _ _ _ _ _ S)|]. now apply IH.
Qed.
Lemma by3_flat gs : forall ps, by3 ps = Some gs -> ps = flat_map (fun g => [fst (fst g); snd (fst g); snd g]) gs.
Proof.
  induction gs as [|x l IH]; intros ps B; destruct ps as [|a [|b [|e r]]]; cbn in B; try discriminate; [reflexivity|..];
    destruct (by3 r) as [l'|] eqn:R; try discriminate. cbn in B. injection B as <- <-. cbn [flat_map app fst snd]. do 3 f_equal. now apply IH.
Qed.
(** C, c: one cubic after the other through the points given, in threes. *)
Theorem C32_cubic : forall fuel rel c args c', curve_C fuel rel c args = Some c' ->
  exists ps gs, places rel c args = Some ps /\ ps = flat_map (fun g => [fst (fst g); snd (fst g); snd g]) gs /\
    drawn (cv_tol c) (cv_pts c) (map (fun g => [fst (fst g); snd (fst g); snd g]) gs) (cv_pts c').
Proof.
  intros fuel rel c args c' E. unfold curve_C in E. destruct (places rel c args) as [ps|]; [|discriminate].
  destruct (by3 ps) as [[|g gs]|] eqn:B; try discriminate.
  destruct (cubics fuel (cv_tol c) (cv_pts c) (g :: gs)) as [q|] eqn:Q; [|discriminate]. injection E as <-.
  exists ps, (g :: gs). split; [auto|]. split; [now apply by3_flat|now apply cubics_drawn in Q].
Qed.
Lemma quads_drawn fuel tol gs : forall pts q, quads fuel tol pts gs = Some q ->
  drawn tol pts (map (fun g => [fst g; snd g]) gs) q.
Proof.
  induction gs as [|[a e] gs IH]; intros pts q E; cbn in E; [injection E as <-; constructor|].
  destruct (section fuel tol pts [a; e]) as [p|] eqn:S; [|discriminate]. cbn [map fst snd].
  econstructor; [apply (C32_section _ _ _ _ _ S)|]. now apply IH.
Qed.
Lemma by2_flat gs : forall ps, by2 ps = Some gs -> ps = flat_map (fun g => [fst g; snd g]) gs.
Proof.
  induction gs as [|x l IH]; intros ps B; destruct ps as [|a [|e r]]; cbn in B; try discriminate; [reflexivity|..];
    destruct (by2 r) as [l'|] eqn:R; try discriminate. cbn in B. injection B as <- <-. cbn [flat_map app fst snd]. do 2 f_equal. now apply IH.
Qed.
Theorem C32_quadratic : forall fuel rel c args c', curve_Q fuel rel c args = Some c' ->
  exists ps gs, places rel c args = Some ps /\ ps = flat_map (fun g => [fst g; snd g]) gs /\
    drawn (cv_tol c) (cv_pts c) (map (fun g => [fst g; snd g]) gs) (cv_pts c').
Proof.
  intros fuel rel c args c' E. unfold curve_Q in E. destruct (places rel c args) as [ps|]; [|discriminate].
  destruct (by2 ps) as [[|g gs]|] eqn:B; try discriminate.
  destruct (quads fuel (cv_tol c) (cv_pts c) (g :: gs)) as [q|] eqn:Q; [|discriminate]. injection E as <-.
  exists ps, (g :: gs). split; [auto|]. split; [now apply by2_flat|now apply quads_drawn in Q].
Qed.

(** B: the initial parameters *)
Lemma linspace_nth a b n i : (i < n)%nat -> nth i (linspace a b n) 0 = a + INR i * ((b - a) / INR (n - 1)).
Proof.
  intro H. unfold linspace. set (g := fun _ => _).
  rewrite (nth_indep _ 0 (g 0%nat)) by (rewrite map_length, seq_length; auto). rewrite (map_nth g), seq_nth by auto. reflexivity.
Qed.
Lemma links_map_seq (g : nat -> R) s n : (forall i, (s <= i < s + n)%nat -> g i < g (S i)) -> links Rlt (g s) (map g (seq (S s) n)).
Proof.
  revert s; induction n as [|n IH]; intros s H; cbn [seq map links]; [exact I|]. split; [apply H; lia|]. apply IH. intros; apply H; lia.
Qed.
Lemma warp_lt x y : x < y -> warp x < warp y.
Proof.
  intro H. unfold warp. apply Rmult_lt_compat_l; [lra|]. apply Rplus_lt_compat_l.
  assert (P : forall z, 0 < Rpower z (4 / 5)) by (intro; apply exp_pos).
  destruct (Rlt_dec 0 x) as [X|X], (Rlt_dec 0 y) as [Y|Y]; try lra.
  - apply Rlt_Rpower_l; lra.
  - destruct (Rlt_dec x 0); [|apply P]. pose proof (P (- x)). pose proof (P y). lra.
  - destruct (Rlt_dec x 0) as [X1|X1], (Rlt_dec y 0) as [Y1|Y1]; try lra.
    + apply Ropp_lt_contravar. apply Rlt_Rpower_l; lra.
    + pose proof (P (- x)). lra.
Qed.
Lemma warp_ends : warp (-1) = 0 /\ warp 1 = 1.
Proof.
  unfold warp. assert (E : Rpower 1 (4 / 5) = 1) by (unfold Rpower; rewrite ln_1, Rmult_0_r; apply exp_0). split.
  - destruct (Rlt_dec 0 (-1)); [lra|]. destruct (Rlt_dec (-1) 0); [|lra]. replace (- -1) with 1 by ring. rewrite E. lra.
  - destruct (Rlt_dec 0 1); [|lra]. rewrite E. lra.
Qed.
Lemma last_map {X Y} (f : X -> Y) l d : last (map f l) (f d) = f (last l d).
Proof. induction l as [|a [|b r] IH]; [reflexivity|reflexivity|]. exact IH. Qed.
Lemma last_seq s n : last (seq (S s) n) s = (s + n)%nat.
Proof. revert s; induction n as [|n IH]; intro s; [cbn; lia|]. cbn [seq]. rewrite last_cons, IH. lia. Qed.
Lemma spread_ok n : (1 <= n)%nat -> exists us, spread n = 0 :: us /\ links Rlt 0 us /\ last us 0 = 1.
Proof.
  intro H. unfold spread, linspace. rewrite map_map. set (g := fun i => warp _).
  replace (n + 1)%nat with (S n) by lia. cbn [seq map].
  assert (N : 0 < INR n) by (apply lt_0_INR; lia).
  assert (G0 : g 0%nat = 0).
  { unfold g. replace (-1 + INR 0 * _) with (-1) by (cbn; ring). apply warp_ends. }
  assert (Gn : g n = 1).
  { unfold g. replace (n + 1 - 1)%nat with n by lia. replace (-1 + INR n * ((1 - -1) / INR n)) with 1 by (field; lra). apply warp_ends. }
  exists (map g (seq 1 n)). split; [now rewrite G0|]. rewrite <- G0 at 1 2. split.
  - apply links_map_seq. intros i Hi. unfold g. apply warp_lt. rewrite S_INR. replace (n + 1 - 1)%nat with n by lia.
    assert (0 < (1 - -1) / INR n) by (apply Rdiv_lt_0_compat; lra). lra.
  - rewrite last_map, last_seq. exact Gn.
Qed.
Theorem C32_general : forall fuel rel c args c', curve_B fuel rel c args = Some c' ->
  exists ps, places rel c args = Some ps /\ drawn1 (cv_tol c) (cv_pts c) ps (cv_pts c').
Proof.
  intros fuel rel c args c' E. unfold curve_B in E. destruct (places rel c args) as [ps|]; [|discriminate].
  exists ps. split; [auto|]. unfold drawn1. change (last (cv_pts c) (0, 0)) with (cv_end c). set (f := bezier _) in *.
  destruct (spread_ok (length (cv_end c :: ps))) as (us & S & L1 & L2); [cbn; lia|]. rewrite S in E.
  destruct (sample fuel f (cv_tol c) (0 :: us)) as [out|] eqn:Sm; [|discriminate]. injection E as <-. cbn [cv_pts].
  destruct (sample_ok _ _ _ _ _ _ Sm L1) as (A & B & C & D & G). exists (map fst out). rewrite A. split; [auto|]. split; [auto|].
  split; [congruence|auto].
Qed.

(** *** Termination, for a positive tolerance *)
Lemma sample_total l tol uu : l <> [] -> 0 < tol -> links Rlt 0 uu -> last uu 0 <= 1 ->
  exists fuel out, sample fuel (bezier l) tol (0 :: uu) = Some out.
Proof.
  intros N T L B. destruct (bezier_slope l N) as [K SK].
  assert (B1 : forall u0 l, links Rlt u0 l -> last l u0 <= 1 -> u0 <= 1 /\ Forall (fun x => x <= 1) l /\ links Rle u0 l).
  { intros u0 m; revert u0; induction m as [|x m IH]; intros u0 Lm Bm; [cbn in *; repeat split; auto|].
    destruct Lm as [L1 L2]. rewrite last_cons in Bm. destruct (IH x L2 Bm) as (A1 & A2 & A3).
    split; [lra|]. split; [now constructor|]. split; [lra|auto]. }
  destruct (B1 0 uu L B) as (_ & F & Le).
  unfold sample. cbn [map]. apply (refine_ends (bezier l) K tol SK T).
  - lra.
  - rewrite map_map, map_id. exact Le.
  - apply Forall_forall. intros x H. apply in_map_iff in H as (u & <- & H). cbn. revert u H. now apply Forall_forall.
  - apply Forall_forall. intros x H. apply in_map_iff in H as (u & <- & _). reflexivity.
Qed.
Lemma sample_mono n k f tol uu out : sample n f tol uu = Some out -> sample (n + k) f tol uu = Some out.
Proof. unfold sample. destruct (map _ uu); [auto|apply refine_mono]. Qed.
Lemma section_mono n k tol pts ctrl q : section n tol pts ctrl = Some q -> section (n + k) tol pts ctrl = Some q.
Proof.
  unfold section. destruct (sample n _ tol five) as [o|] eqn:S; [|discriminate]. now rewrite (sample_mono _ k _ _ _ _ S).
Qed.
Theorem C32_terminates : forall tol pts ctrl, 0 < tol -> exists fuel q, section fuel tol pts ctrl = Some q.
Proof.
  intros tol pts ctrl T. destruct (sample_total (last pts (0, 0) :: ctrl) tol [/ 5; / 2; 4 / 5; 1]) as (n & o & S);
    [discriminate|auto|apply five_links|cbn; lra|].
  exists n. unfold section, five. rewrite S. cbn. eauto.
Qed.

(** ** Every command ends, unless its arguments are malformed *)
Definition well_formed (c : curve) (k : cmd) : Prop :=
  match k with
  | DoL _ args | DoT _ args | DoB _ args => pairs args <> None
  | DoH _ _ | DoV _ _ | DoArc _ _ _ _ _ => True
  | DoC _ args => exists n, (1 <= n)%nat /\ option_map (@length pt) (pairs args) = Some (3 * n)%nat
  | DoS _ args => exists n, option_map (@length pt) (pairs args) = Some (2 * n)%nat
  | DoQ _ args => exists n, (1 <= n)%nat /\ option_map (@length pt) (pairs args) = Some (2 * n)%nat
  | DoI hob rel cycle points => points <> [] /\ sized cycle hob /\
      hob (cv_end c :: map (fun p => if rel then padd p (cv_end c) else p) points) <> None
  end.

Lemma by3_total n : forall l, length l = (3 * n)%nat -> exists gs, by3 l = Some gs /\ length gs = n.
Proof.
  induction n as [|n IH]; intros l H.
  - destruct l; [|cbn in H; lia]. now exists [].
  - destruct l as [|a [|b [|e r]]]; cbn [length] in H; try lia. destruct (IH r) as (gs & E & Lg); [lia|].
    exists ((a, b, e) :: gs). cbn [by3]. rewrite E. cbn. auto.
Qed.
Lemma by2_total n : forall l, length l = (2 * n)%nat -> exists gs, by2 l = Some gs /\ length gs = n.
Proof.
  induction n as [|n IH]; intros l H.
  - destruct l; [|cbn in H; lia]. now exists [].
  - destruct l as [|a [|e r]]; cbn [length] in H; try lia. destruct (IH r) as (gs & E & Lg); [lia|].
    exists ((a, e) :: gs). cbn [by2]. rewrite E. cbn. auto.
Qed.
Lemma places_length rel c args n : option_map (@length pt) (pairs args) = Some n -> exists ps, places rel c args = Some ps /\ length ps = n.
Proof.
  unfold places. destruct (pairs args) as [l|]; [|discriminate]. cbn. intro E; injection E as <-.
  eexists. split; [reflexivity|]. destruct rel; [apply map_length|reflexivity].
Qed.
Lemma cubics_total tol gs : 0 < tol -> forall pts, exists fuel q, cubics fuel tol pts gs = Some q.
Proof.
  intro T. induction gs as [|[[a b] e] gs IH]; intro pts; [exists 0%nat; cbn; eauto|].
  destruct (C32_terminates tol pts [a; b; e] T) as (n & q & S). destruct (IH q) as (m & r & E).
  exists (n + m)%nat, r. cbn [cubics]. rewrite (section_mono _ m _ _ _ _ S).
  assert (M : forall gs n k pts q, cubics n tol pts gs = Some q -> cubics (n + k) tol pts gs = Some q).
  { clear. induction gs as [|[[a b] e] gs IH]; intros n k pts q E; [exact E|]. cbn [cubics] in *.
    destruct (section n tol pts [a; b; e]) as [p|] eqn:S; [|discriminate]. rewrite (section_mono _ k _ _ _ _ S). now apply IH. }
  rewrite Nat.add_comm. now apply M.
Qed.
Lemma quads_total tol gs : 0 < tol -> forall pts, exists fuel q, quads fuel tol pts gs = Some q.
Proof.
  intro T. induction gs as [|[a e] gs IH]; intro pts; [exists 0%nat; cbn; eauto|].
  destruct (C32_terminates tol pts [a; e] T) as (n & q & S). destruct (IH q) as (m & r & E).
  exists (n + m)%nat, r. cbn [quads]. rewrite (section_mono _ m _ _ _ _ S).
  assert (M : forall gs n k pts q, quads n tol pts gs = Some q -> quads (n + k) tol pts gs = Some q).
  { clear. induction gs as [|[a e] gs IH]; intros n k pts q E; [exact E|]. cbn [quads] in *.
    destruct (section n tol pts [a; e]) as [p|] eqn:S; [|discriminate]. rewrite (section_mono _ k _ _ _ _ S). now apply IH. }
  rewrite Nat.add_comm. now apply M.
Qed.
Lemma smooth_cubics_total tol gs : 0 < tol -> forall pts lc, exists fuel q, smooth_cubics fuel tol pts lc gs = Some q.
Proof.
  intro T. induction gs as [|[b e] gs IH]; intros pts lc; [exists 0%nat; cbn; eauto|].
  destruct (C32_terminates tol pts [psub (smul 2 (last pts (0, 0))) lc; b; e] T) as (n & q & S). destruct (IH q b) as (m & r & E).
  exists (n + m)%nat, r. cbn [smooth_cubics]. rewrite (section_mono _ m _ _ _ _ S).
  assert (M : forall gs n k pts lc q, smooth_cubics n tol pts lc gs = Some q -> smooth_cubics (n + k) tol pts lc gs = Some q).
  { clear. induction gs as [|[b e] gs IH]; intros n k pts lc q E; [exact E|]. cbn [smooth_cubics] in *.
    destruct (section n tol pts _) as [p|] eqn:S; [|discriminate]. rewrite (section_mono _ k _ _ _ _ S). now apply IH. }
  rewrite Nat.add_comm. now apply M.
Qed.
Lemma smooth_quads_total tol es : 0 < tol -> forall pts lq, exists fuel q, smooth_quads fuel tol pts lq es = Some q.
Proof.
  intro T. induction es as [|e es IH]; intros pts lq; [exists 0%nat; cbn; eauto|].
  set (k := psub (smul 2 (last pts (0, 0))) lq).
  destruct (C32_terminates tol pts [k; e] T) as (n & q & S). destruct (IH q k) as (m & r & E).
  exists (n + m)%nat, r. cbn [smooth_quads]. fold k. rewrite (section_mono _ m _ _ _ _ S).
  assert (M : forall es n k pts lc q, smooth_quads n tol pts lc es = Some q -> smooth_quads (n + k) tol pts lc es = Some q).
  { clear. induction es as [|e es IH]; intros n k pts lc q E; [exact E|]. cbn [smooth_quads] in *.
    destruct (section n tol pts _) as [p|] eqn:S; [|discriminate]. rewrite (section_mono _ k _ _ _ _ S). now apply IH. }
  rewrite Nat.add_comm. now apply M.
Qed.
Lemma pairs_app b : forall n a x, (length a <= n)%nat -> pairs a = Some x -> pairs (a ++ b) = option_map (app x) (pairs b).
Proof.
  induction n as [|n IH]; intros a x H E.
  - destruct a; [|cbn in H; lia]. injection E as <-. cbn. destruct (pairs b); reflexivity.
  - destruct a as [|[p|p q] a].
    + injection E as <-. cbn. destruct (pairs b); reflexivity.
    + destruct a as [|[q|q r] a]; cbn [pairs] in E; try discriminate. destruct (pairs a) as [y|] eqn:P; [|discriminate].
      injection E as <-. cbn [app pairs]. cbn [length] in H. rewrite (IH a y) by (auto; lia). destruct (pairs b); reflexivity.
    + cbn [pairs] in E. destruct (pairs a) as [y|] eqn:P; [|discriminate].
      injection E as <-. cbn [app pairs]. cbn [length] in H. rewrite (IH a y) by (auto; lia). destruct (pairs b); reflexivity.
Qed.
(** The coordinates I passes on: for each section, two control points and its end. *)
Definition sections_of (ks : list (pt * pt)) (es : list pt) : list pt :=
  flat_map (fun ke => [fst (fst ke); snd (fst ke); snd ke]) (combine ks es).
Lemma hobby_pairs (ks : list (pt * pt)) (cycle : bool) (pts : list pt) : length ks = (length pts - if cycle then 0 else 1)%nat -> pts <> [] ->
  pairs (hobby_args ks cycle pts) = Some (sections_of ks (tl pts ++ (if cycle then [hd (0, 0) pts] else []))).
Proof.
  intros L N. unfold hobby_args.
  set (sec := fun (k : pt * pt) (e : pt) => [Num (fst (fst k)); Num (snd (fst k)); Num (fst (snd k)); Num (snd (snd k)); Num (fst e); Num (snd e)]).
  assert (S1 : forall k e, pairs (sec k e) = Some [fst k; snd k; e]).
  { intros [[a b] [c d]] [e f]. reflexivity. }
  assert (F : forall l, pairs (flat_map (fun ke => sec (fst ke) (snd ke)) l) = Some (flat_map (fun ke => [fst (fst ke); snd (fst ke); snd ke]) l)).
  { induction l as [|[k e] l IH]; [reflexivity|]. cbn [flat_map fst snd]. rewrite (pairs_app _ _ _ _ (le_n _) (S1 k e)). now rewrite IH. }
  rewrite (pairs_app _ _ _ _ (le_n _) (F _)).
  unfold sections_of. destruct cycle; [|cbn [pairs option_map]; rewrite !app_nil_r; reflexivity].
  assert (K : exists ks' k, ks = ks' ++ [k] /\ length ks' = length (tl pts)).
  { destruct ks as [|k ks _] using rev_ind; [destruct pts; [congruence|discriminate]|]. exists ks, k. split; [reflexivity|].
    rewrite app_length in L. destruct pts; cbn in *; lia. }
  destruct K as (ks' & k & -> & LK). rewrite last_last.
  assert (C1 : combine (ks' ++ [k]) (tl pts) = combine ks' (tl pts)).
  { revert LK. generalize (tl pts). clear. induction ks' as [|x ks' IH]; intros [|e es] L; cbn in *; try lia; [reflexivity|]. f_equal. apply IH. lia. }
  assert (C2 : combine (ks' ++ [k]) (tl pts ++ [hd (0, 0) pts]) = combine ks' (tl pts) ++ [(k, hd (0, 0) pts)]).
  { revert LK. generalize (tl pts). clear. induction ks' as [|x ks' IH]; intros [|e es] L; cbn in *; try lia; [reflexivity|]. f_equal. apply IH. lia. }
  rewrite C1, C2. pose proof (S1 k (hd (0, 0) pts)) as S2. unfold sec in S2. rewrite S2. cbn [option_map]. now rewrite flat_map_app.
Qed.

Theorem C32_commands_terminate : forall c k, 0 < cv_tol c -> well_formed c k ->
  exists fuel c', run fuel c k = Some c'.
Proof.
  intros c k T W.
  assert (CC : forall rel args n, (1 <= n)%nat -> option_map (@length pt) (pairs args) = Some (3 * n)%nat ->
     exists fuel c', curve_C fuel rel c args = Some c').
  { intros rel args n Hn H. destruct (places_length rel c args _ H) as (ps & E & L). destruct (by3_total n ps L) as (gs & G & Lg).
    destruct (cubics_total (cv_tol c) gs T (cv_pts c)) as (m & q & Q).
    exists m. unfold curve_C. rewrite E, G. destruct gs; [cbn in Lg; lia|]. rewrite Q. cbn. eauto. }
  destruct k as [rel args|rel xs|rel ys|rx ry a0 a1 rot|rel args|rel args|rel args|rel args|rel args|hob rel cycle points]; cbn [run well_formed] in *.
  - exists 0%nat. unfold curve_L, places. destruct (pairs args); [cbn; eauto|congruence].
  - exists 0%nat; eauto.
  - exists 0%nat; eauto.
  - exists 0%nat; eauto.
  - destruct W as (n & Hn & H). eapply CC; eauto.
  - destruct W as (n & H). destruct (places_length rel c args _ H) as (ps & E & L). destruct (by2_total n ps L) as (gs & G & Lg).
    destruct (smooth_cubics_total (cv_tol c) gs T (cv_pts c) (or_end (cv_c c) c)) as (m & q & Q).
    exists m. unfold curve_S. rewrite E, G, Q. cbn; eauto.
  - destruct W as (n & Hn & H). destruct (places_length rel c args _ H) as (ps & E & L). destruct (by2_total n ps L) as (gs & G & Lg).
    destruct (quads_total (cv_tol c) gs T (cv_pts c)) as (m & q & Q).
    exists m. unfold curve_Q. rewrite E, G. destruct gs; [cbn in Lg; lia|]. rewrite Q. cbn. eauto.
  - unfold curve_T, places. destruct (pairs args) as [ps|]; [|congruence]. cbn [option_map].
    destruct (smooth_quads_total (cv_tol c) (if rel then map (padd (cv_end c)) ps else ps) T (cv_pts c) (or_end (cv_q c) c)) as (m & q & Q).
    exists m. rewrite Q. cbn; eauto.
  - unfold curve_B, places. destruct (pairs args) as [ps|]; [|congruence]. cbn [option_map].
    set (l := _ :: _). destruct (spread_ok (length l)) as (us & S & L1 & L2); [cbn; lia|]. rewrite S.
    destruct (sample_total l (cv_tol c) us) as (m & o & Sm); [discriminate|auto|auto|lra|]. exists m. rewrite Sm. cbn; eauto.
  - destruct W as (N & L & D). unfold curve_I.
    replace (if rel then map (fun p => padd p (cv_end c)) points else points) with (map (fun p => if rel then padd p (cv_end c) else p) points)
      by (destruct rel; [reflexivity|apply map_id]).
    set (pts := cv_end c :: _) in *. destruct (hob pts) as [ks|] eqn:H; [|contradiction]. specialize (L _ _ H).
    apply (CC false _ (length points + if cycle then 1 else 0)%nat); [destruct points; [congruence|cbn; lia]|].
    rewrite hobby_pairs by (auto; discriminate). cbn [option_map]. f_equal.
    assert (Ls : forall ks es, length ks = length es -> length (sections_of ks es) = (3 * length es)%nat).
    { clear. induction ks as [|k ks IH]; intros [|e es] H; cbn in H; try lia; [reflexivity|]. unfold sections_of in *. cbn [combine flat_map].
      rewrite app_length, IH by lia. cbn; lia. }
    assert (Lt : length (tl pts ++ (if cycle then [hd (0, 0) pts] else [])) = (length points + if cycle then 1 else 0)%nat)
      by (rewrite app_length; unfold pts; cbn [tl]; rewrite map_length; destruct cycle; reflexivity).
    rewrite Ls; rewrite Lt; [reflexivity|]. rewrite L. unfold pts. cbn [length]. rewrite map_length. destruct cycle; lia.
Qed.
