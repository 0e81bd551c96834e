(** C68: the sections of a RobustPath join, whatever was done to the path before. *)

From Coq Require Import Reals Lra Lia List ZArith Bool.
From Verif Require Import Plane PlaneProofs Curve CurveProofs Engine Flex Robust SpecRobust PropRobust.
Import ListNotations.
Open Scope R_scope.

(** ** Every call that does not draw acts by a rigid motion and a scaling *)

Definition sg (b : bool) : R := if b then -1 else 1.
Lemma abs_sg b : Rabs (sg b) = 1.
Proof. destruct b; cbn [sg]; unfold Rabs; destruct (Rcase_abs _); lra. Qed.
Definition factor_of (c : rcall) : R := match c with RScale k _ => k | RTransform _ _ mag _ _ => opt 1 mag | _ => 1 end.
Lemma times_1 l : times 1 l = l.
Proof. unfold times. rewrite <- (map_id l) at 2. apply map_ext. intro. ring. Qed.
Lemma times_times a b l : times a (times b l) = times (b * a) l.
Proof. unfold times. rewrite map_map. apply map_ext. intro. ring. Qed.
Lemma t_array_rest v r : r_o (t_array v r) = r_o r /\ r_w (t_array v r) = r_w r /\ widths_scale (t_array v r) = widths_scale r /\
  r_n (t_array v r) = r_n r /\ r_gds (t_array v r) = r_gds r.
Proof. destruct v; repeat split. Qed.
Lemma t_reflect_rest b r : r_o (t_reflect b r) = times (sg b) (r_o r) /\ r_w (t_reflect b r) = times (sg b) (r_w r) /\
  widths_scale (t_reflect b r) = widths_scale r /\ r_n (t_reflect b r) = r_n r /\ r_gds (t_reflect b r) = r_gds r.
Proof. destruct b; cbn [t_reflect sg]; rewrite ?times_1; repeat split. Qed.
Lemma t_scale_rest k r : r_o (t_scale k r) = times (opt 1 k) (r_o r) /\
  (widths_scale r = true -> r_w (t_scale k r) = times (opt 1 k) (r_w r)) /\
  widths_scale (t_scale k r) = widths_scale r /\ r_n (t_scale k r) = r_n r /\ r_gds (t_scale k r) = r_gds r.
Proof. destruct k; cbn [t_scale opt]; rewrite ?times_1; repeat split. intro E. cbn. now rewrite E. Qed.
Lemma t_rotate_rest a r : r_o (t_rotate a r) = r_o r /\ r_w (t_rotate a r) = r_w r /\ widths_scale (t_rotate a r) = widths_scale r /\
  r_n (t_rotate a r) = r_n r /\ r_gds (t_rotate a r) = r_gds r.
Proof. destruct a; repeat split. Qed.
Lemma call_rigid fuel hob eng c r q : draws c = false -> do_rcall fuel hob eng c r = Some q ->
  exists b t d, subs_by (rigid b (factor_of c) t d) (r_paths r) (r_paths q) /\ r_x q = rigid b (factor_of c) t d (r_x r) /\
    r_o q = times (sg b * factor_of c) (r_o r) /\ (widths_scale r = true -> r_w q = times (sg b * factor_of c) (r_w r)) /\
    widths_scale q = widths_scale r /\ r_n q = r_n r /\ r_gds q = r_gds r.
Proof.
  intros D H. destruct c; cbn [draws one_section] in D; try discriminate; cbn [do_rcall] in H; injection H as <-; cbn [factor_of].
  - exists false, 0, v. cbn [sg]. rewrite Rmult_1_l, !times_1. repeat split.
    + eapply by_ext; [|apply each_by; intro; apply translate_by]. intro p. apply pt_eq; unfold rigid, padd; cbn; rewrite cos_0, sin_0; ring.
    + apply pt_eq; unfold rigid, padd; cbn; rewrite cos_0, sin_0; ring.
  - exists false, a, (moves (RRotate a c) (0, 0)). cbn [sg]. rewrite Rmult_1_l, !times_1. repeat split.
    + eapply by_ext; [|apply each_by; intro s; eapply moved_trans; [eapply moved_trans; [apply translate_by|apply rotate_by]|apply translate_by]].
      intro p. apply pt_eq; unfold moves, rigid, rot_cs, padd, smul; cbn; ring.
    + apply pt_eq; unfold moves, rigid, r_rotate, rotate_pt, rot_cs, padd, psub; cbn; ring.
  - exists false, 0, (smul (1 - k) c). cbn [sg]. rewrite Rmult_1_l. repeat split.
    + eapply by_ext; [|apply each_by; intro s; eapply moved_trans; [apply scale_by|apply translate_by]].
      intro p. apply pt_eq; unfold rigid, padd, smul; cbn; rewrite cos_0, sin_0; ring.
    + apply pt_eq; unfold rigid, padd, smul; cbn; rewrite cos_0, sin_0; ring.
    + intro E. cbn. now rewrite E.
  - destruct (transform_by org rot mag refl arr r) as [A B]. rewrite B.
    exists refl, (opt 0 rot), (code_map org rot mag refl arr (0, 0)).
    assert (E : forall p, code_map org rot mag refl arr p = rigid refl (opt 1 mag) (opt 0 rot) (code_map org rot mag refl arr (0, 0)) p).
    { intro p. unfold code_map, rigid. apply pt_eq; unfold padd; cbn; destruct refl; ring. }
    unfold r_transform. set (r0 := r_remember r None).
    destruct (t_array_rest arr r0) as (O1 & W1 & S1 & N1 & G1). set (r1 := t_array arr r0) in *.
    destruct (t_reflect_rest refl r1) as (O2 & W2 & S2 & N2 & G2). set (r2 := t_reflect refl r1) in *.
    destruct (t_scale_rest mag r2) as (O3 & W3 & S3 & N3 & G3). set (r3 := t_scale mag r2) in *.
    destruct (t_rotate_rest rot r3) as (O4 & W4 & S4 & N4 & G4). set (r4 := t_rotate rot r3) in *.
    destruct (t_array_rest org r4) as (O5 & W5 & S5 & N5 & G5).
    repeat split.
    + eapply by_ext; [exact E|exact A].
    + apply E.
    + rewrite O5, O4, O3, O2, O1, times_times. reflexivity.
    + intro WS. rewrite W5, W4, W3, W2, W1, times_times; [reflexivity|]. rewrite S2, S1. exact WS.
    + rewrite S5, S4, S3, S2, S1. reflexivity.
    + rewrite N5, N4, N3, N2, N1. reflexivity.
    + rewrite G5, G4, G3, G2, G1. reflexivity.
  - exists false, 0, (0, 0). cbn [sg]. rewrite Rmult_1_l, !times_1. 
    assert (E : forall p, p = rigid false 1 0 (0, 0) p).
    { intro p. apply pt_eq; unfold rigid; cbn; rewrite cos_0, sin_0; ring. }
    unfold r_get. destruct (r_cache r); [|destruct (r_fill _ _ _ _ _ _)]; (repeat split; [eapply by_ext; [exact E|apply by_refl]|apply E]).
  - exists false, 0, (0, 0). cbn [sg]. rewrite Rmult_1_l, !times_1. 
    assert (E : forall p, p = rigid false 1 0 (0, 0) p).
    { intro p. apply pt_eq; unfold rigid; cbn; rewrite cos_0, sin_0; ring. }
    repeat split; [eapply by_ext; [exact E|apply by_refl]|apply E].
Qed.
(** The part acting on vectors *)
Definition lin (b : bool) (k t : R) (v : pt) : pt := rigid b k t (0, 0) v.
Lemma rigid_add b k t d p v : rigid b k t d (padd p v) = padd (rigid b k t d p) (lin b k t v).
Proof. apply pt_eq; unfold lin, rigid, padd; cbn; destruct b; ring. Qed.
Lemma rigid_sub b k t d p q : psub (rigid b k t d p) (rigid b k t d q) = lin b k t (psub p q).
Proof. apply pt_eq; unfold lin, rigid, psub; cbn; destruct b; ring. Qed.
Lemma lin_smul b k t a v : lin b k t (smul a v) = smul a (lin b k t v).
Proof. apply pt_eq; unfold lin, rigid, smul; cbn; destruct b; ring. Qed.
Lemma lin_len2 b k t v : len2 (lin b k t v) = k ^ 2 * len2 v.
Proof.
  unfold len2, lin, rigid; cbn [fst snd]. transitivity (k ^ 2 * (cos t ^ 2 + sin t ^ 2) * (fst v ^ 2 + snd v ^ 2)); [destruct b; ring|].
  rewrite cs2. ring.
Qed.
Lemma lin_len b k t v : len (lin b k t v) = Rabs k * len v.
Proof. unfold len. rewrite lin_len2, sqrt_mult_alt by apply pow2_ge_0. f_equal. rewrite <- pow2_abs. apply sqrt_pow2, Rabs_pos. Qed.
Lemma lin_right b k t v : lin b k t (snd v, - fst v) = smul (sg b) (snd (lin b k t v), - fst (lin b k t v)).
Proof. apply pt_eq; unfold lin, rigid, smul; cbn [fst snd]; destruct b; cbn [sg]; ring. Qed.
Lemma rigid_rigid b2 k2 t2 d2 b1 k1 t1 d1 p :
  rigid b2 k2 t2 d2 (rigid b1 k1 t1 d1 p) =
  rigid (xorb b2 b1) (k2 * k1) (if b2 then t2 - t1 else t2 + t1) (rigid b2 k2 t2 d2 d1) p.
Proof. apply pt_eq; unfold rigid; destruct b1, b2; cbn [xorb fst snd]; rewrite ?cos_plus, ?sin_plus, ?cos_minus, ?sin_minus; ring. Qed.
Lemma len2_pos v : v <> (0, 0) -> 0 < len2 v.
Proof.
  intro N. unfold len2. destruct v as [x y]; cbn [fst snd].
  destruct (Req_dec x 0) as [->|X].
  - destruct (Req_dec y 0) as [->|Y]; [congruence|]. pose proof (pow2_ge_0 0). assert (0 < y ^ 2); [|lra]. rewrite <- Rsqr_pow2. now apply Rsqr_pos_lt.
  - pose proof (pow2_ge_0 y). assert (0 < x ^ 2); [|lra]. rewrite <- Rsqr_pow2. now apply Rsqr_pos_lt.
Qed.
Lemma len_pos v : v <> (0, 0) -> 0 < len v. Proof. intro N. apply sqrt_lt_R0. now apply len2_pos. Qed.
Lemma len_flip v : len (snd v, - fst v) = len v.
Proof. unfold len, len2. f_equal. cbn. ring. Qed.
Lemma len_smul a v : len (smul a v) = Rabs a * len v.
Proof.
  unfold len. replace (len2 (smul a v)) with (Rabs a ^ 2 * len2 v) by (rewrite pow2_abs; unfold len2, smul; cbn; ring).
  rewrite sqrt_mult_alt by apply pow2_ge_0. f_equal. apply sqrt_pow2, Rabs_pos.
Qed.
Lemma right_smul a v : 0 < a -> v <> (0, 0) -> right_of (smul a v) = right_of v.
Proof.
  intros A N. pose proof (len_pos v N) as L. unfold right_of. cbv zeta.
  replace (snd (smul a v), - fst (smul a v)) with (smul a (snd v, - fst v)) by (apply pt_eq; unfold smul; cbn; ring).
  rewrite len_smul, len_flip, Rabs_pos_eq by lra. apply pt_eq; unfold smul; cbn [fst snd]; field; lra.
Qed.
(** A rigid motion takes the unit vector to the right to that of the moved
    direction; to the left if it reflects. *)
Lemma lin_right_of b k t v : 0 < k -> v <> (0, 0) -> lin b k t (right_of v) = smul (sg b * k) (right_of (lin b k t v)).
Proof.
  intros K N. pose proof (len_pos v N) as L. unfold right_of. cbv zeta. rewrite lin_smul, lin_right, !len_flip, lin_len, Rabs_pos_eq by lra.
  apply pt_eq; unfold smul; cbn [fst snd]; field; lra.
Qed.
Lemma lin_zero b k t v : 0 < k -> v <> (0, 0) -> lin b k t v <> (0, 0).
Proof.
  intros K N E. pose proof (len2_pos v N) as L. assert (Z : len2 (lin b k t v) = 0) by (rewrite E; unfold len2; cbn; ring).
  rewrite lin_len2 in Z. assert (0 < k ^ 2) by (apply pow_lt; lra). nra.
Qed.

(** ** The ends of the parallel paths are what the path remembers *)

(** [s] ends at [x] with offset [o] and width [w] *)
Definition ends_at (ws : bool) (x : pt) (o w : R) (s : sub) : Prop :=
  exists b k t d, 0 < k /\ (forall p, apply (s_tr s) p = rigid b k t d p) /\ spine s 1 = x /\ o = sg b * k * s_off s 1 /\
    (ws = true -> w = sg b * k * s_wid s 1).
Fixpoint linked (path : list sub) : Prop :=
  match path with
  | [] => True
  | s :: rest => match rest with [] => True | t :: _ => meets s t /\ linked rest end
  end.
Definition last_end (P : sub -> Prop) (path : list sub) : Prop := match rev path with [] => True | s :: _ => P s end.
Definition good (r : robust) : Prop :=
  length (r_o r) = r_n r /\ length (r_w r) = r_n r /\ length (r_paths r) = r_n r /\
  forall k path, nth_error (r_paths r) k = Some path -> linked path /\
    last_end (ends_at (widths_scale r) (r_x r) (nth k (r_o r) 0) (nth k (r_w r) 0)) path.
Lemma linked_app path t : linked path -> last_end (fun s => meets s t) path -> linked (path ++ [t]).
Proof.
  unfold last_end. induction path as [|s path IH]; intros L E; [exact I|]. destruct path as [|s' path].
  - cbn in *. auto.
  - cbn [app linked] in *. destruct L as [L1 L2]. split; [exact L1|]. apply IH; [exact L2|].
    cbn [rev] in E |- *. destruct (rev path ++ [s']) eqn:Q; [now destruct (rev path)|]. exact E.
Qed.
Lemma last_snoc (P : sub -> Prop) path t : P t -> last_end P (path ++ [t]).
Proof. intro H. unfold last_end. now rewrite rev_unit. Qed.
(** Moves preserve it *)
Lemma spine_by m s s' u : moved_by m s s' -> spine s' u = m (spine s u).
Proof. intros [E D]. unfold spine. rewrite D. now rewrite E. Qed.
Lemma heading_by b k t d s s' u : moved_by (rigid b k t d) s s' -> heading s' u = lin b k t (heading s u).
Proof. intros [E D]. unfold heading. rewrite !D, rigid_sub. now rewrite E. Qed.
Lemma regular_by m s s' u : moved_by m s s' -> regular s' u -> regular s u.
Proof. intros [E _]. rewrite E. exact (fun H => H). Qed.
Lemma width_rigid b k t d s s' u : moved_by (rigid b k t d) s s' -> s_width s' u = Rabs k * s_width s u.
Proof. intro D. unfold s_width. now rewrite !(moved_at _ _ _ D), rigid_sub, lin_len. Qed.
Lemma lin_inj b k t v w : k <> 0 -> lin b k t v = lin b k t w -> v = w.
Proof.
  intros K E. assert (Z : len2 (lin b k t (psub v w)) = 0).
  { assert (Y : lin b k t (psub v w) = psub (lin b k t v) (lin b k t w)) by (apply pt_eq; unfold lin, rigid, psub; cbn; destruct b; ring).
    rewrite Y, E. unfold len2, psub; cbn; ring. }
  rewrite lin_len2 in Z. assert (K2 : 0 < k ^ 2) by (rewrite <- Rsqr_pow2; now apply Rsqr_pos_lt).
  destruct (Req_dec (fst v - fst w) 0) as [X|X], (Req_dec (snd v - snd w) 0) as [Y|Y].
  1: apply pt_eq; lra.
  all: exfalso; assert (P : 0 < len2 (psub v w)) by (apply len2_pos; intro C; apply (f_equal fst) in C as C1; apply (f_equal snd) in C as C2; unfold psub in C1, C2; cbn in C1, C2; lra); nra.
Qed.
Lemma meets_by b k t d s1 s2 s1' s2' : 0 < k -> moved_by (rigid b k t d) s1 s1' -> moved_by (rigid b k t d) s2 s2' -> meets s1 s2 -> meets s1' s2'.
Proof.
  intros K M1 M2 (A & B & C). split; [|split].
  - rewrite (spine_by _ _ _ _ M1), (spine_by _ _ _ _ M2). now rewrite A.
  - intros (N & a & P & E). rewrite (moved_at _ _ _ M1), (moved_at _ _ _ M2). f_equal. apply B.
    rewrite (heading_by _ _ _ _ _ _ _ M1) in N. rewrite (heading_by _ _ _ _ _ _ _ M1), (heading_by _ _ _ _ _ _ _ M2) in E. split.
    + intro Z. apply N. rewrite Z. apply pt_eq; unfold lin, rigid; cbn; destruct b; ring.
    + exists a. split; [exact P|]. apply (lin_inj b k t); [lra|]. now rewrite lin_smul.
  - intros R1 R2. rewrite (width_rigid _ _ _ _ _ _ _ M1), (width_rigid _ _ _ _ _ _ _ M2). f_equal.
    apply C; [eapply regular_by; [exact M1|exact R1]|eapply regular_by; [exact M2|exact R2]].
Qed.
Lemma linked_by b k t d p q : 0 < k -> Forall2 (moved_by (rigid b k t d)) p q -> linked p -> linked q.
Proof.
  intros K H. induction H as [|s s' p q M H IH]; intro L; [exact I|]. destruct H as [|u u' p q M' H]; [exact I|].
  cbn [linked] in *. destruct L as [L1 L2]. split; [eapply meets_by; eauto|]. now apply IH.
Qed.
Lemma last_by m (P Q : sub -> Prop) p q : (forall s s', moved_by m s s' -> P s -> Q s') -> Forall2 (moved_by m) p q -> last_end P p -> last_end Q q.
Proof.
  intros E H. unfold last_end. assert (H' : Forall2 (moved_by m) (rev p) (rev q)).
  { clear E. induction H; cbn [rev]; [constructor|]. apply Forall2_app; auto. }
  destruct H' as [|s s' p' q' M _]; auto. now apply E.
Qed.
Lemma move_good fuel hob eng c r q : draws c = false -> 0 < factor_of c -> do_rcall fuel hob eng c r = Some q -> good r -> good q.
Proof.
  intros D K H (G1 & G2 & G3 & G4). assert (AL : length (r_w q) = length (r_w r) /\ length (r_o q) = length (r_o r)).
  { clear - D H. destruct c; cbn [draws one_section] in D; try discriminate; cbn [do_rcall] in H; injection H as <-.
    - auto. - auto. - cbn. rewrite times_length. split; [destruct (widths_scale r); auto using times_length|reflexivity].
    - unfold r_transform. destruct (t_array_rest org (t_rotate rot (t_scale mag (t_reflect refl (t_array arr (r_remember r None)))))) as (-> & -> & _).
      destruct (t_rotate_rest rot (t_scale mag (t_reflect refl (t_array arr (r_remember r None))))) as (-> & -> & _).
      destruct mag; cbn [t_scale r_with r_w r_o]; rewrite ?times_length; try destruct (widths_scale _); rewrite ?times_length;
        destruct (t_reflect_rest refl (t_array arr (r_remember r None))) as (-> & -> & _); rewrite !times_length;
        destruct (t_array_rest arr (r_remember r None)) as (-> & -> & _); auto.
    - unfold r_get. destruct (r_cache r); [auto|]. destruct (r_fill _ _ _ _ _ _). auto.
    - auto. }
  destruct AL as [LW LO]. destruct (call_rigid _ _ _ _ _ _ D H) as (b & t & d & S & X & O & W & WS & N & GD).
  split; [congruence|]. split; [congruence|]. split; [rewrite N, <- G3; symmetry; clear - S; induction S; cbn [length]; congruence|].
  intros j path' P'. assert (P : exists path, nth_error (r_paths r) j = Some path /\ Forall2 (moved_by (rigid b (factor_of c) t d)) path path').
  { clear - S P'. revert j P'. induction S as [|p p' ps ps' E _ IH]; intros [|j] P'; cbn [nth_error] in *; try discriminate; eauto. injection P' as <-. eauto. }
  destruct P as (path & P & F). destruct (G4 j path P) as [L E]. split; [eapply linked_by; eauto|].
  eapply last_by; [|exact F|exact E]. intros s s' M (b1 & k1 & t1 & d1 & K1 & A1 & A2 & A3 & A4).
  exists (xorb b b1), (factor_of c * k1), (if b then t - t1 else t + t1), (rigid b (factor_of c) t d d1). split; [|split; [|split; [|split]]].
  - apply Rmult_lt_0_compat; lra.
  - intro p. destruct M as [_ M]. rewrite M, A1. apply rigid_rigid.
  - rewrite (spine_by _ _ _ _ M), A2. now rewrite X.
  - rewrite O. unfold times. rewrite <- (Rmult_0_l (sg b * factor_of c)) at 1. rewrite (map_nth (fun x => x * (sg b * factor_of c)) (r_o r) 0 j), A3.
    destruct M as [-> _]. cbn [with_tr s_off]. destruct b, b1; cbn [xorb sg]; ring.
  - intro Z. rewrite WS in Z. rewrite (W Z). unfold times. rewrite <- (Rmult_0_l (sg b * factor_of c)) at 1.
    rewrite (map_nth (fun x => x * (sg b * factor_of c)) (r_w r) 0 j), (A4 Z).
    destruct M as [-> _]. cbn [with_tr s_wid]. destruct b, b1; cbn [xorb sg]; ring.
Qed.

(** ** Drawing preserves it *)

Lemma id_rigid p : apply aff_id p = rigid false 1 0 (0, 0) p.
Proof. apply pt_eq; unfold apply, aff_id, rigid; cbn; rewrite cos_0, sin_0; ring. Qed.
Lemma id_apply p : apply aff_id p = p.
Proof. apply pt_eq; unfold apply, aff_id; cbn; ring. Qed.
(** The width of a component whose map is rigid *)
Lemma right_len v : v <> (0, 0) -> len (right_of v) = 1.
Proof.
  intro N. pose proof (len_pos v N). unfold right_of. cbv zeta. rewrite len_smul, len_flip, Rabs_pos_eq; [field; lra|].
  left. now apply Rinv_0_lt_compat.
Qed.
Lemma psub_zero p q : psub p q = (0, 0) -> p = q.
Proof. intro E. apply (f_equal fst) in E as E1. apply (f_equal snd) in E as E2. unfold psub in *. cbn in *. apply pt_eq; lra. Qed.
Lemma rigid_width b k t d s u : 0 < k -> (forall p, apply (s_tr s) p = rigid b k t d p) -> regular s u -> s_width s u = k * Rabs (s_wid s u).
Proof.
  intros K E RG. unfold s_width, s_at. rewrite !E, rigid_sub, lin_len, Rabs_pos_eq by lra. f_equal. unfold s_raw. cbn [Z.eqb Z.ltb Z.compare]. 
  set (w := right_of _). assert (L : len w = 1).
  { unfold w. apply right_len. intro Z. apply RG. now apply psub_zero. }
  clearbody w.
  replace (psub (psub (s_centre s u) (smul (/ 2 * s_wid s u) w)) (padd (s_centre s u) (smul (/ 2 * s_wid s u) w))) with (smul (- s_wid s u) w)
    by (apply pt_eq; unfold psub, padd, smul; cbn [fst snd]; lra).
  now rewrite len_smul, L, Rabs_Ropp, Rmult_1_r.
Qed.
Lemma new_meets s f df off wid tol ev x o w : ends_at true x o w s -> f 0 = x -> off 0 = o -> wid 0 = w ->
  meets s (new_sub f df off wid tol ev).
Proof.
  intros (b & k & t & d & K & A1 & A2 & A3 & A4) F0 O0 W0. specialize (A4 eq_refl). split; [|split].
  - unfold spine at 1. cbn [new_sub s_tr s_x]. now rewrite id_apply, F0.
  - intros (N & a & P & E). unfold s_at. cbn [s_raw Z.eqb]. unfold s_centre at 1. cbn [new_sub s_tr s_x s_dx s_off s_h]. rewrite id_apply, F0, O0.
    unfold heading in E at 1. cbn [new_sub s_tr s_dx s_h] in E. rewrite !id_apply in E.
    assert (E' : df 0 (/ 2 / INR ev) = smul a (heading s 1)).
    { rewrite <- E. apply pt_eq; unfold psub; cbn; ring. }
    rewrite E', (right_smul a _ P N), A1. unfold s_centre. rewrite rigid_add, lin_smul, <- A1. fold (spine s 1). rewrite A2.
    assert (HL : heading s 1 = lin b k t (s_dx s 1 (s_h s))).
    { unfold heading. rewrite !A1, rigid_sub. f_equal. apply pt_eq; unfold psub; cbn; ring. }
    assert (ND : s_dx s 1 (s_h s) <> (0, 0)).
    { intro Z. apply N. rewrite HL, Z. apply pt_eq; unfold lin, rigid; cbn; destruct b; ring. }
    rewrite lin_right_of, <- HL by assumption. rewrite A3. apply pt_eq; unfold padd, smul; cbn; ring.
  - intros R1 R2. rewrite (rigid_width b k t d s 1 K A1 R1), (rigid_width false 1 0 (0, 0) (new_sub f df off wid tol ev) 0 ltac:(lra) id_rigid R2).
    cbn [new_sub s_wid]. rewrite W0, A4, !Rabs_mult, (Rabs_pos_eq k), abs_sg by lra. ring.
Qed.
Lemma parse_offset_0 r o k off : from_here true o -> parse_offset r o k = Some off -> off 0 = nth k (r_o r) 0.
Proof.
  unfold parse_offset. destruct (nth_error (r_o r) k) as [v|] eqn:E; [|discriminate]. rewrite (nth_error_nth _ _ 0 E).
  destruct o as [|x|g|l]; cbn [from_here]; intros FH H.
  - now injection H as <-.
  - injection H as <-. unfold linear. ring.
  - injection H as <-. rewrite FH. ring.
  - destruct (nth_error l k) as [[y|g]|] eqn:L; cbn [option_map] in H; [| |discriminate].
    + injection H as <-. cbn [item_from]. unfold linear. ring.
    + apply nth_error_In in L. rewrite Forall_forall in FH. now apply FH in L.
Qed.
Lemma parse_width_0 r w k wid : from_here false w -> parse_width r w k = Some wid -> wid 0 = nth k (r_w r) 0.
Proof.
  unfold parse_width. destruct (nth_error (r_w r) k) as [v|] eqn:E; [|discriminate]. rewrite (nth_error_nth _ _ 0 E).
  destruct (r_gds r); [intros _ H; now injection H as <-|].
  destruct w as [|x|g|l]; cbn [from_here]; intros FH H.
  - now injection H as <-.
  - injection H as <-. unfold linear. ring.
  - contradiction.
  - destruct (nth_error l k) as [[y|g]|] eqn:L; cbn [option_map] in H; [| |discriminate].
    + injection H as <-. cbn [item_from]. unfold linear. ring.
    + apply nth_error_In in L. rewrite Forall_forall in FH. now apply FH in L.
Qed.
Lemma last_imp (P Q : sub -> Prop) path : (forall s, P s -> Q s) -> last_end P path -> last_end Q path.
Proof. unfold last_end. destruct (rev path); auto. Qed.
Lemma drawn_good f df x w o r q : drawn f df x w o r q -> widths_scale r = true -> f 0 = r_x r -> f 1 = x -> from_here false w -> from_here true o ->
  good r -> good q.
Proof.
  intros D WS F0 F1 FW FO (G1 & G2 & G3 & G4). destruct D. split; [congruence|]. split; [congruence|]. split; [congruence|].
  intros k path' P'. assert (L : (k < r_n r)%nat). { rewrite <- G3, <- d_lp. apply nth_error_Some. congruence. }
  destruct (d_k k L) as (off & wid & path & PO & PW & P & QO & QW & QP). rewrite P' in QP. injection QP as ->.
  destruct (G4 k path P) as [LK LE]. split.
  - apply linked_app; [exact LK|]. eapply last_imp; [|exact LE]. intros s E. rewrite WS in E. eapply new_meets; [exact E|exact F0| |].
    + now apply (parse_offset_0 r o k).
    + now apply (parse_width_0 r w k).
  - apply last_snoc. exists false, 1, 0, (0, 0). rewrite (nth_error_nth _ _ 0 QO), (nth_error_nth _ _ 0 QW), d_x. cbn [new_sub s_tr s_off s_wid sg].
    split; [lra|]. split; [intro; apply id_rigid|]. split; [unfold spine; cbn [new_sub s_tr s_x]; now rewrite id_apply|]. split; [ring|intros; ring].
Qed.
Lemma arc_good radius a0 a1 w o r q : widths_scale r = true -> from_here false w -> from_here true o -> r_arc radius a0 a1 w o r = Some q -> good r -> good q.
Proof.
  intros WS FW FO H G. unfold r_arc in H. apply add_section_drawn in H. eapply drawn_good; eauto.
  cbv beta. replace (a0 * (1 - 0) + a1 * 0) with a0 by ring. apply pt_eq; unfold padd, psub; cbn; ring.
Qed.
Lemma bezier_good l w o rel r q : widths_scale r = true -> from_here false w -> from_here true o -> r_bezier l w o rel r = Some q -> good r -> good q.
Proof.
  intros WS FW FO H G. unfold r_bezier in H. destruct l as [|p l]; [discriminate|]. apply add_section_drawn in H. eapply drawn_good; eauto.
  - apply bezier_0.
  - apply bezier_1. discriminate.
Qed.
Lemma bezier_scale l w o rel r q : r_bezier l w o rel r = Some q -> widths_scale q = widths_scale r.
Proof.
  intro H. unfold r_bezier in H. destruct l as [|p l]; [discriminate|]. apply add_section_drawn in H. destruct H. unfold widths_scale. congruence.
Qed.
Lemma sections_good secs w o : from_here false w -> from_here true o -> forall r q, widths_scale r = true -> r_sections secs w o r = Some q -> good r ->
  good q /\ widths_scale q = true.
Proof.
  intros FW FO. induction secs as [|[[a b] e] secs IH]; intros r q WS H G; cbn [r_sections] in H; [injection H as <-; auto|].
  destruct (r_bezier [a; b; e] w o false r) as [m|] eqn:E; [|discriminate]. apply (IH m); auto.
  - now rewrite (bezier_scale _ _ _ _ _ _ E).
  - eapply bezier_good; eauto.
Qed.
Lemma call_good fuel hob eng c r q : steady c -> widths_scale r = true -> do_rcall fuel hob eng c r = Some q -> good r -> good q /\ widths_scale q = true.
Proof.
  intros ST WS H G. destruct (draws c) eqn:D.
  - assert (WQ : draws c = true -> one_section c <> None -> widths_scale q = true).
    { intros _ N. destruct (one_section c) as [[w o]|] eqn:E; [|congruence]. destruct (one_section_drawn _ _ _ _ _ _ _ _ E H) as (f & df & x & DR).
      destruct DR. unfold widths_scale in *. congruence. }
    destruct c; cbn [draws one_section] in *; try discriminate; cbn [steady do_rcall] in ST, H.
    + split; [|apply WQ; congruence]. destruct ST. unfold r_segment in H. apply add_section_drawn in H. eapply drawn_good; eauto.
      * apply pt_eq; unfold line_to, padd, smul; cbn; ring.
      * apply pt_eq; unfold line_to, padd, smul; cbn; ring.
    + split; [|apply WQ; congruence]. destruct ST. eapply arc_good; eauto.
    + split; [|apply WQ; congruence]. destruct ST. unfold r_turn in H. destruct (r_paths r) eqn:P; [discriminate|]. rewrite <- P in H.
      destruct (last_dirs (r_paths r)); [|discriminate]. eapply arc_good; eauto.
    + split; [|apply WQ; congruence]. destruct ST as (-> & Z & FW & FO). unfold r_parametric in H. apply add_section_drawn in H. eapply drawn_good; eauto.
      cbv beta. rewrite Z. apply pt_eq; unfold padd; cbn; ring.
    + split; [|apply WQ; congruence]. destruct ST. eapply bezier_good; eauto.
    + destruct ST. unfold r_smooth in H. eapply sections_good; eauto.
  - assert (K : 0 < factor_of c). { destruct c; cbn [factor_of steady] in *; try lra; exact ST. }
    split; [eapply move_good; eauto|]. destruct (call_rigid _ _ _ _ _ _ D H) as (b & t & d & _ & _ & _ & _ & E & _). congruence.
Qed.
Lemma init_good p width offset ends tol prec mx ev gds wt la dt r : lists_agree width offset ->
  robust_init p width offset ends tol prec mx ev gds wt la dt = Some r -> good r.
Proof.
  intros LA H. pose proof (init_aligned _ _ _ _ _ _ _ _ _ _ _ _ _ LA H) as (A & B & _ & _ & _ & C & _). split; [exact B|]. split; [exact A|]. split; [exact C|].
  intros k path P. unfold robust_init in H. destruct (start_rows width offset) as [[n w] o].
  destruct (cyclic n ends); [|discriminate]. destruct (cyclic n la); [|discriminate]. destruct (cyclic n dt); [|discriminate]. injection H as <-.
  cbn [r_paths] in P. apply nth_error_In in P. apply repeat_spec in P. subst path. split; exact I.
Qed.
Lemma calls_good fuel hob eng cs : forall r q, Forall steady cs -> widths_scale r = true -> do_rcalls fuel hob eng cs r = Some q -> good r -> good q /\ widths_scale q = true.
Proof.
  induction cs as [|c cs IH]; intros r q F WS H G; cbn [do_rcalls] in H; [injection H as <-; auto|].
  destruct (do_rcall fuel hob eng c r) as [m|] eqn:E; [|discriminate]. inversion F; subst.
  destruct (call_good _ _ _ _ _ _ ltac:(eassumption) WS E G) as [Gm Wm]. eauto.
Qed.
Lemma linked_nth path : linked path -> forall i s t, nth_error path i = Some s -> nth_error path (S i) = Some t -> meets s t.
Proof.
  induction path as [|s path IH]; intros L [|i] a b A B; cbn [nth_error] in *; try discriminate.
  - injection A as <-. destruct path; [discriminate|]. cbn in B. injection B as <-. apply L.
  - destruct path; [now destruct i|]. destruct L as [_ L]. eapply IH; eauto.
Qed.

(** ** C68 *)

(** However a path was drawn and moved, with sections that begin where the path
    ended: consecutive components of every parallel path meet, and the path's end
    point and widths are those of the last components. *)
Theorem C68_joined : forall fuel hob eng p width offset ends tol prec mx ev gds wt la dt r0 cs r,
  lists_agree width offset -> robust_init p width offset ends tol prec mx ev gds wt la dt = Some r0 ->
  wt = true \/ gds = false -> Forall steady cs -> do_rcalls fuel hob eng cs r0 = Some r ->
  forall k path, nth_error (r_paths r) k = Some path ->
    (forall i s t, nth_error path i = Some s -> nth_error path (S i) = Some t -> meets s t) /\
    (forall s, nth_error path (length path - 1) = Some s ->
       spine s 1 = r_x r /\ (regular s 1 -> Rabs (nth k (r_w r) 0) = s_width s 1)).
Proof.
  intros fuel hob eng p width offset ends tol prec mx ev gds wt la dt r0 cs r LA I0 WS F H k path P.
  assert (W0 : widths_scale r0 = true).
  { clear - I0 WS. unfold robust_init in I0. destruct (start_rows width offset) as [[n w] o].
    destruct (cyclic n ends); [|discriminate]. destruct (cyclic n la); [|discriminate]. destruct (cyclic n dt); [|discriminate]. injection I0 as <-.
    unfold widths_scale. cbn. destruct WS as [-> | ->]; [reflexivity|apply orb_true_r]. }
  destruct (calls_good _ _ _ _ _ _ F W0 H (init_good _ _ _ _ _ _ _ _ _ _ _ _ _ LA I0)) as [(_ & _ & _ & G) W].
  destruct (G k path P) as [L E]. split; [now apply linked_nth|].
  intros s S. unfold last_end in E. destruct (rev path) as [|z rp] eqn:RP.
  - apply (f_equal (@rev sub)) in RP. rewrite rev_involutive in RP. subst path. discriminate.
  - assert (Z : z = s).
    { apply (f_equal (@rev sub)) in RP. rewrite rev_involutive in RP. cbn [rev] in RP. subst path. rewrite app_length in S. cbn [length] in S.
      rewrite nth_error_app2 in S by lia. replace (length (rev rp) + 1 - 1 - length (rev rp))%nat with 0%nat in S by lia. now injection S. }
    subst z. rewrite W in E. destruct E as (b & k' & t & d & K & A1 & A2 & A3 & A4). split; [exact A2|]. intro RG.
    rewrite (rigid_width b k' t d s 1 K A1 RG), (A4 eq_refl), !Rabs_mult, (Rabs_pos_eq k'), abs_sg by lra. ring.
Qed.
Print Assumptions C68_joined.
