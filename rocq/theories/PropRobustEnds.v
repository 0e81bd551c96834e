(** C69: where the sections of a RobustPath end, and how wide they are. *)

From Coq Require Import Reals Lra Lia List ZArith Bool.
From Verif Require Import Plane PlaneProofs Curve CurveProofs Engine Flex SpecFlex PropFlexEnds Robust SpecRobust PropRobust PropRobustJoin RobustExample.
Import ListNotations.
Open Scope R_scope.

(** ** Widths and offsets *)

(** Every section drawn by one call: in parallel path [k] its width and offset at
    every parameter are those asked for, and the path remembers the final ones.
    With [gdsii_path] widths do not change. *)
Theorem C69_dimensions : forall fuel hob eng c w o r q k path', one_section c = Some (w, o) -> do_rcall fuel hob eng c r = Some q ->
  r_aligned r -> nth_error (r_paths q) k = Some path' ->
  exists path s, path' = path ++ [s] /\ nth_error (r_paths r) k = Some path /\
    (forall u, s_wid s u = if r_gds r then nth k (r_w r) 0 else wanted (nth k (r_w r) 0) false w k u) /\
    (forall u, s_off s u = wanted (nth k (r_o r) 0) true o k u) /\
    nth k (r_w q) 0 = s_wid s 1 /\ nth k (r_o q) 0 = s_off s 1.
Proof.
  intros fuel hob eng c w o r q k path' E H A P. destruct (one_section_drawn _ _ _ _ _ _ _ _ E H) as (f & df & x & D). destruct D.
  destruct A as (A1 & A2 & _ & _ & _ & A3 & _).
  assert (L : (k < r_n r)%nat). { rewrite <- A3, <- d_lp. apply nth_error_Some. congruence. }
  destruct (d_k k L) as (off & wid & path & PO & PW & PP & QO & QW & QP). rewrite P in QP. injection QP as ->.
  exists path, (new_sub f df off wid (r_tol r) (r_evals r)). cbn [new_sub s_wid s_off].
  split; [reflexivity|]. split; [exact PP|]. rewrite (nth_error_nth _ _ 0 QO), (nth_error_nth _ _ 0 QW). repeat split.
  - intro u. unfold parse_width in PW. destruct (nth_error (r_w r) k) as [v|] eqn:Q; [|discriminate]. rewrite (nth_error_nth _ _ 0 Q).
    destruct (r_gds r); [now injection PW as <-|]. destruct w as [|y|g|l]; cbn [wanted].
    + now injection PW as <-.
    + injection PW as <-. unfold linear. ring.
    + now injection PW as <-.
    + destruct (nth_error l k) as [[y|g]|]; [| |discriminate]; injection PW as <-; cbn [item_from]; [unfold linear; ring|reflexivity].
  - intro u. unfold parse_offset in PO. destruct (nth_error (r_o r) k) as [v|] eqn:Q; [|discriminate]. rewrite (nth_error_nth _ _ 0 Q).
    destruct o as [|y|g|l]; cbn [wanted].
    + now injection PO as <-.
    + injection PO as <-. unfold linear. ring.
    + injection PO as <-. ring.
    + destruct (nth_error l k) as [[y|g]|]; [| |discriminate]; injection PO as <-; cbn [item_from]; [unfold linear; ring|reflexivity].
Qed.
Print Assumptions C69_dimensions.

(** ** End points *)

Lemma arc_end_r ra a b w o r q : r_arc ra a b w o r = Some q -> r_x q = padd (r_x r) (ra * cos b - ra * cos a, ra * sin b - ra * sin a).
Proof.
  intro H. unfold r_arc in H. apply add_section_drawn in H. rewrite (d_x _ _ _ _ _ _ _ H). replace (a * (1 - 1) + b * 1) with b by ring.
  apply pt_eq; unfold padd, psub, on_circle; cbn [fst snd]; ring.
Qed.
Lemma bezier_end_r l w o rel r q : r_bezier l w o rel r = Some q -> r_x q = r_place rel r (last l (0, 0)).
Proof.
  intro H. unfold r_bezier in H. destruct l as [|p l]; [discriminate|]. apply add_section_drawn in H. rewrite (d_x _ _ _ _ _ _ _ H).
  unfold r_place. destruct rel; [|reflexivity].
  change (last (r_x r :: map ?g (p :: l)) (0, 0)) with (last (map g (p :: l)) (0, 0)). now rewrite (last_map _ (p :: l) (0, 0)) by discriminate.
Qed.
Lemma sections_end_r secs : forall w o r q, r_sections secs w o r = Some q ->
  r_x q = match secs with [] => r_x r | _ => snd (last secs ((0, 0), (0, 0), (0, 0))) end.
Proof.
  induction secs as [|[[a b] e] rest IH]; cbn [r_sections]; intros w o r q E; [injection E as <-; reflexivity|].
  destruct (r_bezier [a; b; e] w o false r) as [m|] eqn:B; [|discriminate]. apply bezier_end_r in B. cbn in B.
  rewrite (IH _ _ _ _ E). destruct rest as [|s rest]; [exact B|]. reflexivity.
Qed.
(** The direction used by [turn] *)
Lemma straight_slope d s : straight_sub d s -> d <> (0, 0) -> s_grad_raw s 1 0 = d.
Proof.
  intros (_ & H & a & o & X & DX & O) N. unfold s_grad_raw, slope, s_raw. cbn [Z.eqb]. unfold s_centre. rewrite !X, !DX, !O.
  rewrite (Rmin_left 1) by lra. rewrite Rmax_right by lra. apply pt_eq; unfold smul, psub, padd; cbn [fst snd]; field; lra.
Qed.
Lemma last_dirs_same d ps : d <> (0, 0) -> (forall p, In p ps -> exists s p', p = p' ++ [s] /\ straight_sub d s) ->
  last_dirs ps = Some (repeat (atan2 (snd d) (fst d)) (length ps)).
Proof.
  intros N. induction ps as [|p ps IH]; intro H; [reflexivity|]. cbn [last_dirs length repeat].
  destruct (H p (or_introl eq_refl)) as (s & p' & -> & S). rewrite rev_unit, IH by (intros; apply H; now right).
  now rewrite (straight_slope d s S N).
Qed.
Lemma average x n : n <> 0%nat -> rsum (repeat x n) / INR n = x.
Proof.
  intro N. assert (S : rsum (repeat x n) = INR n * x).
  { clear N. induction n as [|n IH]; [cbn; ring|]. rewrite S_INR. cbn [repeat rsum fold_right]. unfold rsum in IH. rewrite IH. ring. }
  rewrite S. field. now apply not_0_INR.
Qed.
(** The initial angle of a turn *)
Definition turn_from (d : pt) (angle : R) : R := atan2 (snd d) (fst d) + (if Rlt_dec angle 0 then PI / 2 else - (PI / 2)).
Lemma turn_is_arc ra a w o r q d : straight_end d r -> r_turn ra a w o r = Some q -> r_arc ra (turn_from d a) (turn_from d a + a) w o r = Some q.
Proof.
  intros [N S] H. unfold r_turn in H. destruct (r_paths r) as [|p ps] eqn:P; [discriminate|]. rewrite <- P in *.
  rewrite (last_dirs_same d (r_paths r) N S) in H. rewrite average in H by (rewrite P; discriminate). exact H.
Qed.
Lemma turn_cs d a : d <> (0, 0) ->
  let n := smul (/ sqrt (dot d d)) (- snd d, fst d) in let s := if Rlt_dec a 0 then 1 else -1 in
  cos (turn_from d a) = s * fst n /\ sin (turn_from d a) = s * snd n.
Proof.
  intros N. cbv zeta. assert (Nd : (fst d, snd d) <> (0, 0)) by (destruct d; exact N). destruct (cos_atan2 (snd d) (fst d) Nd) as [Ca Sa].
  unfold turn_from. replace (dot d d) with (fst d ^ 2 + snd d ^ 2) by (unfold dot; ring). unfold smul. cbn [fst snd].
  destruct (Rlt_dec a 0).
  - rewrite cos_plus, sin_plus, cos_PI2, sin_PI2, Ca, Sa. unfold Rdiv. split; ring.
  - replace (atan2 (snd d) (fst d) + - (PI / 2)) with (atan2 (snd d) (fst d) - PI / 2) by ring.
    rewrite cos_minus, sin_minus, cos_PI2, sin_PI2, Ca, Sa. unfold Rdiv. split; ring.
Qed.
(** After each call that draws the path ends at the place the call names. *)
Theorem C69_end : forall fuel hob eng c d r q, draws c = true -> r_given c d r -> do_rcall fuel hob eng c r = Some q -> r_x q = r_target c d r.
Proof.
  intros fuel hob eng c d r q D G H. destruct c; try discriminate D; cbn [do_rcall r_target r_given] in *.
  - unfold r_segment in H. apply add_section_drawn in H. rewrite (d_x _ _ _ _ _ _ _ H). unfold r_place. destruct rel; [|reflexivity].
    apply pt_eq; unfold padd; cbn; ring.
  - eapply arc_end_r, H.
  - pose proof (turn_is_arc _ _ _ _ _ _ _ G H) as T. apply arc_end_r in T. rewrite T. destruct G as [N _].
    destruct (turn_cs d angle N) as [C S]. unfold rotate_pt, r_turn_centre. set (n := smul _ _) in *. clearbody n.
    rewrite cos_plus, sin_plus, C, S. destruct (Rlt_dec angle 0); apply pt_eq; unfold padd, psub, smul, rot_cs; cbn [fst snd]; ring.
  - unfold r_parametric in H. apply add_section_drawn in H. rewrite (d_x _ _ _ _ _ _ _ H). unfold r_place. destruct rel; [|reflexivity].
    apply pt_eq; unfold padd; cbn; ring.
  - eapply bezier_end_r, H.
  - unfold r_smooth in H. cbn [tl hd] in H.
    assert (T : (if rel then map (padd (r_x r)) l else l) = map (r_place rel r) l) by (unfold r_place; destruct rel; [reflexivity|symmetry; apply map_id]).
    rewrite T in *. set (ks := hs _) in *. apply sections_end_r in H. rewrite H. clear H. destruct cycle.
    + match goal with |- match ?x with _ => _ end = _ => destruct x eqn:Z; [now apply app_eq_nil in Z as [_ Z]|rewrite <- Z; clear Z] end.
      rewrite last_last. reflexivity.
    + rewrite app_nil_r. destruct l as [|p l]; [cbn [map]; rewrite combine_nil; reflexivity|].
      assert (N : combine ks (map (r_place rel r) (p :: l)) <> []) by (destruct ks; cbn in G |- *; [lia|discriminate]).
      match goal with |- match ?x with _ => _ end = _ => destruct x eqn:Z; [apply map_eq_nil in Z; contradiction|rewrite <- Z; clear Z] end.
      rewrite (last_map _ _ ((0, 0), (0, 0), (0, 0))) by exact N. cbn [snd].
      assert (LC : forall (ks : list (pt * pt)) (m : list pt), (length m <= length ks)%nat -> m <> [] -> snd (last (combine ks m) ((0, 0), (0, 0), (0, 0))) = last m (0, 0)).
      { clear. induction ks as [|k ks IH]; intros [|q m] L N; try congruence; [cbn in L; lia|]. destruct m as [|q' m].
        - cbn. destruct ks; reflexivity.
        - destruct ks as [|k' ks]; [cbn in L; lia|]. cbn [combine]. change (last (q :: q' :: m) (0, 0)) with (last (q' :: m) (0, 0)).
          rewrite <- (IH (q' :: m)); [reflexivity|cbn in *; lia|discriminate]. }
      rewrite LC; [|rewrite map_length; lia|discriminate]. rewrite (last_map _ _ (0, 0)) by discriminate. reflexivity.
Qed.
Print Assumptions C69_end.

(** ** Turns go on in the direction of the path *)

Theorem C69_turn : forall fuel hob eng ra a w o r q d k path', straight_end d r -> 0 < ra -> a <> 0 -> r_aligned r ->
  do_rcall fuel hob eng (RTurn ra a w o) r = Some q -> nth_error (r_paths q) k = Some path' ->
  exists path s, path' = path ++ [s] /\ same_way d (heading s 0).
Proof.
  intros fuel hob eng ra a w o r q d k path' SE RA NA AL H P. cbn [do_rcall] in H. pose proof (turn_is_arc _ _ _ _ _ _ _ SE H) as T.
  unfold r_arc in T. apply add_section_drawn in T. destruct T. destruct AL as (_ & _ & _ & _ & _ & A3 & _).
  assert (L : (k < r_n r)%nat). { rewrite <- A3, <- d_lp. apply nth_error_Some. congruence. }
  destruct (d_k k L) as (off & wid & path & _ & _ & _ & _ & _ & QP). rewrite P in QP. injection QP as ->. eexists. eexists. split; [reflexivity|].
  destruct SE as [N _]. split; [exact N|]. unfold heading. cbn [new_sub s_tr s_dx]. rewrite !id_apply.
  replace (turn_from d a * (1 - 0) + (turn_from d a + a) * 0) with (turn_from d a) by ring.
  destruct (turn_cs d a N) as [C S]. cbv zeta in C, S. rewrite C, S. unfold smul. cbn [fst snd].
  assert (LP : 0 < sqrt (dot d d)). { pose proof (len_pos d N) as LP. unfold len, len2 in LP. replace (dot d d) with (fst d ^ 2 + snd d ^ 2) by (unfold dot; ring). exact LP. }
  assert (IP : 0 < / sqrt (dot d d)) by now apply Rinv_0_lt_compat. set (i := / sqrt (dot d d)) in *. clearbody i.
  exists (ra * Rabs a * i). split.
  - apply Rmult_lt_0_compat; [apply Rmult_lt_0_compat; [lra|now apply Rabs_pos_lt]|exact IP].
  - unfold Rabs. destruct (Rcase_abs a), (Rlt_dec a 0); try lra; apply pt_eq; unfold psub; cbn [fst snd]; ring.
Qed.
Print Assumptions C69_turn.
(** Not so after the path has been moved: turn takes the direction the path had when
    it was drawn.  A path along x, rotated to run along y, turns off as if it still
    ran along x. *)
Theorem C69_turn_refuted : exists r q s t, (forall fuel hob eng,
    do_rcalls fuel hob eng [RSegment (2, 0) RKeep RKeep false; RRotate (PI / 2) (0, 0)] (rod_start 0 2 Flush false true) = Some r /\
    do_rcall fuel hob eng (RTurn 1 (PI / 2) RKeep RKeep) r = Some q) /\
  r_paths q = [[s; t]] /\ heading s 1 = (0, 2) /\ heading t 0 = (PI / 2, 0).
Proof.
  set (r := r_rotate (PI / 2) (0, 0) (rod 0 2 Flush false true)).
  set (s := s_translate (0, 0) (s_rotate (PI / 2) (s_translate (smul (-1) (0, 0)) (rod_sub 0 2)))).
  assert (P : r_paths r = [[s]]) by reflexivity.
  assert (SL : s_grad_raw s 1 0 = (2, 0)).
  { change (s_grad_raw s 1 0) with (s_grad_raw (rod_sub 0 2) 1 0). apply straight_slope; [|intro C; apply (f_equal fst) in C; cbn in C; lra].
    split; [reflexivity|]. split.
    - change (s_h (rod_sub 0 2)) with (/ 2 / INR 1000). pose proof h_pos. split; [assumption|]. pose proof ev_pos.
      apply Rmult_le_reg_r with (INR 1000); [assumption|]. unfold Rdiv. rewrite Rmult_assoc, Rinv_l by lra. 
      assert (1 <= INR 1000) by (change 1 with (INR 1); apply le_INR; lia). lra.
    - exists (0, 0), 0. split; [|split]; intros; apply pt_eq || reflexivity; unfold rod_sub, new_sub; cbn [s_x s_dx]; unfold line_to, padd, psub, smul; cbn [fst snd]; ring. }
  assert (A0 : atan2 0 2 = 0).
  { unfold atan2. replace (2 ^ 2 + 0 ^ 2) with (2 ^ 2) by ring. rewrite sqrt_sq by lra. destruct (Req_EM_T 2 0); [lra|].
    destruct (Rle_dec 0 0); [|lra]. replace (2 / 2) with 1 by field. apply acos_1. }
  pose proof PI_RGT_0 as PP.
  assert (T : r_turn 1 (PI / 2) RKeep RKeep r = r_arc 1 (- (PI / 2)) (- (PI / 2) + PI / 2) RKeep RKeep r).
  { unfold r_turn. rewrite P. cbn [last_dirs rev app]. rewrite SL. cbn [fst snd]. rewrite A0. cbn [length rsum fold_right INR].
    destruct (Rlt_dec (PI / 2) 0); [lra|]. f_equal; field. }
  exists r. eexists. exists s. eexists. split.
  { intros. split.
    - cbn [do_rcalls do_rcall]. rewrite rod_drawn. reflexivity.
    - cbn [do_rcall]. rewrite T. reflexivity. }
  split; [reflexivity|]. split.
  - unfold heading. assert (M : moved_by (rigid false 1 (PI / 2) (0, 0)) (rod_sub 0 2) s).
    { unfold s. eapply moved_ext; [|eapply moved_trans; [eapply moved_trans; [apply translate_by|apply rotate_by]|apply translate_by]].
      intro p. apply pt_eq; unfold rigid, padd, smul, rot_cs; cbn; ring. }
    destruct M as [M1 M2]. rewrite !M2. rewrite M1. cbn [with_tr rod_sub new_sub s_tr s_dx s_h]. rewrite !id_apply.
    unfold rigid, psub. cbn [fst snd]. rewrite cos_PI2, sin_PI2. apply pt_eq; cbn [fst snd]; ring.
  - unfold heading. cbn [new_sub s_tr s_dx]. rewrite !id_apply. replace (- (PI / 2) * (1 - 0) + (- (PI / 2) + PI / 2) * 0) with (- (PI / 2)) by ring.
    rewrite cos_neg, sin_neg, cos_PI2, sin_PI2. apply pt_eq; unfold psub; cbn [fst snd]; field.
Qed.
Print Assumptions C69_turn_refuted.
(** Non-vacuity: a rod ends straight *)
Example C69_turn_case : straight_end (2, 0) (rod 1 2 Flush false true) /\ r_aligned (rod 1 2 Flush false true).
Proof.
  split.
  - split; [intro C; apply (f_equal fst) in C; cbn in C; lra|]. intros p [<-|[]]. exists (rod_sub 1 2), []. split; [reflexivity|]. split; [reflexivity|]. split.
    + change (s_h (rod_sub 1 2)) with (/ 2 / INR 1000). pose proof h_pos. split; [assumption|]. pose proof ev_pos.
      apply Rmult_le_reg_r with (INR 1000); [assumption|]. unfold Rdiv. rewrite Rmult_assoc, Rinv_l by lra. 
      assert (1 <= INR 1000) by (change 1 with (INR 1); apply le_INR; lia). lra.
    + exists (0, 0), 1. split; [|split]; intros; apply pt_eq || reflexivity; unfold rod_sub, new_sub; cbn [s_x s_dx]; unfold line_to, padd, psub, smul; cbn [fst snd]; ring.
  - repeat split; try reflexivity. intros p q [<-|[]] [<-|[]]; reflexivity.
Qed.
