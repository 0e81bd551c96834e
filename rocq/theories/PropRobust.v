(** C34 and C35 for RobustPath: bookkeeping, and moving a path moves its points. *)

From Coq Require Import Reals Lra Lia List ZArith Bool.
From Verif Require Import Plane PlaneProofs Curve Engine Flex Robust SpecRobust.
Import ListNotations.
Open Scope R_scope.

(** ** What drawing a section does *)

Lemma set_nth_length {X} (i : nat) (x : X) l : length (set_nth i x l) = length l.
Proof. revert i. induction l as [|y l IH]; intros [|i]; cbn [set_nth length]; auto. Qed.
Lemma set_nth_same {X} (i : nat) (x : X) l : (i < length l)%nat -> nth_error (set_nth i x l) i = Some x.
Proof. revert i. induction l as [|y l IH]; intros [|i] L; cbn [set_nth nth_error length] in *; try lia; auto. apply IH. lia. Qed.
Lemma set_nth_other {X} (i j : nat) (x : X) l : i <> j -> nth_error (set_nth i x l) j = nth_error l j.
Proof.
  revert i j. induction l as [|y l IH]; intros [|i] [|j] N; cbn [set_nth nth_error]; auto; try congruence; try now destruct j.
Qed.
(** [q] is [r] with one more component in every parallel path *)
Record drawn (f : R -> pt) (df : R -> R -> pt) (x : pt) (w o : rdim) (r q : robust) : Prop := {
  d_n : r_n q = r_n r; d_e : r_ends q = r_ends r; d_l : r_layers q = r_layers r; d_d : r_dts q = r_dts r;
  d_t : r_tol q = r_tol r; d_p : r_prec q = r_prec r; d_m : r_max q = r_max r; d_v : r_evals q = r_evals r;
  d_g : r_gds q = r_gds r; d_wt : r_wt q = r_wt r; d_c : r_cache q = None; d_x : r_x q = x;
  d_lw : length (r_w q) = length (r_w r); d_lo : length (r_o q) = length (r_o r); d_lp : length (r_paths q) = length (r_paths r);
  d_k : forall k, (k < r_n r)%nat -> exists off wid path, parse_offset r o k = Some off /\ parse_width r w k = Some wid /\
    nth_error (r_paths r) k = Some path /\ nth_error (r_o q) k = Some (off 1) /\ nth_error (r_w q) k = Some (wid 1) /\
    nth_error (r_paths q) k = Some (path ++ [new_sub f df off wid (r_tol r) (r_evals r)]) }.
Lemma parse_offset_at r r' o k : nth_error (r_o r') k = nth_error (r_o r) k -> parse_offset r' o k = parse_offset r o k.
Proof. unfold parse_offset. now intros ->. Qed.
Lemma parse_width_at r r' w k : nth_error (r_w r') k = nth_error (r_w r) k -> r_gds r' = r_gds r -> parse_width r' w k = parse_width r w k.
Proof. unfold parse_width. now intros -> ->. Qed.
Lemma each_path_spec f df w o : forall is r q, NoDup is -> each_path f df w o is r = Some q ->
  r_n q = r_n r /\ r_ends q = r_ends r /\ r_layers q = r_layers r /\ r_dts q = r_dts r /\
  r_tol q = r_tol r /\ r_prec q = r_prec r /\ r_max q = r_max r /\ r_evals q = r_evals r /\
  r_gds q = r_gds r /\ r_wt q = r_wt r /\ (r_cache r = None -> r_cache q = None) /\ r_x q = r_x r /\
  length (r_w q) = length (r_w r) /\ length (r_o q) = length (r_o r) /\ length (r_paths q) = length (r_paths r) /\
  (forall k, In k is -> exists off wid path, parse_offset r o k = Some off /\ parse_width r w k = Some wid /\
    nth_error (r_paths r) k = Some path /\ nth_error (r_o q) k = Some (off 1) /\ nth_error (r_w q) k = Some (wid 1) /\
    nth_error (r_paths q) k = Some (path ++ [new_sub f df off wid (r_tol r) (r_evals r)])) /\
  (forall k, ~ In k is -> nth_error (r_o q) k = nth_error (r_o r) k /\ nth_error (r_w q) k = nth_error (r_w r) k /\
    nth_error (r_paths q) k = nth_error (r_paths r) k).
Proof.
  induction is as [|i is IH]; intros r q ND H; cbn [each_path] in H.
  - injection H as <-. repeat split; auto. intros k [].
  - destruct (parse_offset r o i) as [off|] eqn:PO; [|discriminate]. destruct (parse_width r w i) as [wid|] eqn:PW; [|discriminate].
    destruct (nth_error (r_paths r) i) as [path|] eqn:PP; [|discriminate]. inversion ND as [|? ? NI ND']; subst.
    set (r1 := r_with r (r_x r) (set_nth i (off 1) (r_o r)) (set_nth i (wid 1) (r_w r))
               (set_nth i (path ++ [new_sub f df off wid (r_tol r) (r_evals r)]) (r_paths r))) in *.
    apply IH in H; [|assumption]. destruct H as (A1 & A2 & A3 & A4 & A5 & A6 & A7 & A8 & A9 & A10 & A11 & A12 & A13 & A14 & A15 & A16 & A17).
    unfold r1, r_with in A1, A2, A3, A4, A5, A6, A7, A8, A9, A10, A11, A12, A13, A14, A15.
    cbn [r_n r_ends r_layers r_dts r_tol r_prec r_max r_evals r_gds r_wt r_cache r_x r_w r_o r_paths] in *.
    rewrite set_nth_length in A13. rewrite set_nth_length in A14. rewrite set_nth_length in A15.
    repeat (split; [now auto|]). split.
    + intros k [<-|K].
      * exists off, wid, path. repeat (split; [assumption|]). destruct (A17 i NI) as (B1 & B2 & B3). rewrite B1, B2, B3.
        unfold r1, r_with. cbn [r_o r_w r_paths]. rewrite !set_nth_same; auto.
        -- apply nth_error_Some. congruence.
        -- apply nth_error_Some. unfold parse_width in PW. destruct (nth_error (r_w r) i); congruence.
        -- apply nth_error_Some. unfold parse_offset in PO. destruct (nth_error (r_o r) i); congruence.
      * assert (NE : i <> k) by (intros ->; contradiction). destruct (A16 k K) as (off' & wid' & path' & B1 & B2 & B3 & B4 & B5 & B6).
        exists off', wid', path'. rewrite <- B1, <- B2, <- B3, B4, B5, B6. unfold r1, r_with. cbn [r_paths r_tol r_evals].
        rewrite set_nth_other by assumption. repeat split; auto.
        -- symmetry. apply parse_offset_at. cbn [r_o]. now apply set_nth_other.
        -- symmetry. apply parse_width_at; [|reflexivity]. cbn [r_w]. now apply set_nth_other.
    + intros k K. assert (NE : i <> k) by (intros ->; apply K; now left). destruct (A17 k) as (B1 & B2 & B3); [intro; apply K; now right|].
      rewrite B1, B2, B3. unfold r1, r_with. cbn [r_o r_w r_paths]. now rewrite !set_nth_other.
Qed.
Lemma add_section_drawn f df x w o r q : add_section f df x w o r = Some q -> drawn f df x w o r q.
Proof.
  unfold add_section. intro H. apply each_path_spec in H; [|apply seq_NoDup].
  destruct H as (A1 & A2 & A3 & A4 & A5 & A6 & A7 & A8 & A9 & A10 & A11 & A12 & A13 & A14 & A15 & A16 & A17).
  constructor; auto. intros k K. apply A16. apply in_seq. lia.
Qed.
(** Every call that draws one section draws it along some curve, to some point. *)
Lemma one_section_drawn fuel hob eng c w o r q : one_section c = Some (w, o) -> do_rcall fuel hob eng c r = Some q ->
  exists f df x, drawn f df x w o r q.
Proof.
  destruct c; cbn [one_section do_rcall]; intros E H; try discriminate; injection E as -> ->.
  - unfold r_segment in H. apply add_section_drawn in H. eauto.
  - unfold r_arc in H. apply add_section_drawn in H. eauto.
  - unfold r_turn in H. destruct (r_paths r) eqn:P; [discriminate|]. rewrite <- P in H. destruct (last_dirs (r_paths r)); [|discriminate].
    unfold r_arc in H. apply add_section_drawn in H. eauto.
  - unfold r_parametric in H. apply add_section_drawn in H. eauto.
  - unfold r_bezier in H. destruct l; [discriminate|]. apply add_section_drawn in H. eauto.
Qed.

(** ** C34 *)

Lemma drawn_aligned f df x w o r q : drawn f df x w o r q -> r_aligned r -> r_aligned q /\
  forall p, In p (r_paths q) -> exists p', In p' (r_paths r) /\ length p = S (length p').
Proof.
  intros D (A & B & C & E & F & G & H). destruct D.
  assert (X : forall p, In p (r_paths q) -> exists p', In p' (r_paths r) /\ length p = S (length p')).
  { intros p I. apply In_nth_error in I. destruct I as [k K]. assert (L : (k < r_n r)%nat).
    { rewrite <- G, <- d_lp0. apply nth_error_Some. congruence. }
    destruct (d_k0 k L) as (off & wid & path & _ & _ & P & _ & _ & Q). exists path. split; [now apply nth_error_In in P|].
    rewrite K in Q. injection Q as ->. rewrite app_length. cbn. lia. }
  split; [|exact X]. unfold r_aligned. repeat split; try congruence.
  intros p p' I I'. destruct (X p I) as (a & Ia & ->). destruct (X p' I') as (b & Ib & ->). now rewrite (H a b).
Qed.
Lemma each_sub_length g ps : length (each_sub g ps) = length ps. Proof. apply map_length. Qed.
Lemma each_aligned r x o w g : length o = length (r_o r) -> length w = length (r_w r) -> r_aligned r ->
  r_aligned (r_with r x o w (each_sub g (r_paths r))).
Proof.
  intros O W (A & B & C & E & F & G & H). unfold r_aligned, r_with. cbn. rewrite each_sub_length. repeat split; try congruence.
  intros p q I J. apply in_map_iff in I. destruct I as (p' & <- & I). apply in_map_iff in J. destruct J as (q' & <- & J).
  rewrite !map_length. now apply H.
Qed.
Lemma times_length k l : length (times k l) = length l. Proof. apply map_length. Qed.
Definition same_shape (r q : robust) : Prop :=
  r_n q = r_n r /\ map (@length sub) (r_paths q) = map (@length sub) (r_paths r).
Lemma each_shape r x o w g : same_shape r (r_with r x o w (each_sub g (r_paths r))).
Proof. split; [reflexivity|]. cbn. unfold each_sub. rewrite map_map. apply map_ext. intro. apply map_length. Qed.
Lemma shape_trans a b c : same_shape a b -> same_shape b c -> same_shape a c.
Proof. intros [A B] [C D]. split; congruence. Qed.
Lemma shape_refl a : same_shape a a. Proof. now split. Qed.
Lemma t_array_ok v r : r_aligned r -> r_aligned (t_array v r) /\ same_shape r (t_array v r).
Proof. destruct v; cbn [t_array]; intro A; split; auto using shape_refl. - now apply each_aligned. - apply each_shape. Qed.
Lemma t_reflect_ok v r : r_aligned r -> r_aligned (t_reflect v r) /\ same_shape r (t_reflect v r).
Proof. destruct v; cbn [t_reflect]; intro A; split; auto using shape_refl. - apply each_aligned; auto using times_length. - apply each_shape. Qed.
Lemma t_scale_ok v r : r_aligned r -> r_aligned (t_scale v r) /\ same_shape r (t_scale v r).
Proof. destruct v; cbn [t_scale]; intro A; split; auto using shape_refl. - apply each_aligned; auto using times_length. destruct (widths_scale r); auto using times_length. - apply each_shape. Qed.
Lemma t_rotate_ok v r : r_aligned r -> r_aligned (t_rotate v r) /\ same_shape r (t_rotate v r).
Proof. destruct v; cbn [t_rotate]; intro A; split; auto using shape_refl. - now apply each_aligned. - apply each_shape. Qed.
Lemma remember_ok d r : r_aligned r -> r_aligned (r_remember r d) /\ same_shape r (r_remember r d).
Proof. intro A. split; [exact A|split; reflexivity]. Qed.
Lemma quiet_shape fuel hob eng c r q : draws c = false -> r_aligned r -> do_rcall fuel hob eng c r = Some q -> r_aligned q /\ same_shape r q.
Proof.
  intros D A. destruct c; cbn [draws one_section] in D; try discriminate; cbn [do_rcall]; intro H; injection H as <-.
  - split; [now apply each_aligned|apply each_shape].
  - split; [now apply each_aligned|apply each_shape].
  - split; [apply each_aligned; auto using times_length; destruct (widths_scale r); auto using times_length|apply each_shape].
  - unfold r_transform. destruct (remember_ok None r A) as [A0 S0]. destruct (t_array_ok arr _ A0) as [A1 S1]. destruct (t_reflect_ok refl _ A1) as [A2 S2].
    destruct (t_scale_ok mag _ A2) as [A3 S3]. destruct (t_rotate_ok rot _ A3) as [A4 S4]. destruct (t_array_ok org _ A4) as [A5 S5].
    split; [exact A5|]. eauto using shape_trans.
  - unfold r_get. destruct (r_cache r); [split; auto using shape_refl|]. destruct (r_fill _ _ _ _ _ _). now apply remember_ok.
  - destruct A as (A & B & C & E & F & G & H). unfold r_aligned, same_shape. cbn. destruct sl, sd; rewrite ?repeat_length; repeat split; assumption.
Qed.
Lemma sections_aligned secs w o : forall r q, r_sections secs w o r = Some q -> r_aligned r -> r_aligned q /\ r_n q = r_n r.
Proof.
  induction secs as [|[[a b] e] secs IH]; intros r q H A; cbn [r_sections] in H; [injection H as <-; auto|].
  destruct (r_bezier [a; b; e] w o false r) as [m|] eqn:E; [|discriminate].
  unfold r_bezier in E. apply add_section_drawn in E. destruct (drawn_aligned _ _ _ _ _ _ _ E A) as [Am _].
  destruct (IH m q H Am) as [Aq N]. split; [exact Aq|]. rewrite N. apply (d_n _ _ _ _ _ _ _ E).
Qed.
Lemma call_aligned fuel hob eng c r q : do_rcall fuel hob eng c r = Some q -> r_aligned r -> r_aligned q /\ r_n q = r_n r.
Proof.
  intros H A. destruct (draws c) eqn:D.
  - destruct (one_section c) as [[w o]|] eqn:E.
    + destruct (one_section_drawn _ _ _ _ _ _ _ _ E H) as (f & df & x & DR). split; [apply (drawn_aligned _ _ _ _ _ _ _ DR A)|apply (d_n _ _ _ _ _ _ _ DR)].
    + destruct c; cbn [draws one_section] in *; try discriminate. cbn [do_rcall] in H. unfold r_smooth in H. eapply sections_aligned; eauto.
  - destruct (quiet_shape _ _ _ _ _ _ D A H) as [B [N _]]. auto.
Qed.
Lemma cyclic_length {X} n (a : many X) l : cyclic n a = Some l -> length l = n.
Proof.
  destruct a as [x|[|x m]]; cbn [cyclic].
  - intro H; injection H as <-. apply repeat_length.
  - destruct n; [intro H; now injection H as <-|discriminate].
  - intro H; injection H as <-. now rewrite map_length, seq_length.
Qed.
(** A list of widths and a list of offsets must have the same length. *)
Definition lists_agree (width offset : many R) : Prop :=
  match width, offset with Many a, Many b => length a = length b | _, _ => True end.
Lemma init_aligned p width offset ends tol prec mx ev gds wt la dt r : lists_agree width offset ->
  robust_init p width offset ends tol prec mx ev gds wt la dt = Some r -> r_aligned r.
Proof.
  intros LA. unfold robust_init. destruct (start_rows width offset) as [[n w] o] eqn:S.
  destruct (cyclic n ends) eqn:E1; [|discriminate]. destruct (cyclic n la) eqn:E2; [|discriminate]. destruct (cyclic n dt) eqn:E3; [|discriminate].
  intro H; injection H as <-. unfold r_aligned. cbn. apply cyclic_length in E1, E2, E3. rewrite repeat_length.
  assert (W : length w = n /\ length o = n).
  { unfold start_rows in S. destruct width, offset; cbn [lists_agree] in LA; injection S as <- <- <-; rewrite ?map_length, ?seq_length, ?repeat_length; auto. }
  destruct W. repeat split; auto. intros a b I J. apply repeat_spec in I, J. now subst.
Qed.

(** After any sequence of calls everything is one per parallel path. *)
Theorem C34_robustpath : forall fuel hob eng p width offset ends tol prec mx ev gds wt la dt r0 cs r, lists_agree width offset ->
  robust_init p width offset ends tol prec mx ev gds wt la dt = Some r0 -> do_rcalls fuel hob eng cs r0 = Some r ->
  r_aligned r /\ r_n r = r_n r0.
Proof.
  intros fuel hob eng p width offset ends tol prec mx ev gds wt la dt r0 cs r LA I. apply init_aligned in I; [|assumption].
  revert r0 I. induction cs as [|c cs IH]; intros r0 A H; cbn [do_rcalls] in H; [injection H as <-; auto|].
  destruct (do_rcall fuel hob eng c r0) as [q|] eqn:E; [|discriminate]. destruct (call_aligned _ _ _ _ _ _ E A) as [B N].
  destruct (IH q B H) as [C M]. split; [exact C|congruence].
Qed.
(** Each of segment, arc, turn, parametric and bezier adds one component to every
    parallel path; moving the path and computing polygons add none. *)
Theorem C34_robustpath_sections : forall fuel hob eng c r q, r_aligned r -> do_rcall fuel hob eng c r = Some q ->
  match one_section c with
  | Some _ => map (@length sub) (r_paths q) = map (fun p => S (length p)) (r_paths r)
  | None => draws c = false -> map (@length sub) (r_paths q) = map (@length sub) (r_paths r)
  end.
Proof.
  intros fuel hob eng c r q A H. destruct (one_section c) as [[w o]|] eqn:E.
  - destruct (one_section_drawn _ _ _ _ _ _ _ _ E H) as (f & df & x & D). apply (nth_ext _ _ 0%nat 0%nat).
    { rewrite !map_length. apply (d_lp _ _ _ _ _ _ _ D). }
    intros k K. rewrite map_length in K. destruct D. destruct A as (_ & _ & _ & _ & _ & G & _).
    destruct (d_k0 k ltac:(lia)) as (off & wid & path & _ & _ & P & _ & _ & Q).
    rewrite (nth_error_nth (map (fun p => S (length p)) (r_paths r)) k 0%nat (x := S (length path))) by now rewrite nth_error_map, P.
    rewrite (nth_error_nth (map (@length sub) (r_paths q)) k 0%nat (x := S (length path))); [reflexivity|].
    rewrite nth_error_map, Q. cbn [option_map]. rewrite app_length. cbn. f_equal. lia.
  - intro D. now destruct (quiet_shape _ _ _ _ _ _ D A H) as [_ [_ S]].
Qed.
Print Assumptions C34_robustpath.
Print Assumptions C34_robustpath_sections.

(** ** C35: points *)

Lemma pt_eq (p q : pt) : fst p = fst q -> snd p = snd q -> p = q.
Proof. destruct p, q; cbn; congruence. Qed.
Lemma apply_matmul a b p : apply (matmul a b) p = apply a (apply b p).
Proof. apply pt_eq; unfold apply, matmul; cbn; ring. Qed.
(** [s'] is [s] moved by the affine map [m] *)
Definition moved_by (m : pt -> pt) (s s' : sub) : Prop :=
  s' = with_tr s (s_tr s') /\ forall p, apply (s_tr s') p = m (apply (s_tr s) p).
Lemma moved_h m s s' : moved_by m s s' -> s_h s' = s_h s. Proof. intros [-> _]. reflexivity. Qed.
Lemma moved_at m s s' : moved_by m s s' -> forall u arm, s_at s' u arm = m (s_at s u arm).
Proof. intros [E D] u arm. unfold s_at. rewrite D. now rewrite E. Qed.
Definition subs_by (m : pt -> pt) : list (list sub) -> list (list sub) -> Prop := Forall2 (Forall2 (moved_by m)).
Lemma each_by m g ps : (forall s, moved_by m s (g s)) -> subs_by m ps (each_sub g ps).
Proof. intro H. induction ps as [|p ps IH]; constructor; [|exact IH]. induction p as [|s p IHp]; constructor; auto. Qed.
Lemma moved_trans m1 m2 a b c : moved_by m1 a b -> moved_by m2 b c -> moved_by (fun p => m2 (m1 p)) a c.
Proof. intros [A B] [A' B']. split; [|intro; now rewrite B', B]. rewrite A' at 1. now rewrite A at 1. Qed.
Lemma moved_ext m1 m2 a b : (forall p, m1 p = m2 p) -> moved_by m1 a b -> moved_by m2 a b.
Proof. intros E [A B]. split; auto. intro. now rewrite B, E. Qed.
Lemma moved_refl a : moved_by (fun p => p) a a.
Proof. split; [now destruct a|reflexivity]. Qed.
Lemma by_trans m1 m2 a b c : subs_by m1 a b -> subs_by m2 b c -> subs_by (fun p => m2 (m1 p)) a c.
Proof.
  unfold subs_by. intros H. revert c. induction H as [|x y a b H _ IH]; intros c K; inversion K as [|y' z b' c' K1 K2]; subst; constructor; [|now apply IH].
  clear - H K1. revert z K1. induction H as [|s t l l' A _ IH]; intros z K; inversion K as [|t' s' l'' z' A' K2]; subst; constructor; auto.
  eapply moved_trans; eauto.
Qed.
Lemma by_ext m1 m2 a b : (forall p, m1 p = m2 p) -> subs_by m1 a b -> subs_by m2 a b.
Proof.
  intro E. unfold subs_by. intro H. induction H as [|x y a b H _ IH]; constructor; auto.
  induction H as [|s t l l' A _ IH']; constructor; auto. eapply moved_ext; eauto.
Qed.
Lemma by_refl a : subs_by (fun p => p) a a.
Proof. induction a as [|p a IH]; constructor; auto. induction p; constructor; auto using moved_refl. Qed.
Lemma translate_by v s : moved_by (fun p => padd p v) s (s_translate v s).
Proof. split; [reflexivity|]. intro p. unfold s_translate. cbn [with_tr s_tr]. rewrite apply_matmul. apply pt_eq; unfold apply, padd; cbn; ring. Qed.
Lemma scale_by sx sy s : moved_by (fun p : pt => (sx * fst p, sy * snd p)) s (s_scale sx sy s).
Proof. split; [reflexivity|]. intro p. unfold s_scale. cbn [with_tr s_tr]. rewrite apply_matmul. apply pt_eq; unfold apply; cbn; ring. Qed.
Lemma rotate_by a s : moved_by (rot_cs (cos a) (sin a)) s (s_rotate a s).
Proof. split; [reflexivity|]. intro p. unfold s_rotate. cbn [with_tr s_tr]. rewrite apply_matmul. apply pt_eq; unfold apply, rot_cs; cbn; ring. Qed.

(** Every component of a moved path is the component moved; so is the point where
    the path ends. *)
Lemma t_array_by v r : subs_by (fun p => padd p (opt (0, 0) v)) (r_paths r) (r_paths (t_array v r)) /\
  r_x (t_array v r) = padd (r_x r) (opt (0, 0) v).
Proof.
  destruct v as [v|]; cbn [t_array opt].
  - split; [|reflexivity]. apply each_by. intro. apply translate_by.
  - split; [|apply pt_eq; unfold padd; cbn; ring]. eapply by_ext; [|apply by_refl]. intro p. apply pt_eq; unfold padd; cbn; ring.
Qed.
Lemma t_reflect_by (b : bool) r : subs_by (fun p : pt => (fst p, if b then - snd p else snd p)) (r_paths r) (r_paths (t_reflect b r)) /\
  r_x (t_reflect b r) = (fst (r_x r), if b then - snd (r_x r) else snd (r_x r)).
Proof.
  destruct b; cbn [t_reflect].
  - split; [|reflexivity]. eapply by_ext; [|apply each_by; intro; apply (scale_by 1 (-1))]. intro p. apply pt_eq; cbn; ring.
  - split; [|now destruct (r_x r)]. eapply by_ext; [|apply by_refl]. now intros [].
Qed.
Lemma t_scale_by k r : subs_by (smul (opt 1 k)) (r_paths r) (r_paths (t_scale k r)) /\ r_x (t_scale k r) = smul (opt 1 k) (r_x r).
Proof.
  destruct k as [k|]; cbn [t_scale opt].
  - split; [|reflexivity]. eapply by_ext; [|apply each_by; intro; apply (scale_by k k)]. reflexivity.
  - split; [|apply pt_eq; unfold smul; cbn; ring]. eapply by_ext; [|apply by_refl]. intro p. apply pt_eq; unfold smul; cbn; ring.
Qed.
Lemma t_rotate_by a r : subs_by (rot_cs (cos (opt 0 a)) (sin (opt 0 a))) (r_paths r) (r_paths (t_rotate a r)) /\
  r_x (t_rotate a r) = rot_cs (cos (opt 0 a)) (sin (opt 0 a)) (r_x r).
Proof.
  destruct a as [a|]; cbn [t_rotate opt].
  - split; [|reflexivity]. apply each_by. intro. apply rotate_by.
  - rewrite cos_0, sin_0. split; [|apply pt_eq; unfold rot_cs; cbn; ring].
    eapply by_ext; [|apply by_refl]. intro p. apply pt_eq; unfold rot_cs; cbn; ring.
Qed.
(** transform as the code has it: the displacement of an array element comes first *)
Definition code_map (org : option pt) (rot mag : option R) (refl : bool) (arr : option pt) (p : pt) : pt :=
  rigid refl (opt 1 mag) (opt 0 rot) (opt (0, 0) org) (padd p (opt (0, 0) arr)).
Lemma transform_by org rot mag refl arr r :
  subs_by (code_map org rot mag refl arr) (r_paths r) (r_paths (r_transform org rot mag refl arr r)) /\
  r_x (r_transform org rot mag refl arr r) = code_map org rot mag refl arr (r_x r).
Proof.
  unfold r_transform. set (r0 := r_remember r None).
  destruct (t_array_by arr r0) as [A1 B1]. set (r1 := t_array arr r0) in *. destruct (t_reflect_by refl r1) as [A2 B2]. set (r2 := t_reflect refl r1) in *.
  destruct (t_scale_by mag r2) as [A3 B3]. set (r3 := t_scale mag r2) in *. destruct (t_rotate_by rot r3) as [A4 B4]. set (r4 := t_rotate rot r3) in *.
  destruct (t_array_by org r4) as [A5 B5]. split.
  - change (r_paths r) with (r_paths r0).
    pose proof (by_trans _ _ _ _ _ (by_trans _ _ _ _ _ (by_trans _ _ _ _ _ (by_trans _ _ _ _ _ A1 A2) A3) A4) A5) as H.
    eapply by_ext; [|exact H]. intro p. apply pt_eq; unfold code_map, rigid, padd, smul, rot_cs; cbn; destruct refl; ring.
  - rewrite B5, B4, B3, B2, B1. apply pt_eq; unfold code_map, rigid, padd, smul, rot_cs; cbn; destruct refl; ring.
Qed.
Lemma call_by fuel hob eng c r q : plain_move c -> do_rcall fuel hob eng c r = Some q ->
  subs_by (moves c) (r_paths r) (r_paths q) /\ r_x q = moves c (r_x r).
Proof.
  intros PM H. destruct c; cbn [plain_move draws one_section] in PM; try discriminate; cbn [do_rcall] in H; injection H as <-.
  - split; [|reflexivity]. apply each_by. intro. apply translate_by.
  - split; [|apply pt_eq; unfold moves, rigid, r_rotate, rotate_pt, rot_cs, padd, psub; cbn; ring].
    apply each_by. intro s. eapply moved_ext; [|eapply moved_trans; [eapply moved_trans; [apply translate_by|apply rotate_by]|apply translate_by]].
    intro p. apply pt_eq; unfold moves, rigid, rot_cs, padd, smul; cbn; ring.
  - split; [|apply pt_eq; unfold moves, r_scale, smul, padd; cbn; ring].
    apply each_by. intro s. eapply moved_ext; [|eapply moved_trans; [apply scale_by|apply translate_by]].
    intro p. apply pt_eq; unfold moves, padd, smul; cbn; ring.
  - destruct (transform_by org rot mag refl arr r) as [A B]. rewrite B.
    assert (E : forall p, code_map org rot mag refl arr p = moves (RTransform org rot mag refl arr) p).
    { intro p. cbn [moves]. unfold code_map, rigid. destruct PM as [-> | ->]; apply pt_eq; unfold padd; cbn; destruct refl; ring. }
    rewrite <- E. split; [|reflexivity]. eapply by_ext; [|exact A]. exact E.
  - unfold r_get. destruct (r_cache r); [split; [apply by_refl|reflexivity]|]. destruct (r_fill _ _ _ _ _ _). split; [apply by_refl|reflexivity].
  - split; [apply by_refl|reflexivity].
Qed.
Lemma on_all_by {X Y} m (g : sub -> X) (g' : sub -> Y) (F : X -> Y) ps qs i : subs_by m ps qs -> (forall s s', moved_by m s s' -> g' s' = F (g s)) ->
  all_some (map (fun p => option_map g' (nth_error p i)) qs) = option_map (map F) (all_some (map (fun p => option_map g (nth_error p i)) ps)).
Proof.
  intros H E. induction H as [|p q ps qs H _ IH]; [reflexivity|]. cbn [map]. 
  assert (N : option_map g' (nth_error q i) = option_map F (option_map g (nth_error p i))).
  { clear - H E. revert i. induction H as [|s t l l' K _ IH]; intros [|i]; cbn [nth_error option_map]; try reflexivity; [now rewrite (E s t K)|apply IH]. }
  rewrite N. destruct (option_map g (nth_error p i)); cbn [option_map all_some]; [|reflexivity]. rewrite IH.
  destruct (all_some (map (fun p => option_map g (nth_error p i)) ps)); reflexivity.
Qed.
Lemma r_len_by m r q : subs_by m (r_paths r) (r_paths q) -> r_len q = r_len r.
Proof. unfold r_len. intro H. destruct H as [|p p' ps qs H _]; [reflexivity|]. cbn [hd]. now induction H; cbn [length]; f_equal. Qed.

(** Evaluating the moved path at any parameter, on its centre line or on either
    side, gives the moved points. *)
Theorem C35_points : forall fuel hob eng c r q u arm, plain_move c -> do_rcall fuel hob eng c r = Some q ->
  r_at q u arm = option_map (map (moves c)) (r_at r u arm) /\ r_x q = moves c (r_x r).
Proof.
  intros fuel hob eng c r q u arm PM H. destruct (call_by _ _ _ _ _ _ PM H) as [B X]. split; [|exact X].
  unfold r_at, on_all. rewrite (r_len_by _ _ _ B). destruct (whole u =? r_len r)%nat.
  - destruct (whole u); [reflexivity|]. apply (on_all_by _ _ _ _ _ _ _ B). intros s s' D. now apply moved_at.
  - apply (on_all_by _ _ _ _ _ _ _ B). intros s s' D. now apply moved_at.
Qed.

(** Any number of moves in a row *)
Fixpoint moves_all (cs : list rcall) (p : pt) : pt := match cs with [] => p | c :: r => moves_all r (moves c p) end.
Theorem C35_chain : forall fuel hob eng cs r q u arm, Forall plain_move cs -> do_rcalls fuel hob eng cs r = Some q ->
  r_at q u arm = option_map (map (moves_all cs)) (r_at r u arm) /\ r_x q = moves_all cs (r_x r).
Proof.
  intros fuel hob eng cs. induction cs as [|c cs IH]; intros r q u arm F H; cbn [do_rcalls] in H.
  - injection H as <-. split; [|reflexivity]. destruct (r_at r u arm); [|reflexivity]. cbn [option_map moves_all]. f_equal.
    symmetry. apply map_id.
  - destruct (do_rcall fuel hob eng c r) as [m|] eqn:E; [|discriminate]. inversion F as [|? ? PM F']; subst.
    destruct (C35_points _ _ _ _ _ _ u arm PM E) as [A B]. destruct (IH _ _ u arm F' H) as [C D]. split.
    + rewrite C, A. destruct (r_at r u arm); [|reflexivity]. cbn [option_map moves_all]. now rewrite map_map.
    + now rewrite D, B.
Qed.

(** ** Directions and widths *)

Lemma moves_affine c p q : psub (moves c p) (moves c q) = turns c (psub p q).
Proof.
  destruct c; apply pt_eq; unfold turns, moves, rigid, psub; cbn [fst snd]; try destruct refl; ring.
Qed.
Lemma turns_smul c k v : turns c (smul k v) = smul k (turns c v).
Proof. destruct c; apply pt_eq; unfold turns, moves, rigid, psub, smul; cbn [fst snd]; try destruct refl; ring. Qed.
Lemma cs2 t : cos t ^ 2 + sin t ^ 2 = 1. Proof. rewrite <- (sin2_cos2 t). unfold Rsqr. ring. Qed.
Lemma turns_len2 c v : len2 (turns c v) = grows c ^ 2 * len2 v.
Proof.
  destruct c; unfold len2, turns, moves, grows, rigid, psub; cbn [fst snd]; rewrite ?pow2_abs.
  all: try ring.
  - transitivity ((cos a ^ 2 + sin a ^ 2) * (fst v ^ 2 + snd v ^ 2)); [ring|]. rewrite cs2. ring.
  - set (t := opt 0 rot). set (k := opt 1 mag).
    transitivity (k ^ 2 * (cos t ^ 2 + sin t ^ 2) * (fst v ^ 2 + snd v ^ 2)); [destruct refl; ring|]. rewrite cs2. ring.
Qed.
Lemma grows_pos c : 0 <= grows c. Proof. destruct c; cbn [grows]; try lra; apply Rabs_pos. Qed.
Lemma turns_len c v : len (turns c v) = grows c * len v.
Proof.
  unfold len. rewrite turns_len2. rewrite sqrt_mult_alt by apply pow2_ge_0. now rewrite sqrt_pow2 by apply grows_pos.
Qed.
Lemma grad_by c s s' u arm : moved_by (moves c) s s' -> s_grad s' u arm = turns c (s_grad s u arm).
Proof. intro D. unfold s_grad, slope. rewrite (moved_h _ _ _ D), !(moved_at _ _ _ D), moves_affine. now rewrite turns_smul. Qed.
Lemma width_by c s s' u : moved_by (moves c) s s' -> s_width s' u = grows c * s_width s u.
Proof. intro D. unfold s_width. now rewrite !(moved_at _ _ _ D), moves_affine, turns_len. Qed.

(** Directions are turned (and scaled), widths are multiplied by the scale factor. *)
Theorem C35_directions : forall fuel hob eng c r q u arm before, plain_move c -> do_rcall fuel hob eng c r = Some q ->
  r_grad q u arm before = option_map (map (turns c)) (r_grad r u arm before).
Proof.
  intros fuel hob eng c r q u arm before PM H. destruct (call_by _ _ _ _ _ _ PM H) as [B X].
  unfold r_grad, on_all. rewrite (r_len_by _ _ _ B). destruct (if Req_EM_T _ _ then _ else _).
  - destruct (whole u); [reflexivity|]. apply (on_all_by _ _ _ _ _ _ _ B). intros. now apply grad_by.
  - apply (on_all_by _ _ _ _ _ _ _ B). intros. now apply grad_by.
Qed.
Theorem C35_widths : forall fuel hob eng c r q u, plain_move c -> do_rcall fuel hob eng c r = Some q ->
  r_width q u = option_map (map (Rmult (grows c))) (r_width r u).
Proof.
  intros fuel hob eng c r q u PM H. destruct (call_by _ _ _ _ _ _ PM H) as [B X].
  unfold r_width, on_all. rewrite (r_len_by _ _ _ B). destruct (if Req_EM_T _ _ then _ else _).
  - destruct (whole u); [reflexivity|]. apply (on_all_by _ _ _ _ _ _ _ B). intros. now apply width_by.
  - apply (on_all_by _ _ _ _ _ _ _ B). intros. now apply width_by.
Qed.
Print Assumptions C35_points.
Print Assumptions C35_chain.
Print Assumptions C35_directions.
Print Assumptions C35_widths.
