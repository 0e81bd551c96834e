(** C77: the curve along which a RobustPath section is drawn, its direction, and the
    evaluation of a path. *)

From Coq Require Import Reals Lra Lia List ZArith Bool.
From Verif Require Import Plane PlaneProofs Curve SpecCurve CurveProofs PropCurve Engine Flex SpecFlex FlexProofs PropFlexEnds
  Robust SpecRobust PropRobust PropRobustJoin PropRobustEnds SpecSpine.
Import ListNotations.
Open Scope R_scope.

(** ** Derivatives *)

Lemma lim_ext f g u l : (forall x, f x = g x) -> derivable_pt_lim f u l -> derivable_pt_lim g u l.
Proof. intros E D eps P. destruct (D eps P) as [d H]. exists d. intros h N B. rewrite <- !E. now apply H. Qed.
Lemma lim_as f g u l m : derivable_pt_lim f u l -> (forall x, f x = g x) -> l = m -> derivable_pt_lim g u m.
Proof. intros D E <-. now apply (lim_ext f). Qed.
Lemma lim_affine a b u : derivable_pt_lim (fun x => a + x * b) u b.
Proof.
  eapply lim_as; [apply (derivable_pt_lim_plus (fun _ => a) _ u _ _ (derivable_pt_lim_const a u)
    (derivable_pt_lim_mult (fun x => x) (fun _ => b) u _ _ (derivable_pt_lim_id u) (derivable_pt_lim_const b u)))|reflexivity|cbn; ring].
Qed.
Lemma cast_ext k a b i u : (forall j, (i <= j <= i + k)%nat -> a j = b j) -> cast k a i u = cast k b i u.
Proof. revert i; induction k as [|k IH]; intros i H; cbn [cast]; [apply H; lia|]. rewrite !IH; [reflexivity| |]; intros; apply H; lia. Qed.
Lemma cast_diff k a i u : cast k (fun j => a (S j) - a j) i u = cast k a (S i) u - cast k a i u.
Proof. revert i; induction k as [|k IH]; intro i; cbn [cast]; [reflexivity|]. rewrite !IH. ring. Qed.
Lemma cast_smul k c a i u : cast k (fun j => c * a j) i u = c * cast k a i u.
Proof. revert i; induction k as [|k IH]; intro i; cbn [cast]; [reflexivity|]. rewrite !IH. ring. Qed.
Lemma cast_slope k a : forall i u, derivable_pt_lim (cast k a i) u
  (match k with O => 0 | S j => INR k * cast j (fun j => a (S j) - a j) i u end).
Proof.
  induction k as [|k IH]; intros i u; cbn [cast]; [apply derivable_pt_lim_const|].
  assert (D1 : derivable_pt_lim (fun x => 1 - x) u (0 - 1)).
  { apply derivable_pt_lim_minus; [apply derivable_pt_lim_const|apply derivable_pt_lim_id]. }
  pose proof (derivable_pt_lim_plus _ _ _ _ _
    (derivable_pt_lim_mult _ _ _ _ _ (derivable_pt_lim_id u) (IH (S i) u)) (derivable_pt_lim_mult _ _ _ _ _ D1 (IH i u))) as D.
  unfold plus_fct, mult_fct, Ranalysis1.id in D. eapply lim_as; [exact D|reflexivity|]. destruct k as [|k].
  - cbn [cast INR]. ring.
  - rewrite (cast_diff (S k)). rewrite !cast_diff. rewrite !S_INR. unfold Ranalysis1.id. cbn [cast]. ring.
Qed.
Lemma pairwise_nth {X Y} (f : X -> X -> Y) l i dx dy : (S i < length l)%nat -> nth i (pairwise f l) dy = f (nth i l dx) (nth (S i) l dx).
Proof.
  revert i; induction l as [|a [|b r] IH]; intros i H; cbn [length] in H; [lia|lia|]. destruct i as [|i]; [reflexivity|].
  change (pairwise f (a :: b :: r)) with (f a b :: pairwise f (b :: r)). cbn [nth]. rewrite IH by (cbn [length]; lia). reflexivity.
Qed.
Lemma pairwise_length' {X Y} (f : X -> X -> Y) l : length (pairwise f l) = (length l - 1)%nat.
Proof.
  induction l as [|a [|b r] IH]; [reflexivity|reflexivity|]. change (pairwise f (a :: b :: r)) with (f a b :: pairwise f (b :: r)).
  cbn [length] in *. rewrite IH. lia.
Qed.
Lemma hodo_coord (pr : pt -> R) l j : (forall p q s, pr (smul s (psub q p)) = s * (pr q - pr p)) -> (S j < length l)%nat ->
  nth j (map pr (hodograph l)) 0 = INR (length l - 1) * (nth (S j) (map pr l) 0 - nth j (map pr l) 0).
Proof.
  intros L H. unfold hodograph. rewrite map_map. rewrite (nth_indep _ 0 (pr (smul (INR (length l - 1)) (0, 0)))) by (rewrite map_length, pairwise_length'; lia).
  rewrite (map_nth (fun x => pr (smul (INR (length l - 1)) x))). rewrite (pairwise_nth _ l j (0, 0)) by exact H. rewrite L.
  rewrite (nth_indep (map pr l) 0 (pr (0, 0))) by (rewrite map_length; lia). rewrite (nth_indep (map pr l) 0 (pr (0, 0))) by (rewrite map_length; lia).
  now rewrite !map_nth.
Qed.
Lemma bezier_velocity l u : (2 <= length l)%nat -> velocity (bezier l) u (bezier (hodograph l) u).
Proof.
  intro L. assert (N : l <> []) by (intros ->; cbn in L; lia).
  assert (LH : length (hodograph l) = (length l - 1)%nat) by (unfold hodograph; rewrite map_length; apply pairwise_length').
  assert (NH : hodograph l <> []) by (intro E; rewrite E in LH; cbn in LH; lia).
  destruct (length l - 1)%nat as [|k] eqn:K; [lia|].
  split.
  - eapply lim_ext; [intro x; symmetry; now apply bezier_fst|]. rewrite bezier_fst by exact NH. rewrite LH, K.
    replace (S k - 1)%nat with k by lia. pose proof (cast_slope (S k) (fun j => nth j (map fst l) 0) 0 u) as D. cbv beta iota zeta in D.
    eapply lim_as; [exact D|reflexivity|].
    rewrite <- cast_smul. apply cast_ext. intros j J. rewrite hodo_coord; [now rewrite K|intros; reflexivity|lia].
  - eapply lim_ext; [intro x; symmetry; now apply bezier_snd|]. rewrite bezier_snd by exact NH. rewrite LH, K.
    replace (S k - 1)%nat with k by lia. pose proof (cast_slope (S k) (fun j => nth j (map snd l) 0) 0 u) as D. cbv beta iota zeta in D.
    eapply lim_as; [exact D|reflexivity|].
    rewrite <- cast_smul. apply cast_ext. intros j J. rewrite hodo_coord; [now rewrite K|intros; reflexivity|lia].
Qed.
(** ** The curve of each section *)

Lemma angle_lim (f f' : R -> R) a b u : (forall x, derivable_pt_lim f x (f' x)) ->
  derivable_pt_lim (fun x => f (a * (1 - x) + b * x)) u ((b - a) * f' (a * (1 - u) + b * u)).
Proof.
  intro F. eapply lim_as; [apply (derivable_pt_lim_comp (fun x => a + x * (b - a)) f u _ _ (lim_affine a (b - a) u) (F _))| |].
  - intro x. unfold comp. f_equal. ring.
  - rewrite Rmult_comm. f_equal. f_equal. ring.
Qed.
Lemma scaled_lim c k f u l : derivable_pt_lim f u l -> derivable_pt_lim (fun x => c + k * f x) u (k * l).
Proof.
  intro D. eapply lim_as; [apply (derivable_pt_lim_plus (fun _ => c) (fun x => k * f x) u _ _ (derivable_pt_lim_const c u)
    (derivable_pt_lim_scal f k u l D))|reflexivity|ring].
Qed.
Lemma arc_velocity c ra a b u :
  velocity (fun u => padd c (on_circle ra (a * (1 - u) + b * u))) u
    (- (ra * (b - a)) * sin (a * (1 - u) + b * u), ra * (b - a) * cos (a * (1 - u) + b * u)).
Proof.
  split; unfold padd, on_circle; cbn [fst snd].
  - eapply lim_as; [apply (scaled_lim (fst c) ra _ u _ (angle_lim cos (fun x => - sin x) a b u derivable_pt_lim_cos))|reflexivity|ring].
  - eapply lim_as; [apply (scaled_lim (snd c) ra _ u _ (angle_lim sin cos a b u derivable_pt_lim_sin))|reflexivity|ring].
Qed.
Lemma velocity_ext f g u v : (forall x, f x = g x) -> velocity f u v -> velocity g u v.
Proof. intros E [A B]. split; (eapply lim_ext; [|eassumption]); intro x; cbn beta; now rewrite E. Qed.

Lemma one_section_curve fuel hob eng c d w o r q : one_section c = Some (w, o) -> true_derivative c -> r_given c d r -> do_rcall fuel hob eng c r = Some q ->
  exists f df x, drawn f df x w o r q /\ (forall u, f u = curve_of c d r u) /\ (forall u h, velocity f u (df u h)).
Proof.
  destruct c; cbn [one_section do_rcall true_derivative r_given curve_of]; intros E T G H; try discriminate; injection E as -> ->.
  - unfold r_segment in H. apply add_section_drawn in H. eexists. eexists. eexists. split; [exact H|]. split.
    + intro u. unfold r_place. destruct rel; apply pt_eq; unfold line_to, padd, smul; cbn [fst snd]; ring.
    + intros u h. set (e := if rel then _ else _). split; unfold line_to, padd, smul, psub; cbn [fst snd].
      * eapply lim_as; [apply (lim_affine (fst (r_x r)) (fst e - fst (r_x r)))|intro t; cbn beta; ring|reflexivity].
      * eapply lim_as; [apply (lim_affine (snd (r_x r)) (snd e - snd (r_x r)))|intro t; cbn beta; ring|reflexivity].
  - unfold r_arc in H. apply add_section_drawn in H. eexists. eexists. eexists. split; [exact H|]. split.
    + intro u. unfold on_circle. replace (a0 * (1 - u) + a1 * u) with (a0 + u * (a1 - a0)) by ring. reflexivity.
    + intros u h. apply arc_velocity.
  - pose proof (turn_is_arc _ _ _ _ _ _ _ G H) as A. unfold r_arc in A. apply add_section_drawn in A. eexists. eexists. eexists. split; [exact A|]. split.
    + intro u. replace (turn_from d angle * (1 - u) + (turn_from d angle + angle) * u) with (turn_from d angle + u * angle) by ring.
      destruct G as [N _]. destruct (turn_cs d angle N) as [C S]. cbv zeta in C, S. unfold rotate_pt, r_turn_centre, on_circle.
      set (n := smul _ _) in *. clearbody n.
      rewrite cos_plus, sin_plus, C, S. destruct (Rlt_dec angle 0); apply pt_eq; unfold padd, psub, smul, rot_cs; cbn [fst snd]; ring.
    + intros u h. apply arc_velocity.
  - destruct dc as [dc|]; [|contradiction]. unfold r_parametric in H. apply add_section_drawn in H. eexists. eexists. eexists. split; [exact H|]. split.
    + intro u. unfold r_place. destruct rel; [|reflexivity]. apply pt_eq; unfold padd; cbn; ring.
    + intros u h. destruct (T u) as [D1 D2]. destruct rel; [|now split]. split; unfold padd; cbn [fst snd].
      * eapply lim_as; [apply (scaled_lim (fst (r_x r)) 1 _ u _ D1)|intro; cbn beta; ring|ring].
      * eapply lim_as; [apply (scaled_lim (snd (r_x r)) 1 _ u _ D2)|intro; cbn beta; ring|ring].
  - unfold r_bezier in H. destruct l as [|a l]; [discriminate|]. apply add_section_drawn in H. eexists. eexists. eexists. split; [exact H|]. split.
    + intro u. rewrite C31_bernstein by discriminate. replace (map (r_place rel r) (a :: l)) with (if rel then map (padd (r_x r)) (a :: l) else a :: l); [reflexivity|].
      unfold r_place. destruct rel; [reflexivity|symmetry; exact (map_id (a :: l))].
    + intros u h. apply bezier_velocity. destruct rel; cbn [length map]; lia.
Qed.

(** ** Evaluation *)

Lemma whole_at i t : 0 <= t < 1 -> whole (INR i + t) = i.
Proof.
  intros T. unfold whole. replace (Int_part (INR i + t)) with (Z.of_nat i); [apply Nat2Z.id|].
  unfold Int_part. assert (U : up (INR i + t) = (Z.of_nat i + 1)%Z); [|rewrite U; lia].
  symmetry. apply tech_up; rewrite plus_IZR, <- INR_IZR_INZ; lra.
Qed.
Lemma all_some_map {X Y} (g : X -> option Y) (h : X -> Y) l : (forall x, In x l -> g x = Some (h x)) -> all_some (map g l) = Some (map h l).
Proof.
  induction l as [|a l IH]; intro H; [reflexivity|]. cbn [map all_some]. rewrite (H a) by now left. rewrite IH; [reflexivity|]. intros x I. apply H. now right.
Qed.
Lemma len_all r p : r_aligned r -> In p (r_paths r) -> length p = r_len r.
Proof.
  intros (_ & _ & _ & _ & _ & _ & A) I. unfold r_len. destruct (r_paths r) as [|p0 ps]; [contradiction|]. cbn [hd]. apply A; [exact I|now left].
Qed.
Lemma on_all_some {X} r i (g : Robust.sub -> X) : r_aligned r -> (i < r_len r)%nat ->
  exists l, on_all r i g = Some l /\ length l = length (r_paths r) /\
    forall k path s, nth_error (r_paths r) k = Some path -> nth_error path i = Some s -> nth_error l k = Some (g s).
Proof.
  intros A I. unfold on_all. destruct (hd [] (r_paths r)) as [|s0 p0] eqn:E; [unfold r_len in I; rewrite E in I; cbn in I; lia|].
  exists (map (fun p => g (nth i p s0)) (r_paths r)). split; [|split].
  - apply all_some_map. intros p P. rewrite (nth_error_nth' p s0) by (rewrite (len_all r p A P); exact I). reflexivity.
  - apply map_length.
  - intros k path s K S. rewrite (map_nth_error _ _ _ K). do 2 f_equal. now apply nth_error_nth.
Qed.
(** The parameter of a path counts sections: path(i + t) evaluates every parallel path
    on section i at t; path(len(path)) is the end of the last section. *)
Theorem C77_call : forall r i t arm, r_aligned r -> (i < r_len r)%nat -> 0 <= t < 1 \/ (t = 1 /\ r_len r = S i) ->
  exists l, r_at r (INR i + t) arm = Some l /\ length l = r_n r /\
    forall k path s, nth_error (r_paths r) k = Some path -> nth_error path i = Some s -> nth_error l k = Some (s_at s t arm).
Proof.
  intros r i t arm A I T. assert (LP : length (r_paths r) = r_n r) by apply A. rewrite <- LP. unfold r_at. destruct T as [T|[-> E]].
  - rewrite whole_at by exact T. destruct (Nat.eqb_spec i (r_len r)) as [X|_]; [lia|].
    replace (INR i + t - INR i) with t by ring. exact (on_all_some r i (fun s => s_at s t arm) A I).
  - replace (INR i + 1) with (INR (S i) + 0) by (rewrite S_INR; ring). rewrite whole_at by lra. rewrite E, Nat.eqb_refl.
    exact (on_all_some r i (fun s => s_at s 1 arm) A I).
Qed.
Lemma to_right_of p v o : to_right p v o = padd p (smul o (right_of v)).
Proof.
  unfold to_right, right_of. rewrite len_flip. apply pt_eq; unfold padd, smul, len, len2; cbn [fst snd]; unfold Rdiv; ring.
Qed.
(** A call that draws one section draws it along the curve it is asked for: the new
    part of parallel path k is at the distance given by the offset to the right of that
    curve, square to the direction of travel. *)
Theorem C77_curve : forall fuel hob eng c d w o r q t, one_section c = Some (w, o) -> true_derivative c -> r_given c d r -> r_aligned r -> (0 < r_n r)%nat ->
  do_rcall fuel hob eng c r = Some q -> 0 <= t <= 1 ->
  exists v l, velocity (curve_of c d r) t v /\ r_at q (INR (r_len r) + t) 0 = Some l /\ length l = r_n r /\
    forall k, (k < r_n r)%nat -> nth k l (0, 0) = to_right (curve_of c d r t) v (wanted (nth k (r_o r) 0) true o k t).
Proof.
  intros fuel hob eng c d w o r q t E T G A N H B. destruct (one_section_curve _ _ _ _ _ _ _ _ _ E T G H) as (f & df & x & D & F & V).
  assert (AQ : r_aligned q /\ r_n q = r_n r) by (eapply call_aligned; eassumption). destruct AQ as [AQ NQ].
  assert (LQ : r_len q = S (r_len r)).
  { destruct (d_k _ _ _ _ _ _ _ D 0%nat N) as (off & wid & path & _ & _ & PP & _ & _ & QP). apply nth_error_In in PP, QP.
    rewrite <- (len_all _ _ A PP), <- (len_all _ _ AQ QP), app_length. cbn. lia. }
  assert (K : forall k, (k < r_n r)%nat -> exists path s, nth_error (r_paths q) k = Some (path ++ [s]) /\ length path = r_len r /\
     s_at s t 0 = to_right (curve_of c d r t) (df t (/ 2 / INR (r_evals r))) (wanted (nth k (r_o r) 0) true o k t)).
  { intros k K. destruct (d_k _ _ _ _ _ _ _ D k K) as (off & wid & path & PO & _ & PP & _ & _ & QP). exists path. eexists. split; [exact QP|].
    split; [apply len_all; [exact A|eapply nth_error_In; exact PP]|].
    destruct (C69_dimensions _ _ _ _ _ _ _ _ _ _ E H A QP) as (path' & s' & EQ & _ & _ & O & _). apply app_inj_tail in EQ as [-> <-]. cbn [new_sub s_off] in O.
    unfold s_at, s_raw. cbn [Z.eqb]. unfold s_centre. cbn [new_sub s_tr s_x s_off s_dx s_h]. rewrite id_apply, F, O. symmetry. apply to_right_of. }
  destruct (C77_call q (r_len r) t 0 AQ) as (l & L & LL & P).
  - lia.
  - destruct (Req_EM_T t 1) as [->|X]; [right; auto|left; lra].
  - exists (df t (/ 2 / INR (r_evals r))), l. split; [eapply velocity_ext; [exact F|apply V]|]. split; [exact L|]. split; [congruence|].
    intros k Kk. destruct (K k Kk) as (path & s & S1 & S2 & S3). rewrite <- S3. apply nth_error_nth. apply (P k _ s S1).
    rewrite nth_error_app2 by lia. replace (r_len r - length path)%nat with 0%nat by lia. reflexivity.
Qed.
(** Drawing does not change what is there. *)
Theorem C77_keeps : forall fuel hob eng c w o r q u arm, one_section c = Some (w, o) -> r_aligned r -> (0 < r_n r)%nat ->
  do_rcall fuel hob eng c r = Some q -> 0 <= u < INR (r_len r) -> r_at q u arm = r_at r u arm.
Proof.
  intros fuel hob eng c w o r q u arm E A N H B. destruct (one_section_drawn _ _ _ _ _ _ _ _ E H) as (f & df & x & D).
  assert (AQ : r_aligned q /\ r_n q = r_n r) by (eapply call_aligned; eassumption). destruct AQ as [AQ NQ].
  assert (LP : length (r_paths r) = r_n r) by apply A. assert (LPQ : length (r_paths q) = r_n q) by apply AQ.
  assert (LQ : r_len q = S (r_len r)).
  { destruct (d_k _ _ _ _ _ _ _ D 0%nat N) as (off & wid & path & _ & _ & PP & _ & _ & QP). apply nth_error_In in PP, QP.
    rewrite <- (len_all _ _ A PP), <- (len_all _ _ AQ QP), app_length. cbn. lia. }
  set (i := whole u). assert (U : exists t, 0 <= t < 1 /\ u = INR i + t).
  { exists (frac_part u). destruct (base_fp u) as [F1 F2]. split; [lra|]. unfold i, whole. unfold frac_part. rewrite INR_IZR_INZ, Z2Nat.id; [lra|].
    apply le_IZR. unfold frac_part in *. cut (- 1 < IZR (Int_part u)); [|lra]. intro Q. apply IZR_le. apply lt_IZR in Q. lia. }
  destruct U as (t & T & U). assert (I : (i < r_len r)%nat) by (apply INR_lt; lra).
  destruct (C77_call r i t arm A I (or_introl T)) as (l & L & LL & P). destruct (C77_call q i t arm AQ ltac:(lia) (or_introl T)) as (m & M & LM & Q).
  rewrite U, L, M. f_equal. apply (nth_ext _ _ (0, 0) (0, 0)); [etransitivity; [exact LM|]; etransitivity; [exact NQ|symmetry; exact LL]|]. intros k K.
  destruct (d_k _ _ _ _ _ _ _ D k ltac:(rewrite <- NQ, <- LM; exact K)) as (off & wid & path & _ & _ & PP & _ & _ & QP).
  assert (PL : length path = r_len r) by (apply len_all; [exact A|eapply nth_error_In; exact PP]).
  destruct (nth_error path i) as [s|] eqn:S; [|apply nth_error_None in S; lia].
  rewrite (nth_error_nth _ _ _ (P k path s PP S)). rewrite (nth_error_nth _ _ _ (Q k _ s QP ltac:(rewrite nth_error_app1 by lia; exact S))). reflexivity.
Qed.
Print Assumptions C77_call.
Print Assumptions C77_curve.
Print Assumptions C77_keeps.

(** An arc of 90 degrees after a straight section, two parallel paths. *)
Definition twin : robust :=
  Rob 2 [Flush; Flush] (0, 0) [-1; 1] [1; 1] [[]; []] [0%Z; 1%Z] [0%Z; 0%Z] (/ 100) (/ 1000) 0 1000 false true None.
Example C77_case : forall fuel hob eng, exists r q,
  do_rcall fuel hob eng (RSegment (2, 0) RKeep RKeep false) twin = Some r /\ r_aligned r /\ r_len r = 1%nat /\
  do_rcall fuel hob eng (RBezier [(1, 0); (2, 1)] RKeep (RNum 1) true) r = Some q /\
  true_derivative (RBezier [(1, 0); (2, 1)] RKeep (RNum 1) true) /\ curve_of (RBezier [(1, 0); (2, 1)] RKeep (RNum 1) true) (0, 0) r 1 = (4, 1).
Proof.
  intros fuel hob eng. eexists. eexists. split; [reflexivity|]. split; [|split; [reflexivity|split; [reflexivity|split; [exact I|]]]].
  - repeat split. intros p q [<-|[<-|[]]] [<-|[<-|[]]]; reflexivity.
  - unfold curve_of. cbv zeta. rewrite <- (C31_bernstein _ 1) by discriminate. rewrite (proj2 (C31_ends _ _)). cbn. apply pt_eq; cbn; lra.
Qed.
