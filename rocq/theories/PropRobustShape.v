(** C71: the polygon of a straight RobustPath section. *)

From Coq Require Import Reals Lra Lia List ZArith Bool.
From Verif Require Import Plane PlaneProofs Curve CurveProofs Hier Engine Flex SpecFlex FlexProofs FlexMove PropFlexShape
  Robust SpecRobust PropRobust PropRobustJoin PropRobustEnds RobustMove PropRobustMove.
Import ListNotations.
Open Scope R_scope.

(** ** A straight component *)

Lemma dir_nonzero (p q : pt) : p <> q -> psub q p <> (0, 0).
Proof. intros N E. apply N. destruct p, q. unfold psub in E. cbn in E. injection E as A B. f_equal; lra. Qed.
Lemma right_normal (p q : pt) : right_of (psub q p) = smul (-1) (normal p q).
Proof.
  rewrite normal_apart. unfold right_of, apart. rewrite len_flip. apply pt_eq; unfold smul, psub, len, len2; cbn [fst snd]; unfold Rdiv; ring.
Qed.
Section Line.
Variables (p q : pt) (o w0 w1 tol : R) (ev : nat) (wid off : R -> R).
Hypothesis apart_pq : p <> q.
Hypothesis some_ev : (0 < ev)%nat.
Hypothesis wid_is : forall u, wid u = w0 + u * (w1 - w0).
Hypothesis off_is : forall u, off u = o.
Let s := new_sub (line_to p q) (fun _ _ => psub q p) off wid tol ev.
Let n := right_of (psub q p).

Lemma line_centre u : s_centre s u = padd (padd p (smul u (psub q p))) (smul o n).
Proof. unfold s_centre, s, new_sub. cbn [s_x s_dx s_off s_h]. rewrite off_is. fold n. generalize n. intro m. apply pt_eq; unfold line_to, padd, psub, smul; cbn [fst snd]; ring. Qed.
Lemma half_pos : 0 < / 2 / INR ev. Proof. apply Rdiv_lt_0_compat; [lra|now apply lt_0_INR]. Qed.
Lemma line_at u arm : 0 <= u <= 1 -> (arm = 0 \/ arm = 1 \/ arm = -1)%Z ->
  s_at s u arm = padd (padd p (smul u (psub q p))) (smul (o + IZR arm * (w0 + u * (w1 - w0)) / 2) n).
Proof.
  intros U A. unfold s_at, s_raw. change (s_tr s) with aff_id. rewrite id_apply.
  assert (W : right_of (psub (s_centre s (Rmin 1 (u + s_h s))) (s_centre s (Rmax 0 (u - s_h s)))) = n).
  { rewrite !line_centre. change (s_h s) with (/ 2 / INR ev). pose proof half_pos as H. set (h := / 2 / INR ev) in *. clearbody h.
    replace (psub _ _) with (smul (Rmin 1 (u + h) - Rmax 0 (u - h)) (psub q p)) by (apply pt_eq; unfold psub, padd, smul; cbn [fst snd]; ring).
    apply right_smul; [|exact (dir_nonzero p q apart_pq)]. unfold Rmin, Rmax. destruct (Rle_dec _ _), (Rle_dec _ _); lra. }
  rewrite W, line_centre. change (s_wid s) with wid. rewrite wid_is.
  destruct A as [-> | [-> | ->]]; cbn [Z.eqb Z.ltb Z.compare]; apply pt_eq; unfold padd, psub, smul; cbn [fst snd]; field.
Qed.
Lemma n_len : len n = 1. Proof. apply right_len. exact (dir_nonzero p q apart_pq). Qed.
Lemma n_normal : n = smul (-1) (normal p q). Proof. apply right_normal. Qed.
Lemma line_straight arm : arm = (-1)%Z \/ arm = 0%Z \/ arm = 1%Z -> straight_side s arm.
Proof.
  intro A. split; [exact half_pos|]. split; [apply pow2_ge_0|].
  exists (padd p (smul (o + IZR arm * w0 / 2) n)), (padd (psub q p) (smul (IZR arm * (w1 - w0) / 2) n)). split.
  - intro E. pose proof (apart_pos p q apart_pq) as P. pose proof (apart_sq p q) as S. rewrite n_normal, normal_apart in E.
    pose proof (f_equal fst E) as E1. pose proof (f_equal snd E) as E2. unfold padd, psub, smul in E1, E2. cbn [fst snd] in E1, E2.
    set (l := apart p q) in *. clearbody l. destruct p as [a b], q as [c d]. cbn [fst snd] in *.
    assert (X : (c - a) ^ 2 + (d - b) ^ 2 = 0).
    { set (x := IZR arm * (w1 - w0) / 2) in *. clearbody x.
      transitivity ((c - a) * (c - a + x * (-1 * (- (d - b) / l))) + (d - b) * (d - b + x * (-1 * ((c - a) / l)))); [field; lra|rewrite E1, E2; ring]. }
    rewrite X in S. nra.
  - intros u U. rewrite line_at by (try assumption; tauto). apply pt_eq; unfold padd, smul; cbn [fst snd]; field.
Qed.
Lemma line_grad u : u = 0 \/ u = 1 -> s_grad s u 0 = psub q p.
Proof.
  intro U. destruct (straight_grad s 0 u (line_straight 0 ltac:(tauto)) U) as [-> _]. rewrite !line_at by (try lra; tauto).
  apply pt_eq; unfold padd, psub, smul; cbn [fst snd]; field.
Qed.
Lemma line_width u : 0 <= u <= 1 -> s_width s u = Rabs (w0 + u * (w1 - w0)).
Proof.
  intro U. unfold s_width. rewrite !line_at by (try assumption; tauto).
  match goal with |- len ?x = _ => replace x with (smul (- (w0 + u * (w1 - w0))) n) by (apply pt_eq; unfold padd, psub, smul; cbn [fst snd]; field) end ||
  match goal with |- len ?x = _ => replace x with (smul (w0 + u * (w1 - w0)) n) by (apply pt_eq; unfold padd, psub, smul; cbn [fst snd]; field) end.
  rewrite len_smul, n_len, ?Rabs_Ropp. ring.
Qed.
End Line.

(** ** Its outline *)

Lemma unit_sign c v : c = 1 \/ c = -1 -> v <> (0, 0) -> smul (/ len (smul c v)) (smul c v) = smul (c / len v) v.
Proof.
  intros C N. pose proof (len_pos v N) as L. rewrite len_smul. replace (Rabs c) with 1.
  - apply pt_eq; unfold smul; cbn [fst snd]; field; lra.
  - destruct C as [-> | ->]; [now rewrite Rabs_R1|]. rewrite Rabs_left; lra.
Qed.
(** The two corners of an extension by [e] of the centre line at [x]; [c] is 1 at the
    end and -1 at the start. *)
Lemma ext_corners p q a b c e r x : p <> q -> (c = 1 \/ c = -1) -> at_xy p q a b x ->
  let v := smul (/ len (smul c (psub q p))) (smul c (psub q p)) in let w := (snd v, - fst v) in
  at_xy p q (a + c * e) (b - c * r) (padd (padd x (smul e v)) (smul r w)) /\
  at_xy p q (a + c * e) (b + c * r) (psub (padd x (smul e v)) (smul r w)).
Proof.
  intros N C X v w. pose proof (apart_pos p q N) as P.
  assert (X' : x = padd (padd p (smul (a / apart p q) (psub q p))) (smul b (normal p q))).
  { apply (C66_frame p q a b); [exact N|exact X|]. now apply frame. }
  unfold w. unfold v. rewrite unit_sign by (try assumption; exact (dir_nonzero p q N)). rewrite <- apart_len. clear v w X. subst x. rewrite normal_apart.
  split; apply frame; try exact N; rewrite normal_apart; apply pt_eq; unfold padd, psub, smul; cbn [fst snd]; field; lra.
Qed.
Definition ext_len (en : cap) (w0 w1 e0 e1 : R) : Prop :=
  match en with Flush => e0 = 0 /\ e1 = 0 | Extended => e0 = w0 / 2 /\ e1 = w1 / 2 | Lengths a b => e0 = a /\ e1 = b | _ => False end.
Lemma line_outline hob p q o w0 w1 tol ev wid off en tau e0 e1 :
  p <> q -> (0 < ev)%nat -> (forall u, wid u = w0 + u * (w1 - w0)) -> (forall u, off u = o) -> 0 <= w0 -> 0 <= w1 -> ext_len en w0 w1 e0 e1 ->
  exists r0 r1 l1 l0 c0 c1, r_outline hob en tau ev [new_sub (line_to p q) (fun _ _ => psub q p) off wid tol ev] =
    Some (c1 ++ [l1; l0] ++ c0 ++ [r0; r1]) /\
    at_xy p q 0 (- o - w0 / 2) r0 /\ at_xy p q (apart p q) (- o - w1 / 2) r1 /\
    at_xy p q (apart p q) (- o + w1 / 2) l1 /\ at_xy p q 0 (- o + w0 / 2) l0 /\
    (en = Flush /\ c0 = [] /\ c1 = [] \/
     exists a b c d, c1 = [a; b] /\ c0 = [c; d] /\
        at_xy p q (apart p q + e1) (- o - w1 / 2) a /\ at_xy p q (apart p q + e1) (- o + w1 / 2) b /\
        at_xy p q (- e0) (- o + w0 / 2) c /\ at_xy p q (- e0) (- o - w0 / 2) d).
Proof.
  intros N EV W O W0 W1 E. set (s := new_sub (line_to p q) (fun _ _ => psub q p) off wid tol ev).
  pose proof (line_at p q o w0 w1 tol ev wid off N EV W O) as AT. fold s in AT.
  assert (ST : forall arm, arm = (-1)%Z \/ arm = 1%Z -> straight_side s arm) by (intros arm A; apply (line_straight p q o w0 w1); auto; tauto).
  pose proof (apart_pos p q N) as P.
  assert (NN : right_of (psub q p) = smul (-1) (normal p q)) by apply right_normal.
  assert (FR : forall u arm, u = 0 \/ u = 1 -> (arm = 0 \/ arm = 1 \/ arm = -1)%Z -> at_xy p q (u * apart p q) (- (o + IZR arm * (w0 + u * (w1 - w0)) / 2)) (s_at s u arm)).
  { intros u arm U A. rewrite AT by (try assumption; lra). apply frame; [exact N|]. rewrite NN. apply pt_eq; unfold padd, smul; cbn [fst snd]; field; lra. }
  assert (XY : forall a b a' b' x, at_xy p q a b x -> a = a' -> b = b' -> at_xy p q a' b' x) by (intros; subst; assumption).
  assert (G0 := line_grad p q o w0 w1 tol ev wid off N EV W O 0 (or_introl eq_refl)). assert (G1 := line_grad p q o w0 w1 tol ev wid off N EV W O 1 (or_intror eq_refl)).
  assert (D0 := line_width p q o w0 w1 tol ev wid off N EV W O 0 ltac:(lra)). assert (D1 := line_width p q o w0 w1 tol ev wid off N EV W O 1 ltac:(lra)).
  fold s in G0, G1, D0, D1. rewrite Rabs_pos_eq in D0, D1 by lra.
  assert (C : exists c0 c1, end_cap hob en tau ev s 1 (-1) = Some c1 /\ end_cap hob en tau ev s 0 1 = Some c0 /\
    (en = Flush /\ c0 = [] /\ c1 = [] \/
     exists a b c d, c1 = [a; b] /\ c0 = [c; d] /\
        at_xy p q (apart p q + e1) (- o - w1 / 2) a /\ at_xy p q (apart p q + e1) (- o + w1 / 2) b /\
        at_xy p q (- e0) (- o + w0 / 2) c /\ at_xy p q (- e0) (- o - w0 / 2) d)).
  { assert (S1 : - sgn 1 = -1) by (unfold sgn; lra). assert (S2 : - sgn (-1) = 1) by (unfold sgn; lra).
    assert (M0 : at_xy p q 0 (- o) (s_at s 0 0)) by (eapply XY; [apply (FR 0 0%Z); tauto|ring|field]).
    assert (M1 : at_xy p q (apart p q) (- o) (s_at s 1 0)) by (eapply XY; [apply (FR 1 0%Z); tauto|ring|field]).
    assert (Q0 := fun e r => ext_corners p q 0 (- o) (-1) e r (s_at s 0 0) N (or_intror eq_refl) M0). cbv zeta in Q0.
    assert (Q1 := fun e r => ext_corners p q (apart p q) (- o) 1 e r (s_at s 1 0) N (or_introl eq_refl) M1). cbv zeta in Q1.
    destruct en; try contradiction; unfold end_cap; cbv zeta.
    - exists [], []. repeat split. left. auto.
    - eexists. eexists. split; [reflexivity|]. split; [reflexivity|]. right.
      eexists. eexists. eexists. eexists. split; [reflexivity|]. split; [reflexivity|]. destruct E as [-> ->]. rewrite G0, G1, D0, D1, S1, S2.
      split; [|split; [|split]]; (eapply XY; [apply Q1 || apply Q0|field|field]).
    - eexists. eexists. split; [reflexivity|]. split; [reflexivity|]. right.
      eexists. eexists. eexists. eexists. split; [reflexivity|]. split; [reflexivity|]. destruct E as [-> ->]. rewrite G0, G1, D0, D1, S1, S2.
      destruct (Req_EM_T 0 0) as [_|X]; [|congruence]. destruct (Req_EM_T 1 0) as [X|_]; [lra|].
      split; [|split; [|split]]; (eapply XY; [apply Q1 || apply Q0|field|field]). }
  destruct C as (c0 & c1 & C1 & C0 & CC).
  exists (s_at s 0 1), (s_at s 1 1), (s_at s 1 (-1)), (s_at s 0 (-1)), c0, c1.
  split; [|split; [|split; [|split; [|split]]]].
  - unfold r_outline. cbn [last side]. rewrite C0, C1, !straight_points by (try apply ST; try lra; tauto). reflexivity.
  - eapply XY; [apply FR; tauto|ring|field].
  - eapply XY; [apply FR; tauto|ring|field].
  - eapply XY; [apply FR; tauto|ring|field].
  - eapply XY; [apply FR; tauto|ring|field].
  - exact CC.
Qed.

(** ** In the polygons *)

Lemma now_item fuel hob eng r d path en l dt : (2 <= fuel)%nat -> r_uncut fuel hob eng r -> r_now fuel hob eng r = Some d ->
  In (path, en, l, dt) (zipped r) -> exists p ps, r_outline hob en (r_tol r) (r_evals r) path = Some p /\ In ((l, dt), ps) d /\ In p ps.
Proof.
  intros F U D I. rewrite now_gen in D. cbv zeta in D. destruct (some_or_none (map (out_item hob r) (zipped r))) as [J|(m & Em)].
  - rewrite gen_none in D by exact J. discriminate.
  - pose proof (uncut_short fuel hob eng r m F U Em) as SH. rewrite Em in D.
    rewrite gen_all in D by (intros s p J; apply r_cut_whole; [exact F|now apply (SH s)]). cbn [fst snd] in D. injection D as <-.
    pose proof (in_map (out_item hob r) _ _ I) as J. rewrite Em in J. apply in_map_iff in J as ([s p] & E & J). cbn [out_item fst snd] in E. injection E as -> E.
    destruct (put_in m [] _ p (or_intror J)) as (ps & A & B). exists p, ps. auto.
Qed.
Lemma zipped_nth r k path : r_aligned r -> nth_error (r_paths r) k = Some path ->
  In (path, nth k (r_ends r) Flush, nth k (r_layers r) 0%Z, nth k (r_dts r) 0%Z) (zipped r).
Proof.
  intros (_ & _ & A1 & A2 & A3 & A4 & _) H. assert (L : (k < r_n r)%nat) by (rewrite <- A4; apply nth_error_Some; congruence).
  unfold zipped. clear - A1 A2 A3 A4 H L. remember (r_n r) as n eqn:X. clear X.
  generalize dependent (r_paths r). generalize dependent (r_ends r). generalize dependent (r_layers r). generalize dependent (r_dts r). clear r.
  revert n L. induction k as [|k IH]; intros [|n] L ds D ls LL es E ps P H; try lia.
  - destruct ds, ls, es, ps; try discriminate. cbn in H. injection H as ->. left. reflexivity.
  - destruct ds as [|d ds], ls as [|l ls], es as [|e es], ps as [|p ps]; try discriminate. right. cbn [nth]. apply (IH n); try (cbn in *; lia). exact H.
Qed.

(** A path drawn as one straight section, with a given width (and possibly another
    at the end): parallel path [k] is the trapezoid (the rectangle, if the widths
    agree) that reaches half the width to both sides of a line at the distance
    [offset] from the section: to the RIGHT of it for positive offsets.  Extended ends are
    rectangles before and behind it, of the width there. *)
Theorem C71_section : forall fuel hob eng p q wa rel r0 r k w0 w1 o e0 e1 d, (2 <= fuel)%nat ->
  r_aligned r0 -> (forall l, In l (r_paths r0) -> l = []) -> (0 < r_evals r0)%nat -> r_x r0 = p -> r_place rel r0 q <> p ->
  do_rcall fuel hob eng (RSegment q wa RKeep rel) r0 = Some r -> r_uncut fuel hob eng r -> (k < r_n r0)%nat ->
  w0 = nth k (r_w r0) 0 -> w1 = nth k (r_w r) 0 -> o = nth k (r_o r0) 0 -> 0 <= w0 -> 0 <= w1 -> from_here false wa ->
  ext_len (nth k (r_ends r0) Flush) w0 w1 e0 e1 -> r_now fuel hob eng r = Some d ->
  let z := r_place rel r0 q in
  exists l a0 a1 b1 b0 c0 c1, In ((nth k (r_layers r0) 0%Z, nth k (r_dts r0) 0%Z), l) d /\ In (c1 ++ [b1; b0] ++ c0 ++ [a0; a1]) l /\
    at_xy p z 0 (- o - w0 / 2) a0 /\ at_xy p z (apart p z) (- o - w1 / 2) a1 /\
    at_xy p z (apart p z) (- o + w1 / 2) b1 /\ at_xy p z 0 (- o + w0 / 2) b0 /\
    (nth k (r_ends r0) Flush = Flush /\ c0 = [] /\ c1 = [] \/
     exists x1 x2 x3 x4, c1 = [x1; x2] /\ c0 = [x3; x4] /\
        at_xy p z (apart p z + e1) (- o - w1 / 2) x1 /\ at_xy p z (apart p z + e1) (- o + w1 / 2) x2 /\
        at_xy p z (- e0) (- o + w0 / 2) x3 /\ at_xy p z (- e0) (- o - w0 / 2) x4).
Proof.
  intros fuel hob eng p q wa rel r0 r k w0 w1 o e0 e1 d FU AL EM EV X NE H U K W0 W1 O P0 P1 FH E D z.
  assert (AR : r_aligned r) by (eapply call_aligned; eassumption).
  cbn [do_rcall] in H. unfold r_segment in H. pose proof H as H'. apply add_section_drawn in H. destruct H.
  destruct (d_k k K) as (off & wid & path & PO & PW & PP & QO & QW & QP).
  assert (path = []) by (apply EM; eapply nth_error_In; exact PP). subst path. cbn [app] in QP.
  assert (Z : (if rel then padd q (r_x r0) else q) = z).
  { unfold z, r_place. destruct rel; [|reflexivity]. apply pt_eq; unfold padd; cbn; ring. }
  rewrite Z in QP. rewrite X in QP.
  assert (OF : forall u, off u = o).
  { intro u. unfold parse_offset in PO. destruct (nth_error (r_o r0) k) as [x|] eqn:Eo; [|discriminate]. injection PO as <-. rewrite O. symmetry. now apply nth_error_nth. }
  assert (W0' : wid 0 = w0 /\ wid 1 = w1 /\ forall u, wid u = wid 0 + u * (wid 1 - wid 0)).
  { rewrite W0, W1. rewrite (nth_error_nth _ _ 0 QW). unfold parse_width in PW. destruct (nth_error (r_w r0) k) as [x|] eqn:Ew; [|discriminate].
    rewrite (nth_error_nth _ _ 0 Ew). destruct (r_gds r0); [injection PW as <-; repeat split; intros; ring|].
    destruct wa as [|y|f|ll]; cbn [from_here] in FH; try contradiction.
    - injection PW as <-. repeat split; intros; ring.
    - injection PW as <-. unfold linear. repeat split; intros; ring.
    - destruct (nth_error ll k) as [i|] eqn:El; [|discriminate]. cbn [option_map] in PW. injection PW as <-.
      apply nth_error_In in El. rewrite Forall_forall in FH. specialize (FH i El). destruct i; [|contradiction]. cbn [item_from]. unfold linear. repeat split; intros; ring. }
  destruct W0' as (V0 & V1 & VL). assert (VL' : forall u, wid u = w0 + u * (w1 - w0)) by (intro u; rewrite VL, V0, V1; reflexivity).
  pose proof (zipped_nth r k _ AR QP) as I. destruct (now_item _ _ _ _ _ _ _ _ _ FU U D I) as (pl & ps & OU & I1 & I2).
  rewrite d_v in OU.
  destruct (line_outline hob p z o w0 w1 (r_tol r0) (r_evals r0) wid off (nth k (r_ends r0) Flush) (r_tol r) e0 e1 (fun Y => NE (eq_sym Y)) EV VL' OF P0 P1 E)
    as (a0 & a1 & b1 & b0 & c0 & c1 & LO & R).
  rewrite d_e in OU. rewrite d_l, d_d in I1. unfold z in *. rewrite LO in OU. injection OU as <-.
  exists ps, a0, a1, b1, b0, c0, c1. split; [exact I1|]. split; [exact I2|exact R].
Qed.
Print Assumptions C71_section.
(** Paths with at least one section have polygons, unless their ends are round and
    the radius there is too small for the tolerance, or their ends are functions. *)
Lemma side_some tau ev arm path : path <> [] -> forall start, exists l, side tau ev arm start path = Some l.
Proof.
  induction path as [|s path IH]; [congruence|]. intros _ start. cbn [side]. destruct path as [|t path]; [eexists; reflexivity|].
  destruct (crossing _ _ _ _ _) as [[u0 u1] px]. destruct (if Rle_dec 0 u1 then _ else _) as [piece st]. destruct (IH ltac:(discriminate) st) as [l ->]. eexists. reflexivity.
Qed.
Theorem C71_defined : forall fuel hob eng r, (2 <= fuel)%nat -> r_uncut fuel hob eng r ->
  (forall l, In l (r_paths r) -> l <> []) -> (forall e, In e (r_ends r) -> match e with RoundCap | CustomCap _ => False | _ => True end) ->
  exists d, r_now fuel hob eng r = Some d.
Proof.
  intros fuel hob eng r F U NP NE. rewrite now_gen. cbv zeta. destruct (some_or_none (map (out_item hob r) (zipped r))) as [(s & J)|(m & Em)].
  - exfalso. apply in_map_iff in J as ([[[path en] l] dt] & E & J). cbn [out_item] in E. injection E as _ E.
    unfold zipped in J. apply in_combine_l in J. apply in_combine_l in J. pose proof (in_combine_l _ _ _ _ J) as Jp. pose proof (in_combine_r _ _ _ _ J) as Je.
    specialize (NP path Jp). specialize (NE en Je). unfold r_outline in E. destruct path as [|s0 path]; [congruence|].
    destruct (side_some (r_tol r ^ 2) (r_evals r) (-1) _ NP 0) as [a0 A0]. destruct (side_some (r_tol r ^ 2) (r_evals r) 1 _ NP 0) as [a1 A1].
    rewrite A0, A1 in E. destruct en; try contradiction; discriminate E.
  - pose proof (uncut_short fuel hob eng r m F U Em) as SH. rewrite Em.
    rewrite gen_all by (intros s p J; apply r_cut_whole; [exact F|now apply (SH s)]). eexists. reflexivity.
Qed.
Print Assumptions C71_defined.

