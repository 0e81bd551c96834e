(** C66: where the polygons of a FlexPath are. *)

From Coq Require Import Reals Lra Lia List ZArith Bool.
From Verif Require Import Plane Hier Curve Engine Flex SpecFlex FlexProofs FlexMove.
Import ListNotations.
Open Scope R_scope.

Arguments Nat.ltb : simpl never.

Lemma apart_len p q : apart p q = len (psub q p).
Proof. reflexivity. Qed.
Lemma apart_pos p q : p <> q -> 0 < apart p q.
Proof.
  intro N. rewrite apart_len. destruct (sqrt_pos (len2 (psub q p))) as [H|H]; [exact H|]. exfalso. apply N.
  assert (Z : psub q p = (0, 0)) by (apply len_zero; unfold len; now rewrite <- H).
  destruct p, q. unfold psub in Z. cbn in Z. injection Z as A B. f_equal; lra.
Qed.
Lemma apart_sq p q : apart p q * apart p q = (fst q - fst p) ^ 2 + (snd q - snd p) ^ 2.
Proof. unfold apart. apply sqrt_sqrt. pose proof (pow2_ge_0 (fst q - fst p)). pose proof (pow2_ge_0 (snd q - snd p)). lra. Qed.
Lemma normal_apart p q : normal p q = (- (snd q - snd p) / apart p q, (fst q - fst p) / apart p q).
Proof. reflexivity. Qed.
(** Frame coordinates of p + a * direction + b * normal. *)
Lemma frame p q a b x : p <> q -> x = padd (padd p (smul (a / apart p q) (psub q p))) (smul b (normal p q)) -> at_xy p q a b x.
Proof.
  intros N ->. pose proof (apart_pos p q N) as P. pose proof (apart_sq p q) as S. rewrite normal_apart. unfold at_xy, ahead, aside. fold (apart p q).
  set (l := apart p q) in *. clearbody l. destruct p as [px py], q as [qx qy]. unfold padd, smul, psub in *. cbn [fst snd] in *.
  set (u := qx - px) in *. set (v := qy - py) in *. clearbody u v.
  split; apply (Rmult_eq_reg_r (l * l)); try nra.
  - replace ((u * (px + a / l * u + b * (- v / l) - px) + v * (py + a / l * v + b * (u / l) - py)) / l * (l * l)) with (a * (u ^ 2 + v ^ 2)) by (field; lra). rewrite <- S. ring.
  - replace ((u * (py + a / l * v + b * (u / l) - py) - v * (px + a / l * u + b * (- v / l) - px)) / l * (l * l)) with (b * (u ^ 2 + v ^ 2)) by (field; lra). rewrite <- S. ring.
Qed.
(** Such coordinates determine the point. *)
Theorem C66_frame : forall p q a b x y, p <> q -> at_xy p q a b x -> at_xy p q a b y -> x = y.
Proof.
  intros p q a b x y N [A1 B1] [A2 B2]. pose proof (apart_pos p q N) as P. pose proof (apart_sq p q) as S.
  unfold ahead, aside in *. fold (apart p q) in *. set (l := apart p q) in *. clearbody l.
  destruct p as [px py], q as [qx qy], x as [x1 x2], y as [y1 y2]. cbn [fst snd] in *.
  set (u := qx - px) in *. set (v := qy - py) in *. clearbody u v.
  assert (E1 : u * (x1 - y1) + v * (x2 - y2) = 0).
  { apply (Rmult_eq_reg_r (/ l)); [|apply Rinv_neq_0_compat; lra]. unfold Rdiv in *. lra. }
  assert (E2 : u * (x2 - y2) - v * (x1 - y1) = 0).
  { apply (Rmult_eq_reg_r (/ l)); [|apply Rinv_neq_0_compat; lra]. unfold Rdiv in *. lra. }
  assert (L : 0 < l * l) by nra.
  f_equal; apply Rminus_diag_uniq; apply (Rmult_eq_reg_l (l * l)); try lra; rewrite S.
  - replace ((u ^ 2 + v ^ 2) * (x1 - y1)) with (u * (u * (x1 - y1) + v * (x2 - y2)) - v * (u * (x2 - y2) - v * (x1 - y1))) by ring. rewrite E1, E2. ring.
  - replace ((u ^ 2 + v ^ 2) * (x2 - y2)) with (v * (u * (x1 - y1) + v * (x2 - y2)) + u * (u * (x2 - y2) - v * (x1 - y1))) by ring. rewrite E1, E2. ring.
Qed.

(** ** One section *)

Section Shape.
Variables (fuel : nat) (hob : pt * pt -> R * R -> pt * pt) (eng : op -> list zpath -> list zpath -> list zpath).
Hypothesis enough : (2 <= fuel)%nat.
Notation now := (now fuel hob eng). Notation uncut := (uncut fuel hob eng).

(** The polygons of a path are those of its parallel paths, each under its layer
    and datatype. *)
Lemma fill_spec f out : forall ks d, (forall k, In k ks -> exists p, out k = Some p /\ ((f_max f <= 4)%nat \/ (length p <= f_max f)%nat)) ->
  snd (fill fuel eng f out ks d) = true /\
  (forall s p, (exists l, In (s, l) d /\ In p l) -> exists l, In (s, l) (fst (fill fuel eng f out ks d)) /\ In p l) /\
  (forall k p, In k ks -> out k = Some p -> exists l, In ((nth k (f_layers f) 0%Z, nth k (f_dts f) 0%Z), l) (fst (fill fuel eng f out ks d)) /\ In p l).
Proof.
  induction ks as [|k ks IH]; intros d H; [cbn; split; [reflexivity|]; split; [auto|intros k p []]|].
  destruct (H k (or_introl eq_refl)) as (p & P & W). cbn [fill]. rewrite P, (cut_whole fuel eng f p enough W).
  destruct (IH (sext d (nth k (f_layers f) 0%Z, nth k (f_dts f) 0%Z) [p])) as (A & B & C); [intros k' K; apply H; now right|].
  split; [exact A|]. split.
  - intros s q X. apply B. apply sext_in. now left.
  - intros j q [<-|J] O; [|now apply C]. apply B. apply sext_in. right. split; [reflexivity|]. left. congruence.
Qed.
Lemma fill_all f out : forall ks d k, snd (fill fuel eng f out ks d) = true -> In k ks -> out k <> None.
Proof.
  induction ks as [|x ks IH]; intros d k H I; [contradiction|]. cbn [fill] in H. destruct (out x) as [p|] eqn:E; [|discriminate].
  destruct (cut_up fuel eng f p); [|discriminate]. destruct I as [<-|I]; [congruence|exact (IH _ k H I)].
Qed.
Lemma now_out f d k : uncut f -> flat2 f = false -> now f = Some d -> (k < f_n f)%nat ->
  exists p l, out_of fuel hob f k = Some p /\ In ((nth k (f_layers f) 0%Z, nth k (f_dts f) 0%Z), l) d /\ In p l.
Proof.
  intros U F N K. unfold SpecFlex.now in N. rewrite get_fresh in N by reflexivity.
  change (flat2 (set_cache f None)) with (flat2 f) in N. rewrite F in N. cbv zeta in N. change (f_n (set_cache f None)) with (f_n f) in N.
  assert (O : forall j, out_of fuel hob (set_cache f None) j = out_of fuel hob f j).
  { intro j. destruct f as [n pts ww oo en co be la dt to pr mx gd wt ca]. unfold out_of, two_outline, general_outline, tidy, set_cache. cbn [f_pts f_w f_o f_ends f_corners f_bend f_tol].
    destruct pts as [|p [|q [|r l]]]; try reflexivity. destruct (forallb _ _); reflexivity. }
  destruct (snd (fill fuel eng (set_cache f None) (out_of fuel hob (set_cache f None)) (seq 0 (f_n f)) [])) eqn:E; [|discriminate].
  assert (D : forall j, In j (seq 0 (f_n f)) -> out_of fuel hob f j <> None).
  { intros j J. rewrite <- O. exact (fill_all _ _ _ _ j E J). }
  destruct (fill_spec (set_cache f None) (out_of fuel hob (set_cache f None)) (seq 0 (f_n f)) []) as (_ & _ & C).
  { intros j J. rewrite O. destruct (out_of fuel hob f j) as [p|] eqn:P; [|exfalso; exact (D j J P)]. exists p. split; [reflexivity|].
    change (f_max (set_cache f None)) with (f_max f). exact (uncut_length fuel hob eng f j p enough U F D J P). }
  assert (J : In k (seq 0 (f_n f))) by (apply in_seq; lia).
  destruct (out_of fuel hob f k) as [p|] eqn:P; [|exfalso; exact (D k J P)].
  destruct (C k p J) as (l & L & I); [now rewrite O|]. exists p, l. split; [reflexivity|]. split; [|exact I]. cbn [f_layers f_dts set_cache] in L. congruence.
Qed.

(** How far a section extends beyond its two ends. *)
Definition beyond (en : cap) (w : R) : option (R * R) :=
  match en with Flush => Some (0, 0) | Extended => Some (w / 2, w / 2) | Lengths a b => Some (a, b) | _ => None end.
(** A path of two points: parallel path [k], of constant width and offset, is the
    rectangle from [- e0] to the length of the section plus [e1], and from half the
    width right of the offset to half the width left of it. *)
Theorem C66_section : forall f p q k w o e0 e1 d, aligned f -> f_pts f = [p; q] -> p <> q -> uncut f -> (k < f_n f)%nat ->
  (forall r, In r (f_w f) -> nth k r 0 = w) -> (forall r, In r (f_o f) -> nth k r 0 = o) ->
  beyond (nth k (f_ends f) Flush) w = Some (e0, e1) -> now f = Some d ->
  exists l a b c v, In ((nth k (f_layers f) 0%Z, nth k (f_dts f) 0%Z), l) d /\ In [a; b; c; v] l /\
    at_xy p q (- e0) (o - w / 2) a /\ at_xy p q (- e0) (o + w / 2) b /\
    at_xy p q (apart p q + e1) (o + w / 2) c /\ at_xy p q (apart p q + e1) (o - w / 2) v.
Proof.
  intros f p q k w o e0 e1 d A P N U K W O E D.
  assert (F : flat2 f = false).
  { unfold flat2. rewrite P. unfold same_pt. destruct (Req_EM_T (len2 (psub q p)) 0) as [Z|]; [|reflexivity]. exfalso. apply N. apply len2_zero in Z.
    destruct p, q. unfold psub in Z. cbn in Z. injection Z as Z1 Z2. f_equal; lra. }
  destruct (now_out f d k U F D K) as (r & l & R & I & J). exists l.
  unfold out_of in R. rewrite P in R. unfold two_outline in R. destruct A as (LW & LO & _). rewrite P in LW, LO.
  destruct (f_w f) as [|w0 [|w1 [|]]] eqn:EW; try discriminate LW. destruct (f_o f) as [|o0 [|o1 [|]]] eqn:EO; try discriminate LO.
  cbn [nth_error] in R. rewrite (W w0 (or_introl eq_refl)), (W w1 (or_intror (or_introl eq_refl))), (O o0 (or_introl eq_refl)), (O o1 (or_intror (or_introl eq_refl))) in R.
  pose proof (apart_pos p q N) as AP. pose proof (apart_sq p q) as AS.
  assert (NN : normal (padd p (smul o (normal p q))) (padd q (smul o (normal p q))) = normal p q).
  { assert (X : psub (padd q (smul o (normal p q))) (padd p (smul o (normal p q))) = psub q p) by (apply pt_eq; unfold psub, padd; cbn [fst snd]; ring).
    unfold normal at 1. rewrite X. reflexivity. }
  assert (VV : psub (padd q (smul o (normal p q))) (padd p (smul o (normal p q))) = psub q p) by (apply pt_eq; unfold psub, padd; cbn [fst snd]; ring).
  assert (G : r = [psub (psub (padd p (smul o (normal p q))) (smul (/ 2 * w) (normal p q))) (smul (e0 / apart p q) (psub q p));
                   psub (padd (padd p (smul o (normal p q))) (smul (/ 2 * w) (normal p q))) (smul (e0 / apart p q) (psub q p));
                   padd (padd (padd q (smul o (normal p q))) (smul (/ 2 * w) (normal p q))) (smul (e1 / apart p q) (psub q p));
                   padd (psub (padd q (smul o (normal p q))) (smul (/ 2 * w) (normal p q))) (smul (e1 / apart p q) (psub q p))]).
  { unfold outline2 in R. cbv zeta in R. rewrite NN, VV in R. rewrite <- apart_len in R. destruct (nth k (f_ends f) Flush) as [| |x0 x1| | |]; try discriminate E; cbn [beyond] in E.
    - assert (e0 = 0) by congruence. assert (e1 = 0) by congruence. subst e0 e1. assert (R' : r = _) by (injection R as R; symmetry; exact R). rewrite R'. clear.
      repeat (f_equal; try (apply pt_eq; unfold psub, padd, smul, Rdiv; cbn [fst snd]; ring)).
    - destruct (Req_EM_T w w); [|congruence]. assert (e0 = w / 2) by congruence. assert (e1 = w / 2) by congruence. subst e0 e1.
      assert (R' : r = _) by (injection R as R; symmetry; exact R). rewrite R'. clear.
      repeat (f_equal; try (apply pt_eq; unfold psub, padd, smul, Rdiv; cbn [fst snd]; ring)).
    - destruct (Req_EM_T w w); [|congruence]. assert (e0 = x0) by congruence. assert (e1 = x1) by congruence. subst e0 e1.
      assert (R' : r = _) by (injection R as R; symmetry; exact R). rewrite R'. clear.
      repeat (f_equal; try (apply pt_eq; unfold psub, padd, smul, Rdiv; cbn [fst snd]; ring)). }
  rewrite G in J. do 4 eexists. split; [exact I|]. split; [exact J|].
  assert (QQ : q = padd p (smul (apart p q / apart p q) (psub q p))).
  { replace (apart p q / apart p q) with 1 by (field; lra). apply pt_eq; unfold padd, smul, psub; cbn [fst snd]; ring. }
  split; [|split; [|split]]; (apply frame; [exact N|]).
  - apply pt_eq; unfold psub, padd, smul; cbn [fst snd]; field; lra.
  - apply pt_eq; unfold psub, padd, smul; cbn [fst snd]; field; lra.
  - rewrite QQ at 1. apply pt_eq; unfold psub, padd, smul; cbn [fst snd]; field; lra.
  - rewrite QQ at 1. apply pt_eq; unfold psub, padd, smul; cbn [fst snd]; field; lra.
Qed.

(** ** Lines beside lines *)

Definition on (s : pt * pt) (x : pt) : Prop :=
  (fst (snd s) - fst (fst s)) * (snd x - snd (fst s)) - (snd (snd s) - snd (fst s)) * (fst x - fst (fst s)) = 0.
Definition side (h : R) (p q : pt) : pt * pt := (padd p (smul h (normal p q)), padd q (smul h (normal p q))).
Lemma side_vec h p q : psub (snd (side h p q)) (fst (side h p q)) = psub q p.
Proof. apply pt_eq; unfold side, psub, padd; cbn [fst snd]; ring. Qed.
Lemma on_aside h p q x : p <> q -> on (side h p q) x -> aside p q x = h.
Proof.
  intros N H. pose proof (apart_pos p q N) as P. pose proof (apart_sq p q) as S. unfold on, side in H. rewrite normal_apart in H.
  unfold aside. fold (apart p q). set (l := apart p q) in *. clearbody l. destruct p as [px py], q as [qx qy], x as [x1 x2].
  unfold padd, smul in *. cbn [fst snd] in *.
  assert (E : (qx - px) * (x2 - py) - (qy - py) * (x1 - px) = h * (((qx - px) ^ 2 + (qy - py) ^ 2) / l)).
  { apply (Rmult_eq_reg_r l); [|lra]. unfold Rdiv in *. rewrite !Rmult_minus_distr_r in *.
    replace (h * (((qx - px) ^ 2 + (qy - py) ^ 2) * / l) * l) with (h * ((qx - px) ^ 2 + (qy - py) ^ 2)) by (field; lra).
    assert (H2 := f_equal (fun z => z * l) H). cbv beta in H2. rewrite Rmult_0_l in H2.
    replace (((qx + h * ((qx - px) * / l * 0 + - (qy - py) * / l) - (px + h * (- (qy - py) * / l))) * 0)) with 0 in H2 by ring.
    transitivity (((qx - px) * (x2 - py) - (qy - py) * (x1 - px)) * l); [ring|].
    apply Rminus_diag_uniq. etransitivity; [|exact H2]. field. lra. }
  rewrite E, <- S. field. lra.
Qed.
Lemma corner_wedge a b c : corner_ok a b c -> a <> b -> b <> c ->
  let k := fst (psub b a) * snd (psub c b) - snd (psub b a) * fst (psub c b) in
  (k <> 0 /\ ~ k ^ 2 < tiny * (len2 (psub b a) * len2 (psub c b))) \/
  (k ^ 2 < tiny * (len2 (psub b a) * len2 (psub c b)) /\ forall h, padd b (smul h (normal a b)) = padd b (smul h (normal b c))).
Proof.
  intros C N M k. pose proof (apart_pos a b N) as P. pose proof (apart_pos b c M) as Q. pose proof (apart_sq a b) as SP. pose proof (apart_sq b c) as SQ.
  assert (L1 : len2 (psub b a) = apart a b * apart a b) by (rewrite SP; reflexivity).
  assert (L2 : len2 (psub c b) = apart b c * apart b c) by (rewrite SQ; reflexivity). rewrite L1, L2.
  assert (T : 0 < tiny) by (unfold tiny; apply Rinv_0_lt_compat; apply pow_lt; lra).
  assert (TT : tiny * 10 ^ 12 = 1) by (unfold tiny; field).
  destruct C as [C|[C D]].
  - left. change ((apart a b * apart b c) ^ 2 <= 10 ^ 12 * k ^ 2) in C.
    assert (X : tiny * (apart a b * apart a b * (apart b c * apart b c)) <= k ^ 2).
    { replace (k ^ 2) with (tiny * (10 ^ 12 * k ^ 2)) by (rewrite <- Rmult_assoc, TT; ring). apply Rmult_le_compat_l; [lra|].
      replace (apart a b * apart a b * (apart b c * apart b c)) with ((apart a b * apart b c) ^ 2) by ring. exact C. }
    split; [|lra]. intro Z. rewrite Z in X. assert (0 < tiny * (apart a b * apart a b * (apart b c * apart b c))); [|lra].
    repeat apply Rmult_lt_0_compat; assumption.
  - right. change (k = 0) in C. change (0 < fst (psub b a) * fst (psub c b) + snd (psub b a) * snd (psub c b)) in D. rewrite C. split.
    + replace (0 ^ 2) with 0 by ring. repeat apply Rmult_lt_0_compat; assumption.
    + intro h. f_equal. f_equal. rewrite !normal_apart.
      set (l := apart a b) in *. set (m := apart b c) in *. clearbody l m. unfold k in C. clear L1 L2 k T TT.
      destruct a as [a1 a2], b as [b1 b2], c as [c1 c2]. unfold psub in *. cbn [fst snd] in *.
      set (u := b1 - a1) in *. set (v := b2 - a2) in *. set (u' := c1 - b1) in *. set (v' := c2 - b2) in *. clearbody u v u' v'. clear N M.
      assert (E : u * u' + v * v' = l * m).
      { assert (Sq : (u * u' + v * v') ^ 2 = (l * m) ^ 2).
        { replace ((l * m) ^ 2) with ((l * l) * (m * m)) by ring. rewrite SP, SQ.
          replace ((u ^ 2 + v ^ 2) * (u' ^ 2 + v' ^ 2)) with ((u * u' + v * v') ^ 2 + (u * v' - v * u') ^ 2) by ring. rewrite C. ring. }
        assert (LM : 0 < l * m) by nra. nra. }
      assert (A : u * m = u' * l).
      { apply (Rmult_eq_reg_r l); [|lra]. transitivity (u * (l * m)); [ring|]. rewrite <- E. transitivity (u' * (l * l)); [|ring]. rewrite SP.
        apply Rminus_diag_uniq. replace (u * (u * u' + v * v') - u' * (u ^ 2 + v ^ 2)) with (v * (u * v' - v * u')) by ring. rewrite C. ring. }
      assert (B : v * m = v' * l).
      { apply (Rmult_eq_reg_r l); [|lra]. transitivity (v * (l * m)); [ring|]. rewrite <- E. transitivity (v' * (l * l)); [|ring]. rewrite SP.
        apply Rminus_diag_uniq. replace (v * (u * u' + v * v') - v' * (u ^ 2 + v ^ 2)) with (- u * (u * v' - v * u')) by ring. rewrite C. ring. }
      f_equal; apply (Rmult_eq_reg_r (l * m)); try nra.
      * replace (- v / l * (l * m)) with (- (v * m)) by (field; lra). rewrite B. field. lra.
      * replace (u / l * (l * m)) with (u * m) by (field; lra). rewrite A. field. lra.
Qed.
(** What both ways of joining two sides have in common. *)
Definition joins (g : pt * pt -> pt * pt -> pt) : Prop :=
  forall h a b c, a <> b -> b <> c -> corner_ok a b c -> on (side h a b) (g (side h a b) (side h b c)) /\ on (side h b c) (g (side h a b) (side h b c)).
Lemma on_mid s x y : on s x -> on s y -> on s (mid x y).
Proof. unfold on, mid, smul, padd. cbn [fst snd]. intros A B. lra. Qed.
Lemma on_snd s : on s (snd s). Proof. unfold on. ring. Qed.
Lemma on_fst s : on s (fst s). Proof. unfold on. ring. Qed.
Lemma on_move s x u v : on s x -> psub (snd s) (fst s) = v -> on s (padd x (smul u v)).
Proof. intros A <-. unfold on, padd, smul, psub in *. cbn [fst snd]. lra. Qed.
Lemma on_cross s t k x u : psub (snd t) (fst t) = k ->
  (fst k * (snd x - snd (fst t)) - snd k * (fst x - fst (fst t))) + u * (fst k * snd s - snd k * fst s) = 0 -> on t (padd x (smul u s)).
Proof.
  intros <- H. unfold on, padd, smul, psub in *. cbn [fst snd] in *. rewrite <- H. ring.
Qed.
Lemma meet_joins : joins meet.
Proof.
  intros h a b c N M C. unfold meet. cbv zeta. rewrite !side_vec. pose proof (corner_wedge a b c C N M) as W. cbv zeta in W.
  set (v := psub b a) in *. set (v' := psub c b) in *.
  assert (E : (fst v' * snd v - snd v' * fst v) ^ 2 = (fst v * snd v' - snd v * fst v') ^ 2) by ring. rewrite E.
  destruct (Rlt_dec _ _) as [L|L].
  - destruct W as [[_ W]|[_ W]]; [exfalso; apply W; rewrite <- Rmult_assoc; lra|].
    assert (Q : snd (side h a b) = fst (side h b c)) by (unfold side; cbn [fst snd]; apply W). split; apply on_mid.
    + rewrite <- Q. apply on_snd.
    + apply on_snd.
    + apply on_fst.
    + rewrite Q. apply on_fst.
  - destruct W as [[K _]|[W _]]; [|exfalso; apply L; rewrite Rmult_assoc, (Rmult_comm (len2 v')); exact W]. split.
    + apply on_move; [apply on_snd|apply side_vec].
    + apply (on_cross _ _ v'); [apply side_vec|]. set (x := snd (side h a b)). set (y := fst (side h b c)). unfold psub. cbn [fst snd]. field. lra.
Qed.
(** [join] for mitered corners, path.py 706-735 *)
Definition miter_pt (s t : pt * pt) : pt :=
  let p0 := snd s in let v0 := psub (snd s) (fst s) in
  let p1 := fst t in let v1 := psub (snd t) (fst t) in
  let den := snd v1 * fst v0 - fst v1 * snd v0 in
  let d := psub p1 p0 in
  if Rlt_dec (den ^ 2) (tiny * len2 v0 * len2 v1) then mid p0 p1
  else let u0 := (snd v1 * fst d - fst v1 * snd d) / den in
       let u1 := (snd v0 * fst d - fst v0 * snd d) / den in
       smul (/ 2) (padd (padd p0 (smul u0 v0)) (padd p1 (smul u1 v1))).
Lemma join_miter bend tol s t ctr w : join fuel hob Miter bend tol s t ctr w = Some [miter_pt s t].
Proof. unfold join, miter_pt. cbv zeta. destruct (Rlt_dec _ _); reflexivity. Qed.
Lemma arm_miter bend tol : forall ss cs ws, (length ss <= S (length cs))%nat -> (length ss <= S (length ws))%nat ->
  arm fuel hob Miter bend tol ss cs ws = Some (pairwise miter_pt ss).
Proof.
  induction ss as [|s ss IH]; intros cs ws C W; [reflexivity|]. destruct ss as [|t ss]; [reflexivity|].
  destruct cs as [|c cs]; [cbn in C; lia|]. destruct ws as [|w ws]; [cbn in W; lia|].
  change (arm fuel hob Miter bend tol (s :: t :: ss) (c :: cs) (w :: ws)) with
    (match join fuel hob Miter bend tol s t c w, arm fuel hob Miter bend tol (t :: ss) cs ws with Some l, Some m => Some (l ++ m) | _, _ => None end).
  rewrite join_miter, IH by (cbn in *; lia). reflexivity.
Qed.
Lemma miter_joins : joins miter_pt.
Proof.
  intros h a b c N M C. unfold miter_pt. cbv zeta. rewrite !side_vec. pose proof (corner_wedge a b c C N M) as W. cbv zeta in W.
  set (v := psub b a) in *. set (v' := psub c b) in *.
  assert (E : (snd v' * fst v - fst v' * snd v) ^ 2 = (fst v * snd v' - snd v * fst v') ^ 2) by ring. rewrite E.
  destruct (Rlt_dec _ _) as [L|L].
  - destruct W as [[_ W]|[_ W]]; [exfalso; apply W; rewrite <- Rmult_assoc; exact L|].
    assert (Q : snd (side h a b) = fst (side h b c)) by (unfold side; cbn [fst snd]; apply W). split; apply on_mid.
    + apply on_snd.
    + rewrite <- Q. apply on_snd.
    + rewrite Q. apply on_fst.
    + apply on_fst.
  - destruct W as [[K _]|[W _]]; [|exfalso; apply L; rewrite Rmult_assoc; exact W].
    set (x := snd (side h a b)). set (y := fst (side h b c)). split; apply (on_mid _ (padd x _) (padd y _)).
    + apply on_move; [apply on_snd|apply side_vec].
    + apply (on_cross _ _ v); [apply side_vec|]. pose proof (on_snd (side h a b)) as X. unfold on in X. fold x in X.
      assert (V : psub x (fst (side h a b)) = v) by apply side_vec.
      assert (V1 : fst x = fst (fst (side h a b)) + fst v) by (rewrite <- V; unfold psub; cbn [fst snd]; ring).
      assert (V2 : snd x = snd (fst (side h a b)) + snd v) by (rewrite <- V; unfold psub; cbn [fst snd]; ring).
      unfold psub. cbn [fst snd]. rewrite V1, V2. field. lra.
    + apply (on_cross _ _ v'); [apply side_vec|]. fold y. unfold psub. cbn [fst snd]. field. lra.
    + apply on_move; [apply on_fst|apply side_vec].
Qed.
Lemma shifted_nth h : forall pts hs i d, length hs = length pts -> (forall x, In x hs -> x = h) -> (S i < length pts)%nat ->
  nth i (shifted pts hs) d = side h (nth i pts (0, 0)) (nth (S i) pts (0, 0)).
Proof.
  induction pts as [|p pts IH]; intros hs i d L H I; [cbn in I; lia|]. destruct pts as [|q pts]; [cbn in I; lia|].
  destruct hs as [|a [|b hs]]; try discriminate L. cbn [shifted]. destruct i as [|i].
  - cbn [nth]. rewrite (H a), (H b) by (cbn; auto). reflexivity.
  - change (nth (S i) (p :: q :: pts) (0, 0)) with (nth i (q :: pts) (0, 0)). change (nth (S (S i)) (p :: q :: pts) (0, 0)) with (nth (S i) (q :: pts) (0, 0)).
    rewrite <- (IH (b :: hs) i d); [reflexivity|cbn in *; lia|intros x X; apply H; now right|cbn in *; lia].
Qed.
Lemma shifted_length : forall pts hs, length hs = length pts -> length (shifted pts hs) = (length pts - 1)%nat.
Proof.
  induction pts as [|p pts IH]; intros hs L; [reflexivity|]. destruct pts as [|q pts]; [destruct hs as [|a [|]]; try discriminate L; reflexivity|].
  destruct hs as [|a [|b hs]]; try discriminate L. change (shifted (p :: q :: pts) (a :: b :: hs)) with
    ((padd p (smul a (normal p q)), padd q (smul b (normal p q))) :: shifted (q :: pts) (b :: hs)). cbn [length]. rewrite IH by (cbn in *; lia). cbn; lia.
Qed.
Lemma pairwise_nth {X Y} (g : X -> X -> Y) : forall l i d e, (S i < length l)%nat -> nth i (pairwise g l) e = g (nth i l d) (nth (S i) l d).
Proof.
  induction l as [|x l IH]; intros i d e I; [cbn in I; lia|]. destruct l as [|y l]; [cbn in I; lia|].
  change (pairwise g (x :: y :: l)) with (g x y :: pairwise g (y :: l)). destruct i as [|i]; [reflexivity|].
  cbn [nth]. rewrite (IH i d e) by (cbn in *; lia). reflexivity.
Qed.
Lemma pairwise_length {X Y} (g : X -> X -> Y) : forall l, length (pairwise g l) = (length l - 1)%nat.
Proof.
  induction l as [|x l IH]; [reflexivity|]. destruct l as [|y l]; [reflexivity|].
  change (pairwise g (x :: y :: l)) with (g x y :: pairwise g (y :: l)). cbn [length]. rewrite IH. cbn; lia.
Qed.
Definition ss0 : pt * pt := ((0, 0), (0, 0)).
Definition line_of (g : pt * pt -> pt * pt -> pt) (ss : list (pt * pt)) : list pt := fst (hd ss0 ss) :: pairwise g ss ++ [snd (last ss ss0)].
Lemma last_nth {X} (l : list X) d : last l d = nth (length l - 1) l d.
Proof.
  induction l as [|x l IH]; [reflexivity|]. destruct l as [|y l]; [reflexivity|]. change (last (x :: y :: l) d) with (last (y :: l) d). rewrite IH.
  cbn [length]. replace (S (S (length l)) - 1)%nat with (S (S (length l) - 1)) by lia. reflexivity.
Qed.
Lemma line_beside g h pts hs : joins g -> length hs = length pts -> (forall x, In x hs -> x = h) -> (2 <= length pts)%nat -> bends pts ->
  beside h pts (line_of g (shifted pts hs)).
Proof.
  intros G L H N [B C]. set (n := length pts) in *. set (p := fun i => nth i pts (0, 0)) in *. set (ss := shifted pts hs).
  assert (LS : length ss = (n - 1)%nat) by (unfold ss; now apply shifted_length).
  assert (NS : forall i d, (S i < n)%nat -> nth i ss d = side h (p i) (p (S i))) by (intros i d I; unfold ss; now apply shifted_nth).
  assert (LL : length (line_of g ss) = n).
  { unfold line_of. cbn [length]. rewrite app_length, pairwise_length, LS. cbn; lia. }
  assert (X0 : nth 0 (line_of g ss) (0, 0) = fst (side h (p 0%nat) (p 1%nat))).
  { unfold line_of. cbn [nth]. rewrite <- (NS 0%nat ss0) by lia. destruct ss; reflexivity. }
  assert (XM : forall i, (S (S i) < n)%nat -> nth (S i) (line_of g ss) (0, 0) = g (side h (p i) (p (S i))) (side h (p (S i)) (p (S (S i))))).
  { intros i I. unfold line_of. cbn [nth]. rewrite app_nth1 by (rewrite pairwise_length, LS; lia).
    rewrite (pairwise_nth g ss i ss0) by lia. now rewrite !NS by lia. }
  assert (XN : nth (n - 1) (line_of g ss) (0, 0) = snd (side h (p (n - 2)%nat) (p (n - 1)%nat))).
  { unfold line_of. destruct (n - 1)%nat as [|m] eqn:E; [lia|]. cbn [nth]. rewrite app_nth2 by (rewrite pairwise_length, LS; lia).
    rewrite pairwise_length, LS. replace (m - (S m - 1))%nat with 0%nat by lia. cbn [nth]. rewrite last_nth, LS.
    replace (S m - 1)%nat with (n - 2)%nat by lia. rewrite NS by lia. replace (S (n - 2)) with (S m) by lia. reflexivity. }
  assert (F0 : forall q r, q <> r -> at_xy q r 0 h (fst (side h q r))).
  { intros q r Q. apply frame; [exact Q|]. unfold side. cbn [fst]. unfold Rdiv. apply pt_eq; unfold padd, smul; cbn [fst snd]; ring. }
  assert (F1 : forall q r, q <> r -> at_xy q r (apart q r) h (snd (side h q r))).
  { intros q r Q. apply frame; [exact Q|]. pose proof (apart_pos q r Q). replace (apart q r / apart q r) with 1 by (field; lra).
    unfold side. cbn [snd]. apply pt_eq; unfold padd, smul, psub; cbn [fst snd]; ring. }
  split; [exact LL|]. split; [|split].
  - fold n p. intros i I. split.
    + destruct i as [|i]; [rewrite X0; apply F0; apply B; exact I|]. rewrite XM by exact I. apply on_aside; [apply B; exact I|].
      apply G; [apply B; lia|apply B; exact I|apply C; exact I].
    + destruct (Nat.eq_dec (S i) (n - 1)) as [E|E].
      * assert (XN' : nth (S i) (line_of g ss) (0, 0) = snd (side h (p i) (p (S i)))).
        { rewrite E, XN. replace (n - 2)%nat with i by lia. rewrite <- E. reflexivity. }
        rewrite XN'. apply F1. apply B; exact I.
      * rewrite XM by lia. apply on_aside; [apply B; exact I|]. apply G; [apply B; exact I|apply B; lia|apply C; lia].
  - fold n p. rewrite X0. apply F0. apply B. fold n. lia.
  - fold n p. rewrite XN. apply F1. pose proof (B (n - 2)%nat ltac:(fold n; lia)) as B'. replace (S (n - 2)) with (n - 1)%nat in B' by lia. exact B'.
Qed.
Lemma no_offset_beside pts : (2 <= length pts)%nat -> bends pts -> beside 0 pts pts.
Proof.
  intros N [B _]. assert (F0 : forall q r, q <> r -> at_xy q r 0 0 q).
  { intros q r Q. apply frame; [exact Q|]. unfold Rdiv. apply pt_eq; unfold padd, smul; cbn [fst snd]; ring. }
  assert (F1 : forall q r, q <> r -> at_xy q r (apart q r) 0 r).
  { intros q r Q. apply frame; [exact Q|]. pose proof (apart_pos q r Q). replace (apart q r / apart q r) with 1 by (field; lra).
    apply pt_eq; unfold padd, smul, psub; cbn [fst snd]; ring. }
  split; [reflexivity|]. split; [|split].
  - intros i I. split; [apply F0|apply F1]; apply B; exact I.
  - apply F0. apply B. lia.
  - apply F1. pose proof (B (length pts - 2)%nat ltac:(lia)) as B'. replace (S (length pts - 2)) with (length pts - 1)%nat in B' by lia. exact B'.
Qed.

(** A path of three or more points, of constant width and offset, with mitered
    corners and flush ends: its polygon goes back and forth on both sides of a line
    that runs at the offset beside the spine, at half the width from it. *)
Theorem C66_mitered : forall f k w o d, aligned f -> (3 <= length (f_pts f))%nat -> bends (f_pts f) -> uncut f -> (k < f_n f)%nat ->
  nth k (f_corners f) Natural = Miter -> nth k (f_ends f) Flush = Flush ->
  (forall r, In r (f_w f) -> nth k r 0 = w) -> (forall r, In r (f_o f) -> nth k r 0 = o) ->
  (o = 0 \/ forall ctr, beside o (f_pts f) ctr -> bends ctr) -> now f = Some d ->
  exists l p ctr right left, In ((nth k (f_layers f) 0%Z, nth k (f_dts f) 0%Z), l) d /\ In p l /\
    beside o (f_pts f) ctr /\ beside (- (w / 2)) ctr right /\ beside (w / 2) ctr left /\
    p = hd (0, 0) left :: right ++ rev (tl left).
Proof.
  intros f k w o d A N B U K CM EF W O BC D.
  assert (F : flat2 f = false) by (unfold flat2; destruct (f_pts f) as [|x [|y [|z t]]]; try reflexivity; cbn in N; lia).
  destruct (now_out f d k U F D K) as (r & l & R & I & J).
  assert (T : tidy f = f).
  { unfold tidy. assert (E : forallb (fun b => b) (keep (f_pts f)) = true); [|now rewrite E]. destruct B as [B _]. clear - B.
    destruct (f_pts f) as [|x t]; [reflexivity|]. unfold keep. cbn [forallb andb]. revert x B. induction t as [|y t IH]; intros x B; [reflexivity|].
    change (pairwise (fun p q => negb (same_pt p q)) (x :: y :: t)) with (negb (same_pt x y) :: pairwise (fun p q => negb (same_pt p q)) (y :: t)).
    cbn [forallb]. assert (E : same_pt x y = false).
    { unfold same_pt. destruct (Req_EM_T (len2 (psub y x)) 0) as [Z|]; [|reflexivity]. exfalso. apply (B 0%nat); [cbn; lia|]. cbn [nth]. apply len2_zero in Z.
      destruct x, y. unfold psub in Z. cbn in Z. injection Z as Z1 Z2. f_equal; lra. }
    rewrite E. cbn [negb andb]. apply IH. intros i Hi. apply (B (S i)). cbn in *; lia. }
  assert (R' : general_outline fuel hob f k = Some r).
  { unfold out_of in R. rewrite T in R. destruct (f_pts f) as [|x [|y [|z t]]] eqn:P; try exact R. cbn in N; lia. }
  clear R. destruct A as (LW & LO & _). unfold general_outline in R'. rewrite LW, LO, !Nat.eqb_refl in R'. cbn [andb] in R'. rewrite CM, EF in R'.
  set (ws := col k (f_w f)) in *. set (os := col k (f_o f)) in *.
  assert (Lws : length ws = length (f_pts f)) by (unfold ws, col; now rewrite map_length).
  assert (Los : length os = length (f_pts f)) by (unfold os, col; now rewrite map_length).
  assert (Hws : forall x, In x ws -> x = w) by (intros x X; unfold ws, col in X; apply in_map_iff in X as (y & <- & Y); now apply W).
  assert (Hos : forall x, In x os -> x = o) by (intros x X; unfold os, col in X; apply in_map_iff in X as (y & <- & Y); now apply O).
  assert (CT : exists ctr, centre (f_pts f) os = ctr /\ beside o (f_pts f) ctr /\ bends ctr).
  { unfold centre. destruct (all_zero os) eqn:Z.
    - assert (o = 0).
      { destruct os as [|x os'] eqn:E; [cbn in Los; lia|]. unfold all_zero in Z. cbn [forallb] in Z. destruct (Req_EM_T x 0); [|discriminate]. rewrite <- (Hos x) by now left. assumption. }
      subst o. exists (f_pts f). split; [reflexivity|]. split; [apply no_offset_beside; [lia|exact B]|exact B].
    - assert (o <> 0).
      { intros ->. unfold all_zero in Z. assert (forallb (fun x => if Req_EM_T x 0 then true else false) os = true); [|congruence].
        apply forallb_forall. intros x X. rewrite (Hos x X). destruct (Req_EM_T 0 0); congruence. }
      pose proof (line_beside meet o (f_pts f) os meet_joins Los Hos ltac:(lia) B) as X.
      exists (line_of meet (shifted (f_pts f) os)). split; [|split; [exact X|destruct BC as [BC|BC]; [contradiction|now apply BC]]].
      pose proof (shifted_length (f_pts f) os Los) as LS. unfold line_of. destruct (shifted (f_pts f) os) as [|s ss]; [cbn in LS; lia|].
      cbn [hd]. f_equal. f_equal. f_equal. f_equal. clear. revert s. induction ss as [|t ss IH]; intro s; [reflexivity|]. cbn [last]. destruct ss; [reflexivity|apply IH]. }
  destruct CT as (ctr & CE & CB & BB). unfold outline in R'. rewrite CE in R'.
  assert (LC : length ctr = length (f_pts f)) by apply CB.
  destruct ctr as [|p0 [|p1 ctr']] eqn:EC; try (cbn in LC; lia). rewrite <- EC in *. cbv zeta in R'.
  set (lo := shifted ctr (map (fun w => -1 * / 2 * w) ws)) in *. set (hi := shifted ctr (map (fun w => 1 * / 2 * w) ws)) in *.
  assert (SL : length lo = (length ctr - 1)%nat) by (unfold lo; apply shifted_length; rewrite map_length; lia).
  assert (SH : length hi = (length ctr - 1)%nat) by (unfold hi; apply shifted_length; rewrite map_length; lia).
  assert (TC : length (tl ctr) = (length ctr - 1)%nat) by (rewrite EC; cbn; lia).
  assert (TW : length (tl ws) = (length ctr - 1)%nat) by (destruct ws; cbn in *; lia).
  rewrite !arm_miter in R' by lia. cbn [cap_points] in R'.
  exists l, r, ctr, (line_of miter_pt lo), (line_of miter_pt hi). split; [exact I|]. split; [exact J|]. split; [exact CB|].
  assert (B1 : beside (- (w / 2)) ctr (line_of miter_pt lo)).
  { unfold lo. apply line_beside; [exact miter_joins|rewrite map_length; lia| |lia|exact BB].
    intros x X. apply in_map_iff in X as (y & <- & Y). rewrite (Hws y Y). field. }
  assert (B2 : beside (w / 2) ctr (line_of miter_pt hi)).
  { unfold hi. apply line_beside; [exact miter_joins|rewrite map_length; lia| |lia|exact BB].
    intros x X. apply in_map_iff in X as (y & <- & Y). rewrite (Hws y Y). field. }
  split; [exact B1|]. split; [exact B2|].
  assert (R2 : r = rev [fst (hd ss0 lo); fst (hd ss0 hi)] ++ pairwise miter_pt lo ++ [snd (last lo ss0); snd (last hi ss0)] ++ rev (pairwise miter_pt hi)).
  { injection R' as R'. rewrite <- R'. reflexivity. }
  rewrite R2. unfold line_of. cbn [rev hd tl app]. f_equal. f_equal. rewrite <- app_assoc, rev_app_distr. reflexivity.
Qed.

(** ** get_polygons does not fail *)

Lemma straight_join c bend tol s t ctr w : c = Natural \/ c = Miter \/ c = Bevel -> join fuel hob c bend tol s t ctr w <> None.
Proof.
  intros [-> |[-> | ->]]; unfold join; cbv zeta; destruct (Rlt_dec _ _); try discriminate.
  - destruct (if Rle_dec 0 0 then _ else _); discriminate.
  - destruct (if Rle_dec _ 0 then _ else _); discriminate.
Qed.
Lemma straight_arm c bend tol : c = Natural \/ c = Miter \/ c = Bevel -> forall ss cs ws, arm fuel hob c bend tol ss cs ws <> None.
Proof.
  intro C. induction ss as [|s ss IH]; intros cs ws; [discriminate|]. destruct ss as [|t ss]; [discriminate|].
  destruct cs as [|p cs]; [discriminate|]. destruct ws as [|w ws]; [discriminate|].
  change (arm fuel hob c bend tol (s :: t :: ss) (p :: cs) (w :: ws)) with
    (match join fuel hob c bend tol s t p w, arm fuel hob c bend tol (t :: ss) cs ws with Some l, Some m => Some (l ++ m) | _, _ => None end).
  specialize (IH cs ws). pose proof (straight_join c bend tol s t p w C). destruct (join _ _ _ _ _ _ _ _ _); [|congruence].
  destruct (arm _ _ _ _ _ _ _ _); [discriminate|congruence].
Qed.
Lemma straight_cap en tol front e v w lo hi a b : match en with Flush | Extended | Lengths _ _ => True | _ => False end ->
  cap_points fuel hob en tol front e v w lo hi a b <> None.
Proof. destruct en; try contradiction; intros _; cbn; discriminate. Qed.
Lemma centre_length pts os : length os = length pts -> length (centre pts os) = length pts \/ (length pts <= 1)%nat.
Proof.
  intro L. unfold centre. destruct (all_zero os); [now left|]. pose proof (shifted_length pts os L) as S.
  destruct (shifted pts os) as [|s ss]; [right; cbn in S; lia|]. left. cbn [length]. rewrite app_length, pairwise_length. cbn [length] in *. lia.
Qed.
Lemma straight_outline c en bend tol pts ws os : c = Natural \/ c = Miter \/ c = Bevel ->
  match en with Flush | Extended | Lengths _ _ => True | _ => False end -> length os = length pts -> (2 <= length pts)%nat ->
  outline fuel hob c en bend tol pts ws os <> None.
Proof.
  intros C E L N. unfold outline. destruct (centre_length pts os L) as [X|X]; [|lia].
  destruct (centre pts os) as [|p0 [|p1 ctr]] eqn:Q; try (cbn in X; lia). rewrite <- Q in *. cbv zeta.
  match goal with |- match ?a with _ => _ end <> _ => destruct a eqn:E1; [|exfalso; exact (straight_arm c bend tol C _ _ _ E1)] end.
  match goal with |- match ?a with _ => _ end <> _ => destruct a eqn:E2; [|exfalso; exact (straight_arm c bend tol C _ _ _ E2)] end.
  match goal with |- match ?a with _ => _ end <> _ => destruct a eqn:E3; [|exfalso; exact (straight_cap en _ _ _ _ _ _ _ _ _ E E3)] end.
  match goal with |- match ?a with _ => _ end <> _ => destruct a eqn:E4; [discriminate|exfalso; exact (straight_cap en _ _ _ _ _ _ _ _ _ E E4)] end.
Qed.
Lemma select_two : forall l a, (exists q, In q l /\ q <> a) -> select (pairwise (fun p q => negb (same_pt p q)) (a :: l)) l <> [].
Proof.
  induction l as [|b l IH]; intros a (q & I & N); [contradiction|].
  change (pairwise (fun p q => negb (same_pt p q)) (a :: b :: l)) with (negb (same_pt a b) :: pairwise (fun p q => negb (same_pt p q)) (b :: l)).
  unfold select. cbn [combine filter fst]. destruct (same_pt a b) eqn:E; cbn [negb]; [|discriminate].
  assert (a = b).
  { unfold same_pt in E. destruct (Req_EM_T (len2 (psub b a)) 0) as [Z|]; [|discriminate]. apply len2_zero in Z.
    destruct a, b. unfold psub in Z. cbn in Z. injection Z as A B. f_equal; lra. }
  subst b. apply IH. exists q. split; [|exact N]. destruct I as [<-|I]; [contradiction|exact I].
Qed.
Lemma select_same {X Y} ks : forall (l : list X) (m : list Y), length l = length m -> length (select ks l) = length (select ks m).
Proof.
  induction ks as [|b ks IH]; intros [|x l] [|y m] L; try discriminate L; try reflexivity.
  unfold select in *. cbn [combine filter fst]. injection L as L. specialize (IH l m L). destruct b; cbn [map length]; congruence.
Qed.
Lemma tidy_two f p q : In p (f_pts f) -> In q (f_pts f) -> p <> q -> (2 <= length (f_pts (tidy f)))%nat.
Proof.
  intros P Q N. assert (X : (2 <= length (f_pts f))%nat).
  { destruct (f_pts f) as [|a [|b l]]; cbn in *; try tauto; try lia. destruct P as [<-|[]], Q as [<-|[]]. congruence. }
  unfold tidy. destruct (forallb _ _); [exact X|]. cbn [f_pts]. destruct (f_pts f) as [|a l]; [contradiction|].
  unfold keep, select. cbn [combine filter fst map length]. fold (@select pt (pairwise (fun p q => negb (same_pt p q)) (a :: l)) l).
  assert (H : select (pairwise (fun p q => negb (same_pt p q)) (a :: l)) l <> []).
  { apply select_two. destruct P as [<-|P]; [destruct Q as [<-|Q]; [congruence|]; exists q; split; [exact Q|congruence]|].
    destruct (Req_EM_T (fst p) (fst a)); [destruct (Req_EM_T (snd p) (snd a))|].
    - assert (p = a) by (destruct p, a; cbn in *; congruence). subst a. exists q. destruct Q as [<-|Q]; [congruence|]. split; [exact Q|congruence].
    - exists p. split; [exact P|]. intros ->. congruence.
    - exists p. split; [exact P|]. intros ->. congruence. }
  change (2 <= S (length (map snd (filter fst (combine (pairwise (fun p q => negb (same_pt p q)) (a :: l)) l)))))%nat.
  fold (select (pairwise (fun p q => negb (same_pt p q)) (a :: l)) l). destruct (select _ _); [congruence|cbn; lia].
Qed.
(** An aligned path with two different points whose outline is made of straight
    lines has polygons. *)
Theorem C66_defined : forall f p q, aligned f -> straight_path f -> uncut f -> In p (f_pts f) -> In q (f_pts f) -> p <> q ->
  exists d, now f = Some d.
Proof.
  intros f p q A [SC SE] U P Q N.
  assert (F : flat2 f = false).
  { unfold flat2. destruct (f_pts f) as [|a [|b [|c l]]]; try reflexivity. unfold same_pt. destruct (Req_EM_T (len2 (psub b a)) 0) as [Z|]; [|reflexivity].
    exfalso. apply len2_zero in Z. assert (a = b) by (destruct a, b; unfold psub in Z; cbn in Z; injection Z as Z1 Z2; f_equal; lra).
    subst b. destruct P as [<-|[<-|[]]], Q as [<-|[<-|[]]]; congruence. }
  assert (KC : forall k, nth k (f_corners f) Natural = Natural \/ nth k (f_corners f) Natural = Miter \/ nth k (f_corners f) Natural = Bevel).
  { intro k. destruct (nth_in_or_default k (f_corners f) Natural) as [H|H]; [now apply SC|rewrite H; now left]. }
  assert (KE : forall k, match nth k (f_ends f) Flush with Flush | Extended | Lengths _ _ => True | _ => False end).
  { intro k. destruct (nth_in_or_default k (f_ends f) Flush) as [H|H]; [now apply SE|rewrite H; exact Logic.I]. }
  destruct A as (LW & LO & _).
  assert (D : forall k, out_of fuel hob f k <> None).
  { intro k. unfold out_of. pose proof (tidy_two f p q P Q N) as T2.
    assert (G : general_outline fuel hob (tidy f) k <> None).
    { assert (TL : length (f_w (tidy f)) = length (f_pts (tidy f)) /\ length (f_o (tidy f)) = length (f_pts (tidy f))).
      { unfold tidy. destruct (forallb _ _); [auto|]. cbn [f_w f_o f_pts]. split; apply select_same; assumption. }
      destruct TL as [T1 T3]. unfold general_outline. rewrite T1, T3, !Nat.eqb_refl. cbn [andb].
      assert (TC : f_corners (tidy f) = f_corners f /\ f_ends (tidy f) = f_ends f) by (unfold tidy; destruct (forallb _ _); auto).
      destruct TC as [-> ->]. apply straight_outline; [apply KC|exact (KE k)|unfold col; rewrite map_length; exact T3|exact T2]. }
    destruct (f_pts f) as [|a [|b [|c l]]] eqn:E; auto.
    unfold two_outline. destruct (f_w f) as [|w0 [|w1 [|]]]; try discriminate LW. destruct (f_o f) as [|o0 [|o1 [|]]]; try discriminate LO.
    cbn [nth_error]. unfold outline2. cbv zeta. specialize (KE k). destruct (nth k (f_ends f) Flush); try contradiction; try discriminate; destruct (Req_EM_T _ _); discriminate. }
  unfold SpecFlex.now. rewrite get_fresh by reflexivity. change (flat2 (set_cache f None)) with (flat2 f). rewrite F. cbv zeta.
  assert (O : forall j, out_of fuel hob (set_cache f None) j = out_of fuel hob f j).
  { intro j. destruct f as [n pts ww oo en co be la dt to pr mx gd wt ca]. unfold out_of, two_outline, general_outline, tidy, set_cache. cbn [f_pts f_w f_o f_ends f_corners f_bend f_tol].
    destruct pts as [|p' [|q' [|r l]]]; try reflexivity. destruct (forallb _ _); reflexivity. }
  destruct (fill_spec (set_cache f None) (out_of fuel hob (set_cache f None)) (seq 0 (f_n f)) []) as (X & _ & _).
  { intros j J. rewrite O. destruct (out_of fuel hob f j) as [r|] eqn:R; [|exfalso; exact (D j R)]. exists r. split; [reflexivity|].
    change (f_max (set_cache f None)) with (f_max f). exact (uncut_length fuel hob eng f j r enough U F (fun k _ => D k) J R). }
  change (f_n (set_cache f None)) with (f_n f). rewrite X. eexists. reflexivity.
Qed.
End Shape.

(** Two parallel paths turning left, at different offsets. *)
Definition elbow : flex :=
  Flex 2 [(0, 0); (4, 0); (4, 3)] [[1; 2]; [1; 2]; [1; 2]] [[0; -1]; [0; -1]; [0; -1]] [Flush; Extended] [Miter; Bevel] [None; None]
       [1; 2]%Z [0; 0]%Z (/ 100) (/ 1000) 0 false true None.
Example C66_case : forall hob eng, aligned elbow /\ straight_path elbow /\ uncut 2 hob eng elbow /\ bends (f_pts elbow) /\
  (forall r, In r (f_w elbow) -> nth 0 r 0 = 1) /\ (forall r, In r (f_o elbow) -> nth 0 r 0 = 0) /\ exists d, now 2 hob eng elbow = Some d.
Proof.
  intros hob eng. assert (A : aligned elbow).
  { repeat split; try reflexivity; intros r I; repeat (destruct I as [<-|I]; [reflexivity|]); destruct I. }
  assert (S : straight_path elbow) by (split; [intros c [<-|[<-|[]]]; auto|intros e [<-|[<-|[]]]; exact I]).
  assert (U : uncut 2 hob eng elbow) by (left; cbn; lia).
  split; [exact A|]. split; [exact S|]. split; [exact U|]. split; [|split; [|split]].
  - split.
    + intros [|[|i]] I; cbn [elbow f_pts nth]; [intro E; injection E; lra|intro E; injection E; lra|cbn in I; lia].
    + intros [|i] I; [|cbn in I; lia]. cbn [elbow f_pts nth]. left.
      assert (A1 : apart (0, 0) (4, 0) = 4) by (unfold apart; cbn [fst snd]; replace ((4 - 0) ^ 2 + (0 - 0) ^ 2) with (4 * 4) by ring; apply sqrt_square; lra).
      assert (A2 : apart (4, 0) (4, 3) = 3) by (unfold apart; cbn [fst snd]; replace ((4 - 4) ^ 2 + (3 - 0) ^ 2) with (3 * 3) by ring; apply sqrt_square; lra).
      rewrite A1, A2. cbn [fst snd]. lra.
  - intros r I. repeat (destruct I as [<-|I]; [reflexivity|]). destruct I.
  - intros r I. repeat (destruct I as [<-|I]; [reflexivity|]). destruct I.
  - apply (C66_defined 2 hob eng (le_n 2) elbow (0, 0) (4, 0) A S U); [now left|right; now left|]. intro E. injection E. lra.
Qed.
Example C66_section_case : forall hob eng, let f := Flex 1 [(0, 0); (4, 3)] [[2]; [2]] [[1]; [1]] [Lengths 1 2] [Natural] [None] [1%Z] [0%Z] (/ 100) (/ 1000) 0 false true None in
  aligned f /\ uncut 2 hob eng f /\ beyond (nth 0 (f_ends f) Flush) 2 = Some (1, 2) /\ exists d, now 2 hob eng f = Some d.
Proof.
  intros hob eng f. assert (A : aligned f).
  { repeat split; try reflexivity; intros r I; repeat (destruct I as [<-|I]; [reflexivity|]); destruct I. }
  assert (U : uncut 2 hob eng f) by (left; cbn; lia). split; [exact A|]. split; [exact U|]. split; [reflexivity|].
  apply (C66_defined 2 hob eng (le_n 2) f (0, 0) (4, 3) A); [|exact U|now left|right; now left|intro E; injection E; lra].
  split; [intros c [<-|[]]; auto|intros e [<-|[]]; exact I].
Qed.

Print Assumptions C66_frame.
Print Assumptions C66_section.
Print Assumptions C66_mitered.
Print Assumptions C66_defined.
