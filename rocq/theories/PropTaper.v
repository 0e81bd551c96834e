(** C85: FlexPaths whose widths and offsets change from point to point. *)

From Coq Require Import Reals Lra Lia List ZArith Bool Psatz.
From Verif Require Import Plane SpecPlane Hier Curve Engine Flex SpecFlex FlexProofs FlexMove PropFlexRows PropFlexShape PropArc PropFlexEnds SpecRound PropFlexRound SpecTaper.
Import ListNotations.
Open Scope R_scope.

(** ** Legs *)

Lemma frame_back p q a b x : p <> q -> at_xy p q a b x -> x = padd (padd p (smul (a / apart p q) (psub q p))) (smul b (normal p q)).
Proof.
  intros N [A B]. pose proof (apart_pos p q N) as P. pose proof (apart_sq p q) as S. rewrite normal_apart. unfold ahead, aside in A, B. fold (apart p q) in A, B.
  set (l := apart p q) in *. clearbody l. destruct p as [px py], q as [qx qy], x as [x1 x2]. unfold padd, smul, psub in *. cbn [fst snd] in *.
  set (u := qx - px) in *. set (v := qy - py) in *. clearbody u v. subst a b.
  f_equal; apply (Rmult_eq_reg_r (l * l)); try nra.
  - transitivity (px * (l * l) + (u ^ 2 + v ^ 2) * (x1 - px)); [rewrite <- S; ring|]. field. lra.
  - transitivity (py * (l * l) + (u ^ 2 + v ^ 2) * (x2 - py)); [rewrite <- S; ring|]. field. lra.
Qed.
Lemma runs_side p q h0 h1 s : p <> q -> s = (padd p (smul h0 (normal p q)), padd q (smul h1 (normal p q))) -> runs p q h0 h1 s.
Proof.
  intros N ->. pose proof (apart_pos p q N) as P. split; cbn [fst snd]; apply frame; try exact N.
  - unfold Rdiv. rewrite Rmult_0_l. apply pt_eq; unfold padd, smul; cbn [fst snd]; ring.
  - unfold Rdiv. rewrite Rinv_r by lra. apply pt_eq; unfold padd, smul, psub; cbn [fst snd]; ring.
Qed.
Lemma runs_back p q h0 h1 s : p <> q -> runs p q h0 h1 s -> s = (padd p (smul h0 (normal p q)), padd q (smul h1 (normal p q))).
Proof.
  intros N [A B]. pose proof (apart_pos p q N) as P. destruct s as [x y]. cbn [fst snd] in *. apply frame_back in A; [|exact N]. apply frame_back in B; [|exact N].
  unfold Rdiv in A, B. rewrite Rmult_0_l in A. rewrite Rinv_r in B by lra. f_equal; [rewrite A|rewrite B]; apply pt_eq; unfold padd, smul, psub; cbn [fst snd]; ring.
Qed.
Lemma runs_apart p q h0 h1 s : p <> q -> runs p q h0 h1 s -> fst s <> snd s.
Proof.
  intros N [[A _] [B _]] E. pose proof (apart_pos p q N) as P. rewrite E in A. lra.
Qed.
(** The distance from the segment goes linearly from [h0] to [h1] along the leg. *)
Theorem C85_width : forall p q h0 h1 s x, p <> q -> runs p q h0 h1 s -> upon s x ->
  aside p q x = h0 + (h1 - h0) * (ahead p q x / apart p q).
Proof.
  intros p q h0 h1 s x N R U. pose proof (runs_apart p q h0 h1 s N R) as M. pose proof (apart_pos _ _ M) as PM.
  assert (X : exists a b, at_xy p q a b x) by (eexists; eexists; split; reflexivity). destruct X as (a & b & X). destruct X as [X1 X2] eqn:E. rewrite X1, X2.
  pose proof (frame_back p q a b x N X) as XE. clear E X1 X2. pose proof (runs_back p q h0 h1 s N R) as S. pose proof (apart_pos p q N) as P. pose proof (apart_sq p q) as Q.
  unfold upon, aside in U. fold (apart (fst s) (snd s)) in U.
  assert (U' : (fst (snd s) - fst (fst s)) * (snd x - snd (fst s)) - (snd (snd s) - snd (fst s)) * (fst x - fst (fst s)) = 0).
  { apply (Rmult_eq_reg_r (/ apart (fst s) (snd s))); [|apply Rinv_neq_0_compat; lra]. rewrite Rmult_0_l. exact U. }
  clear U PM M R. subst s x. rewrite normal_apart in *. set (l := apart p q) in *. clearbody l. destruct p as [px py], q as [qx qy].
  unfold padd, smul, psub in *. cbn [fst snd] in *. set (u := qx - px) in *. set (v := qy - py) in *.
  replace qx with (px + u) in U' by (unfold u; ring). replace qy with (py + v) in U' by (unfold v; ring). clearbody u v.
  assert (E : (b - (h0 + (h1 - h0) * (a / l))) * (u ^ 2 + v ^ 2) / l = 0).
  { rewrite <- U'. field. lra. }
  rewrite <- Q in E. replace ((b - (h0 + (h1 - h0) * (a / l))) * (l * l) / l) with ((b - (h0 + (h1 - h0) * (a / l))) * l) in E by (field; lra).
  apply Rminus_diag_uniq. apply (Rmult_eq_reg_r l); lra.
Qed.

(** ** Corners *)

Lemma upon_iff s x : fst s <> snd s -> (upon s x <-> on s x).
Proof.
  intro N. pose proof (apart_pos _ _ N) as P. unfold upon, aside, on. fold (apart (fst s) (snd s)). split; intro H.
  - apply (Rmult_eq_reg_r (/ apart (fst s) (snd s))); [|apply Rinv_neq_0_compat; lra]. rewrite Rmult_0_l. exact H.
  - unfold Rdiv. rewrite H. ring.
Qed.
Lemma ahead_off s a v : fst s <> snd s -> v = psub (snd s) (fst s) -> into s (padd (fst s) (smul a v)) = a * apart (fst s) (snd s) /\
  over s (padd (snd s) (smul a v)) = a * apart (fst s) (snd s).
Proof.
  intros N ->. pose proof (apart_pos _ _ N) as P. pose proof (apart_sq (fst s) (snd s)) as S. unfold into, over, ahead. fold (apart (fst s) (snd s)).
  set (l := apart (fst s) (snd s)) in *. clearbody l. destruct s as [[px py] [qx qy]]. unfold padd, smul, psub in *. cbn [fst snd] in *. split.
  - apply (Rmult_eq_reg_r l); [|lra]. transitivity (a * ((qx - px) ^ 2 + (qy - py) ^ 2)); [field; lra|]. rewrite <- S. ring.
  - apply (Rmult_eq_reg_r l); [|lra]. transitivity ((1 + a) * ((qx - px) ^ 2 + (qy - py) ^ 2) - l * l); [field; lra|]. rewrite <- S. ring.
Qed.
Lemma cut_of s t al be th : fst s <> snd s -> fst t <> snd t -> 0 < al -> 0 < be ->
  th = tiny * (al * apart (fst s) (snd s)) ^ 2 * (be * apart (fst t) (snd t)) ^ 2 ->
  let p0 := snd s in let v0 := smul al (psub (snd s) (fst s)) in
  let p1 := fst t in let v1 := smul be (psub (snd t) (fst t)) in
  let den := snd v1 * fst v0 - fst v1 * snd v0 in
  let d := psub p1 p0 in
  exists u0 u1 p, 
  (if Rlt_dec (den ^ 2) th then (0, 0, mid p0 p1)
   else
     let u0 := (snd v1 * fst d - fst v1 * snd d) / den in
     let u1 := (snd v0 * fst d - fst v0 * snd d) / den in
     (u0, u1, smul (/ 2) (padd (padd p0 (smul u0 v0)) (padd p1 (smul u1 v1))))) = (u0, u1, p) /\
  meeting s t p /\ (~ angled s t -> u0 = 0 /\ u1 = 0) /\
  (angled s t -> p = padd p0 (smul u0 v0) /\ p = padd p1 (smul u1 v1) /\
     over s p = u0 * (al * apart (fst s) (snd s)) /\ into t p = u1 * (be * apart (fst t) (snd t))).
Proof.
  intros N M A B Th p0 v0 p1 v1 den d. pose proof (apart_pos _ _ N) as P0. pose proof (apart_pos _ _ M) as P1.
  set (V0 := psub (snd s) (fst s)) in *. set (V1 := psub (snd t) (fst t)) in *.
  assert (DE : den = al * be * (fst V0 * snd V1 - snd V0 * fst V1)) by (unfold den, v0, v1, smul; cbn [fst snd]; ring).
  assert (AG : ~ den ^ 2 < th <-> angled s t).
  { rewrite DE, Th. unfold angled. cbv zeta. fold V0 V1. set (K := fst V0 * snd V1 - snd V0 * fst V1). set (X := apart (fst s) (snd s)) in *. set (Y := apart (fst t) (snd t)) in *.
    assert (AB : 0 < al ^ 2 * be ^ 2) by (apply Rmult_lt_0_compat; apply pow_lt; assumption).
    replace ((al * be * K) ^ 2) with (al ^ 2 * be ^ 2 * K ^ 2) by ring. replace (tiny * (al * X) ^ 2 * (be * Y) ^ 2) with (al ^ 2 * be ^ 2 * (tiny * (X * Y) ^ 2)) by ring.
    assert (E : K ^ 2 < tiny * (X * Y) ^ 2 <-> 10 ^ 12 * K ^ 2 < (X * Y) ^ 2).
    { assert (T : 0 < 10 ^ 12) by (apply pow_lt; lra). assert (TT : 10 ^ 12 * tiny = 1) by (unfold tiny; apply Rinv_r; lra).
      split; intro H.
      - replace ((X * Y) ^ 2) with (10 ^ 12 * (tiny * (X * Y) ^ 2)) by (rewrite <- Rmult_assoc, TT; ring). now apply Rmult_lt_compat_l.
      - apply (Rmult_lt_reg_l (10 ^ 12)); [exact T|]. rewrite <- Rmult_assoc, TT. lra. }
    split; intro H.
    - apply Rnot_lt_le. intro L. apply H. apply Rmult_lt_compat_l; [exact AB|]. now apply E.
    - intro L. apply Rmult_lt_reg_l in L; [|exact AB]. apply E in L. lra. }
  destruct (Rlt_dec (den ^ 2) th) as [L|L].
  - exists 0, 0, (mid p0 p1). split; [reflexivity|]. assert (NA : ~ angled s t) by (intro H; apply AG in H; contradiction). split; [|split].
    + split; [intro; contradiction|]. intros _. unfold mid, p0, p1. apply pt_eq; unfold smul, padd; cbn [fst snd]; field.
    + auto.
    + intro; contradiction.
  - assert (AN : angled s t) by now apply AG. assert (DN : den <> 0).
    { intro Z. apply L. rewrite Z, Th. assert (0 < tiny) by (unfold tiny; apply Rinv_0_lt_compat, pow_lt; lra).
      replace (0 ^ 2) with 0 by ring. apply Rmult_lt_0_compat; [apply Rmult_lt_0_compat; [assumption|]|]; apply pow_lt; now apply Rmult_lt_0_compat. }
    cbv zeta. set (u0 := (snd v1 * fst d - fst v1 * snd d) / den). set (u1 := (snd v0 * fst d - fst v0 * snd d) / den).
    assert (E : padd p0 (smul u0 v0) = padd p1 (smul u1 v1)).
    { unfold u0, u1, d, den in *. clear - DN. destruct p0 as [a b], p1 as [c e], v0 as [x y], v1 as [z w]. unfold padd, smul, psub in *. cbn [fst snd] in *. f_equal; field; exact DN. }
    exists u0, u1, (padd p0 (smul u0 v0)).
    assert (G0 : padd p0 (smul u0 v0) = padd (snd s) (smul (u0 * al) V0)) by (unfold p0, v0; apply pt_eq; unfold padd, smul; cbn [fst snd]; ring).
    assert (G1 : padd p1 (smul u1 v1) = padd (fst t) (smul (u1 * be) V1)) by (unfold p1, v1; apply pt_eq; unfold padd, smul; cbn [fst snd]; ring).
    split; [|split; [|split]].
    + f_equal. rewrite <- E. apply pt_eq; unfold smul, padd; cbn [fst snd]; field.
    + split; [|intro; contradiction]. intros _. split; apply upon_iff; try assumption.
      * rewrite G0. apply on_move; [apply on_snd|reflexivity].
      * rewrite E, G1. apply on_move; [apply on_fst|reflexivity].
    + intro; contradiction.
    + intros _. split; [reflexivity|]. split; [exact E|]. split.
      * rewrite G0. destruct (ahead_off s (u0 * al) V0 N eq_refl) as [_ ->]. ring.
      * rewrite E, G1. destruct (ahead_off t (u1 * be) V1 M eq_refl) as [-> _]. ring.
Qed.
Lemma heads_vec p q p' q' t : psub q p = psub q' p' -> heads p q t -> heads p' q' t.
Proof. unfold heads. rewrite !apart_sqrt. intros -> H. exact H. Qed.
Lemma leg_heads left s t a0 a1 : fst s <> snd s -> fst t <> snd t ->
  corner_angles left (psub (snd s) (fst s)) (psub (snd t) (fst t)) = (a0, a1) ->
  let k := if left then 1 else -1 in
  exists t0 t1, heads (fst s) (snd s) t0 /\ heads (fst t) (snd t) t1 /\ a0 = t0 - k * (PI / 2) /\ a1 = t1 - k * (PI / 2) /\ Rabs (t1 - t0) <= PI.
Proof.
  intros N M H k. set (V0 := psub (snd s) (fst s)) in *. set (V1 := psub (snd t) (fst t)) in *.
  assert (E0 : psub V0 (0, 0) = V0) by (apply pt_eq; unfold psub; cbn [fst snd]; ring).
  assert (E1 : psub (padd V0 V1) V0 = V1) by (apply pt_eq; unfold psub, padd; cbn [fst snd]; ring).
  assert (N0 : (0, 0) <> V0) by (intro Z; apply (psub_nonzero _ _ N); symmetry; exact Z).
  assert (N1 : V0 <> padd V0 V1).
  { intro Z. apply (psub_nonzero _ _ M). fold V1. rewrite <- E1, <- Z. apply pt_eq; unfold psub; cbn [fst snd]; ring. }
  rewrite <- E0, <- E1 in H. rewrite !E0 in H at 1.
  destruct (corner_heads left (0, 0) V0 (padd V0 V1) a0 a1 N0 N1) as (t0 & t1 & H0 & H1 & R).
  { rewrite E0, E1. rewrite ?E0, ?E1 in H. exact H. }
  exists t0, t1. split; [apply (heads_vec (0, 0) V0); [exact E0|exact H0]|]. split; [apply (heads_vec V0 (padd V0 V1)); [exact E1|exact H1]|exact R].
Qed.
Lemma leg_cross s t t0 t1 : heads (fst s) (snd s) t0 -> heads (fst t) (snd t) t1 ->
  fst (psub (snd s) (fst s)) * snd (psub (snd t) (fst t)) - snd (psub (snd s) (fst s)) * fst (psub (snd t) (fst t)) =
  apart (fst s) (snd s) * apart (fst t) (snd t) * sin (t1 - t0).
Proof. intros H0 H1. rewrite H0, H1, sin_minus. unfold smul. cbn [fst snd]. ring. Qed.
Lemma sin_side x : Rabs x <= PI -> sin x <> 0 -> Rabs x < PI /\ (0 < sin x <-> 0 < x) /\ (sin x < 0 <-> x < 0).
Proof.
  intros B S. apply Rabs_le_inv in B. assert (x <> PI) by (intros ->; apply S, sin_PI). assert (x <> - PI) by (intros ->; apply S; rewrite sin_neg, sin_PI; ring).
  split; [apply Rabs_def1; lra|]. assert (P : 0 < x -> 0 < sin x) by (intro; apply sin_gt_0; lra).
  assert (Q : x < 0 -> sin x < 0) by (intro; pose proof (sin_gt_0 (- x) ltac:(lra) ltac:(lra)) as G; rewrite sin_neg in G; lra).
  assert (x <> 0) by (intros ->; apply S, sin_0). destruct (Rtotal_order x 0) as [L|[L|L]]; [|contradiction|]; split; split; intro; try lra; auto.
Qed.

Section Corner.
Variables (fuel : nat) (hob : pt * pt -> R * R -> pt * pt).
Lemma join_taper c bend tol s t p b w h0 h l : p <> b -> runs p b h0 h s -> fst t <> snd t ->
  match c with Natural | RoundCorner | Circular => 0 < w | _ => True end -> h = w / 2 \/ h = - (w / 2) -> 0 < tol ->
  (c = RoundCorner -> tol <= w / 4) -> join fuel hob c bend tol s t b w = Some l -> corner_taper c bend tol b h s t l.
Proof.
  intros PB RU M W Hh Tp Tr J. pose proof (runs_apart _ _ _ _ _ PB RU) as N. pose proof PI_RGT_0 as PP.
  pose proof (apart_pos _ _ N) as P0. pose proof (apart_pos _ _ M) as P1. unfold corner_taper. unfold join in J.
  set (V0 := psub (snd s) (fst s)) in *. set (V1 := psub (snd t) (fst t)) in *.
  set (left := if Rlt_dec 0 (fst V0 * snd V1 - snd V0 * fst V1) then true else false).
  destruct (corner_angles left V0 V1) as [a0 a1] eqn:CA.
  destruct (leg_heads left s t a0 a1 N M CA) as (t0 & t1 & H0 & H1 & A0 & A1 & B). cbv zeta in *.
  pose proof (leg_cross s t t0 t1 H0 H1) as CR. fold V0 V1 in CR.
  set (AA := apart (fst s) (snd s) * apart (fst t) (snd t)) in *. assert (AP : 0 < AA) by (apply Rmult_lt_0_compat; assumption).
  assert (S1 : forall v : pt, smul 1 v = v) by (intro v; apply pt_eq; unfold smul; cbn [fst snd]; ring).
  pose proof (cut_of s t 1 1 (tiny * len2 V0 * len2 V1) N M Rlt_0_1 Rlt_0_1) as CUT. cbv zeta in CUT. fold V0 V1 in CUT. rewrite !S1 in CUT.
  assert (LL : forall x : pt * pt, (1 * apart (fst x) (snd x)) ^ 2 = len2 (psub (snd x) (fst x))).
  { intro x. rewrite Rmult_1_l. replace (apart (fst x) (snd x) ^ 2) with (apart (fst x) (snd x) * apart (fst x) (snd x)) by ring. apply apart_sq. }
  rewrite !LL in CUT. fold V0 V1 in CUT. specialize (CUT eq_refl). destruct CUT as (u0 & u1 & x & CE & MX & ZU & GU). cbv zeta in CE, J.
  assert (GAP : (if Rle_dec u0 0 then if Rle_dec 0 u1 then true else false else false) = true <-> ~ (angled s t /\ ~ (over s x <= 0 /\ 0 <= into t x))).
  { assert (D : angled s t \/ ~ angled s t) by (unfold angled; cbv zeta; destruct (Rle_dec ((apart (fst s) (snd s) * apart (fst t) (snd t)) ^ 2) (10 ^ 12 * (fst V0 * snd V1 - snd V0 * fst V1) ^ 2)); auto).
    destruct D as [D|D].
    - destruct (GU D) as (_ & _ & G0 & G1). rewrite G0, G1, !Rmult_1_l. split.
      + destruct (Rle_dec u0 0); [|discriminate]. destruct (Rle_dec 0 u1); [|discriminate]. intros _ [_ Q]. apply Q. split; nra.
      + intro Q. destruct (Rle_dec u0 0) as [L|L]; [destruct (Rle_dec 0 u1) as [L'|L']; [reflexivity|]|]; exfalso; apply Q; (split; [exact D|]); intros [X Y]; nra.
    - destruct (ZU D) as [-> ->]. split; [intros _ [Q _]; contradiction|]. intros _. destruct (Rle_dec 0 0); [|lra]. reflexivity. }
  assert (SK : sin (t1 - t0) <> 0 -> (if left then 1 else -1) = (if Rlt_dec t0 t1 then 1 else -1)).
  { intro Z. destruct (sin_side (t1 - t0) B Z) as (_ & X & Y). unfold left. rewrite CR. destruct (Rlt_dec 0 (AA * sin (t1 - t0))) as [Q|Q], (Rlt_dec t0 t1) as [O|O]; try reflexivity; exfalso.
    - assert (0 < sin (t1 - t0)) by nra. apply X in H. lra.
    - assert (0 < sin (t1 - t0)) by (apply X; lra). apply Q. nra. }
  assert (AS : angled s t -> sin (t1 - t0) <> 0).
  { intros Q Z. unfold angled in Q. cbv zeta in Q. fold V0 V1 in Q. rewrite CR, Z in Q. fold AA in Q. replace ((AA * 0) ^ 2) with 0 in Q by ring. assert (0 < AA ^ 2) by (apply pow_lt; exact AP). lra. }
  destruct c.
  - (* natural *)
    clear CE MX ZU GU GAP u0 u1 x. assert (AW : Rabs h = w / 2) by (destruct Hh as [-> | ->]; [apply Rabs_pos_eq; lra|rewrite Rabs_left; lra]).
    assert (LE : forall x : pt * pt, len (psub (snd x) (fst x)) = apart (fst x) (snd x)) by (intro; symmetry; apply apart_len).
    pose proof (LE s) as LE0. pose proof (LE t) as LE1. fold V0 in LE0. fold V1 in LE1. rewrite LE0, LE1 in J.
    assert (al0 : 0 < / 2 * w / apart (fst s) (snd s)) by (apply Rdiv_lt_0_compat; lra). assert (al1 : 0 < / 2 * w / apart (fst t) (snd t)) by (apply Rdiv_lt_0_compat; lra).
    pose proof (cut_of s t _ _ (tiny * (/ 2 * w) ^ 4) N M al0 al1) as CUT. cbv zeta in CUT. fold V0 V1 in CUT.
    replace (/ 2 * w / apart (fst s) (snd s) * apart (fst s) (snd s)) with (w / 2) in CUT by (field; lra).
    replace (/ 2 * w / apart (fst t) (snd t) * apart (fst t) (snd t)) with (w / 2) in CUT by (field; lra).
    destruct (CUT ltac:(unfold Rdiv; ring)) as (u0 & u1 & x & CE & MX & ZU & GU). clear CUT. rewrite CE in J. injection J as <-.
    exists x, t0, t1. split; [exact MX|]. split; [exact H0|]. split; [exact H1|]. split; [exact B|]. rewrite AW.
    assert (V0E : smul (/ 2 * w / apart (fst s) (snd s)) V0 = smul (w / 2) (cos t0, sin t0)).
    { unfold V0. rewrite H0. apply pt_eq; unfold smul; cbn [fst snd]; field; lra. }
    assert (V1E : smul (/ 2 * w / apart (fst t) (snd t)) V1 = smul (w / 2) (cos t1, sin t1)).
    { unfold V1. rewrite H1. apply pt_eq; unfold smul; cbn [fst snd]; field; lra. }
    rewrite V0E, V1E in *.
    assert (D : angled s t \/ ~ angled s t) by (unfold angled; cbv zeta; destruct (Rle_dec ((apart (fst s) (snd s) * apart (fst t) (snd t)) ^ 2) (10 ^ 12 * (fst V0 * snd V1 - snd V0 * fst V1) ^ 2)); auto).
    destruct D as [D|D].
    + destruct (GU D) as (E0 & E1 & G0 & G1). rewrite G0, G1.
      assert (X0 : (u0 * (w / 2) < 0 <-> u0 < 0) /\ (u0 * (w / 2) <= w / 2 <-> u0 <= 1)) by (split; split; intro; nra).
      assert (X1 : (0 < u1 * (w / 2) <-> 0 < u1) /\ (- (w / 2) <= u1 * (w / 2) <-> -1 <= u1)) by (split; split; intro; nra).
      destruct X0 as [X00 X01], X1 as [X10 X11]. rewrite X00, X01, X10, X11.
      assert (MID : u0 <= 1 -> -1 <= u1 -> mid (padd (snd s) (smul (Rmin 1 u0) (smul (w / 2) (cos t0, sin t0)))) (padd (fst t) (smul (Rmax (-1) u1) (smul (w / 2) (cos t1, sin t1)))) = x).
      { intros Q0 Q1. rewrite Rmin_right, Rmax_right by lra. rewrite <- E0, <- E1. apply pt_eq; unfold mid, smul, padd; cbn [fst snd]; field. }
      split; intro Q.
      * destruct (Rlt_dec u0 0) as [L|L]; [destruct (Rlt_dec 0 u1) as [L'|L']; [reflexivity|]|].
        -- destruct (Rle_dec (-1) u1); [rewrite MID by lra; reflexivity|]. exfalso. apply Q. split; [exact D|]. split; [tauto|]. tauto.
        -- destruct (Rle_dec u0 1); [|exfalso; apply Q; split; [exact D|tauto]]. destruct (Rle_dec (-1) u1); [rewrite MID by lra; reflexivity|]. exfalso. apply Q. split; [exact D|tauto].
      * destruct Q as (_ & Q0 & Q1).
        assert (F : [padd (snd s) (smul (Rmin 1 u0) (smul (w / 2) (cos t0, sin t0))); padd (fst t) (smul (Rmax (-1) u1) (smul (w / 2) (cos t1, sin t1)))] =
          [spot (snd s) t0 (Rmin (w / 2) (u0 * (w / 2))) 0; spot (fst t) t1 (Rmax (- (w / 2)) (u1 * (w / 2))) 0]).
        { assert (Y0 : Rmin (w / 2) (u0 * (w / 2)) = Rmin 1 u0 * (w / 2)) by (unfold Rmin; destruct (Rle_dec 1 u0), (Rle_dec (w / 2) (u0 * (w / 2))); try lra; nra).
          assert (Y1 : Rmax (- (w / 2)) (u1 * (w / 2)) = Rmax (-1) u1 * (w / 2)) by (unfold Rmax; destruct (Rle_dec (-1) u1), (Rle_dec (- (w / 2)) (u1 * (w / 2))); try lra; nra).
          rewrite Y0, Y1. unfold spot. f_equal; [|f_equal]; apply pt_eq; unfold padd, smul; cbn [fst snd]; ring. }
        destruct (Rlt_dec u0 0) as [L|L]; [destruct (Rlt_dec 0 u1) as [L'|L']; [exfalso; tauto|]|].
        -- destruct (Rle_dec (-1) u1); [exfalso; apply Q1; split; lra|exact F].
        -- destruct (Rle_dec u0 1); [|exact F]. destruct (Rle_dec (-1) u1); [exfalso; apply Q1; split; lra|exact F].
    + split; [|intros [Q _]; contradiction]. intros _. destruct (ZU D) as [Z0 Z1]. rewrite Z0, Z1. destruct (Rlt_dec 0 0); [lra|]. destruct (Rle_dec 0 1); [|lra]. destruct (Rle_dec (-1) 0); [|lra].
      rewrite Rmin_right, Rmax_right by lra. f_equal. destruct MX as [_ MX]. rewrite (MX D). apply pt_eq; unfold mid, smul, padd; cbn [fst snd]; field.
  - (* miter *)
    rewrite CE in J. injection J as <-. exists x, t0, t1. repeat (split; [assumption|]). reflexivity.
  - (* bevel *)
    rewrite CE in J. exists x, t0, t1. repeat (split; [assumption|]).
    destruct (if Rle_dec u0 0 then _ else _) in GAP, J; injection J as <-; (split; intro O); try reflexivity; exfalso.
    + apply GAP in O; [exact O|reflexivity].
    + apply GAP in O. discriminate.
  - (* round *)
    assert (LE : (if Rlt_dec (snd V0 * fst V1 - fst V0 * snd V1) 0 then true else false) = left).
    { unfold left. destruct (Rlt_dec (snd V0 * fst V1 - fst V0 * snd V1) 0), (Rlt_dec 0 (fst V0 * snd V1 - snd V0 * fst V1)); try reflexivity; exfalso; lra. }
    rewrite LE, CA, CE in J. exists x, t0, t1. repeat (split; [assumption|]).
    assert (AW : Rabs h = w / 2) by (destruct Hh as [-> | ->]; [apply Rabs_pos_eq; lra|rewrite Rabs_left; lra]). rewrite AW.
    destruct (if Rle_dec u0 0 then _ else _) in GAP, J; (split; intro O).
    + injection J as <-. reflexivity.
    + exfalso. apply GAP in O; [exact O|reflexivity].
    + exfalso. apply GAP in O. discriminate.
    + destruct (arc_count 4 (/ 2 * Rabs (a1 - a0)) tol (/ 2 * w)) as [np|] eqn:AC; [|discriminate]. injection J as <-.
      assert (X := arc_traces 4 _ tol (/ 2 * w) np b a0 a1 (7 / 6) (49 / 36 * tol) AC ltac:(lia) eq_refl Tp ltac:(specialize (Tr eq_refl); lra) ltac:(cbn; field) ltac:(field)).
      eapply traces_ext; [|exact X]. intro y. rewrite A0, A1. rewrite <- (SK (AS (proj1 O))). replace (/ 2 * w) with (w / 2) by field. reflexivity.
  - (* smooth *)
    exists x, t0, t1. repeat (split; [assumption|]). exact I.
  - (* circular *)
    exists x, t0, t1. repeat (split; [assumption|]). rewrite CR in J.
    destruct (Req_EM_T (AA * sin (t1 - t0)) 0) as [Z|Z].
    + assert (SZ : sin (t1 - t0) = 0) by (apply (Rmult_eq_reg_l AA); lra). split; [|intro; contradiction]. intros _. injection J as <-.
      f_equal. apply pt_eq; unfold mid, smul, padd; cbn [fst snd]; field.
    + assert (SZ : sin (t1 - t0) <> 0) by (intro Q; apply Z; rewrite Q; ring). split; [intro; contradiction|]. intros _. destruct bend as [br|]; [|discriminate]. exists br. split; [reflexivity|].
      rewrite <- CR in J. fold left in J. rewrite CA in J. set (k := if left then 1 else -1) in *. rewrite <- (SK SZ). intro BR.
      assert (SS : k = 1 \/ k = -1) by (unfold k; destruct left; auto).
      assert (KK : 0 < k * (fst V0 * snd V1 - snd V0 * fst V1)).
      { unfold k, left. rewrite CR. destruct (Rlt_dec 0 (AA * sin (t1 - t0))); [lra|]. destruct (Rtotal_order (AA * sin (t1 - t0)) 0) as [Q|[Q|Q]]; [lra|contradiction|lra]. }
      pose proof (runs_back _ _ _ _ _ PB RU) as SE. pose proof (apart_pos _ _ PB) as PQ. pose proof (apart_sq p b) as SQ.
      assert (SD : fst V0 * snd (psub (snd s) b) - snd V0 * fst (psub (snd s) b) = apart p b * h).
      { unfold V0. rewrite SE, normal_apart. set (m := apart p b) in *. clearbody m. clear - PQ SQ. destruct p as [px py], b as [bx by_]. unfold psub, padd, smul in *. cbn [fst snd] in *.
        set (u := bx - px) in *. set (v := by_ - py) in *. replace bx with (px + u) by (unfold u; ring). replace by_ with (py + v) by (unfold v; ring). clearbody u v.
        transitivity ((u ^ 2 + v ^ 2) / m * h); [field; lra|]. rewrite <- SQ. field. lra. }
      rewrite SD in J. replace ((fst V0 * snd V1 - snd V0 * fst V1) * (apart p b * h)) with (apart p b * ((fst V0 * snd V1 - snd V0 * fst V1) * h)) in J by ring.
      assert (RR := bend_radius k (fst V0 * snd V1 - snd V0 * fst V1) h w (apart p b) br SS KK Hh W PQ). rewrite RR in J. clear RR SD.
      destruct (arc_count 2 (/ 2 * Rabs (a1 - a0)) tol (br - k * h)) as [np|] eqn:AC; [|discriminate].
      assert (NP := arc_count_base _ _ _ _ _ AC). destruct (linspace_cons a0 a1 np ltac:(lia)) as (mm & LM & _).
      assert (HD : hd (0, 0) (map (on_circle (br - k * h)) (linspace a0 a1 np)) = on_circle (br - k * h) a0) by (rewrite LM; reflexivity).
      rewrite HD in J. injection J as <-. rewrite map_map.
      set (ctr := spot (snd s) t0 (- (br * tan (Rabs (t1 - t0) / 2))) (k * (br - k * h))).
      assert (RB : br - Rabs h <= br - k * h) by (destruct SS as [-> | ->]; unfold Rabs; destruct (Rcase_abs h); lra).
      assert (X := arc_traces 2 _ tol (br - k * h) np ctr a0 a1 (3 / 2) (9 / 4 * tol) AC ltac:(lia) eq_refl Tp ltac:(lra) ltac:(cbn; field) ltac:(field)).
      assert (DD : a1 - a0 = t1 - t0) by (rewrite A0, A1; ring).
      match goal with |- traces _ _ ?l => replace l with (map (fun x => padd ctr (on_circle (br - k * h) x)) (linspace a0 a1 np)) end.
      * rewrite <- A0, <- A1. exact X.
      * apply map_ext. intro y. rewrite DD. replace (/ 2 * Rabs (t1 - t0)) with (Rabs (t1 - t0) / 2) by field. rewrite A0.
        assert (LV : len V0 = apart (fst s) (snd s)) by (symmetry; apply apart_len). rewrite LV.
        assert (VE : V0 = smul (apart (fst s) (snd s)) (cos t0, sin t0)) by exact H0. rewrite VE.
        unfold ctr, on_circle, spot. destruct (quarter t0 k SS) as [-> ->]. apply pt_eq; unfold padd, psub, smul; cbn [fst snd];
          field; lra.
  - exists x, t0, t1. repeat (split; [assumption|]). exact I.
Qed.
End Corner.

(** ** Lines *)

Lemma meet_meeting s t : fst s <> snd s -> fst t <> snd t -> meeting s t (meet s t).
Proof.
  intros N M. pose proof (apart_pos _ _ N) as P0. pose proof (apart_pos _ _ M) as P1.
  assert (LL : forall x : pt * pt, (1 * apart (fst x) (snd x)) ^ 2 = len2 (psub (snd x) (fst x))).
  { intro x. rewrite Rmult_1_l. replace (apart (fst x) (snd x) ^ 2) with (apart (fst x) (snd x) * apart (fst x) (snd x)) by ring. apply apart_sq. }
  assert (S1 : forall v : pt, smul 1 v = v) by (intro v; apply pt_eq; unfold smul; cbn [fst snd]; ring).
  unfold meet. cbv zeta. set (V0 := psub (snd s) (fst s)) in *. set (V1 := psub (snd t) (fst t)) in *.
  destruct (cut_of s t 1 1 (tiny * len2 V1 * len2 V0) N M Rlt_0_1 Rlt_0_1) as (u0 & u1 & x & CE & MX & ZU & GU); [rewrite !LL; fold V0 V1; ring|].
  cbv zeta in CE. fold V0 V1 in CE. rewrite !S1 in CE.
  replace ((fst V1 * snd V0 - snd V1 * fst V0) ^ 2) with ((snd V1 * fst V0 - fst V1 * snd V0) ^ 2) by ring.
  destruct (Rlt_dec _ _) as [L|L].
  - replace (mid (fst t) (snd s)) with x; [exact MX|]. injection CE as _ _ <-. apply pt_eq; unfold mid, smul, padd; cbn [fst snd]; field.
  - assert (D : angled s t).
    { unfold angled. cbv zeta. fold V0 V1. apply Rnot_lt_le. intro Q. apply L.
      assert (T : 0 < 10 ^ 12) by (apply pow_lt; lra). assert (TT : 10 ^ 12 * tiny = 1) by (unfold tiny; apply Rinv_r; lra).
      apply (Rmult_lt_reg_l (10 ^ 12)); [exact T|]. replace (10 ^ 12 * (tiny * len2 V1 * len2 V0)) with (10 ^ 12 * tiny * (len2 V1 * len2 V0)) by ring. rewrite TT.
      replace ((snd V1 * fst V0 - fst V1 * snd V0) ^ 2) with ((fst V0 * snd V1 - snd V0 * fst V1) ^ 2) by ring.
      replace (1 * (len2 V1 * len2 V0)) with ((apart (fst s) (snd s) * apart (fst t) (snd t)) ^ 2); [exact Q|].
      unfold V0, V1. rewrite <- !LL. ring. }
    destruct (GU D) as (E & _). rewrite !S1 in E. fold V0 in E.
    match goal with |- meeting s t ?y => replace y with x; [exact MX|] end. rewrite E. f_equal. f_equal.
    assert (E0 : u0 = (snd V1 * fst (psub (fst t) (snd s)) - fst V1 * snd (psub (fst t) (snd s))) / (snd V1 * fst V0 - fst V1 * snd V0)) by congruence. rewrite E0.
    assert (DN : snd V1 * fst V0 - fst V1 * snd V0 <> 0).
    { intro Z. apply L. rewrite Z. replace (0 ^ 2) with 0 by ring. assert (0 < tiny) by (unfold tiny; apply Rinv_0_lt_compat, pow_lt; lra).
      assert (0 < len2 V0) by (unfold V0; rewrite <- LL; apply pow_lt; lra). assert (0 < len2 V1) by (unfold V1; rewrite <- LL; apply pow_lt; lra).
      repeat apply Rmult_lt_0_compat; assumption. }
    unfold psub at 1 2. unfold psub at 1 2. cbn [fst snd]. field. split; lra.
Qed.
Lemma shifted_at : forall pts hs i d, length hs = length pts -> (S i < length pts)%nat ->
  let n := normal (nth i pts (0, 0)) (nth (S i) pts (0, 0)) in
  nth i (shifted pts hs) d = (padd (nth i pts (0, 0)) (smul (nth i hs 0) n), padd (nth (S i) pts (0, 0)) (smul (nth (S i) hs 0) n)).
Proof.
  induction pts as [|p pts IH]; intros hs i d L I; [cbn in I; lia|]. destruct pts as [|q pts]; [cbn in I; lia|].
  destruct hs as [|a [|b hs]]; try discriminate L. destruct i as [|i]; [reflexivity|].
  change (nth (S i) (shifted (p :: q :: pts) (a :: b :: hs)) d) with (nth i (shifted (q :: pts) (b :: hs)) d). rewrite IH; [reflexivity|cbn in *; lia|cbn in *; lia].
Qed.
Section Lines.
Variable fuel : nat.
Hypothesis enough : (2 <= fuel)%nat.
Lemma shifted_legs pts hs : length hs = length pts -> steps pts -> legs pts hs (shifted pts hs).
Proof.
  intros L ST. split; [now apply (shifted_length fuel enough)|]. intros i I. rewrite (shifted_at pts hs i _ L I). apply runs_side; [now apply ST|reflexivity].
Qed.
Lemma legs_apart pts hs ss i : legs pts hs ss -> steps pts -> (i < length ss)%nat -> fst (nth i ss ss0) <> snd (nth i ss ss0).
Proof. intros [L H] ST I. rewrite L in I. assert (J : (S i < length pts)%nat) by lia. exact (runs_apart _ _ _ _ _ (ST i J) (H i J)). Qed.
Lemma line_through pts hs ss : legs pts hs ss -> steps pts -> (2 <= length pts)%nat -> through ss (line_of meet ss).
Proof.
  intros L ST N. pose proof L as [LL _]. unfold through, line_of. cbv zeta. fold ss0. split; [|split; [|split]].
  - cbn [length]. rewrite app_length, (pairwise_length fuel enough). cbn. lia.
  - cbn [nth]. destruct ss; [cbn in LL; lia|reflexivity].
  - destruct ss as [|s ss]; [cbn in LL; lia|]. cbn [length nth]. rewrite app_nth2 by (rewrite (pairwise_length fuel enough); cbn; lia).
    rewrite (pairwise_length fuel enough). cbn [length]. replace (length ss - (S (length ss) - 1))%nat with 0%nat by lia. cbn [nth]. rewrite last_at. cbn [length]. reflexivity.
  - intros i I. cbn [nth]. rewrite app_nth1 by (rewrite (pairwise_length fuel enough); lia). rewrite (pairwise_nth fuel enough meet ss i ss0) by exact I.
    apply meet_meeting; eapply legs_apart; eauto; lia.
Qed.
Lemma flat_through pts : steps pts -> (2 <= length pts)%nat -> tapered pts (repeat 0 (length pts)) pts.
Proof.
  intros ST N. set (hs := repeat 0 (length pts)). assert (L : length hs = length pts) by apply repeat_length.
  exists (shifted pts hs). pose proof (shifted_legs pts hs L ST) as LG. split; [exact LG|]. pose proof LG as [LL _].
  assert (E : forall i, (S i < length pts)%nat -> nth i (shifted pts hs) ss0 = (nth i pts (0, 0), nth (S i) pts (0, 0))).
  { intros i I. rewrite (shifted_at pts hs i _ L I). assert (Z : forall j, nth j hs 0 = 0).
    { intro j. unfold hs. clear. revert j. induction (length pts) as [|m IH]; intros [|j]; try reflexivity. cbn. apply IH. }
    cbv zeta. rewrite !Z. f_equal; apply pt_eq; unfold padd, smul; cbn [fst snd]; rewrite Rmult_0_l, Rplus_0_r; reflexivity. }
  unfold through. cbv zeta. fold ss0. rewrite LL. split; [lia|]. split; [rewrite E by lia; reflexivity|].
  split; [rewrite E by lia; cbn [snd]; f_equal; lia|]. intros i I. rewrite !E by lia. split.
  - intros _. pose proof (ST i ltac:(lia)) as A. pose proof (ST (S i) ltac:(lia)) as B. split; apply upon_iff; cbn [fst snd]; try assumption; unfold on; cbn [fst snd]; ring.
  - intros _. cbn [fst snd]. apply pt_eq; cbn [fst snd]; field.
Qed.
Lemma centre_tapered pts os : length os = length pts -> steps pts -> (2 <= length pts)%nat -> tapered pts os (centre pts os).
Proof.
  intros L ST N. unfold centre. destruct (all_zero os) eqn:Z.
  - replace os with (repeat 0 (length pts)); [now apply flat_through|]. rewrite <- L. clear - Z. induction os as [|o os IH]; [reflexivity|]. cbn [length repeat].
    unfold all_zero in *. cbn [forallb] in Z. destruct (Req_EM_T o 0) as [-> |]; [|discriminate]. f_equal. apply IH. exact Z.
  - exists (shifted pts os). pose proof (shifted_legs pts os L ST) as LG. split; [exact LG|]. pose proof (line_through pts os _ LG ST N) as X.
    destruct LG as [LL _]. unfold line_of in X. destruct (shifted pts os) as [|s ss]; [cbn in LL; lia|]. cbn [hd] in X.
    replace (last (s :: ss) s) with (last (s :: ss) ss0); [exact X|]. rewrite !last_at. cbn [length]. apply nth_indep. cbn. lia.
Qed.
End Lines.

Section Taper.
Variables (fuel : nat) (hob : pt * pt -> R * R -> pt * pt) (eng : op -> list zpath -> list zpath -> list zpath).
Hypothesis enough : (2 <= fuel)%nat.
Notation now := (now fuel hob eng). Notation uncut := (uncut fuel hob eng).

(** The widths allow the shapes asked for. *)
Definition wide (c : corner) (en : cap) (tol : R) (ws : list R) : Prop :=
  (forall i, (0 < i)%nat -> (S i < length ws)%nat -> let w := nth i ws 0 in
     match c with Natural | Circular => 0 < w | RoundCorner => 0 < w /\ tol <= w / 4 | _ => True end) /\
  (en = RoundCap -> tol <= hd 0 ws / 4 /\ tol <= last ws 0 / 4).
Lemma steps_tidy f : steps (f_pts f) -> tidy f = f.
Proof.
  intro B. unfold tidy. assert (E : forallb (fun b => b) (keep (f_pts f)) = true); [|now rewrite E]. unfold steps in B.
  destruct (f_pts f) as [|x t]; [reflexivity|]. unfold keep. cbn [forallb andb]. revert x B. induction t as [|y t IH]; intros x B; [reflexivity|].
  change (pairwise (fun p q => negb (same_pt p q)) (x :: y :: t)) with (negb (same_pt x y) :: pairwise (fun p q => negb (same_pt p q)) (y :: t)).
  cbn [forallb]. assert (E : same_pt x y = false).
  { unfold same_pt. destruct (Req_EM_T (len2 (psub y x)) 0) as [Z|]; [|reflexivity]. exfalso. apply (B 0%nat); [cbn; lia|]. cbn [nth]. apply len2_zero in Z.
    destruct x, y. unfold psub in Z. cbn in Z. injection Z as Z1 Z2. f_equal; lra. }
  rewrite E. cbn [negb andb]. apply IH. intros i Hi. apply (B (S i)). cbn in *; lia.
Qed.
Lemma nth_map_scale k (ws : list R) i : nth i (map (fun w => k * w) ws) 0 = k * nth i ws 0.
Proof. revert i. induction ws as [|w ws IH]; intros [|i]; cbn; try ring. apply IH. Qed.

(** A path of three or more points: the line at the offsets beside the spine, both
    sides at half the widths beside that line, and the polygon round the start, along the
    right side, round the end and back along the left. *)
Theorem C85_outline : forall f k d, aligned f -> (3 <= length (f_pts f))%nat -> steps (f_pts f) -> uncut f -> (k < f_n f)%nat ->
  let c := nth k (f_corners f) Natural in let en := nth k (f_ends f) Flush in
  let ws := map (fun r => nth k r 0) (f_w f) in let os := map (fun r => nth k r 0) (f_o f) in
  (forall ctr, tapered (f_pts f) os ctr -> steps ctr) -> wide c en (f_tol f) ws -> 0 < f_tol f -> now f = Some d ->
  exists l p ctr rs ls back right front left, In ((nth k (f_layers f) 0%Z, nth k (f_dts f) 0%Z), l) d /\ In p l /\
    tapered (f_pts f) os ctr /\
    legs ctr (map (fun w => - / 2 * w) ws) rs /\ legs ctr (map (fun w => / 2 * w) ws) ls /\
    p = rev back ++ right ++ front ++ rev left /\
    corners_taper c (nth k (f_bend f) None) (f_tol f) ctr (map (fun w => - / 2 * w) ws) rs right /\
    corners_taper c (nth k (f_bend f) None) (f_tol f) ctr (map (fun w => / 2 * w) ws) ls left /\
    (exists t, heads (nth 0 ctr (0, 0)) (nth 1 ctr (0, 0)) t /\ end_shape en (f_tol f) (hd 0 ws) (nth 0 ctr (0, 0)) t (-1) back) /\
    (let n := length ctr in exists t, heads (nth (n - 2) ctr (0, 0)) (nth (n - 1) ctr (0, 0)) t /\
       end_shape en (f_tol f) (last ws 0) (nth (n - 1) ctr (0, 0)) t 1 front).
Proof.
  intros f k d A N B U K c en ws os BC [WC WE] Tp D.
  assert (F : flat2 f = false) by (unfold flat2; destruct (f_pts f) as [|x [|y [|z t]]]; try reflexivity; cbn in N; lia).
  destruct (now_out fuel hob eng enough f d k U F D K) as (r & l & R & I & J).
  assert (R' : general_outline fuel hob f k = Some r).
  { unfold out_of in R. rewrite (steps_tidy f B) in R. destruct (f_pts f) as [|x [|y [|z t]]] eqn:P; try exact R. cbn in N; lia. }
  clear R. destruct A as (LW & LO & _). unfold general_outline in R'. rewrite LW, LO, !Nat.eqb_refl in R'. cbn [andb] in R'. fold c en in R'.
  unfold col in R'. fold ws os in R'.
  assert (Lws : length ws = length (f_pts f)) by (unfold ws; now rewrite map_length).
  assert (Los : length os = length (f_pts f)) by (unfold os; now rewrite map_length).
  clearbody ws os. pose proof (centre_tapered fuel enough (f_pts f) os Los B ltac:(lia)) as CT. unfold outline in R'. remember (centre (f_pts f) os) as ctr eqn:Ectr. clear Ectr.
  pose proof (BC ctr CT) as SC.
  assert (LC : length ctr = length (f_pts f)) by (destruct CT as (ss & [LS _] & [LT _]); lia).
  destruct ctr as [|p0 [|p1 ctr']] eqn:EC; try (cbn in LC; lia). rewrite <- EC in *. cbv zeta in R'.
  assert (HL : map (fun w => -1 * / 2 * w) ws = map (fun w => - / 2 * w) ws) by (apply map_ext; intro; field).
  assert (HH : map (fun w => 1 * / 2 * w) ws = map (fun w => / 2 * w) ws) by (apply map_ext; intro; field).
  rewrite HL, HH in R'.
  set (lo := shifted ctr (map (fun w => - / 2 * w) ws)) in *. set (hi := shifted ctr (map (fun w => / 2 * w) ws)) in *.
  assert (GL : legs ctr (map (fun w => - / 2 * w) ws) lo) by (apply (shifted_legs fuel enough); [rewrite map_length; lia|exact SC]).
  assert (GH : legs ctr (map (fun w => / 2 * w) ws) hi) by (apply (shifted_legs fuel enough); [rewrite map_length; lia|exact SC]).
  assert (SL : length lo = (length ctr - 1)%nat) by apply GL.
  assert (SH : length hi = (length ctr - 1)%nat) by apply GH.
  assert (TC : length (tl ctr) = (length ctr - 1)%nat) by (destruct ctr; cbn; lia).
  assert (TW : length (tl ws) = (length ctr - 1)%nat) by (destruct ws; cbn in *; lia).
  match type of R' with match ?x with _ => _ end = _ => destruct x as [arm0|] eqn:A0; [|discriminate] end.
  match type of R' with match ?x with _ => _ end = _ => destruct x as [arm1|] eqn:A1; [|discriminate] end.
  assert (CS : forall g ss am, g = / 2 \/ g = - / 2 -> legs ctr (map (fun w => g * w) ws) ss ->
    arm fuel hob c (nth k (f_bend f) None) (f_tol f) ss (tl ctr) (tl ws) = Some am -> corners_taper c (nth k (f_bend f) None) (f_tol f) ctr (map (fun w => g * w) ws) ss am).
  { intros g ss am Hg LG AM. pose proof LG as [LS NS]. destruct (arm_pieces fuel hob enough c (nth k (f_bend f) None) (f_tol f) ss (tl ctr) (tl ws) am AM ltac:(lia) ltac:(lia)) as (ps & E & LP & G).
    exists ps. split; [exact E|]. split; [lia|]. intros i Hi. specialize (G i Hi).
    assert (NT : nth i (tl ctr) (0, 0) = nth (S i) ctr (0, 0)) by (destruct ctr; [destruct i; reflexivity|reflexivity]).
    assert (NW : nth i (tl ws) 0 = nth (S i) ws 0) by (destruct ws; [destruct i; reflexivity|reflexivity]).
    rewrite NT, NW in G. pose proof (NS i ltac:(lia)) as RU. rewrite (nth_map_scale g ws (S i)) in RU |- *. fold ss0 in RU |- *.
    specialize (WC (S i) ltac:(lia) ltac:(lia)). cbv zeta in WC.
    eapply (join_taper fuel hob c _ (f_tol f) _ _ _ _ _ _ _ _ (SC i ltac:(lia)) RU); [| | |exact Tp| |exact G].
    - apply (legs_apart fuel enough ctr _ ss (S i) LG SC). lia.
    - destruct c; tauto.
    - destruct Hg as [-> | ->]; [left; field|right; field].
    - intro Z. rewrite Z in WC. tauto. }
  assert (CL : forall ss : list (pt * pt), length ss = (length ctr - 1)%nat -> last ss ss0 = nth (length ctr - 2) ss ss0) by (intros ss LS; rewrite last_at, LS; f_equal; lia).
  assert (P0 : p0 = nth 0 ctr (0, 0)) by (rewrite EC; reflexivity). assert (P1 : p1 = nth 1 ctr (0, 0)) by (rewrite EC; reflexivity).
  assert (PN : last ctr (0, 0) = nth (length ctr - 1) ctr (0, 0)) by apply last_at.
  assert (PM : beforelast ctr = nth (length ctr - 2) ctr (0, 0)).
  { unfold beforelast. assert (NE : ctr <> []) by (rewrite EC; discriminate). pose proof (@app_removelast_last pt ctr (0, 0) NE) as Z. rewrite last_at.
    assert (LR : length (removelast ctr) = (length ctr - 1)%nat) by (pose proof (f_equal (@length pt) Z) as Z'; rewrite app_length in Z'; cbn [length] in Z'; lia).
    rewrite LR. transitivity (nth (length ctr - 2) (removelast ctr ++ [last ctr (0, 0)]) (0, 0)); [|now rewrite <- Z]. rewrite app_nth1 by lia. f_equal. lia. }
  assert (W0 : nth 0 ws 0 = hd 0 ws) by (destruct ws; reflexivity).
  assert (WN : nth (length ctr - 1) ws 0 = last ws 0) by (rewrite last_at; f_equal; lia).
  set (n := length ctr) in *.
  assert (Q0 : nth 0 ctr (0, 0) <> nth 1 ctr (0, 0)) by (apply SC; lia).
  assert (QN : nth (n - 2) ctr (0, 0) <> nth (n - 1) ctr (0, 0)) by (replace (n - 1)%nat with (S (n - 2)) by lia; apply SC; lia).
  pose proof (heads_along _ _ Q0) as H0. pose proof (heads_along _ _ QN) as HN. set (t0 := along _) in H0. set (tn := along _) in HN. clearbody t0 tn.
  fold ss0 in R'. rewrite (CL lo SL), (CL hi SH), PN, PM, P0, P1 in R'.
  assert (E0 : hd ss0 lo = nth 0 lo ss0) by (destruct lo; reflexivity). assert (E1 : hd ss0 hi = nth 0 hi ss0) by (destruct hi; reflexivity).
  match type of R' with context [@hd ?A ss0 lo] => change (@hd A ss0 lo) with (@hd (pt * pt) ss0 lo) in R' end.
  match type of R' with context [@hd ?A ss0 hi] => change (@hd A ss0 hi) with (@hd (pt * pt) ss0 hi) in R' end.
  assert (LEG : forall g i, (S i < n)%nat -> nth i (shifted ctr (map (fun w => g * w) ws)) ss0 =
    (fst (side (g * nth i ws 0) (nth i ctr (0, 0)) (nth (S i) ctr (0, 0))), snd (side (g * nth (S i) ws 0) (nth i ctr (0, 0)) (nth (S i) ctr (0, 0))))).
  { intros g i Hi. rewrite shifted_at; [|rewrite map_length; transitivity n; [lia|reflexivity]|exact Hi]. cbv zeta. rewrite !nth_map_scale. reflexivity. }
  rewrite E0, E1 in R'. unfold lo, hi in R'. rewrite !LEG in R' by lia. replace (S (n - 2)) with (n - 1)%nat in R' by lia.
  rewrite !(heads_side _ _ _ t0 Q0 H0) in R'. rewrite !(heads_side _ _ _ tn QN HN) in R'. cbn [fst snd] in R'. rewrite W0, WN in R'.
  assert (V0 : psub (nth 0 ctr (0, 0)) (nth 1 ctr (0, 0)) = smul (apart (nth 0 ctr (0, 0)) (nth 1 ctr (0, 0))) (-1 * cos t0, -1 * sin t0)).
  { transitivity (smul (-1) (psub (nth 1 ctr (0, 0)) (nth 0 ctr (0, 0)))); [apply pt_eq; unfold psub, smul; cbn [fst snd]; ring|]. rewrite H0. apply pt_eq; unfold smul; cbn [fst snd]; ring. }
  assert (VN : psub (nth (n - 1) ctr (0, 0)) (nth (n - 2) ctr (0, 0)) = smul (apart (nth (n - 2) ctr (0, 0)) (nth (n - 1) ctr (0, 0))) (1 * cos tn, 1 * sin tn)).
  { rewrite HN. apply pt_eq; unfold smul; cbn [fst snd]; ring. }
  rewrite V0, VN in R'.
  assert (HF : forall w, - / 2 * w = - (w / 2)) by (intro; field). assert (HG : forall w, / 2 * w = w / 2) by (intro; field).
  rewrite !HF in R'. rewrite !HG in R'.
  match type of R' with match ?x with _ => _ end = _ => destruct x as [cap0|] eqn:X0; [|discriminate] end.
  match type of R' with match ?x with _ => _ end = _ => destruct x as [cap1|] eqn:X1; [|discriminate] end.
  injection R' as R'. exists l, r, ctr, lo, hi, cap0, arm0, cap1, arm1. split; [exact I|]. split; [exact J|]. split; [exact CT|]. split; [exact GL|]. split; [exact GH|]. split; [now symmetry|].
  split; [apply (CS (- / 2) lo); auto|]. split; [apply (CS (/ 2) hi); auto|].
  split.
  - exists t0. split; [exact H0|]. refine (cap_shape fuel hob en (f_tol f) false _ t0 _ _ _ _ cap0 (apart_pos _ _ Q0) _ X0). intro Z. split; [exact Tp|apply WE, Z].
  - exists tn. split; [exact HN|]. refine (cap_shape fuel hob en (f_tol f) true _ tn _ _ _ _ cap1 (apart_pos _ _ QN) _ X1). intro Z. split; [exact Tp|apply WE, Z].
Qed.
End Taper.

(** ** What the specification means *)

(** The lines are determined. *)
Lemma legs_unique pts hs a b : steps pts -> legs pts hs a -> legs pts hs b -> a = b.
Proof.
  intros ST [LA A] [LB B]. apply (nth_ext _ _ ss0 ss0); [congruence|]. intros i I. rewrite LA in I. assert (J : (S i < length pts)%nat) by lia.
  unfold ss0. rewrite (runs_back _ _ _ _ _ (ST i J) (A i J)), (runs_back _ _ _ _ _ (ST i J) (B i J)). reflexivity.
Qed.
Lemma meeting_unique s t x y : fst s <> snd s -> fst t <> snd t -> meeting s t x -> meeting s t y -> x = y.
Proof.
  intros N M [X1 X2] [Y1 Y2]. pose proof (apart_pos _ _ N) as P0. pose proof (apart_pos _ _ M) as P1.
  destruct (Rle_dec ((apart (fst s) (snd s) * apart (fst t) (snd t)) ^ 2) (10 ^ 12 * (fst (psub (snd s) (fst s)) * snd (psub (snd t) (fst t)) - snd (psub (snd s) (fst s)) * fst (psub (snd t) (fst t))) ^ 2)) as [L|L].
  - destruct (X1 L) as [A B]. destruct (Y1 L) as [C D]. apply upon_iff in A; [|exact N]. apply upon_iff in B; [|exact M]. apply upon_iff in C; [|exact N]. apply upon_iff in D; [|exact M].
    assert (K : fst (psub (snd s) (fst s)) * snd (psub (snd t) (fst t)) - snd (psub (snd s) (fst s)) * fst (psub (snd t) (fst t)) <> 0).
    { intro Z. rewrite Z in L. assert (0 < (apart (fst s) (snd s) * apart (fst t) (snd t)) ^ 2) by (apply pow_lt; now apply Rmult_lt_0_compat). lra. }
    clear - A B C D K. destruct s as [[a b] [c d]], t as [[e f] [g h]], x as [x1 x2], y as [y1 y2]. unfold on, psub in *. cbn [fst snd] in *.
    set (u := c - a) in *. set (v := d - b) in *. set (p := g - e) in *. set (q := h - f) in *. clearbody u v p q.
    assert (E1 : u * (x2 - y2) - v * (x1 - y1) = 0) by lra. assert (E2 : p * (x2 - y2) - q * (x1 - y1) = 0) by lra.
    f_equal; apply Rminus_diag_uniq; apply (Rmult_eq_reg_l (u * q - v * p)); try assumption; rewrite Rmult_0_r.
    + replace ((u * q - v * p) * (x1 - y1)) with (p * (u * (x2 - y2) - v * (x1 - y1)) - u * (p * (x2 - y2) - q * (x1 - y1))) by ring. rewrite E1, E2. ring.
    + replace ((u * q - v * p) * (x2 - y2)) with (q * (u * (x2 - y2) - v * (x1 - y1)) - v * (p * (x2 - y2) - q * (x1 - y1))) by ring. rewrite E1, E2. ring.
  - rewrite (X2 L), (Y2 L). reflexivity.
Qed.
Theorem C85_unique : forall pts hs a b, steps pts -> (2 <= length pts)%nat -> tapered pts hs a -> tapered pts hs b -> a = b.
Proof.
  intros pts hs a b ST N (ss & L & A0 & A1 & A2 & A3) (ss' & L' & B0 & B1 & B2 & B3). pose proof (legs_unique pts hs ss ss' ST L L') as E. subst ss'.
  apply (nth_ext _ _ (0, 0) (0, 0)); [exact (eq_trans A0 (eq_sym B0))|]. intros i I. pose proof (eq_ind _ (fun z => (i < z)%nat) I _ A0) as I0. clear I. rename I0 into I. pose proof L as [LL LR].
  assert (NE : forall i, (i < length ss)%nat -> fst (nth i ss ((0, 0), (0, 0))) <> snd (nth i ss ((0, 0), (0, 0)))).
  { intros j J. assert (J' : (S j < length pts)%nat) by lia. exact (runs_apart _ _ _ _ _ (ST j J') (LR j J')). }
  cbv zeta beta in *. destruct i as [|i]; [exact (eq_trans A1 (eq_sym B1))|]. destruct (Nat.eq_dec (S i) (length ss)) as [Q|Q]; [pose proof (eq_trans A2 (eq_sym B2)) as Z; rewrite <- Q in Z; exact Z|].
  apply (meeting_unique (nth i ss ((0, 0), (0, 0))) (nth (S i) ss ((0, 0), (0, 0)))); [apply NE; lia|apply NE; lia|apply A3; lia|apply B3; lia].
Qed.
(** Without offsets, the line is the spine. *)
Theorem C85_spine : forall pts ctr, steps pts -> (2 <= length pts)%nat -> tapered pts (repeat 0 (length pts)) ctr -> ctr = pts.
Proof.
  intros pts ctr ST N T. apply (C85_unique pts (repeat 0 (length pts))); [exact ST|exact N|exact T|]. now apply (flat_through 2 (le_n 2)).
Qed.

(** ** Round corners *)

(** A path that narrows towards a corner and widens after it. *)
Definition waist : flex :=
  Flex 1 [(0, 0); (12, 0); (20, 6)] [[26]; [2]; [22]] [[0]; [0]; [0]] [Flush] [RoundCorner] [None] [1%Z] [0%Z] (/ 100) (/ 1000) 0 false true None.
Lemma waist_ok : aligned waist /\ dimensioned waist /\ steps (f_pts waist).
Proof.
  split; [|split].
  - repeat split; try reflexivity; intros r I; repeat (destruct I as [<-|I]; [reflexivity|]); destruct I.
  - split; [cbn; lra|]. intros [|k] K; [|cbn in K; lia]. cbv zeta; cbn [waist f_corners f_ends f_bend nth]. split; [exact I|]. split; [exact I|].
    intros r Hr. repeat (destruct Hr as [<-|Hr]; [cbn; split; [intros _; lra|discriminate]|]). destruct Hr.
  - intros [|[|i]] I; cbn [waist f_pts nth]; [intro E; injection E; lra|intro E; injection E; lra|cbn in I; lia].
Qed.
Lemma waist_spine : forall ctr, tapered (f_pts waist) [0; 0; 0] ctr -> ctr = f_pts waist.
Proof. intros ctr T. apply C85_spine; [apply waist_ok|cbn; lia|exact T]. Qed.

Section Waist.
Variables (hob : pt * pt -> R * R -> pt * pt) (eng : op -> list zpath -> list zpath -> list zpath).
Lemma apart_1 : apart (0, 0) (12, 0) = 12.
Proof. unfold apart; cbn [fst snd]; replace ((12 - 0) ^ 2 + (0 - 0) ^ 2) with (12 * 12) by ring; apply sqrt_square; lra. Qed.
Lemma apart_2 : apart (12, 0) (20, 6) = 10.
Proof. unfold apart; cbn [fst snd]; replace ((20 - 12) ^ 2 + (6 - 0) ^ 2) with (10 * 10) by ring; apply sqrt_square; lra. Qed.
(** The first corner point of its right side is to the left of both sections. *)
Lemma waist_crosses : forall d, SpecFlex.now 2 hob eng waist = Some d ->
  exists l a b x r, In ((1%Z, 0%Z), l) d /\ In (a :: b :: x :: r) l /\ aside (0, 0) (12, 0) b < 0 /\ 0 < aside (0, 0) (12, 0) x /\ 0 < aside (12, 0) (20, 6) x.
Proof.
  intros d D. destruct waist_ok as (A & DM & ST). assert (U : uncut 2 hob eng waist) by (left; cbn; lia).
  destruct (C85_outline 2 hob eng (le_n 2) waist 0 d A) as (l & p & ctr & rs & ls & back & right & front & left & I & J & T & RS & _ & E & CR & _ & (tb & HB & EB) & _);
    [cbn; lia|exact ST|exact U|cbn; lia| | |cbn; lra|exact D|].
  { intros ctr T. rewrite (waist_spine ctr T). exact ST. }
  { split.
    - cbn [waist f_corners f_ends f_w map nth length f_tol]. intros [|[|i]] I1 I2; [lia|cbn; lra|cbn in I2; lia].
    - discriminate. }
  pose proof (waist_spine ctr T) as CE. subst ctr. clear T. cbn [waist f_pts f_w f_o f_ends f_corners f_bend f_layers f_dts f_tol map nth hd] in *.
  destruct CR as (ps & RE & LP & PC). cbn [length] in LP. destruct ps as [|pc [|]]; try (cbn in LP; lia). cbn [concat] in RE. rewrite app_nil_r in RE. subst right.
  destruct RS as [LR RN]. cbn [length] in LR, RN. destruct rs as [|s [|t [|]]]; try (cbn in LR; lia).
  pose proof (RN 0%nat ltac:(lia)) as R0. pose proof (RN 1%nat ltac:(lia)) as R1. specialize (PC 0%nat ltac:(cbn; lia)). cbn [nth] in R0, R1, PC. clear RN LR LP.
  assert (N1 : (0, 0) <> (12, 0) :> pt) by (intro Q; injection Q; lra). assert (N2 : (12, 0) <> (20, 6) :> pt) by (intro Q; injection Q; lra).
  apply runs_back in R0; [|exact N1]. apply runs_back in R1; [|exact N2]. rewrite normal_apart, apart_1 in R0. rewrite normal_apart, apart_2 in R1. unfold padd, smul in R0, R1. cbn [fst snd] in R0, R1.
  assert (S0 : s = ((0, -13), (12, -1))) by (rewrite R0; f_equal; apply pt_eq; cbn [fst snd]; field).
  assert (S1 : t = ((126 / 10, - 8 / 10), (266 / 10, - 28 / 10))) by (rewrite R1; f_equal; apply pt_eq; cbn [fst snd]; field). clear R0 R1. subst s t.
  destruct PC as (x & t0 & t1 & MX & H0 & H1 & B & [_ GP]). cbn [fst snd] in *.
  set (s := ((0, -13), (12, -1)) : pt * pt) in *. set (t := ((126 / 10, - 8 / 10), (266 / 10, - 28 / 10)) : pt * pt) in *.
  assert (NS : fst s <> snd s) by (unfold s; cbn [fst snd]; intro Q; injection Q; lra). assert (NT : fst t <> snd t) by (unfold t; cbn [fst snd]; intro Q; injection Q; lra).
  assert (Q0 : apart (fst s) (snd s) * apart (fst s) (snd s) = 288) by (rewrite apart_sq; unfold s; cbn [fst snd]; ring).
  assert (Q1 : apart (fst t) (snd t) * apart (fst t) (snd t) = 200) by (rewrite apart_sq; unfold t; cbn [fst snd]; field). pose proof (apart_pos _ _ NS) as P0. pose proof (apart_pos _ _ NT) as P1.
  assert (AN : angled s t).
  { unfold angled. cbv zeta. replace ((apart (fst s) (snd s) * apart (fst t) (snd t)) ^ 2) with ((apart (fst s) (snd s) * apart (fst s) (snd s)) * (apart (fst t) (snd t) * apart (fst t) (snd t))) by ring.
    rewrite Q0, Q1. unfold s, t, psub. cbn [fst snd]. lra. }
  destruct (proj1 MX AN) as [U0 U1]. apply upon_iff in U0; [|exact NS]. apply upon_iff in U1; [|exact NT].
  assert (XE : x = (49 / 4, - 3 / 4)).
  { destruct x as [x1 x2]. unfold on, s, t in U0, U1. cbn [fst snd] in U0, U1. f_equal; lra. }
  assert (GA : angled s t /\ ~ (over s x <= 0 /\ 0 <= into t x)).
  { split; [exact AN|]. intros [O _]. unfold over, ahead in O. fold (apart (fst s) (snd s)) in O. set (m := apart (fst s) (snd s)) in *.
    rewrite XE in O. unfold s in O. cbn [fst snd] in O.
    assert (((12 - 0) * (49 / 4 - 0) + (-1 - -13) * (- 3 / 4 - -13)) <= m * m).
    { apply (Rmult_le_reg_r (/ m)); [now apply Rinv_0_lt_compat|]. rewrite Rmult_assoc, Rinv_r by lra. unfold Rdiv in *. lra. }
    rewrite Q0 in H. lra. }
  specialize (GP GA). pose proof (leg_cross s t t0 t1 H0 H1) as CR. 
  assert (AP : 0 < apart (fst s) (snd s) * apart (fst t) (snd t)) by now apply Rmult_lt_0_compat.
  set (AA := apart (fst s) (snd s) * apart (fst t) (snd t)) in *. assert (CR' : -192 = AA * sin (t1 - t0)) by (rewrite <- CR; unfold s, t, psub; cbn [fst snd]; field). clearbody AA.
  assert (SN : sin (t1 - t0) < 0) by nra.
  destruct (sin_side (t1 - t0) B ltac:(lra)) as (_ & _ & TS). apply TS in SN. destruct (Rlt_dec t0 t1) as [|_]; [lra|].
  destruct GP as (HD & _). unfold arc_at in HD. rewrite Rmult_0_l, Rplus_0_r in HD. destruct (quarter t0 (-1) ltac:(lra)) as [C0 C1]. rewrite C0, C1 in HD.
  unfold heads in H0. set (m := apart (fst s) (snd s)) in *. unfold s, psub, smul in H0. cbn [fst snd] in H0. injection H0 as E0 E1. change (apart (0, -13) (12, -1)) with m in E0, E1. clearbody m.
  assert (CP : 0 < cos t0) by nra. assert (SP : 0 < sin t0) by nra. pose proof (sin2_cos2 t0) as SQ. unfold Rsqr in SQ.
  assert (RH : Rabs (- / 2 * 2) = 1) by (rewrite Rabs_left by lra; lra). rewrite RH in HD. unfold padd in HD. cbn [fst snd] in HD.
  destruct pc as [|y pc]; [cbn in HD; injection HD as D1 D2; exfalso; nra|]. cbn [hd] in HD.
  cbn [end_shape] in EB. subst back. cbn [rev app] in E. subst p. exists l. do 4 eexists. split; [exact I|]. split; [exact J|].
  assert (HBc : cos tb = 1 /\ sin tb = 0).
  { unfold heads in HB. rewrite apart_1 in HB. unfold psub, smul in HB. cbn [fst snd] in HB. injection HB as B1 B2. split; lra. }
  destruct HBc as [HB1 HB2].
  split; [|split].
  - unfold aside, spot, padd. cbn [fst snd]. fold (apart (0, 0) (12, 0)). rewrite HB1, HB2. replace (sqrt _) with 12; [lra|]. symmetry. exact apart_1.
  - unfold aside. rewrite HD. cbn [fst snd]. replace (sqrt _) with 12; [lra|]. symmetry. exact apart_1.
  - unfold aside. rewrite HD. cbn [fst snd]. replace (sqrt _) with 10; [lra|]. symmetry. exact apart_2.
Qed.
End Waist.
(** The third vertex of the polygon is the first corner point of the right side of the
    path.  It is not always to the right of one of the sections that meet there: at a round
    corner where the sides turn the other way than the spine, the right side goes through the
    path to its left. *)
Theorem C85_round_refuted : ~ forall hob eng f a b c d, aligned f -> f_pts f = [a; b; c] -> steps (f_pts f) -> uncut 2 hob eng f ->
  f_o f = [[0]; [0]; [0]] -> nth 0 (f_corners f) Natural = RoundCorner -> nth 0 (f_ends f) Flush = Flush ->
  wide RoundCorner Flush (f_tol f) (map (fun r => nth 0 r 0) (f_w f)) -> 0 < f_tol f -> SpecFlex.now 2 hob eng f = Some d ->
  forall l p, In ((nth 0 (f_layers f) 0%Z, nth 0 (f_dts f) 0%Z), l) d -> In p l ->
    aside a b (nth 2 p (0, 0)) <= 0 \/ aside b c (nth 2 p (0, 0)) <= 0.
Proof.
  intro H. set (hob := fun (x : pt * pt) (_ : R * R) => x). set (eng := fun (_ : op) (x _ : list zpath) => x). destruct waist_ok as (A & DM & ST).
  assert (U : uncut 2 hob eng waist) by (left; cbn; lia).
  destruct (C72_defined 2 hob eng (le_n 2) waist (0, 0) (12, 0) A DM U) as [d D]; [now left|right; now left|intro E; injection E; lra|].
  destruct (waist_crosses hob eng d D) as (l & u & v & x & r & I & L & _ & O1 & O2).
  destruct (H hob eng waist (0, 0) (12, 0) (20, 6) d A eq_refl ST U eq_refl eq_refl eq_refl) with (l := l) (p := u :: v :: x :: r) as [O|O]; try assumption.
  - split; [|discriminate]. cbn [waist f_w map nth length f_tol]. intros [|[|i]] I1 I2; [lia|cbn; lra|cbn in I2; lia].
  - cbn; lra.
  - cbn [nth] in O. lra.
  - cbn [nth] in O. lra.
Qed.

(** ** Cases *)

Example C85_case : forall hob eng, exists d, aligned waist /\ steps (f_pts waist) /\ uncut 2 hob eng waist /\
  (forall ctr, tapered (f_pts waist) [0; 0; 0] ctr -> steps ctr) /\ wide RoundCorner Flush (f_tol waist) [26; 2; 22] /\ SpecFlex.now 2 hob eng waist = Some d.
Proof.
  intros hob eng. destruct waist_ok as (A & DM & ST). assert (U : uncut 2 hob eng waist) by (left; cbn; lia).
  destruct (C72_defined 2 hob eng (le_n 2) waist (0, 0) (12, 0) A DM U) as [d D]; [now left|right; now left|intro E; injection E; lra|].
  exists d. split; [exact A|]. split; [exact ST|]. split; [exact U|]. split; [intros ctr T; rewrite (waist_spine ctr T); exact ST|]. split; [|exact D].
  split; [|discriminate]. cbn [length nth waist f_tol]. intros [|[|i]] I1 I2; [lia|cbn; lra|cbn in I2; lia].
Qed.
(** Offsets that change: the line from beside the first section to the end of the
    second; where the legs cross is a point of both. *)
Example C85_line_case : exists ctr, tapered [(0, 0); (12, 0); (20, 6)] [0; 1; 2] ctr /\ length ctr = 3%nat.
Proof.
  exists (centre [(0, 0); (12, 0); (20, 6)] [0; 1; 2]). split; [|unfold centre; destruct (all_zero _); reflexivity].
  apply (centre_tapered 2 (le_n 2)); [reflexivity|apply waist_ok|cbn; lia].
Qed.
Example C85_width_case : exists s x, runs (0, 0) (10, 0) 1 3 s /\ upon s x /\ ahead (0, 0) (10, 0) x = 5 /\ aside (0, 0) (10, 0) x = 2.
Proof.
  assert (A : apart (0, 0) (10, 0) = 10) by (unfold apart; cbn [fst snd]; replace ((10 - 0) ^ 2 + (0 - 0) ^ 2) with (10 * 10) by ring; apply sqrt_square; lra).
  exists ((0, 1), (10, 3)), (5, 2). unfold runs, at_xy, upon, ahead, aside. cbn [fst snd]. rewrite A. 
  change (sqrt ((10 - 0) ^ 2 + (0 - 0) ^ 2)) with (apart (0, 0) (10, 0)). rewrite A.
  replace ((10 - 0) * (2 - 1) - (3 - 1) * (5 - 0)) with 0 by ring. unfold Rdiv. rewrite !Rmult_0_l. repeat split; field.
Qed.

Print Assumptions C85_width.
Print Assumptions C85_outline.
Print Assumptions C85_unique.
Print Assumptions C85_spine.
Print Assumptions C85_round_refuted.
