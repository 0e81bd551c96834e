(** C37: moving a RobustPath moves its polygons. *)

From Coq Require Import Reals Lra Lia List ZArith Bool.
From Verif Require Import Plane PlaneProofs Curve CurveProofs Hier Engine Flex SpecFlex PropFlexEnds FlexProofs FlexMove Hobby
  Robust SpecRobust PropRobust PropRobustJoin RobustMove.
Import ListNotations.
Open Scope R_scope.

(** ** From outlines to polygons *)

Fixpoint gen_fill (cut : poly -> option (list poly)) (l : list (spec * option poly)) (d : list (spec * list poly)) : list (spec * list poly) * bool :=
  match l with
  | [] => (d, true)
  | (s, o) :: rest => match o with None => (d, false) | Some p => match cut p with None => (d, false) | Some ps => gen_fill cut rest (sext d s ps) end end
  end.
Section Fill.
Variables (fuel : nat) (hob : pt * pt -> R * R -> pt * pt) (eng : op -> list zpath -> list zpath -> list zpath).
Definition out_item (r : robust) (i : list sub * cap * Z * Z) : spec * option poly :=
  let '(path, en, l, dt) := i in ((l, dt), r_outline hob en (r_tol r) (r_evals r) path).
Lemma fill_gen r items : forall d, r_fill fuel hob eng r items d = gen_fill (r_cut_up fuel eng r) (map (out_item r) items) d.
Proof.
  induction items as [|[[[path en] l] dt] items IH]; intro d; [reflexivity|]. cbn [r_fill map out_item gen_fill].
  destruct (r_outline _ _ _ _ _); [|reflexivity]. destruct (r_cut_up _ _ _ _); [|reflexivity]. apply IH.
Qed.
Lemma now_gen r : r_now fuel hob eng r =
  let dk := gen_fill (r_cut_up fuel eng r) (map (out_item r) (zipped r)) [] in if snd dk then Some (fst dk) else None.
Proof.
  unfold r_now, r_get. cbn [r_remember r_cache]. change (zipped (r_remember r None)) with (zipped r). rewrite fill_gen.
  change (out_item (r_remember r None)) with (out_item r). change (r_cut_up fuel eng (r_remember r None)) with (r_cut_up fuel eng r).
  destruct (gen_fill _ _ _) as [d ok]. reflexivity.
Qed.
Lemma gen_none cut l : forall d, (exists s, In (s, None) l) -> snd (gen_fill cut l d) = false.
Proof.
  induction l as [|[s o] l IH]; intros d [s' I]; [contradiction|]. cbn [gen_fill]. destruct o as [p|]; [|reflexivity]. destruct (cut p); [|reflexivity].
  apply IH. destruct I as [E|I]; [discriminate|]. now exists s'.
Qed.
Definition put (d : list (spec * list poly)) (l : list (spec * poly)) : list (spec * list poly) := fold_left (fun d sp => sext d (fst sp) [snd sp]) l d.
Lemma gen_all cut l : forall d, (forall s p, In (s, p) l -> cut p = Some [p]) -> gen_fill cut (map (fun sp => (fst sp, Some (snd sp))) l) d = (put d l, true).
Proof.
  induction l as [|[s p] l IH]; intros d H; [reflexivity|]. cbn [map gen_fill fst snd]. rewrite (H s p (or_introl eq_refl)). rewrite IH by (intros; apply (H s0); now right). reflexivity.
Qed.
Lemma some_or_none (l : list (spec * option poly)) : (exists s, In (s, None) l) \/ exists m, l = map (fun sp => (fst sp, Some (snd sp))) m.
Proof.
  induction l as [|[s [p|]] l [(s' & I)|(m & ->)]].
  - right. now exists [].
  - left. exists s'. now right.
  - right. exists ((s, p) :: m). reflexivity.
  - left. exists s. now left.
  - left. exists s. now left.
Qed.
Lemma put_in l : forall d s p, (exists ps, In (s, ps) d /\ In p ps) \/ In (s, p) l -> exists ps, In (s, ps) (put d l) /\ In p ps.
Proof.
  induction l as [|[s0 p0] l IH]; intros d s p H; [destruct H as [H|[]]; exact H|]. cbn [put fold_left]. apply IH. destruct H as [H|[E|H]].
  - left. apply sext_in. now left.
  - injection E as -> ->. left. apply sext_in. right. split; [reflexivity|now left].
  - now right.
Qed.
Lemma sext_map (g : pt -> pt) d s ps : sext (dict_map g d) s (map (map g) ps) = dict_map g (sext d s ps).
Proof.
  induction d as [|[s' l] d IH]; [reflexivity|]. cbn [dict_map map fst snd sext]. destruct (spec_eqb s' s).
  - cbn [dict_map map fst snd]. now rewrite map_app.
  - cbn [map fst snd]. f_equal. exact IH.
Qed.
Lemma put_map (g : pt -> pt) l : forall d, put (dict_map g d) (map (fun sp => (fst sp, map g (snd sp))) l) = dict_map g (put d l).
Proof.
  induction l as [|[s p] l IH]; intro d; [reflexivity|]. cbn [map put fold_left fst snd]. change [map g p] with (map (map g) [p]). rewrite sext_map. apply IH.
Qed.
Lemma r_cut_whole r p : (2 <= fuel)%nat -> (r_max r <= 4)%nat \/ (length p <= r_max r)%nat -> r_cut_up fuel eng r p = Some [p].
Proof.
  intros F [H|H]; unfold r_cut_up, fracture.
  - destruct (Nat.ltb_spec 4 (r_max r)); [lia|reflexivity].
  - destruct (4 <? r_max r)%nat; [|reflexivity]. destruct fuel as [|[|n]]; try lia. cbn [fracture_loop nth_error].
    destruct (Nat.ltb_spec (r_max r) (length p)); [lia|reflexivity].
Qed.
Lemma uncut_short r m : (2 <= fuel)%nat -> r_uncut fuel hob eng r -> map (out_item r) (zipped r) = map (fun sp => (fst sp, Some (snd sp))) m ->
  forall s p, In (s, p) m -> (r_max r <= 4)%nat \/ (length p <= r_max r)%nat.
Proof.
  intros F [M|U] E s p I; [now left|right].
  assert (N : r_now fuel hob eng (r_no_limit r) = Some (put [] m)).
  { rewrite now_gen. change (zipped (r_no_limit r)) with (zipped r). change (out_item (r_no_limit r)) with (out_item r). rewrite E.
    rewrite gen_all; [reflexivity|]. intros. apply r_cut_whole; [exact F|left; cbn; lia]. }
  destruct (put_in m [] s p (or_intror I)) as (ps & A & B). eapply U; eauto.
Qed.
(** Outlines that are moved give polygons that are moved. *)
Lemma now_moved (g : pt -> pt) r q : (2 <= fuel)%nat -> r_max q = r_max r -> r_uncut fuel hob eng r ->
  map (out_item q) (zipped q) = map (fun so => (fst so, option_map (map g) (snd so))) (map (out_item r) (zipped r)) ->
  r_now fuel hob eng q = option_map (dict_map g) (r_now fuel hob eng r).
Proof.
  intros F M U E. rewrite !now_gen, E. cbv zeta. destruct (some_or_none (map (out_item r) (zipped r))) as [(s & I)|(m & Em)].
  - rewrite (gen_none _ (map (out_item r) (zipped r))) by now exists s. rewrite gen_none; [reflexivity|].
    exists s. apply in_map_iff. exists (s, None). split; [reflexivity|exact I].
  - pose proof (uncut_short r m F U Em) as SH. rewrite Em. rewrite gen_all by (intros s p I; apply r_cut_whole; [exact F|now apply (SH s)]).
    pose proof (gen_all (r_cut_up fuel eng q) (map (fun sp => (fst sp, map g (snd sp))) m) []) as GA. rewrite map_map in GA |- *.
    cbn [fst snd option_map] in GA |- *.
    match goal with |- context [gen_fill (r_cut_up fuel eng q) ?l []] =>
      replace (gen_fill (r_cut_up fuel eng q) l []) with (put [] (map (fun sp => (fst sp, map g (snd sp))) m), true) end.
    + cbn [fst snd]. f_equal. apply (put_map g m []).
    + symmetry. apply GA. intros s p I. apply in_map_iff in I as ([s' p'] & X & I). cbn [fst snd] in X. injection X as <- <-. apply r_cut_whole; [exact F|].
      rewrite M, map_length. now apply (SH s').
Qed.
End Fill.

(** ** Moved paths *)

Lemma transform_rest org rot mag refl arr r : let q := r_transform org rot mag refl arr r in
  r_ends q = r_ends r /\ r_layers q = r_layers r /\ r_dts q = r_dts r /\ r_tol q = r_tol r /\ r_max q = r_max r /\ r_evals q = r_evals r /\ r_cache q = None.
Proof. unfold r_transform. destruct arr, refl, mag, rot, org; repeat split. Qed.
Definition a_move (c : rcall) : bool := match c with RTranslate _ | RRotate _ _ | RScale _ _ | RTransform _ _ _ _ _ => true | _ => false end.
Lemma move_rest fuel hob eng c r q : a_move c = true -> do_rcall fuel hob eng c r = Some q ->
  r_ends q = r_ends r /\ r_layers q = r_layers r /\ r_dts q = r_dts r /\ r_tol q = r_tol r /\ r_max q = r_max r /\ r_evals q = r_evals r /\ r_cache q = None.
Proof. intros A H. destruct c; try discriminate; cbn [do_rcall] in H; injection H as <-; try (repeat split; fail). apply transform_rest. Qed.
Lemma moves_rigid c : plain_move c -> a_move c = true -> exists t d, (forall p, moves c p = rigid (reflects c) (grows c) t d p) .
Proof.
  intros P A. destruct c; try discriminate; cbn [moves reflects grows].
  - exists 0, v. intro p. apply pt_eq; unfold rigid; cbn; rewrite cos_0, sin_0; ring.
  - exists a, (moves (RRotate a c) (0, 0)). intro p. apply pt_eq; unfold moves, rigid; cbn; ring.
  - unfold Rabs. destruct (Rcase_abs k).
    + exists PI, (smul (1 - k) c). intro p. apply pt_eq; unfold rigid, smul; cbn; rewrite cos_PI, sin_PI; ring.
    + exists 0, (smul (1 - k) c). intro p. apply pt_eq; unfold rigid, smul; cbn; rewrite cos_0, sin_0; ring.
  - unfold Rabs. destruct (Rcase_abs (opt 1 mag)).
    + exists (opt 0 rot + PI), (rigid refl 1 (opt 0 rot) (opt (0, 0) org) (opt (0, 0) arr)). intro p. unfold rigid. rewrite neg_cos, neg_sin.
      apply pt_eq; cbn [fst snd]; ring.
    + eexists. eexists. intro p. reflexivity.
Qed.
Lemma combine3_moved {X Y A B C} (Q : X -> Y -> Prop) (ps : list X) (qs : list Y) (es : list A) (ls : list B) (ds : list C) : Forall2 Q ps qs ->
  Forall2 (fun x y => Q (fst (fst (fst x))) (fst (fst (fst y))) /\ snd (fst (fst y)) = snd (fst (fst x)) /\ snd (fst y) = snd (fst x) /\ snd y = snd x /\
    In (fst (fst x)) (combine ps es))
    (combine (combine (combine ps es) ls) ds) (combine (combine (combine qs es) ls) ds).
Proof.
  intro H. revert es ls ds. induction H as [|p q ps qs H _ IH]; intros es ls ds; [constructor|].
  destruct es as [|e es]; [constructor|]. destruct ls as [|l ls]; [constructor|]. destruct ds as [|dd ds]; [constructor|]. cbn [combine]. constructor.
  - cbn [fst snd]. repeat split; auto. now left.
  - specialize (IH es ls ds). clear - IH. induction IH as [|x y l l' AA BB IH]; constructor; auto. destruct AA as (A1 & A2 & A3 & A4 & A5). repeat split; auto. now right.
Qed.
Theorem C37_robustpath : forall fuel hob eng c r q, (2 <= fuel)%nat -> smooth_follows hob -> a_move c = true -> carries c r -> r_uncut fuel hob eng r ->
  do_rcall fuel hob eng c r = Some q -> r_now fuel hob eng q = option_map (dict_map (moves c)) (r_now fuel hob eng r).
Proof.
  intros fuel hob eng c r q FU HB AM (PM & K & CA) U H.
  destruct (move_rest _ _ _ _ _ _ AM H) as (E1 & E2 & E3 & E4 & E5 & E6 & _). destruct (call_by _ _ _ _ _ _ PM H) as [B _].
  destruct (moves_rigid c PM AM) as (t & d & MR). apply now_moved; auto. unfold zipped. rewrite E1, E2, E3.
  pose proof (combine3_moved _ _ _ (r_ends r) (r_layers r) (r_dts r) B) as Z. rewrite map_map.
  induction Z as [|x y l l' A _ IH]; [reflexivity|]. cbn [map]. f_equal; [|exact IH]. clear IH.
  destruct x as [[[path en] la] dt], y as [[[path' en'] la'] dt']. cbn [fst snd out_item] in *. destruct A as (A & -> & -> & -> & I). f_equal.
  rewrite E4, E6. destruct (CA en path I) as (C1 & C2 & C3).
  assert (A' : Forall2 (moved_by (rigid (reflects c) (grows c) t d)) path path').
  { clear - A MR. induction A; constructor; auto. eapply moved_ext; [exact MR|assumption]. }
  rewrite (outline_F (reflects c) (grows c) t d K hob HB en (r_tol r) (r_evals r) path path' A' C1 C2 C3).
  destruct (r_outline hob en (r_tol r) (r_evals r) path); [|reflexivity]. cbn [option_map]. f_equal. apply map_ext. intro. symmetry. apply MR.
Qed.
Print Assumptions C37_robustpath.

(** ** The control points of smooth ends follow *)

Lemma along_cs (w : pt) : w <> (0, 0) -> cos (along w) = fst w / len w /\ sin (along w) = snd w / len w.
Proof. intros W. unfold along. apply cos_atan2. destruct w; exact W. Qed.
Theorem C37_hobby : smooth_follows hobby2.
Proof.
  intros t d a e v w Nv Nw. cbv zeta. unfold hobby2. cbn [fst snd]. set (x := psub e a).
  assert (EX : psub (rigid false 1 t d e) (rigid false 1 t d a) = lin false 1 t x) by apply rigid_sub. rewrite EX.
  change (rigid false 1 t (0, 0)) with (lin false 1 t). rewrite lin_len, Rabs_R1, Rmult_1_l.
  assert (N1 : lin false 1 t v <> (0, 0)) by (apply lin_zero; [lra|exact Nv]). assert (N2 : lin false 1 t w <> (0, 0)) by (apply lin_zero; [lra|exact Nw]).
  assert (A1 : forall y v, y + (along v - y) = along v) by (intros; ring). assert (A2 : forall y v, y - (y - along v) = along v) by (intros; ring).
  rewrite !A1, !A2. destruct (Req_dec (len2 x) 0) as [Z|NZ].
  { replace (len x) with 0 by (unfold len; rewrite Z; symmetry; apply sqrt_0). f_equal; apply pt_eq; unfold rigid, padd, psub, smul; cbn [fst snd]; ring. }
  assert (Nx : x <> (0, 0)) by (intros E; apply NZ; rewrite E; unfold len2; cbn; ring).
  assert (N3 : lin false 1 t x <> (0, 0)) by (apply lin_zero; [lra|exact Nx]).
  destruct (along_cs v Nv) as [C1 S1]. destruct (along_cs w Nw) as [C2 S2]. destruct (along_cs x Nx) as [C3 S3].
  destruct (along_cs _ N1) as [C4 S4]. destruct (along_cs _ N2) as [C5 S5]. destruct (along_cs _ N3) as [C6 S6].
  rewrite lin_len, Rabs_R1, Rmult_1_l in C4, S4, C5, S5, C6, S6.
  pose proof (len_pos v Nv) as L1. pose proof (len_pos w Nw) as L2. pose proof (len_pos x Nx) as L3. pose proof (cs2 t) as T.
  assert (Q : forall y z, 0 < len y -> 0 < len z -> 
     (cos t * fst y - sin t * snd y) / len y * ((cos t * fst z - sin t * snd z) / len z) + (sin t * fst y + cos t * snd y) / len y * ((sin t * fst z + cos t * snd z) / len z)
     = fst y / len y * (fst z / len z) + snd y / len y * (snd z / len z)).
  { intros y z Ly Lz. transitivity ((cos t ^ 2 + sin t ^ 2) * (fst y / len y * (fst z / len z) + snd y / len y * (snd z / len z))); [field; lra|rewrite T; ring]. }
  assert (Q' : forall y z, 0 < len y -> 0 < len z -> 
     (sin t * fst y + cos t * snd y) / len y * ((cos t * fst z - sin t * snd z) / len z) - (cos t * fst y - sin t * snd y) / len y * ((sin t * fst z + cos t * snd z) / len z)
     = snd y / len y * (fst z / len z) - fst y / len y * (snd z / len z)).
  { intros y z Ly Lz. transitivity ((cos t ^ 2 + sin t ^ 2) * (snd y / len y * (fst z / len z) - fst y / len y * (snd z / len z))); [field; lra|rewrite T; ring]. }
  assert (LX : forall y, fst (lin false 1 t y) = cos t * fst y - sin t * snd y /\ snd (lin false 1 t y) = sin t * fst y + cos t * snd y).
  { intro y. unfold lin, rigid. cbn [fst snd]. split; ring. }
  rewrite (proj1 (LX v)) in C4. rewrite (proj2 (LX v)) in S4. rewrite (proj1 (LX w)) in C5. rewrite (proj2 (LX w)) in S5. rewrite (proj1 (LX x)) in C6. rewrite (proj2 (LX x)) in S6.
  assert (D1 : cos (along (lin false 1 t v) - along (lin false 1 t x)) = cos (along v - along x)).
  { rewrite !cos_minus, C1, S1, C3, S3, C4, S4, C6, S6. now apply Q. }
  assert (D2 : sin (along (lin false 1 t v) - along (lin false 1 t x)) = sin (along v - along x)).
  { rewrite !sin_minus, C1, S1, C3, S3, C4, S4, C6, S6. now apply Q'. }
  assert (D3 : cos (along (lin false 1 t x) - along (lin false 1 t w)) = cos (along x - along w)).
  { rewrite !cos_minus, C2, S2, C3, S3, C5, S5, C6, S6. now apply Q. }
  assert (D4 : sin (along (lin false 1 t x) - along (lin false 1 t w)) = sin (along x - along w)).
  { rewrite !sin_minus, C2, S2, C3, S3, C5, S5, C6, S6. now apply Q'. }
  unfold hob_out, hob_in, hob_alpha. rewrite D1, D2, D3, D4.
  match goal with |- (padd _ (smul (_ * ?m) _), psub _ (smul (_ * ?n) _)) = _ => generalize m, n end. intros m n.
  rewrite C1, S1, C2, S2, C4, S4, C5, S5. f_equal; apply pt_eq; unfold rigid, padd, psub, smul; cbn [fst snd]; field; lra.
Qed.
Print Assumptions C37_hobby.
