(** C37: moving a FlexPath moves its polygons. *)

From Coq Require Import Reals Lra Lia List ZArith Bool.
From Verif Require Import Graph SpecGraph Plane SpecPlane PlaneProofs Hier SpecHier HierProofs HierQuery PropQuery PropFlat
  Curve Engine Flex SpecFlex FlexProofs FlexMove.
Import ListNotations.
Open Scope R_scope.

Section PropFlexMove.
Variables (fuel : nat) (hob : pt * pt -> R * R -> pt * pt) (eng : op -> list zpath -> list zpath -> list zpath).
Hypothesis enough : (2 <= fuel)%nat.
Notation now := (now fuel hob eng). Notation uncut := (uncut fuel hob eng). Notation coherent := (coherent fuel hob eng).

Lemma out_cache f d j : out_of fuel hob (set_cache f d) j = out_of fuel hob f j.
Proof.
  destruct f as [n pts ww oo en co be la dt to pr mx gd wt ca]. unfold out_of, two_outline, general_outline, tidy, set_cache.
  cbn [f_pts f_w f_o f_ends f_corners f_bend f_tol].
  destruct pts as [|p [|q [|r l]]]; try reflexivity. destruct (forallb _ _); reflexivity.
Qed.
Lemma uncut_cache f d : uncut (set_cache f d) <-> uncut f.
Proof. unfold SpecFlex.uncut. reflexivity. Qed.
(** From related outlines to related results *)
Lemma now_related (R : poly -> poly -> Prop) f g : f_n g = f_n f ->
  f_layers f = f_layers g -> f_dts f = f_dts g -> f_max f = f_max g -> flat2 g = flat2 f ->
  (forall p q, R p q -> length q = length p) -> (forall k, (k < f_n f)%nat -> orel R (out_of fuel hob f k) (out_of fuel hob g k)) ->
  uncut f -> orel (dict_rel R) (now f) (now g).
Proof.
  intros N L D M F RL O U. apply get_related; auto. intros k K. rewrite !out_cache. now apply O.
Qed.
Lemma map_related (T : pt -> pt) a b : orel (dict_rel (fun p q => q = map T p)) a b -> b = option_map (dict_map T) a.
Proof. destruct a, b; cbn [orel]; intro H; try contradiction; [|reflexivity]. cbn [option_map]. f_equal. now apply rel_map. Qed.

(** ** Translation: every kind of corner and end *)

Theorem C37_translate : forall v f,
  (forall p q a, hob (sh v p, sh v q) a = sh2 v (hob (p, q) a)) ->
  (forall c, In c (f_corners f) -> corner_moves v c) -> (forall e, In e (f_ends f) -> cap_moves v e) -> uncut f ->
  now (f_translate v f) = option_map (dict_map (fun p => padd p v)) (now f).
Proof.
  intros v f Hh HC HE U. apply map_related. apply now_related; auto.
  - unfold flat2. cbn [f_translate set_spine f_pts]. destruct (f_pts f) as [|p [|q [|r l]]]; try reflexivity. apply (same_pt_sh v).
  - intros p q ->. apply map_length.
  - intros k K. rewrite (out_translated v fuel hob Hh f k).
    + destruct (out_of fuel hob f k); reflexivity.
    + destruct (nth_in_or_default k (f_corners f) Natural) as [H|H]; [now apply HC|rewrite H; exact I].
    + destruct (nth_in_or_default k (f_ends f) Flush) as [H|H]; [now apply HE|rewrite H; exact I].
Qed.

(** ** Similarities *)

Lemma signed_1 f : scale_rows 1 (f_o f) = f_o f. Proof. apply scale_rows_1. Qed.
Lemma out_signed1 f j : out_of fuel hob (signed 1 f) j = out_of fuel hob f j.
Proof.
  destruct f as [n pts ww oo en co be la dt to pr mx gd wt ca]. unfold out_of, two_outline, general_outline, tidy, signed, set_spine.
  cbn [f_pts f_w f_o f_ends f_corners f_bend f_tol]. rewrite scale_rows_1.
  destruct pts as [|p [|q [|r l]]]; try reflexivity. destruct (forallb _ _); reflexivity.
Qed.
(** [g] has the fields of [moved f] that matter *)
Lemma now_similar a b k t f g : 0 < k -> a ^ 2 + b ^ 2 = k ^ 2 -> straight_path f -> uncut f ->
  f_pts g = map (sim a b 1 t) (f_pts f) -> f_w g = scale_rows k (f_w f) -> f_o g = scale_rows k (f_o f) ->
  f_ends g = map (scale_cap k) (f_ends f) -> f_corners g = f_corners f -> f_bend g = f_bend f -> f_tol g = f_tol f ->
  f_n g = f_n f -> f_layers g = f_layers f -> f_dts g = f_dts f -> f_max g = f_max f ->
  now g = option_map (dict_map (sim a b 1 t)) (now f).
Proof.
  intros Hk Hab [SC SE] U P W O E C B T N L D M. apply map_related. apply now_related; auto.
  - rewrite <- (flat2_moved a b 1 k t ltac:(lra) Hk Hab f). unfold flat2. cbn [moved set_ends set_spine f_pts]. now rewrite P.
  - intros p q ->. apply map_length.
  - intros j J. pose proof (out_moved a b 1 k t ltac:(lra) Hk Hab fuel hob f j) as H.
    rewrite out_signed1 in H.
    assert (X : out_of fuel hob (moved a b 1 k t f) j = out_of fuel hob g j).
    { assert (GE : forall x y, f_pts x = f_pts y -> f_w x = f_w y -> f_o x = f_o y -> f_ends x = f_ends y -> f_corners x = f_corners y ->
        f_bend x = f_bend y -> f_tol x = f_tol y -> out_of fuel hob x j = out_of fuel hob y j).
      { clear. intros x y P W O E C B T. unfold out_of, two_outline. rewrite P, W, O, E, T.
        assert (G : general_outline fuel hob (tidy x) j = general_outline fuel hob (tidy y) j).
        { apply general_eq; unfold tidy; rewrite P; destruct (forallb _ _); cbn [f_pts f_w f_o f_ends f_corners f_bend f_tol]; congruence. }
        destruct (f_pts y) as [|p [|q [|r l]]]; auto. }
      apply GE; cbn [moved set_ends set_spine f_pts f_w f_o f_ends f_corners f_bend f_tol]; congruence. }
    rewrite X in H.
    assert (H' : orel (moves_to a b 1 t) (out_of fuel hob f j) (out_of fuel hob g j)).
    { apply H.
      - destruct (nth_in_or_default j (f_corners f) Natural) as [I|I]; [|rewrite I; now left].
        destruct (SC _ I) as [Y|[Y|Y]]; unfold straight_corner; auto.
      - destruct (nth_in_or_default j (f_ends f) Flush) as [I|I]; [|rewrite I; exact Logic.I]. apply (SE _ I). }
    destruct (out_of fuel hob f j), (out_of fuel hob g j); try contradiction; auto.
    destruct H' as (m & S & ->). unfold same_path in S. destruct (Req_EM_T 1 1); [|congruence]. cbn [orel]. now subst.
Qed.
Lemma dict_map_ext g h d : (forall p, g p = h p) -> dict_map g d = dict_map h d.
Proof. intro E. unfold dict_map. apply map_ext. intro kv. f_equal. apply map_ext. intro p. now apply map_ext. Qed.
Lemma option_dict_ext g h (o : option (list (spec * list poly))) : (forall p, g p = h p) -> option_map (dict_map g) o = option_map (dict_map h) o.
Proof. intro E. destruct o; [|reflexivity]. cbn [option_map]. f_equal. now apply dict_map_ext. Qed.
Lemma cos2_sin2 t : cos t ^ 2 + sin t ^ 2 = 1.
Proof. rewrite <- (sin2_cos2 t). unfold Rsqr. ring. Qed.

Theorem C37_rotate : forall t c f, straight_path f -> uncut f ->
  now (f_rotate t c f) = option_map (dict_map (rotate_pt t c)) (now f).
Proof.
  intros t c f S U.
  set (tr := (fst c - cos t * fst c + sin t * snd c, snd c - sin t * fst c - cos t * snd c)).
  assert (E : forall p, rotate_pt t c p = sim (cos t) (sin t) 1 tr p).
  { intro p. apply pt_eq; unfold rotate_pt, rot_cs, sim, lin, tr, padd, psub; cbn [fst snd]; ring. }
  rewrite (option_dict_ext _ _ _ E).
  apply (now_similar (cos t) (sin t) 1 tr f); auto; cbn [f_rotate set_spine f_pts f_w f_o f_ends].
  - lra.
  - rewrite cos2_sin2. ring.
  - now apply map_ext.
  - now rewrite scale_rows_1.
  - now rewrite scale_rows_1.
  - rewrite <- (map_id (f_ends f)) at 1. apply map_ext. intros [| |x y| | |]; cbn [scale_cap]; try reflexivity. f_equal; ring.
Qed.
(** Scaling about a centre; extensions given as lengths are scaled too. *)
Theorem C37_scale : forall k c f, 0 < k -> straight_path f -> uncut f -> scaled_widths f ->
  now (f_scale k c f) = option_map (dict_map (fun p => padd c (smul k (psub p c)))) (now f).
Proof.
  intros k c f K S U W. set (tr := smul (1 - k) c).
  assert (E : forall p, padd c (smul k (psub p c)) = sim k 0 1 tr p).
  { intro p. apply pt_eq; unfold sim, lin, tr, smul, padd, psub; cbn [fst snd]; ring. }
  rewrite (option_dict_ext _ _ _ E).
  apply (now_similar k 0 k tr f); auto; cbn [f_scale set_ends set_spine f_pts f_w f_o f_ends]; try reflexivity; try ring.
  - apply map_ext. intro p. rewrite <- E. apply pt_eq; unfold padd, smul, psub; cbn [fst snd]; ring.
  - destruct W as [-> | ->]; [reflexivity|]. now rewrite orb_true_r.
Qed.
Definition given (o : option pt) : pt := match o with Some v => v | None => (0, 0) end.
Definition given_r (d : R) (o : option R) : R := match o with Some v => v | None => d end.
(** transform without reflection: scale, rotate, displace; the displacement of an
    array element is rotated but not scaled. *)
Theorem C37_transform : forall org rot mag arr f, 0 < given_r 1 mag -> straight_path f -> uncut f ->
  given_r 1 mag = 1 \/ no_lengths f /\ scaled_widths f ->
  now (f_transform org rot mag false arr f) =
  option_map (dict_map (similar (padd (given org) (turn (given_r 0 rot) (given arr))) (given_r 0 rot) (given_r 1 mag) false)) (now f).
Proof.
  intros org rot mag arr f K S U W. set (k := given_r 1 mag) in *. set (t := given_r 0 rot).
  set (tr := padd (given org) (turn t (given arr))).
  assert (E : forall p, similar tr t k false p = sim (k * cos t) (k * sin t) 1 tr p).
  { intro p. apply pt_eq; unfold similar, turn, flip, sim, lin, smul, padd; cbn [fst snd]; ring. }
  rewrite (option_dict_ext _ _ _ E).
  assert (CS : match rot with Some a => (cos a, cos a) | None => (1, 1) end = (cos t, cos t)).
  { unfold t. destruct rot; cbn [given_r]; [reflexivity|now rewrite cos_0]. }
  assert (SN : match rot with Some a => (sin a * -1, sin a * 1) | None => (0, 0) end = (- sin t, sin t)).
  { unfold t. destruct rot; cbn [given_r]; [f_equal; ring|rewrite sin_0; f_equal; ring]. }
  apply (now_similar (k * cos t) (k * sin t) k tr f); auto; try (unfold f_transform; destruct mag; reflexivity).
  - replace ((k * cos t) ^ 2 + (k * sin t) ^ 2) with (k ^ 2 * (cos t ^ 2 + sin t ^ 2)) by ring. rewrite cos2_sin2. ring.
  - unfold f_transform. rewrite CS, SN. fold (given org). fold (given arr). destruct mag as [m|]; cbn [set_spine f_pts]; apply map_ext; intro p.
    + change m with k. apply pt_eq; unfold tr, turn, sim, lin, smul, pmul, padd; cbn [fst snd]; field; lra.
    + change k with 1. apply pt_eq; unfold tr, turn, sim, lin, pmul, padd; cbn [fst snd]; ring.
  - unfold f_transform. rewrite CS, SN. destruct mag as [m|]; cbn [set_spine f_w].
    + change m with k. destruct W as [W|[_ [-> | ->]]]; [rewrite W, scale_rows_1; now destruct (_ || _)|reflexivity|now rewrite orb_true_r].
    + change k with 1. now rewrite scale_rows_1.
  - unfold f_transform. rewrite CS, SN. destruct mag as [m|]; cbn [set_spine f_o]; [reflexivity|]. change k with 1. now rewrite scale_rows_1.
  - replace (f_ends (f_transform org rot mag false arr f)) with (f_ends f) by (unfold f_transform; destruct mag; reflexivity).
    rewrite <- (map_id (f_ends f)) at 1. apply map_ext_in. intros e I. destruct W as [W|[W _]].
    + rewrite W. destruct e; cbn [scale_cap]; try reflexivity. f_equal; ring.
    + specialize (W e I). destruct e; try reflexivity. contradiction.
Qed.
(** With reflection, and no offsets. *)
Theorem C37_reflect : forall org rot mag arr f, 0 < given_r 1 mag -> straight_path f -> uncut f ->
  (forall c, In c (f_corners f) -> c <> Bevel) ->
  (forall r x, In r (f_o f) -> In x r -> x = 0) ->
  given_r 1 mag = 1 \/ no_lengths f /\ scaled_widths f ->
  let m := similar (padd (given org) (turn (given_r 0 rot) (flip true (given arr)))) (given_r 0 rot) (given_r 1 mag) true in
  match now f, now (f_transform org rot mag true arr f) with
  | Some d, Some d' => Forall2 (fun kv kv' => fst kv' = fst kv /\ Forall2 (fun p q => exists p', reversed_outline p p' /\ q = map m p') (snd kv) (snd kv')) d d'
  | None, None => True
  | _, _ => False
  end.
Proof.
  intros org rot mag arr f K S U NB Z W m. set (k := given_r 1 mag) in *. set (t := given_r 0 rot) in *.
  set (tr := padd (given org) (turn t (flip true (given arr)))) in *.
  assert (E : forall p, m p = sim (k * cos t) (k * sin t) (-1) tr p).
  { intro p. apply pt_eq; unfold m, similar, turn, flip, sim, lin, smul, padd; cbn [fst snd]; ring. }
  assert (CS : match rot with Some a => (cos a, cos a) | None => (1, 1) end = (cos t, cos t)).
  { unfold t. destruct rot; cbn [given_r]; [reflexivity|now rewrite cos_0]. }
  assert (SN : match rot with Some a => (sin a * -1, sin a * 1) | None => (0, 0) end = (- sin t, sin t)).
  { unfold t. destruct rot; cbn [given_r]; [f_equal; ring|rewrite sin_0; f_equal; ring]. }
  assert (Z1 : forall c, scale_rows c (f_o f) = f_o f).
  { intro c. unfold scale_rows. rewrite <- (map_id (f_o f)) at 2. apply map_ext_in. intros r Ir. rewrite <- (map_id r) at 2.
    apply map_ext_in. intros x Ix. rewrite (Z r x Ir Ix). ring. }
  assert (AB : (k * cos t) ^ 2 + (k * sin t) ^ 2 = k ^ 2).
  { replace ((k * cos t) ^ 2 + (k * sin t) ^ 2) with (k ^ 2 * (cos t ^ 2 + sin t ^ 2)) by ring. rewrite cos2_sin2. ring. }
  set (g := f_transform org rot mag true arr f).
  assert (PT : f_pts g = map (sim (k * cos t) (k * sin t) (-1) tr) (f_pts f)).
  { unfold g, f_transform. rewrite CS, SN. fold (given org). fold (given arr). destruct mag as [x|]; cbn [set_spine f_pts]; apply map_ext; intro p.
    + change x with k. apply pt_eq; unfold tr, turn, flip, sim, lin, smul, pmul, padd; cbn [fst snd]; field; lra.
    + change k with 1. apply pt_eq; unfold tr, turn, flip, sim, lin, pmul, padd; cbn [fst snd]; ring. }
  assert (WD : f_w g = scale_rows k (f_w f)).
  { unfold g, f_transform. rewrite CS, SN. destruct mag as [x|]; cbn [set_spine f_w].
    + change x with k. destruct W as [W|[_ [-> | ->]]]; [rewrite W, scale_rows_1; now destruct (_ || _)|reflexivity|now rewrite orb_true_r].
    + change k with 1. now rewrite scale_rows_1. }
  assert (OF : f_o g = scale_rows k (f_o f)).
  { unfold g, f_transform. rewrite CS, SN. destruct mag as [x|]; cbn [set_spine f_o]; [reflexivity|]. change k with 1. now rewrite scale_rows_1. }
  assert (EN : f_ends g = map (scale_cap k) (f_ends f)).
  { unfold g. replace (f_ends (f_transform org rot mag true arr f)) with (f_ends f) by (unfold f_transform; destruct mag; reflexivity).
    rewrite <- (map_id (f_ends f)) at 1. apply map_ext_in. intros e I. destruct W as [W|[W _]].
    + rewrite W. destruct e; cbn [scale_cap]; try reflexivity. f_equal; ring.
    + specialize (W e I). destruct e; try reflexivity. contradiction. }
  destruct S as [SC SE].
  assert (H : orel (dict_rel (moves_to (k * cos t) (k * sin t) (-1) tr)) (now f) (now g)).
  { apply now_related; auto; try (unfold g, f_transform; destruct mag; reflexivity).
    - rewrite <- (flat2_moved (k * cos t) (k * sin t) (-1) k tr ltac:(lra) K AB f). unfold flat2. cbn [moved set_ends set_spine f_pts]. now rewrite PT.
    - apply moves_length. lra.
    - intros j J. pose proof (out_moved (k * cos t) (k * sin t) (-1) k tr ltac:(lra) K AB fuel hob f j) as H.
      assert (GE : forall x y, f_pts x = f_pts y -> f_w x = f_w y -> f_o x = f_o y -> f_ends x = f_ends y -> f_corners x = f_corners y ->
        f_bend x = f_bend y -> f_tol x = f_tol y -> out_of fuel hob x j = out_of fuel hob y j).
      { clear. intros x y P W O E C B T. unfold out_of, two_outline. rewrite P, W, O, E, T.
        assert (G : general_outline fuel hob (tidy x) j = general_outline fuel hob (tidy y) j).
        { apply general_eq; unfold tidy; rewrite P; destruct (forallb _ _); cbn [f_pts f_w f_o f_ends f_corners f_bend f_tol]; congruence. }
        destruct (f_pts y) as [|p [|q [|r l]]]; auto. }
      rewrite (GE (signed (-1) f) f), (GE (moved (k * cos t) (k * sin t) (-1) k tr f) g) in H;
        cbn [signed moved set_ends set_spine f_pts f_w f_o f_ends f_corners f_bend f_tol]; auto;
        try (unfold g, f_transform; destruct mag; reflexivity).
      apply H.
      + destruct (nth_in_or_default j (f_corners f) Natural) as [I|I]; [|rewrite I; now left].
        destruct (SC _ I) as [Y|[Y|Y]]; unfold straight_corner; auto. exfalso. now apply (NB _ I).
      + destruct (nth_in_or_default j (f_ends f) Flush) as [I|I]; [|rewrite I; exact Logic.I]. apply (SE _ I). }
  destruct (now f) as [d|], (now g) as [d'|]; try exact H. cbn [orel] in H. unfold dict_rel in H.
  induction H as [|x y d d' [A B] H IH]; constructor; [|exact IH]. split; [now symmetry|].
  destruct x as [sx lx], y as [sy ly]. cbn [fst snd] in *. clear - B E. induction B as [|p q l l' (p' & R & ->) B IH]; constructor; [|exact IH]. exists p'. split.
  - unfold same_path in R. destruct (Req_EM_T (-1) 1); [lra|exact R].
  - apply map_ext. intro. now rewrite E.
Qed.
End PropFlexMove.
(** An L-shaped path of two parallel paths, mitered and beveled, with offsets: it
    has polygons and meets the hypotheses of the theorems above. *)
Lemma small_uncut fuel hob eng f : f_max f = 0%nat -> uncut fuel hob eng f.
Proof. intro E. left. lia. Qed.
Example C37_case : forall hob eng, exists f d, f_pts f = [(0, 0); (4, 0); (4, 3)] /\ straight_path f /\ no_lengths f /\ scaled_widths f /\
  uncut 2 hob eng f /\ f_o f = [[1; -1]; [1; -1]; [1; -1]] /\ now 2 hob eng f = Some d /\ map fst d = [(1%Z, 0%Z); (2%Z, 0%Z)].
Proof.
  intros hob eng. set (f := Flex 2 [(0, 0); (4, 0); (4, 3)] [[1; 2]; [1; 2]; [1; 2]] [[1; -1]; [1; -1]; [1; -1]] [Flush; Extended] [Miter; Bevel] [None; None]
       [1; 2]%Z [0; 0]%Z (/ 100) (/ 1000) 0 false true None).
  assert (O : forall k, (k < 2)%nat -> exists p, out_of 2 hob f k = Some p).
  { intros k K. assert (T : tidy f = f).
    { unfold tidy. assert (E : forallb (fun b => b) (keep (f_pts f)) = true); [|now rewrite E].
      unfold f, keep, pairwise, same_pt, len2, psub. cbn [f_pts fst snd forallb].
      destruct (Req_EM_T ((4 - 0) ^ 2 + (0 - 0) ^ 2) 0); [lra|]. destruct (Req_EM_T ((4 - 4) ^ 2 + (3 - 0) ^ 2) 0); [lra|reflexivity]. }
    unfold out_of. rewrite T. unfold f at 1. cbn [f_pts]. unfold general_outline, outline. cbn [f f_pts f_w f_o length Nat.eqb andb].
    assert (Z : all_zero (col k [[1; -1]; [1; -1]; [1; -1]]) = false).
    { unfold all_zero, col. cbn [map forallb]. destruct k as [|[|k]]; [| |lia]; cbn [nth]; destruct (Req_EM_T _ 0); try lra; reflexivity. }
    unfold centre. rewrite Z. destruct k as [|[|k]]; [| |lia]; cbn [nth f_corners f_ends f_bend f_tol f col map shifted pairwise app last tl arm];
      unfold join; repeat (destruct (Rlt_dec _ _)); repeat (destruct (Rle_dec _ _)); cbn [app cap_points]; eexists; reflexivity. }
  destruct (O 0%nat ltac:(lia)) as [p P]. destruct (O 1%nat ltac:(lia)) as [q Q].
  exists f. eexists. split; [reflexivity|]. split; [|split; [|split; [|split; [|split; [|split]]]]].
  - split; [intros c [<-|[<-|[]]]; auto|intros e [<-|[<-|[]]]; exact I].
  - intros e [<-|[<-|[]]]; exact I.
  - now left.
  - apply small_uncut. reflexivity.
  - reflexivity.
  - unfold now. rewrite get_fresh by reflexivity. change (set_cache f None) with f. change (flat2 f) with false. change (f_n f) with 2%nat.
    cbn [seq fill]. rewrite P, Q. reflexivity.
  - reflexivity.
Qed.

Print Assumptions C37_translate.
Print Assumptions C37_rotate.
Print Assumptions C37_scale.
Print Assumptions C37_transform.
Print Assumptions C37_reflect.
