(** get_polygons of a moved FlexPath. *)

From Coq Require Import Reals Lra Lia List ZArith Bool.
From Verif Require Import Plane Curve CurveProofs Engine Flex SpecFlex FlexProofs.
Import ListNotations.
Open Scope R_scope.

(** ** The result of get_polygons from the outlines *)

Definition orel {X Y} (R : X -> Y -> Prop) (a : option X) (b : option Y) : Prop :=
  match a, b with Some x, Some y => R x y | None, None => True | _, _ => False end.
Definition dict_rel (R : poly -> poly -> Prop) : list (spec * list poly) -> list (spec * list poly) -> Prop :=
  Forall2 (fun a b => fst a = fst b /\ Forall2 R (snd a) (snd b)).

Section Get.
Variables (fuel : nat) (hob : pt * pt -> R * R -> pt * pt) (eng : op -> list zpath -> list zpath -> list zpath).
Notation get := (f_get fuel hob eng). Notation fill := (fill fuel eng).

Definition flat2 (f : flex) : bool := match f_pts f with [p; q] => same_pt p q | _ => false end.
Definition out_of (f : flex) (k : nat) : option poly :=
  match f_pts f with
  | [p; q] => two_outline fuel hob f p q k
  | _ => general_outline fuel hob (tidy f) k
  end.
Lemma fill_same f g out : f_layers f = f_layers g -> f_dts f = f_dts g -> f_prec f = f_prec g -> f_max f = f_max g ->
  forall ks d, fill f out ks d = fill g out ks d.
Proof.
  intros L D P M. induction ks as [|x ks IH]; intro d; [reflexivity|]. cbn [Flex.fill]. destruct (out x); [|reflexivity].
  unfold cut_up. rewrite L, D, P, M. destruct (option_map _ _); [|reflexivity]. apply IH.
Qed.
Lemma get_fresh f : f_cache f = None -> snd (get f) =
  if flat2 f then Some [] else let dk := fill f (out_of f) (seq 0 (f_n f)) [] in if snd dk then Some (fst dk) else None.
Proof.
  intro C. unfold f_get, flat2, out_of. rewrite C.
  assert (T : forall out ks d, fill (tidy f) out ks d = fill f out ks d).
  { intros. apply fill_same; unfold tidy; destruct (forallb _ _); reflexivity. }
  destruct (f_pts f) as [|p [|q [|r l]]]; cbv zeta; try rewrite !T.
  - destruct (fill f _ _ _) as [d ok]. reflexivity.
  - destruct (fill f _ _ _) as [d ok]. reflexivity.
  - destruct (same_pt p q); [reflexivity|]. destruct (fill f _ _ _) as [d ok]. reflexivity.
  - destruct (fill f _ _ _) as [d ok]. reflexivity.
Qed.
Lemma cut_whole f p : (2 <= fuel)%nat -> (f_max f <= 4)%nat \/ (length p <= f_max f)%nat -> cut_up fuel eng f p = Some [p].
Proof.
  intros F [H|H]; unfold cut_up, fracture.
  - destruct (Nat.ltb_spec 4 (f_max f)); [lia|reflexivity].
  - destruct (4 <? f_max f)%nat; [|reflexivity]. destruct fuel as [|[|n]]; try lia. cbn [fracture_loop nth_error].
    destruct (Nat.ltb_spec (f_max f) (length p)); [lia|reflexivity].
Qed.
Lemma fill_none f out ks : forall d k, In k ks -> out k = None -> snd (fill f out ks d) = false.
Proof.
  induction ks as [|x ks IH]; intros d k I N; [contradiction|]. cbn [Flex.fill]. destruct I as [-> |I]; [now rewrite N|].
  destruct (out x); [|reflexivity]. destruct (cut_up _ _ _ _); [|reflexivity]. now apply (IH _ k).
Qed.
Lemma sext_rel (R : poly -> poly -> Prop) d e s l m : dict_rel R d e -> Forall2 R l m -> dict_rel R (sext d s l) (sext e s m).
Proof.
  intros H L. induction H as [|[s1 l1] [s2 l2] d e [E F] H IH]; cbn [sext].
  - constructor; [split; [reflexivity|exact L]|constructor].
  - cbn [fst snd] in *. subst s2. destruct (spec_eqb s1 s).
    + constructor; [split; [reflexivity|]|exact H]. cbn [snd]. now apply Forall2_app.
    + constructor; [split; [reflexivity|exact F]|exact IH].
Qed.
Lemma fill_rel (R : poly -> poly -> Prop) f g out out' : (2 <= fuel)%nat ->
  f_layers f = f_layers g -> f_dts f = f_dts g -> (f_max f <= 4 -> f_max g <= 4)%nat ->
  (forall p q, R p q -> (length p <= f_max f)%nat -> (length q <= f_max g)%nat) -> forall ks d d',
  (forall k, In k ks -> exists p q, out k = Some p /\ out' k = Some q /\ R p q /\ ((f_max f <= 4)%nat \/ (length p <= f_max f)%nat)) ->
  dict_rel R d d' -> snd (fill f out ks d) = true /\ snd (fill g out' ks d') = true /\
  dict_rel R (fst (fill f out ks d)) (fst (fill g out' ks d')).
Proof.
  intros F L D M RL. induction ks as [|k ks IH]; intros d d' H DR; [repeat split; exact DR|].
  destruct (H k (or_introl eq_refl)) as (p & q & P & Q & Rpq & W). cbn [Flex.fill]. rewrite P, Q.
  rewrite (cut_whole f p F W), (cut_whole g q F) by (destruct W; eauto).
  apply IH; [intros k' K; apply H; now right|]. rewrite L, D. apply sext_rel; [exact DR|repeat constructor; exact Rpq].
Qed.

(** What is in the dictionary *)
Lemma sext_in d s l s' p : (exists l', In (s', l') (sext d s l) /\ In p l') <-> (exists l', In (s', l') d /\ In p l') \/ (s' = s /\ In p l).
Proof.
  induction d as [|[k w] d IH]; cbn [sext].
  - split; [intros (l' & [E|[]] & I); injection E as <- <-; now right|intros [(l' & [] & _)|[-> I]]; exists l; split; [now left|exact I]].
  - destruct (spec_eqb k s) eqn:E.
    + assert (k = s).
      { unfold spec_eqb in E. apply andb_prop in E as [E1 E2]. apply Z.eqb_eq in E1, E2. destruct k, s; cbn in *; congruence. }
      subst k. split.
      * intros (l' & [X|X] & I); [injection X as <- <-; apply in_app_or in I as [I|I]; [left; exists w; split; [now left|exact I]|now right]|].
        left. exists l'. split; [now right|exact I].
      * intros [(l' & [X|X] & I)|[-> I]].
        -- injection X as <- <-. exists (w ++ l). split; [now left|apply in_or_app; now left].
        -- exists l'. split; [now right|exact I].
        -- exists (w ++ l). split; [now left|apply in_or_app; now right].
    + split.
      * intros (l' & [X|X] & I); [injection X as <- <-; left; exists w; split; [now left|exact I]|].
        destruct (proj1 IH (ex_intro _ l' (conj X I))) as [(m & Y & J)|Y]; [left; exists m; split; [now right|exact J]|now right].
      * intros [(l' & [X|X] & I)|Y].
        -- injection X as <- <-. exists w. split; [now left|exact I].
        -- destruct (proj2 IH (or_introl (ex_intro _ l' (conj X I)))) as (m & Z & J). exists m. split; [now right|exact J].
        -- destruct (proj2 IH (or_intror Y)) as (m & Z & J). exists m. split; [now right|exact J].
Qed.
Lemma fill_keeps f out ks : (f_max f <= 4)%nat -> forall d s p, (exists l, In (s, l) d /\ In p l) -> exists l, In (s, l) (fst (fill f out ks d)) /\ In p l.
Proof.
  intro M. induction ks as [|k ks IH]; intros d s p H; [exact H|]. cbn [Flex.fill]. destruct (out k) as [q|]; [|exact H].
  destruct (cut_up fuel eng f q); [|exact H]. apply IH. apply sext_in. now left.
Qed.
Lemma fill_has f out ks : (2 <= fuel)%nat -> (f_max f <= 4)%nat -> (forall k, In k ks -> out k <> None) -> forall d k p, In k ks -> out k = Some p ->
  exists s l, In (s, l) (fst (fill f out ks d)) /\ In p l.
Proof.
  intros F M. induction ks as [|x ks IH]; intros N d k p I O; [contradiction|]. cbn [Flex.fill].
  destruct (out x) as [q|] eqn:X; [|exfalso; apply (N x); [now left|exact X]].
  rewrite (cut_whole f q F) by now left. destruct I as [-> |I].
  - rewrite X in O. injection O as ->. eexists. apply (fill_keeps f out ks M). apply sext_in. right. split; [reflexivity|now left].
  - eapply IH; eauto. intros k' K. apply N. now right.
Qed.
Lemma all_or_none {X} (out : nat -> option X) n : (forall k, In k (seq 0 n) -> out k <> None) \/ exists k, In k (seq 0 n) /\ out k = None.
Proof.
  induction (seq 0 n) as [|x l IH]; [left; intros k []|]. destruct (out x) eqn:E; [|right; exists x; split; [now left|exact E]].
  destruct IH as [H|(k & I & H)]; [left|right; exists k; split; [now right|exact H]].
  intros k [<-|I]; [congruence|now apply H].
Qed.
Lemma no_limit_out f k : out_of (no_limit f) k = out_of f k.
Proof.
  destruct f as [n pts ww oo en co be la dt to pr mx gd wt ca]. unfold out_of, two_outline, general_outline, tidy, no_limit. cbn [f_pts f_w f_o f_ends f_corners f_bend f_tol].
  destruct pts as [|p [|q [|r l]]]; try reflexivity. destruct (forallb _ _); reflexivity.
Qed.
Lemma uncut_length f k p : (2 <= fuel)%nat -> uncut fuel hob eng f -> flat2 f = false -> (forall k, In k (seq 0 (f_n f)) -> out_of f k <> None) ->
  In k (seq 0 (f_n f)) -> out_of f k = Some p -> (f_max f <= 4)%nat \/ (length p <= f_max f)%nat.
Proof.
  intros F [M|U] FL N I O; [now left|right].
  pose proof (get_fresh (no_limit f) eq_refl) as G. change (flat2 (no_limit f)) with (flat2 f) in G. rewrite FL in G. cbv zeta in G.
  change (f_n (no_limit f)) with (f_n f) in G.
  assert (N' : forall k, In k (seq 0 (f_n f)) -> out_of (no_limit f) k <> None) by (intros k' K; rewrite no_limit_out; now apply N).
  assert (S : snd (fill (no_limit f) (out_of (no_limit f)) (seq 0 (f_n f)) []) = true).
  { refine (proj1 (fill_rel eq (no_limit f) (no_limit f) (out_of (no_limit f)) (out_of (no_limit f)) F eq_refl eq_refl _ _ _ [] [] _ _)).
    - auto.
    - intros p0 q -> E. exact E.
    - intros k' K. destruct (out_of (no_limit f) k') as [q|] eqn:E; [|exfalso; now apply (N' k')].
      exists q, q. repeat split; auto. left. cbn. lia.
    - constructor. }
  rewrite S in G. destruct (fill_has (no_limit f) (out_of (no_limit f)) (seq 0 (f_n f)) F ltac:(cbn; lia) N' [] k p I) as (s & l & A & B).
  { now rewrite no_limit_out. }
  eapply U; eauto.
Qed.
Lemma get_related (R : poly -> poly -> Prop) f g : (2 <= fuel)%nat -> f_cache f = None -> f_cache g = None -> f_n g = f_n f ->
  f_layers f = f_layers g -> f_dts f = f_dts g -> f_max f = f_max g -> flat2 g = flat2 f ->
  (forall p q, R p q -> length q = length p) -> (forall k, (k < f_n f)%nat -> orel R (out_of f k) (out_of g k)) ->
  uncut fuel hob eng f -> orel (dict_rel R) (snd (get f)) (snd (get g)).
Proof.
  intros F CF CG N L D M FL RL O U. rewrite !get_fresh by assumption. rewrite FL, N. destruct (flat2 f) eqn:E; [constructor|]. cbv zeta.
  destruct (all_or_none (out_of f) (f_n f)) as [A|(k & I & A)].
  - destruct (fill_rel R f g (out_of f) (out_of g) F L D) with (ks := seq 0 (f_n f)) (d := @nil (spec * list poly)) (d' := @nil (spec * list poly)) as (X & Y & Z).
    + lia.
    + intros p q P Q. rewrite (RL _ _ P). lia.
    + intros k K. assert (K' : (k < f_n f)%nat) by (apply in_seq in K; lia). specialize (O k K').
      destruct (out_of f k) as [p|] eqn:P; [|exfalso; now apply (A k)]. destruct (out_of g k) as [q|]; [|contradiction].
      exists p, q. repeat split; auto. eapply uncut_length; eauto.
    + constructor.
    + rewrite X, Y. exact Z.
  - assert (K' : (k < f_n f)%nat) by (apply in_seq in I; lia). specialize (O k K'). rewrite A in O.
    destruct (out_of g k) eqn:G; [contradiction|]. rewrite (fill_none f (out_of f) _ [] k I A), (fill_none g (out_of g) _ [] k I G). exact Logic.I.
Qed.
Lemma rel_map (T : pt -> pt) d e : dict_rel (fun p q => q = map T p) d e -> e = map (fun kv => (fst kv, map (map T) (snd kv))) d.
Proof.
  induction 1 as [|[s l] [s' l'] d e [E F] H IH]; [reflexivity|]. cbn [fst snd map] in *. subst s' e. f_equal. f_equal.
  clear H. induction F; [reflexivity|]. cbn [map]. subst. reflexivity.
Qed.
End Get.

(** ** Moved paths *)

Lemma select_map {X Y} (g : X -> Y) ks l : select ks (map g l) = map g (select ks l).
Proof.
  unfold select. revert l. induction ks as [|b ks IH]; intro l; [reflexivity|]. destruct l as [|x l]; [reflexivity|].
  cbn [map combine filter fst]. destruct b; cbn [map snd]; [f_equal|]; apply IH.
Qed.
Lemma col_scale k j rows : col j (scale_rows k rows) = map (Rmult k) (col j rows).
Proof.
  unfold col, scale_rows. rewrite !map_map. apply map_ext. intro r.
  replace 0 with (0 * k) at 1 by ring. rewrite (map_nth (fun x => x * k)). ring.
Qed.
Lemma scale_rows_1 rows : scale_rows 1 rows = rows.
Proof.
  unfold scale_rows. rewrite <- (map_id rows) at 2. apply map_ext. intro r. rewrite <- (map_id r) at 2. apply map_ext. intro. ring.
Qed.
Lemma nth_cap k j l : nth j (map (scale_cap k) l) Flush = scale_cap k (nth j l Flush).
Proof. exact (map_nth (scale_cap k) l Flush j). Qed.

Section Moved.
Variables (a b s k : R) (t : pt).
Hypothesis Hs : s * s = 1.
Hypothesis Hk : 0 < k.
Hypothesis Hab : a ^ 2 + b ^ 2 = k ^ 2.
Notation sim := (sim a b s t).
Variables (fuel : nat) (hob : pt * pt -> R * R -> pt * pt) (eng : op -> list zpath -> list zpath -> list zpath).

Definition moved (f : flex) : flex :=
  set_ends (set_spine f (map sim (f_pts f)) (scale_rows k (f_w f)) (scale_rows k (f_o f))) (map (scale_cap k) (f_ends f)).
Definition signed (f : flex) : flex := set_spine f (f_pts f) (f_w f) (scale_rows s (f_o f)).

Lemma same_pt_sim p q : same_pt (sim p) (sim q) = same_pt p q.
Proof.
  unfold same_pt. rewrite sim_sub, (len2_lin a b s k Hs Hab). pose proof (k2_pos k Hk).
  destruct (Req_EM_T (k ^ 2 * _) 0) as [E|E], (Req_EM_T (len2 (psub q p)) 0) as [E'|E']; try reflexivity.
  - apply Rmult_integral in E as [E|E]; [lra|contradiction].
  - rewrite E' in E. exfalso. apply E. ring.
Qed.
Lemma keep_sim pts : keep (map sim pts) = keep pts.
Proof.
  destruct pts as [|p pts]; [reflexivity|]. unfold keep. cbn [map]. f_equal. change (sim p :: map sim pts) with (map sim (p :: pts)).
  generalize (p :: pts). intro l. induction l as [|x l IH]; [reflexivity|]. destruct l as [|y l]; [reflexivity|].
  cbn [map pairwise] in *. rewrite same_pt_sim. f_equal. exact IH.
Qed.
Lemma tidy_moved f : tidy (moved f) = moved (tidy f) \/ f_pts (tidy (moved f)) = f_pts (moved (tidy f)) /\ f_w (tidy (moved f)) = f_w (moved (tidy f)) /\
  f_o (tidy (moved f)) = f_o (moved (tidy f)) /\ f_ends (tidy (moved f)) = f_ends (moved (tidy f)) /\ f_corners (tidy (moved f)) = f_corners (moved (tidy f)) /\
  f_bend (tidy (moved f)) = f_bend (moved (tidy f)) /\ f_tol (tidy (moved f)) = f_tol (moved (tidy f)).
Proof.
  unfold tidy. change (f_pts (moved f)) with (map sim (f_pts f)). rewrite keep_sim. destruct (forallb _ _); [now left|right].
  cbn [f_pts f_w f_o f_ends f_corners f_bend f_tol moved set_ends set_spine]. rewrite !select_map. unfold scale_rows. rewrite !select_map. repeat split.
Qed.
Definition moves_to (p q : poly) : Prop := exists m, same_path s p m /\ q = map sim m.
Lemma general_moved g f j : f_pts g = map sim (f_pts f) -> f_w g = scale_rows k (f_w f) -> f_o g = scale_rows k (f_o f) ->
  f_ends g = map (scale_cap k) (f_ends f) -> f_corners g = f_corners f -> f_bend g = f_bend f -> f_tol g = f_tol f ->
  straight_corner s (nth j (f_corners f) Natural) -> straight_end (nth j (f_ends f) Flush) ->
  orel moves_to (general_outline fuel hob (signed f) j) (general_outline fuel hob g j).
Proof.
  intros P W O E C B T HC HE. unfold general_outline. rewrite P, W, O, E, C, B, T.
  cbn [signed set_spine f_pts f_w f_o f_corners f_ends f_bend f_tol]. 
  assert (LR : forall c rows, length (scale_rows c rows) = length rows) by (intros; apply map_length). rewrite !LR, !map_length.
  destruct (Nat.eqb_spec (length (f_w f)) (length (f_pts f))) as [LW|]; [|exact I].
  destruct (Nat.eqb_spec (length (f_o f)) (length (f_pts f))) as [LO|]; [|exact I]. cbn [andb].
  rewrite !col_scale, nth_cap.
  destruct (Nat.lt_ge_cases (length (f_pts f)) 2) as [S|S].
  - assert (X : forall c e bd tol pts ws os, (length pts < 2)%nat -> outline fuel hob c e bd tol pts ws os = None).
    { intros c e bd tol pts ws os L. unfold outline, centre. destruct pts as [|p [|q l]]; cbn in L; try lia.
      - destruct (all_zero os); reflexivity.
      - destruct (all_zero os); [reflexivity|]. destruct os as [|x [|y os]]; reflexivity. }
    rewrite !X; [exact I|rewrite map_length; exact S|exact S].
  - pose proof (outline_sim a b s k t Hs Hk Hab fuel hob (nth j (f_corners f) Natural) (nth j (f_ends f) Flush) (nth j (f_bend f) None)
      (f_tol f) (f_pts f) (col j (f_w f)) (col j (f_o f)) HC HE) as H.
    assert (2 <= length (col j (f_w f)))%nat as L by (unfold col; rewrite map_length; lia). specialize (H L).
    destruct (outline fuel hob _ _ _ _ (f_pts f) _ _) as [p|].
    + destruct H as (q & Q & ->). exists q. split; [exact Q|reflexivity].
    + rewrite H. exact I.
Qed.
Lemma tidy_signed f : f_pts (tidy (signed f)) = f_pts (tidy f) /\ f_w (tidy (signed f)) = f_w (tidy f) /\ f_o (tidy (signed f)) = scale_rows s (f_o (tidy f)) /\
  f_ends (tidy (signed f)) = f_ends (tidy f) /\ f_corners (tidy (signed f)) = f_corners (tidy f) /\ f_bend (tidy (signed f)) = f_bend (tidy f) /\ f_tol (tidy (signed f)) = f_tol (tidy f).
Proof.
  unfold tidy. change (f_pts (signed f)) with (f_pts f). destruct (forallb _ _); [repeat split|].
  cbn [f_pts f_w f_o f_ends f_corners f_bend f_tol signed set_spine]. unfold scale_rows. rewrite select_map. repeat split.
Qed.
Lemma tidy_kinds f : f_corners (tidy f) = f_corners f /\ f_ends (tidy f) = f_ends f /\ f_bend (tidy f) = f_bend f /\ f_tol (tidy f) = f_tol f.
Proof. unfold tidy. destruct (forallb _ _); repeat split. Qed.
Lemma general_eq f g j : f_pts g = f_pts f -> f_w g = f_w f -> f_o g = f_o f ->
  f_ends g = f_ends f -> f_corners g = f_corners f -> f_bend g = f_bend f -> f_tol g = f_tol f ->
  general_outline fuel hob g j = general_outline fuel hob f j.
Proof. intros P W O E C B T. unfold general_outline. now rewrite P, W, O, E, C, B, T. Qed.
Lemma out_moved f j : straight_corner s (nth j (f_corners f) Natural) -> straight_end (nth j (f_ends f) Flush) ->
  orel moves_to (out_of fuel hob (signed f) j) (out_of fuel hob (moved f) j).
Proof.
  intros HC HE.
  assert (G : orel moves_to (general_outline fuel hob (tidy (signed f)) j) (general_outline fuel hob (tidy (moved f)) j)).
  { destruct (tidy_signed f) as (P & W & O & E & C & B & T). destruct (tidy_kinds f) as (K1 & K2 & K3 & K4).
    rewrite (general_eq (signed (tidy f)) (tidy (signed f)) j) by (cbn [signed set_spine f_pts f_w f_o f_ends f_corners f_bend f_tol]; congruence).
    destruct (tidy_moved f) as [M|(M1 & M2 & M3 & M4 & M5 & M6 & M7)]; [rewrite M|];
      apply general_moved; rewrite ?M1, ?M2, ?M3, ?M4, ?M5, ?M6, ?M7, ?K1, ?K2; auto; cbn [moved set_ends f_ends]; now rewrite K2. }
  unfold out_of. change (f_pts (signed f)) with (f_pts f). change (f_pts (moved f)) with (map sim (f_pts f)).
  destruct (f_pts f) as [|p [|q [|r l]]] eqn:F; cbn [map]; try exact G. clear G.
  unfold two_outline. cbn [signed moved set_ends set_spine f_w f_o f_ends f_tol].
  assert (N : forall c rows i, nth_error (scale_rows c rows) i = option_map (map (fun x => x * c)) (nth_error rows i)) by (intros; apply nth_error_map).
  rewrite !N. destruct (nth_error (f_w f) 0) as [w0|]; [|exact I]. destruct (nth_error (f_w f) 1) as [w1|]; [|exact I].
  destruct (nth_error (f_o f) 0) as [o0|]; [|exact I]. destruct (nth_error (f_o f) 1) as [o1|]; [|exact I]. cbn [option_map].
  assert (S : forall c x, nth j (map (fun x => x * c) x) 0 = c * nth j x 0).
  { intros c x. replace 0 with (0 * c) at 1 by ring. rewrite (map_nth (fun x => x * c)). ring. }
  rewrite !S, nth_cap.
  pose proof (outline2_sim a b s k t Hs Hk Hab fuel hob (nth j (f_ends f) Flush) (f_tol f) p q (nth j w0 0) (nth j w1 0) (nth j o0 0) (nth j o1 0) HE) as H.
  destruct (outline2 fuel hob _ _ p q _ _ _ _) as [m|]; [destruct H as (x & X & ->); exists x; split; [exact X|reflexivity]|now rewrite H].
Qed.
Lemma flat2_moved f : flat2 (moved f) = flat2 f.
Proof.
  unfold flat2. change (f_pts (moved f)) with (map sim (f_pts f)). destruct (f_pts f) as [|p [|q [|r l]]]; cbn [map]; try reflexivity. apply same_pt_sim.
Qed.
Lemma moves_length p q : moves_to p q -> length q = length p.
Proof.
  intros (m & S & ->). rewrite map_length. unfold same_path in S. destruct (Req_EM_T s 1); [now subst|].
  destruct S as (x & y & -> & ->). rewrite rev_length, !app_length. lia.
Qed.
Lemma get_moved f : (2 <= fuel)%nat -> (forall c, In c (f_corners f) -> straight_corner s c) -> (forall e, In e (f_ends f) -> straight_end e) ->
  uncut fuel hob eng (signed f) ->
  orel (dict_rel moves_to) (snd (f_get fuel hob eng (signed f))) (snd (f_get fuel hob eng (moved f))).
Proof.
  intros F HC HE U. apply (get_related fuel hob eng moves_to (signed f) (moved f)); auto.
  - exact (flat2_moved f).
  - apply moves_length.
  - intros j J. apply out_moved.
    + destruct (nth_in_or_default j (f_corners f) Natural) as [H|H]; [now apply HC|rewrite H; now left].
    + destruct (nth_in_or_default j (f_ends f) Flush) as [H|H]; [now apply HE|rewrite H; exact I].
Qed.
End Moved.

(** ** Translated paths: any corners and ends *)

Section Shift.
Variable v : pt.
Definition sh (p : pt) : pt := padd p v.
Definition sh2 (st : pt * pt) : pt * pt := (sh (fst st), sh (snd st)).
Lemma sh_sub p q : psub (sh p) (sh q) = psub p q.
Proof. apply pt_eq; unfold sh, padd, psub; cbn [fst snd]; ring. Qed.
Lemma sh_add p u : padd (sh p) u = sh (padd p u).
Proof. apply pt_eq; unfold sh, padd; cbn [fst snd]; ring. Qed.
Lemma sh_adds p c u : padd (sh p) (smul c u) = sh (padd p (smul c u)). Proof. apply sh_add. Qed.
Lemma sh_subv p u : psub (sh p) u = sh (psub p u).
Proof. apply pt_eq; unfold sh, padd, psub; cbn [fst snd]; ring. Qed.
Lemma sh_subs p c u : psub (sh p) (smul c u) = sh (psub p (smul c u)). Proof. apply sh_subv. Qed.
Lemma sh_mid p q : mid (sh p) (sh q) = sh (mid p q).
Proof. apply pt_eq; unfold sh, mid, smul, padd; cbn [fst snd]; field. Qed.
Lemma sh_half p q : smul (/ 2) (padd (sh p) (sh q)) = sh (smul (/ 2) (padd p q)). Proof. exact (sh_mid p q). Qed.
Lemma normal_sh p q : normal (sh p) (sh q) = normal p q.
Proof. unfold normal. now rewrite sh_sub. Qed.
Lemma shifted_sh pts : forall hs, shifted (map sh pts) hs = map sh2 (shifted pts hs).
Proof.
  induction pts as [|p pts IH]; intro hs; [destruct hs; reflexivity|].
  destruct pts as [|q pts]; [destruct hs as [|x [|y hs]]; reflexivity|].
  destruct hs as [|x hs]; [reflexivity|]. destruct hs as [|y hs]; [reflexivity|].
  specialize (IH (y :: hs)). cbn [map] in IH |- *.
  assert (U : forall p q l a b m, shifted (p :: q :: l) (a :: b :: m) =
    (padd p (smul a (normal p q)), padd q (smul b (normal p q))) :: shifted (q :: l) (b :: m)) by reflexivity.
  rewrite !U, IH. cbn [map]. f_equal. unfold sh2; cbn [fst snd]. now rewrite normal_sh, !sh_add.
Qed.
Lemma meet_sh s t : meet (sh2 s) (sh2 t) = sh (meet s t).
Proof.
  unfold meet, sh2; cbn [fst snd]. rewrite !sh_sub. destruct (Rlt_dec _ _); [apply sh_mid|apply sh_add].
Qed.
Lemma centre_sh pts os : centre (map sh pts) os = map sh (centre pts os).
Proof.
  unfold centre. destruct (all_zero os); [reflexivity|]. rewrite shifted_sh.
  destruct (shifted pts os) as [|x ss]; [reflexivity|]. rewrite map_cons.
  change (sh2 x :: map sh2 ss) with (map sh2 (x :: ss)).
  rewrite last_map_eq, (pairwise_map meet meet sh2 sh) by apply meet_sh.
  rewrite map_cons, map_app. reflexivity.
Qed.

Variables (fuel : nat) (hob : pt * pt -> R * R -> pt * pt).
(** The control points from _hobby move with the points. *)
Hypothesis Hhob : forall p q a, hob (sh p, sh q) a = sh2 (hob (p, q) a).
Definition corner_moves (c : corner) : Prop :=
  match c with CustomCorner f => forall p0 v0 p1 v1 c w, f (sh p0) v0 (sh p1) v1 (sh c) w = map sh (f p0 v0 p1 v1 c w) | _ => True end.
Definition cap_moves (e : cap) : Prop :=
  match e with CustomCap f => forall p0 v0 p1 v1, f (sh p0) v0 (sh p1) v1 = map sh (f p0 v0 p1 v1) | _ => True end.

Lemma refine_sh g tol : forall n x l, refine n (fun u => sh (g u)) tol (fst x, sh (snd x)) (map (fun up => (fst up, sh (snd up))) l) =
  option_map (map (fun up => (fst up, sh (snd up)))) (refine n g tol x l).
Proof.
  induction n as [|n IH]; intros x l; [destruct l; reflexivity|]. destruct l as [|y l]; [reflexivity|]. cbn [map refine fst snd].
  rewrite sh_half, sh_sub. destruct (Rlt_dec _ _).
  - exact (IH x ((/ 2 * (fst x + fst y), g (/ 2 * (fst x + fst y))) :: y :: l)).
  - rewrite (IH y l). destruct (refine n g tol y l); reflexivity.
Qed.
Lemma refine_ext f g tol : (forall u, f u = g u) -> forall n x l, refine n f tol x l = refine n g tol x l.
Proof.
  intro E. induction n as [|n IH]; intros x l; [destruct l; reflexivity|]. destruct l as [|y l]; [reflexivity|]. cbn [refine].
  rewrite E, !IH. destruct (Rlt_dec _ _); reflexivity.
Qed.
Lemma smooth_sh tol p q a b : smooth_arc fuel hob tol (sh p) (sh q) a b = option_map (map sh) (smooth_arc fuel hob tol p q a b).
Proof.
  unfold smooth_arc. rewrite Hhob. set (h := hob (p, q) (a, b)). unfold sh2; cbn [fst snd].
  assert (B : forall u, bezier [sh p; sh (fst h); sh (snd h); sh q] u = sh (bezier [p; fst h; snd h; q] u)).
  { intro u. change [sh p; sh (fst h); sh (snd h); sh q] with (map sh [p; fst h; snd h; q]).
    apply bezier_map; [discriminate|]. intros x y. apply pt_eq; unfold sh, padd, smul; cbn [fst snd]; ring. }
  set (g := bezier [p; fst h; snd h; q]) in *. set (g' := bezier [sh p; sh (fst h); sh (snd h); sh q]) in *.
  unfold sample. cbn [map]. rewrite (refine_ext g' (fun u => sh (g u)) _ B), !B.
  pose proof (refine_sh g (tol ^ 2) fuel (0, g 0) [(1, g 1)]) as RS. cbn [map fst snd] in RS. rewrite RS. destruct (refine fuel g (tol ^ 2) (0, g 0) [(1, g 1)]) as [l|]; [|reflexivity].
  cbn [option_map map fst snd]. f_equal. f_equal. rewrite !map_map. reflexivity.
Qed.
Lemma join_sh c bend tol s t ctr w : corner_moves c ->
  join fuel hob c bend tol (sh2 s) (sh2 t) (sh ctr) w = option_map (map sh) (join fuel hob c bend tol s t ctr w).
Proof.
  intro HC. unfold join, sh2. cbn [fst snd]. rewrite !sh_sub. cbv zeta.
  destruct c.
  - set (v0 := smul _ (psub (snd s) (fst s))). set (v1 := smul _ (psub (snd t) (fst t))).
    set (u0 := (_ - _) / _). set (u1 := (snd v0 * _ - _) / _). rewrite !sh_adds, sh_half, sh_mid.
    destruct (Rlt_dec _ (tiny * _)); cbn [option_map];
      repeat match goal with |- context [Rlt_dec ?x ?y] => destruct (Rlt_dec x y) | |- context [Rle_dec ?x ?y] => destruct (Rle_dec x y) end;
      cbn [map]; rewrite ?sh_adds, ?sh_mid; reflexivity.
  - rewrite !sh_adds, sh_half, sh_mid. destruct (Rlt_dec _ _); reflexivity.
  - rewrite !sh_adds, sh_half, sh_mid. destruct (Rlt_dec _ _); destruct (Rle_dec _ _); try destruct (Rle_dec _ _); reflexivity.
  - rewrite !sh_adds, sh_half, sh_mid. destruct (corner_angles _ _ _) as [a0 a1].
    destruct (Rlt_dec _ _); destruct (Rle_dec _ _); try destruct (Rle_dec _ _); try reflexivity;
      (destruct (arc_count _ _ _ _); [|reflexivity]; cbn [option_map]; f_equal; rewrite map_map; apply map_ext; intro; apply sh_add).
  - rewrite !sh_adds, sh_half, sh_mid, smooth_sh. destruct (Rlt_dec _ _); destruct (Rle_dec _ _); try destruct (Rle_dec _ _); reflexivity.
  - rewrite sh_mid. destruct (Req_EM_T _ 0); [reflexivity|]. destruct bend as [br|]; [|reflexivity]. destruct (corner_angles _ _ _) as [a0 a1].
    destruct (arc_count _ _ _ _); [|reflexivity]. cbn [option_map]. f_equal. rewrite (map_map _ sh). apply map_ext. intro p.
    apply pt_eq; unfold sh, padd, psub; cbn [fst snd]; ring.
  - cbn [option_map]. f_equal. apply HC.
Qed.
Lemma arm_sh c bend tol : corner_moves c -> forall ss cs ws,
  arm fuel hob c bend tol (map sh2 ss) (map sh cs) ws = option_map (map sh) (arm fuel hob c bend tol ss cs ws).
Proof.
  intro H. induction ss as [|x ss IH]; intros cs ws; [reflexivity|].
  destruct ss as [|y ss]; [reflexivity|]. destruct cs as [|p cs]; [reflexivity|]. destruct ws as [|w ws]; [reflexivity|].
  specialize (IH cs ws). cbn [map] in IH |- *.
  assert (U : forall x y ss p cs w ws, arm fuel hob c bend tol (x :: y :: ss) (p :: cs) (w :: ws) =
    match join fuel hob c bend tol x y p w, arm fuel hob c bend tol (y :: ss) cs ws with Some l, Some m => Some (l ++ m) | _, _ => None end) by reflexivity.
  rewrite !U, IH, join_sh by exact H. clear IH. destruct (join fuel hob c bend tol x y p w); [|reflexivity].
  destruct (arm fuel hob c bend tol (y :: ss) cs ws); [|reflexivity]. cbn [option_map]. now rewrite map_app.
Qed.
Lemma cap_sh en tol front e d w lo hi blo bhi : cap_moves en ->
  cap_points fuel hob en tol front (sh e) d w (sh lo) (sh hi) (option_map sh blo) (option_map sh bhi) =
  option_map (map sh) (cap_points fuel hob en tol front e d w lo hi blo bhi).
Proof.
  intro H. unfold cap_points. destruct en; cbn [option_map map]; rewrite ?sh_add, ?sh_subv, ?sh_add; try reflexivity.
  - destruct (arc_count _ _ _ _); [|reflexivity]. cbn [option_map]. f_equal. rewrite map_map. apply map_ext. intro. apply sh_add.
  - destruct blo, bhi; cbn [option_map]; try reflexivity. rewrite !sh_sub. apply smooth_sh.
  - destruct blo, bhi; cbn [option_map]; try reflexivity. rewrite !sh_sub. f_equal. apply H.
Qed.
Lemma hd_error_map {X Y} (g : X -> Y) l : hd_error (map g l) = option_map g (hd_error l). Proof. destruct l; reflexivity. Qed.
Lemma last_nonempty {X Y} (g : X -> Y) l d d' : l <> [] -> last (map g l) d' = g (last l d).
Proof.
  intro H. destruct l as [|x l]; [congruence|]. clear H. revert x. induction l as [|y l IH]; intro x; [reflexivity|]. apply (IH y).
Qed.
Lemma outline_sh c en bend tol pts ws os : corner_moves c -> cap_moves en -> (2 <= length ws)%nat ->
  outline fuel hob c en bend tol (map sh pts) ws os = option_map (map sh) (outline fuel hob c en bend tol pts ws os).
Proof.
  intros HC HE HW. unfold outline. rewrite centre_sh. destruct (centre pts os) as [|p0 [|p1 l]]; try reflexivity.
  destruct ws as [|w0 [|w1 ws]]; try (cbn in HW; lia). set (ws' := w0 :: w1 :: ws). set (ctr := p0 :: p1 :: l).
  cbv zeta. change (map sh (p0 :: p1 :: l)) with (map sh ctr).
  change (map sh ctr) with (sh p0 :: sh p1 :: map sh l). cbn iota.
  change (sh p0 :: sh p1 :: map sh l) with (map sh ctr).
  rewrite !shifted_sh. set (lo := shifted ctr (map (fun w => -1 * / 2 * w) ws')). set (hi := shifted ctr (map (fun w => 1 * / 2 * w) ws')).
  assert (Nl : lo <> []) by discriminate. assert (Nh : hi <> []) by discriminate. clearbody lo hi.
  rewrite !tl_map, !arm_sh by exact HC.
  assert (BL : beforelast (map sh ctr) = sh (beforelast ctr)).
  { unfold beforelast. rewrite removelast_firstn_len, firstn_map, map_length, <- removelast_firstn_len. apply last_nonempty. discriminate. }
  rewrite BL, (last_nonempty sh ctr (0, 0)) by discriminate. rewrite !sh_sub.
  rewrite !(last_nonempty sh2 _ (0, 0, (0, 0))) by assumption.
  assert (HD : forall l, l <> [] -> hd (0, 0, (0, 0)) (map sh2 l) = sh2 (hd (0, 0, (0, 0)) l)) by (intros [|x m] N; [congruence|reflexivity]).
  rewrite !HD by assumption. unfold sh2 at 1 2 3 4. cbn [fst snd].
  destruct (arm fuel hob c bend tol lo (tl ctr) (tl ws')) as [a0|]; [|reflexivity].
  destruct (arm fuel hob c bend tol hi (tl ctr) (tl ws')) as [a1|]; [|reflexivity]. cbn [option_map].
  rewrite <- !map_rev, !hd_error_map, !cap_sh by exact HE.
  destruct (cap_points fuel hob en tol false _ _ _ _ _ _ _) as [c0|]; [|reflexivity]. cbn [option_map].
  destruct (cap_points fuel hob en tol true _ _ _ _ _ _ _) as [c1|]; [|reflexivity]. cbn [option_map].
  rewrite <- !map_rev, <- !map_app. reflexivity.
Qed.
Lemma outline2_sh en tol p q w0 w1 o0 o1 : cap_moves en ->
  outline2 fuel hob en tol (sh p) (sh q) w0 w1 o0 o1 = option_map (map sh) (outline2 fuel hob en tol p q w0 w1 o0 o1).
Proof.
  intro HE. unfold outline2. cbv zeta. rewrite !normal_sh, !sh_adds.
  set (A := padd p _). set (B := padd q _). repeat rewrite ?normal_sh, ?sh_sub, ?sh_adds, ?sh_subs.
  set (v0 := smul (/ 2 * w0) (normal A B)). set (v1 := smul (/ 2 * w1) (normal A B)). clearbody A B v0 v1.
  destruct en; cbn [option_map map]; try reflexivity.
  - destruct (Req_EM_T w0 w1); cbn [option_map map]; rewrite ?sh_subs, ?sh_adds; reflexivity.
  - destruct (Req_EM_T w0 w1); cbn [option_map map]; rewrite ?sh_subs, ?sh_adds; reflexivity.
  - destruct (arc_count _ _ _ (/ 2 * w0)); [|reflexivity]. destruct (arc_count _ _ _ (/ 2 * w1)); [|reflexivity].
    cbn [option_map]. rewrite map_app, !map_map. do 2 f_equal; apply map_ext; intro; apply sh_add.
  - rewrite !smooth_sh. destruct (smooth_arc _ _ _ (psub A v0) _ _ _); [|reflexivity]. cbn [option_map].
    destruct (smooth_arc _ _ _ _ _ _ _); [|reflexivity]. cbn [option_map]. now rewrite map_app.
  - f_equal. cbn in HE. rewrite !HE, map_app, map_rev. reflexivity.
Qed.
Lemma same_pt_sh p q : same_pt (sh p) (sh q) = same_pt p q.
Proof. unfold same_pt. now rewrite sh_sub. Qed.
Lemma keep_sh pts : keep (map sh pts) = keep pts.
Proof.
  destruct pts as [|p pts]; [reflexivity|]. unfold keep. cbn [map]. f_equal. change (sh p :: map sh pts) with (map sh (p :: pts)).
  generalize (p :: pts). intro l. induction l as [|x l IH]; [reflexivity|]. destruct l as [|y l]; [reflexivity|].
  cbn [map pairwise] in *. rewrite same_pt_sh. f_equal. exact IH.
Qed.
Lemma out_translated f j : corner_moves (nth j (f_corners f) Natural) -> cap_moves (nth j (f_ends f) Flush) ->
  out_of fuel hob (f_translate v f) j = option_map (map sh) (out_of fuel hob f j).
Proof.
  intros HC HE.
  assert (G : general_outline fuel hob (tidy (f_translate v f)) j = option_map (map sh) (general_outline fuel hob (tidy f) j)).
  { assert (GE : forall g h, f_pts g = map sh (f_pts h) -> f_w g = f_w h -> f_o g = f_o h -> f_ends g = f_ends f -> f_ends h = f_ends f ->
      f_corners g = f_corners f -> f_corners h = f_corners f -> f_bend g = f_bend h -> f_tol g = f_tol h ->
      general_outline fuel hob g j = option_map (map sh) (general_outline fuel hob h j)).
    { intros g h P W O E E' C C' B T. unfold general_outline. rewrite P, W, O, E, E', C, C', B, T, map_length.
      destruct (Nat.eqb_spec (length (f_w h)) (length (f_pts h))) as [LW|]; [|reflexivity].
      destruct (Nat.eqb_spec (length (f_o h)) (length (f_pts h))) as [LO|]; [|reflexivity]. cbn [andb].
      destruct (Nat.lt_ge_cases (length (f_pts h)) 2) as [S|S].
      - assert (X : forall c e bd tol pts ws os, (length pts < 2)%nat -> outline fuel hob c e bd tol pts ws os = None).
        { intros c e bd tol pts ws os L. unfold outline, centre. destruct pts as [|p [|q l]]; cbn in L; try lia.
          - destruct (all_zero os); reflexivity.
          - destruct (all_zero os); [reflexivity|]. destruct os as [|x [|y os]]; reflexivity. }
        rewrite !X; [reflexivity|exact S|rewrite map_length; exact S].
      - apply outline_sh; auto. unfold col. rewrite map_length. lia. }
    unfold tidy. change (f_pts (f_translate v f)) with (map sh (f_pts f)). rewrite keep_sh.
    destruct (forallb _ _); apply GE; try reflexivity. cbn [f_pts]. apply select_map. }
  unfold out_of. change (f_pts (f_translate v f)) with (map sh (f_pts f)).
  destruct (f_pts f) as [|p [|q [|r l]]] eqn:F; cbn [map]; try exact G.
  unfold two_outline. cbn [f_translate set_spine f_w f_o f_ends f_tol].
  destruct (nth_error (f_w f) 0); [|reflexivity]. destruct (nth_error (f_w f) 1); [|reflexivity].
  destruct (nth_error (f_o f) 0); [|reflexivity]. destruct (nth_error (f_o f) 1); [|reflexivity]. now apply outline2_sh.
Qed.
End Shift.
