(** Winding counts of the sweep line: what an edge stores agrees with the winding numbers on its
    two sides, and an edge is drawn when it borders the result. *)

From Coq Require Import List ZArith Bool Lia.
From Verif Require Import Sweep SpecSweep.
Import ListNotations.
Open Scope Z_scope.

(** ** One edge between the winding numbers of its own and of the other type *)
Definition unit_step (d : Z) : Prop := d = 1 \/ d = -1.
Definition cnt_ok (f : fill) (w d c : Z) : Prop :=
  if is_evenodd f then c = 1 \/ c = -1 else c = larger w (w + d).
Definition cnt2_ok (f : fill) (v c : Z) : Prop :=
  if is_evenodd f then c = (if Z.odd v then 1 else 0) else c = v.
(** Whether the edge changes its own type from inside to outside or back. *)
Definition eff (f : fill) (w d : Z) : bool := xorb (inside f w) (inside f (w + d)).
(** The edge contributes, [v] being the membership in the other type. *)
Definition gate (o : oper) (k : kind) (v : bool) : bool :=
  match o with
  | Intersection => v
  | Union => negb v
  | Difference => match k with Subject => negb v | Clip => v end
  | Xor => true
  end.
Definition lit (j : job) (k : kind) (w v d : Z) : bool :=
  eff (own_fill j k) w d && gate (op j) k (inside (alt_fill j k) v).

Lemma odd_step : forall w d, unit_step d -> Z.odd (w + d) = negb (Z.odd w).
Proof. intros w d [-> | ->]; rewrite Z.odd_add; cbn; destruct (Z.odd w); reflexivity. Qed.
Lemma odd_neg : forall w, Z.odd (- w) = Z.odd w.
Proof. intros w. apply Z.odd_opp. Qed.

Ltac zcase :=
  repeat match goal with
  | |- context [?a =? ?b] => destruct (Z.eqb_spec a b)
  | |- context [?a <? ?b] => destruct (Z.ltb_spec a b)
  | |- context [?a <=? ?b] => destruct (Z.leb_spec a b)
  end.

Lemma wc_eff : forall f w d c, unit_step d -> cnt_ok f w d c ->
  zero_one (reading f c) = eff f w d /\ (reading f c =? 1) = eff f w d.
Proof.
  intros f w d c U H. unfold cnt_ok, larger in H. unfold zero_one, eff, reading, inside.
  destruct f; cbn [is_evenodd] in H.
  - rewrite (odd_step w d U). destruct H as [-> | ->]; cbn; destruct (Z.odd w); auto.
  - destruct U as [-> | ->]; destruct (Z.ltb_spec (Z.abs w) (Z.abs (w + 1)));
      destruct (Z.ltb_spec (Z.abs w) (Z.abs (w + -1))); subst c; split; zcase; cbn; auto; lia.
  - destruct U as [-> | ->]; destruct (Z.ltb_spec (Z.abs w) (Z.abs (w + 1)));
      destruct (Z.ltb_spec (Z.abs w) (Z.abs (w + -1))); subst c; split; zcase; cbn; auto; lia.
  - destruct U as [-> | ->]; destruct (Z.ltb_spec (Z.abs w) (Z.abs (w + 1)));
      destruct (Z.ltb_spec (Z.abs w) (Z.abs (w + -1))); subst c; split; zcase; cbn; auto; lia.
Qed.

Lemma wc2_in : forall f v c, cnt2_ok f v c ->
  (0 <? reading f c) = inside f v /\ (reading f c <=? 0) = negb (inside f v) /\
  filled2 f c = inside f v /\ empty2 f c = negb (inside f v).
Proof.
  intros f v c H. unfold cnt2_ok in H. unfold reading, inside, filled2, empty2.
  destruct f; cbn [is_evenodd] in H; subst c.
  - destruct (Z.odd v); cbn; auto.
  - repeat split; zcase; cbn; auto; lia.
  - repeat split; zcase; cbn; auto; lia.
  - repeat split; zcase; cbn; auto; lia.
Qed.

Ltac hcase H :=
  match type of H with context [?a <? ?b] => destruct (Z.ltb_spec a b) end.

(** ** The counts of a new edge *)
Lemma larger_neg : forall w d, unit_step d -> larger (w + d) w = larger w (w + d).
Proof. intros w d [-> | ->]; unfold larger; zcase; lia. Qed.

Lemma next_ok : forall w d0 d c, unit_step d0 -> unit_step d -> c = larger w (w + d0) ->
  forall e, cnt e = c -> delta e = d0 -> next_cnt e d = larger (w + d0) (w + d0 + d).
Proof.
  intros w d0 d c U0 U H e E1 E2. unfold next_cnt. rewrite E1, E2. clear e E1 E2.
  unfold larger in *. destruct U0 as [-> | ->]; destruct U as [-> | ->]; hcase H; zcase; lia.
Qed.

(** ** Lists of edges *)
Definition w_of (k : kind) (s c : Z) : Z := match k with Subject => s | Clip => c end.
Definition v_of (k : kind) (s c : Z) : Z := match k with Subject => c | Clip => s end.
Definition go_s (e : edge) (s : Z) : Z := match poly e with Subject => s + delta e | Clip => s end.
Definition go_c (e : edge) (c : Z) : Z := match poly e with Subject => c | Clip => c + delta e end.

Definition counted (j : job) (s c : Z) (e : edge) : Prop :=
  unit_step (delta e) /\
  cnt_ok (own_fill j (poly e)) (w_of (poly e) s c) (delta e) (cnt e) /\
  cnt2_ok (alt_fill j (poly e)) (v_of (poly e) s c) (cnt2 e).
Definition light (j : job) (s c : Z) (e : edge) : bool :=
  lit j (poly e) (w_of (poly e) s c) (v_of (poly e) s c) (delta e).
Definition sound (j : job) (s c : Z) (e : edge) : Prop := counted j s c e /\ drawn e = light j s c e.
Fixpoint sounds (j : job) (s c : Z) (l : list edge) : Prop :=
  match l with [] => True | e :: l => sound j s c e /\ sounds j (go_s e s) (go_c e c) l end.
Fixpoint end_s (s : Z) (l : list edge) : Z := match l with [] => s | e :: l => end_s (go_s e s) l end.
Fixpoint end_c (c : Z) (l : list edge) : Z := match l with [] => c | e :: l => end_c (go_c e c) l end.

Lemma end_s_app : forall l l' s, end_s s (l ++ l') = end_s (end_s s l) l'.
Proof. induction l as [|e l IH]; intros; cbn; [reflexivity|apply IH]. Qed.
Lemma end_c_app : forall l l' s, end_c s (l ++ l') = end_c (end_c s l) l'.
Proof. induction l as [|e l IH]; intros; cbn; [reflexivity|apply IH]. Qed.
Lemma sounds_app : forall j l l' s c,
  sounds j s c (l ++ l') <-> sounds j s c l /\ sounds j (end_s s l) (end_c c l) l'.
Proof.
  induction l as [|e l IH]; intros l' s c; cbn [app sounds end_s end_c]; [tauto|].
  rewrite IH. tauto.
Qed.

(** The walk to the left. *)
Lemma prev_same_spec : forall k rl passed e b, prev_same k rl passed = Some (e, b) ->
  exists l1 l2, rev rl ++ passed = l1 ++ e :: b /\ b = l2 ++ passed /\ same_kind (poly e) k = true /\
    Forall (fun x => same_kind (poly x) k = false) l2.
Proof.
  induction rl as [|x rl IH]; intros passed e b H; cbn in H; [discriminate|].
  destruct (same_kind (poly x) k) eqn:E.
  - injection H as <- <-. exists (rev rl), []. cbn. rewrite <- app_assoc. cbn. auto.
  - destruct (IH _ _ _ H) as (l1 & l2 & H1 & H2 & H3 & H4).
    exists l1, (l2 ++ [x]). cbn. rewrite <- !app_assoc. cbn. repeat split; auto.
    apply Forall_app. split; [assumption|]. constructor; auto.
Qed.
Lemma prev_none_spec : forall k rl passed, prev_same k rl passed = None ->
  Forall (fun x => same_kind (poly x) k = false) rl.
Proof.
  induction rl as [|x rl IH]; intros passed H; [constructor|]. cbn in H.
  destruct (same_kind (poly x) k) eqn:E; [discriminate|]. constructor; [assumption|eauto].
Qed.

Definition end_own (k : kind) (w : Z) (l : list edge) : Z := match k with Subject => end_s w l | Clip => end_c w l end.
Definition end_alt (k : kind) (v : Z) (l : list edge) : Z := match k with Subject => end_c v l | Clip => end_s v l end.

Lemma others : forall k l, Forall (fun x => same_kind (poly x) k = false) l ->
  forall w, end_own k w l = w.
Proof.
  intros k l H. induction H as [|x l E _ IH]; intros w; destruct k; cbn; auto.
  - cbn in IH. rewrite IH. unfold go_s. destruct (poly x); [discriminate|reflexivity].
  - cbn in IH. rewrite IH. unfold go_c. destruct (poly x); [reflexivity|discriminate].
Qed.
Lemma count2_ok : forall f k l, Forall (fun x => same_kind (poly x) k = false) l ->
  Forall (fun x => unit_step (delta x)) l ->
  forall v c, cnt2_ok f v c -> cnt2_ok f (end_alt k v l) (count2 (is_evenodd f) c l).
Proof.
  intros f k l H. induction H as [|x l E _ IH]; intros U v c HC.
  - destruct k; exact HC.
  - inversion_clear U as [|? ? U1 U2].
    assert (HN : cnt2_ok f (v + delta x)
                   (if is_evenodd f then (if c =? 0 then 1 else 0) else c + delta x)).
    { unfold cnt2_ok in *. destruct (is_evenodd f).
      - rewrite (odd_step v (delta x) U1). subst c. destruct (Z.odd v); reflexivity.
      - lia. }
    specialize (IH U2 _ _ HN). unfold count2 in *. cbn [fold_left].
    destruct k; cbn [end_alt] in *; cbn [end_s end_c].
    + unfold go_c. destruct (poly x); [discriminate|]. exact IH.
    + unfold go_s. destruct (poly x); [|discriminate]. exact IH.
Qed.

Lemma sounds_units : forall j l s c, sounds j s c l -> Forall (fun x => unit_step (delta x)) l.
Proof.
  induction l as [|e l IH]; intros s c H; [constructor|]. destruct H as [[[H _] _] H2].
  constructor; eauto.
Qed.

Lemma w_end : forall k l s c, w_of k (end_s s l) (end_c c l) = end_own k (w_of k s c) l.
Proof. intros [] l s c; reflexivity. Qed.
Lemma v_end : forall k l s c, v_of k (end_s s l) (end_c c l) = end_alt k (v_of k s c) l.
Proof. intros [] l s c; reflexivity. Qed.
Lemma same_kind_eq : forall a b, same_kind a b = true -> a = b.
Proof. intros [] []; cbn; congruence. Qed.
Lemma own_app : forall k l l' w, end_own k w (l ++ l') = end_own k (end_own k w l) l'.
Proof. intros [] l l' w; [apply end_s_app|apply end_c_app]. Qed.
Lemma alt_app : forall k l l' w, end_alt k w (l ++ l') = end_alt k (end_alt k w l) l'.
Proof. intros [] l l' w; [apply end_c_app|apply end_s_app]. Qed.

Lemma set_winding_ok : forall j l k d, unit_step d -> sounds j 0 0 l ->
  cnt_ok (own_fill j k) (w_of k (end_s 0 l) (end_c 0 l)) d (fst (set_winding j l k d)) /\
  cnt2_ok (alt_fill j k) (v_of k (end_s 0 l) (end_c 0 l)) (snd (set_winding j l k d)).
Proof.
  intros j l k d U H. pose proof (sounds_units _ _ _ _ H) as HU.
  unfold set_winding. destruct (prev_same k (rev l) []) as [[e b]|] eqn:E.
  - destruct (prev_same_spec _ _ _ _ _ E) as (l1 & l2 & H1 & H2 & H3 & H4).
    rewrite rev_involutive, app_nil_r in H1. rewrite app_nil_r in H2. subst l2.
    cbn [fst snd]. subst l. apply same_kind_eq in H3.
    apply sounds_app in H. destruct H as [_ H]. cbn [sounds] in H. destruct H as [[[Ue [Hc Hc2]] _] _].
    assert (HUb : Forall (fun x => unit_step (delta x)) b).
    { apply Forall_app in HU. destruct HU as [_ HU]. inversion_clear HU. assumption. }
    rewrite w_end, v_end. rewrite own_app, alt_app.
    rewrite H3 in Hc, Hc2. rewrite w_end in Hc. rewrite v_end in Hc2.
    set (w := end_own k (w_of k 0 0) l1) in *. set (v := end_alt k (v_of k 0 0) l1) in *.
    split.
    + replace (end_own k w (e :: b)) with (w + delta e).
      2:{ destruct k; cbn [end_own end_s end_c].
          - rewrite <- (others Subject b H4 (w + delta e)). unfold go_s. rewrite H3. reflexivity.
          - rewrite <- (others Clip b H4 (w + delta e)). unfold go_c. rewrite H3. reflexivity. }
      unfold cnt_ok in *. destruct (is_evenodd (own_fill j k)); [exact U|].
      apply (next_ok w (delta e) d (cnt e)); auto.
    + replace (end_alt k v (e :: b)) with (end_alt k v b).
      2:{ destruct k; cbn [end_alt end_s end_c]; unfold go_s, go_c; rewrite H3; reflexivity. }
      apply count2_ok; assumption.
  - apply prev_none_spec in E. apply Forall_rev in E. rewrite rev_involutive in E.
    cbn [fst snd]. rewrite w_end, v_end. rewrite (others k l E).
    split.
    + unfold cnt_ok. destruct (is_evenodd (own_fill j k)); [exact U|].
      destruct k; cbn [w_of]; destruct U as [-> | ->]; reflexivity.
    + apply count2_ok; auto. destruct k; cbn [v_of]; unfold cnt2_ok;
        destruct (is_evenodd _); reflexivity.
Qed.

Lemma contributing_ok : forall j s c e, counted j s c e -> contributing j e = light j s c e.
Proof.
  intros j s c e (U & H1 & H2). unfold contributing, light, lit.
  destruct (wc_eff _ _ _ _ U H1) as [_ W]. destruct (wc2_in _ _ _ H2) as (_ & _ & F & E).
  rewrite F, E. f_equal.
  rewrite <- W. unfold cnt_ok in H1. unfold reading.
  destruct (own_fill j (poly e)); cbn [is_evenodd] in H1; auto.
  - destruct H1 as [-> | ->]; reflexivity.
  - zcase; auto; lia.
Qed.

(** ** Crossings *)
(** The counts after a crossing. *)
Lemma cross_cnt_ok : forall w d1 d2 c, unit_step d1 -> unit_step d2 -> c = larger w (w + d1) ->
  (if c + d2 =? 0 then - c else c + d2) = larger (w + d2) (w + d2 + d1).
Proof.
  intros w d1 d2 c U1 U2 H. unfold larger in *. destruct U1 as [-> | ->]; destruct U2 as [-> | ->]; hcase H; zcase; lia.
Qed.
Lemma cross_cnt_ok2 : forall w d1 d2 c, unit_step d1 -> unit_step d2 -> c = larger (w + d1) (w + d1 + d2) ->
  (if c - d1 =? 0 then - c else c - d1) = larger w (w + d2).
Proof.
  intros w d1 d2 c U1 U2 H. unfold larger in *. destruct U1 as [-> | ->]; destruct U2 as [-> | ->]; hcase H; zcase; lia.
Qed.

Lemma cross_counted : forall j s c e1 e2,
  counted j s c e1 -> counted j (go_s e1 s) (go_c e1 c) e2 ->
  let '(f1, f2) := cross_counts j e1 e2 in
  counted j s c f2 /\ counted j (go_s e2 s) (go_c e2 c) f1.
Proof.
  intros j s c e1 e2 (U1 & A1 & B1) (U2 & A2 & B2).
  unfold cross_counts. destruct (same_kind (poly e1) (poly e2)) eqn:K.
  - apply same_kind_eq in K. unfold counted, go_s, go_c in *. rewrite <- K in *.
    destruct (is_evenodd (own_fill j (poly e1))) eqn:EO; unfold cnt_ok in *; rewrite ?EO in *;
      cbn [poly delta cnt cnt2 set_cnt]; rewrite <- ?K, ?EO;
      destruct (poly e1) eqn:P; cbn [w_of v_of] in *; repeat split; auto;
      try (apply cross_cnt_ok; auto); try (apply cross_cnt_ok2; auto).
  - unfold counted, go_s, go_c in *.
    destruct (poly e1) eqn:P1; destruct (poly e2) eqn:P2; try discriminate K;
      cbn [poly delta cnt cnt2 set_cnt2 w_of v_of own_fill alt_fill] in *; rewrite ?P1, ?P2;
      cbn [w_of v_of own_fill alt_fill] in *; repeat split; auto;
      unfold cnt2_ok in *.
    + destruct (is_evenodd (subj_fill j)); [|lia].
      rewrite B2, (odd_step s (delta e1) U1). destruct (Z.odd s); reflexivity.
    + destruct (is_evenodd (clip_fill j)); [|lia].
      rewrite B1, (odd_step c (delta e2) U2). destruct (Z.odd c); reflexivity.
    + destruct (is_evenodd (clip_fill j)); [|lia].
      rewrite B2, (odd_step c (delta e1) U1). destruct (Z.odd c); reflexivity.
    + destruct (is_evenodd (subj_fill j)); [|lia].
      rewrite B1, (odd_step s (delta e2) U2). destruct (Z.odd s); reflexivity.
Qed.
