(** C56 (engine inputs) and C47 (inside). *)

From Coq Require Import Reals Lra Lia List ZArith Bool Permutation.
From Verif Require Import Plane SpecEngine Engine.
Import ListNotations.
Open Scope Z_scope.

(** * C56 *)

Lemma int_part_unique : forall x k, (IZR k <= x < IZR k + 1)%R -> Int_part x = k.
Proof.
  intros x k H. destruct (base_Int_part x) as [A B].
  assert (C : (IZR (Int_part x) < IZR (k + 1))%R) by (rewrite plus_IZR; lra).
  assert (D : (IZR k < IZR (Int_part x + 1))%R) by (rewrite plus_IZR; lra).
  apply lt_IZR in C, D. lia.
Qed.
Lemma cround_opp : forall x, cround (- x) = - cround x.
Proof.
  intros x. unfold cround, trunc.
  destruct (Rlt_dec (- x) 0) as [A|A], (Rlt_dec x 0) as [B|B]; try lra.
  - destruct (Rlt_dec _ 0); try lra. destruct (Rlt_dec _ 0); try lra. f_equal. f_equal. lra.
  - destruct (Rlt_dec _ 0); try lra. destruct (Rlt_dec _ 0); try lra. rewrite Z.opp_involutive. f_equal. lra.
  - assert (x = 0)%R by lra. subst. destruct (Rlt_dec _ 0); try lra. destruct (Rlt_dec _ 0); try lra.
    rewrite (int_part_unique _ 0), (int_part_unique _ 0); try reflexivity; lra.
Qed.
Lemma cround_nearest : forall x, nearest x (cround x).
Proof.
  assert (P : forall x, (0 <= x)%R -> nearest x (cround x)).
  { intros x H. unfold nearest, cround, trunc. destruct (Rlt_dec x 0) as [B|B]; [lra|].
    destruct (Rlt_dec _ 0) as [C|C]; [lra|].
    destruct (base_Int_part (x + / 2)) as [D E]. set (k := Int_part _) in *.
    assert (K : (0 <= IZR k)%R). { apply IZR_le. assert (IZR (-1) < IZR k)%R by (simpl; lra). apply lt_IZR in H0. lia. }
    split; [apply Rabs_le; lra|]. intros F. rewrite (Rabs_right x), (Rabs_right (IZR k)) by lra.
    unfold Rabs in F. destruct (Rcase_abs _); lra. }
  intros x. destruct (Rle_dec 0 x) as [H|H]; [now apply P|].
  rewrite <- (Ropp_involutive x), cround_opp. destruct (P (- x)%R) as [A B]; [lra|].
  unfold nearest. rewrite opp_IZR.
  replace (- - x - - IZR (cround (- x)))%R with (- (- x - IZR (cround (- x))))%R by lra.
  rewrite !Rabs_Ropp. split; [exact A|]. rewrite Rabs_Ropp in B. exact B.
Qed.
Lemma nearest_unique : forall x k j, nearest x k -> nearest x j -> k = j.
Proof.
  assert (P : forall x k j, nearest x k -> nearest x j -> k < j -> False).
  { intros x k j [A B] [C D] L.
    assert (M : (IZR k + 1 <= IZR j)%R) by (rewrite <- plus_IZR; apply IZR_le; lia).
    unfold Rabs in A, C. destruct (Rcase_abs (x - IZR k)), (Rcase_abs (x - IZR j)); try lra.
    assert (E : (x - IZR k = / 2)%R) by lra. assert (F : (x - IZR j = - / 2)%R) by lra.
    assert (B' : (Rabs x < Rabs (IZR k))%R) by (apply B; rewrite E; rewrite Rabs_right; lra).
    assert (D' : (Rabs x < Rabs (IZR j))%R) by (apply D; rewrite F, Rabs_Ropp, Rabs_right; lra).
    assert (j = k + 1). { assert (IZR j = IZR (k + 1))%R by (rewrite plus_IZR; lra). now apply eq_IZR. }
    destruct (Z_lt_le_dec k 0).
    - assert (IZR j <= 0)%R by (apply IZR_le; lia). rewrite (Rabs_left1 (IZR j)), (Rabs_left1 x) in D'; lra.
    - assert (0 <= IZR k)%R by (apply IZR_le; lia). rewrite (Rabs_right (IZR k)), (Rabs_right x) in B'; lra. }
  intros x k j A B. destruct (Z_dec k j) as [[L|L]|L]; [destruct (P x k j A B L)|destruct (P x j k B A); lia|exact L].
Qed.

Definition ecross (e : (Z * Z) * (Z * Z)) : Z := fst (fst e) * snd (snd e) - fst (snd e) * snd (fst e).
Fixpoint chain_sum (p : Z * Z) (l : list (Z * Z)) : Z :=
  match l with [] => 0 | q :: r => ecross (p, q) + chain_sum q r end.
Lemma shoelace_sum : forall p r, shoelace (p :: r) = chain_sum p (r ++ [p]).
Proof.
  assert (G : forall r p z, fold_right (fun e s => fst (fst e) * snd (snd e) - fst (snd e) * snd (fst e) + s) 0 (combine (p :: r) (r ++ [z]))
                            = chain_sum p (r ++ [z])).
  { induction r as [|q r IH]; intros p z; [cbn; unfold ecross; cbn [fst snd]; ring|].
    cbn [app combine fold_right chain_sum fst snd]. cbn [app combine fold_right] in IH. rewrite (IH q z). unfold ecross. cbn [fst snd]. ring. }
  intros p r. apply G.
Qed.
Lemma last_cons : forall {X} (r : list X) q p, last (q :: r) p = last r q.
Proof.
  induction r as [|x r IH]; intros q p; [reflexivity|].
  change (last (x :: r) p = last (x :: r) q). now rewrite !IH.
Qed.
Lemma chain_app : forall l p m, chain_sum p (l ++ m) = chain_sum p l + chain_sum (last l p) m.
Proof.
  induction l as [|q r IH]; intros p m; [cbn; ring|].
  cbn [app chain_sum]. rewrite IH, last_cons. ring.
Qed.
Lemma turning_sum : forall l p0 prev,
  turning p0 prev l = chain_sum prev l + ecross (last l prev, p0) - ecross (prev, p0).
Proof.
  induction l as [|q r IH]; intros p0 prev; cbn [turning chain_sum]; [cbn [last]; ring|].
  rewrite IH, last_cons. unfold ecross. cbn [fst snd]. ring.
Qed.
Lemma orientation_shoelace : forall l, orientation l = shoelace l.
Proof.
  intros [|p0 [|p1 r]]; [reflexivity|unfold shoelace; cbn; ring|].
  rewrite shoelace_sum. cbn [orientation app chain_sum]. rewrite turning_sum, chain_app.
  cbn [chain_sum]. unfold ecross. cbn [fst snd]. ring.
Qed.
Lemma chain_rev : forall l p, chain_sum (last l p) (rev (p :: removelast l)) = if l then 0 else - chain_sum p l.
Proof.
  intros l. induction l as [|x l IH] using rev_ind; intros p; [cbn; unfold ecross; cbn; ring|].
  rewrite last_last, removelast_last. destruct (l ++ [x]) eqn:E; [now destruct l|]. rewrite <- E. clear E.
  cbn [rev]. destruct l as [|y l] using rev_ind.
  - cbn. unfold ecross. cbn. ring.
  - clear IHl. rewrite rev_app_distr. cbn [rev app chain_sum].
    specialize (IH p). rewrite last_last, removelast_last in IH. cbn [rev] in IH.
    rewrite IH. destruct (l ++ [y]) eqn:E; [now destruct l|]. rewrite <- E.
    rewrite (chain_app _ p [x]), last_last. cbn [chain_sum]. unfold ecross. cbn [fst snd]. ring.
Qed.
Lemma shoelace_rev : forall l, shoelace (rev l) = - shoelace l.
Proof.
  intros l. destruct l as [|p r]; [reflexivity|].
  pose proof (chain_rev (r ++ [p]) p) as H. rewrite last_last, removelast_last in H.
  destruct (r ++ [p]) eqn:E; [now destruct r|]. rewrite <- E in H. rewrite (shoelace_sum p r), <- H.
  destruct (rev (p :: r)) as [|q s] eqn:F; [cbn in F; now destruct (rev r)|].
  rewrite shoelace_sum. cbn [chain_sum]. rewrite chain_app. cbn [chain_sum].
  assert (L : last s q = p). { assert (last (q :: s) p = p) by (rewrite <- F; cbn [rev]; apply last_last).
    now rewrite last_cons in H0. }
  rewrite L. ring.
Qed.

(** The polygon the engine gets has the snapped vertices, in the given order or
    reversed, and its signed area is not negative. *)
Theorem C56_normalised : forall scaling poly,
  let path := parse_polygon scaling true poly in
  (path = map (snap scaling) poly \/ path = rev (map (snap scaling) poly)) /\
  0 <= shoelace path /\ shoelace path = Z.abs (shoelace (map (snap scaling) poly)) /\
  Permutation path (map (snap scaling) poly).
Proof.
  intros scaling poly path. unfold path, parse_polygon. rewrite orientation_shoelace. cbn [andb].
  destruct (Z.ltb_spec (shoelace (map (snap scaling) poly)) 0) as [H|H].
  - rewrite shoelace_rev. split; [now right|]. split; [lia|]. split; [lia|].
    apply Permutation_sym, Permutation_rev.
  - split; [now left|]. split; [lia|]. split; [lia|]. apply Permutation_refl.
Qed.
(** Snapping takes each coordinate to the nearest multiple of the precision. *)
Theorem C56_snapped : forall scaling p,
  nearest (scaling * fst p) (fst (snap scaling p)) /\ nearest (scaling * snd p) (snd (snap scaling p)).
Proof. intros. split; apply cround_nearest. Qed.
(** Points to be tested are snapped and kept in order. *)
Theorem C56_points : forall scaling poly, parse_polygon scaling false poly = map (snap scaling) poly.
Proof. reflexivity. Qed.
(** What the engine returns on the grid is on the grid for the user too, so snapping
    it again changes nothing. *)
Theorem C56_stable : forall scaling p, scaling <> 0%R -> snap scaling (unsnap scaling p) = p.
Proof.
  intros s [x y] H. unfold snap, unsnap. cbn [fst snd].
  assert (E : forall k, cround (s * (IZR k / s)) = k).
  { intros k. replace (s * (IZR k / s))%R with (IZR k) by (field; exact H).
    apply (nearest_unique (IZR k)); [apply cround_nearest|]. unfold nearest.
    replace (IZR k - IZR k)%R with 0%R by lra. rewrite Rabs_R0. split; lra. }
  now rewrite !E.
Qed.

(** * C47 *)

Definition side_d (p a b : Z * Z) : Z := (fst a - fst p) * (snd b - snd p) - (fst b - fst p) * (snd a - snd p).
Definition straddle (y : Z) (e : (Z * Z) * (Z * Z)) : bool := xorb (snd (fst e) <? y) (snd (snd e) <? y).
Definition crossb (p : Z * Z) (e : (Z * Z) * (Z * Z)) : bool :=
  straddle (snd p) e &&
  (if snd (fst e) <? snd (snd e) then 0 <? side_d p (fst e) (snd e) else side_d p (fst e) (snd e) <? 0).
Lemma straddle_spec : forall y e, straddle y e = true <->
  (snd (fst e) < y <= snd (snd e) \/ snd (snd e) < y <= snd (fst e)).
Proof.
  intros y [[ax ay] [bx by_]]. unfold straddle. cbn [fst snd].
  destruct (Z.ltb_spec ay y), (Z.ltb_spec by_ y); cbn; split; intros; try discriminate; try reflexivity; lia.
Qed.
Lemma ratio_pos : forall t d e, (t * d = e)%R -> (0 < d)%R -> (0 <= e <= d)%R -> (0 <= t <= 1)%R.
Proof.
  intros t d e E D H. split.
  - destruct (Rle_dec 0 t); [assumption|]. assert (0 < - t * d)%R by (apply Rmult_lt_0_compat; lra). lra.
  - destruct (Rle_dec t 1); [assumption|]. assert (0 < (t - 1) * d)%R by (apply Rmult_lt_0_compat; lra). lra.
Qed.
Lemma ratio_neg : forall t d e, (t * d = e)%R -> (d < 0)%R -> (d <= e <= 0)%R -> (0 <= t <= 1)%R.
Proof. intros t d e E D H. apply (ratio_pos t (- d) (- e)); lra. Qed.
Lemma same_sign : forall u v, (0 < u * v)%R -> (0 < v)%R -> (0 < u)%R.
Proof. intros u v H V. destruct (Rlt_dec 0 u); [assumption|]. assert (0 <= (- u) * v)%R by (apply Rmult_le_pos; lra). lra. Qed.
Lemma same_sign' : forall u v, (u * v < 0)%R -> (v < 0)%R -> (0 < u)%R.
Proof. intros u v H V. apply (same_sign u (- v)); lra. Qed.
Lemma crossb_spec : forall p e, crossb p e = true <-> crosses p e.
Proof.
  intros [x y] [[ax ay] [bx by_]]. unfold crossb, crosses. rewrite andb_true_iff, straddle_spec. cbn [fst snd].
  split; intros [S H]; (split; [exact S|]).
  - assert (N : (IZR by_ - IZR ay <> 0)%R) by (rewrite <- minus_IZR; apply IZR_neq; lia).
    exists ((IZR y - IZR ay) / (IZR by_ - IZR ay))%R. unfold along. cbn [fst snd].
    set (t := ((IZR y - IZR ay) / (IZR by_ - IZR ay))%R).
    assert (E : (t * (IZR by_ - IZR ay) = IZR y - IZR ay)%R) by (unfold t; field; exact N).
    assert (D : (IZR (side_d (x, y) (ax, ay) (bx, by_)) = (IZR ax + t * (IZR bx - IZR ax) - IZR x) * (IZR by_ - IZR ay))%R).
    { unfold side_d. cbn [fst snd]. repeat (rewrite ?minus_IZR, ?mult_IZR).
      replace (IZR y) with (t * (IZR by_ - IZR ay) + IZR ay)%R by lra. ring. }
    destruct (Z.ltb_spec ay by_) as [L|L].
    + apply Z.ltb_lt in H. apply IZR_lt in H. rewrite D in H.
      assert (A : (IZR ay <= IZR y <= IZR by_)%R) by (split; apply IZR_le; lia). apply IZR_lt in L. split; [|split; [lra|]].
      * apply (ratio_pos _ _ _ E); lra.
      * pose proof (same_sign _ _ H ltac:(lra)). lra.
    + apply Z.ltb_lt in H. apply IZR_lt in H. rewrite D in H. assert (L' : by_ < ay) by lia.
      assert (A : (IZR by_ <= IZR y <= IZR ay)%R) by (split; apply IZR_le; lia). apply IZR_lt in L'. split; [|split; [lra|]].
      * apply (ratio_neg _ _ _ E); lra.
      * pose proof (same_sign' _ _ H ltac:(lra)). lra.
  - destruct H as (t & T & E & F). unfold along in E, F. cbn [fst snd] in E, F.
    assert (D : (IZR (side_d (x, y) (ax, ay) (bx, by_)) = (IZR ax + t * (IZR bx - IZR ax) - IZR x) * (IZR by_ - IZR ay))%R).
    { unfold side_d. cbn [fst snd]. repeat (rewrite ?minus_IZR, ?mult_IZR). rewrite <- E. ring. }
    destruct (Z.ltb_spec ay by_) as [L|L]; apply Z.ltb_lt, lt_IZR; rewrite D.
    + apply IZR_lt in L. apply Rmult_lt_0_compat; lra.
    + assert (L' : by_ < ay) by lia. apply IZR_lt in L'.
      assert (0 < (IZR ax + t * (IZR bx - IZR ax) - IZR x) * - (IZR by_ - IZR ay))%R by (apply Rmult_lt_0_compat; lra). lra.
Qed.
Definition edgeb (p : Z * Z) (e : (Z * Z) * (Z * Z)) : Prop :=
  side_d p (fst e) (snd e) = 0 /\
  (fst (fst e) <= fst p <= fst (snd e) \/ fst (snd e) <= fst p <= fst (fst e)) /\
  (snd (fst e) <= snd p <= snd (snd e) \/ snd (snd e) <= snd p <= snd (fst e)).
Lemma between_t : forall (a b t : R), (0 <= t <= 1)%R ->
  (a <= a + t * (b - a) <= b \/ b <= a + t * (b - a) <= a)%R.
Proof. intros a b t T. destruct (Rle_dec a b); [left|right]; split; nra. Qed.
Lemma edgeb_spec : forall p e, edgeb p e <-> on_edge p e.
Proof.
  intros [x y] [[ax ay] [bx by_]]. unfold edgeb, on_edge, along. cbn [fst snd]. split.
  - intros (D & X & Y).
    assert (DR : ((IZR ax - IZR x) * (IZR by_ - IZR y) - (IZR bx - IZR x) * (IZR ay - IZR y) = 0)%R).
    { rewrite <- !minus_IZR, <- !mult_IZR, <- minus_IZR. unfold side_d in D. cbn [fst snd] in D. now rewrite D. }
    assert (XR : ((IZR ax <= IZR x <= IZR bx) \/ (IZR bx <= IZR x <= IZR ax))%R)
      by (destruct X as [[U V]|[U V]]; [left|right]; split; now apply IZR_le).
    assert (YR : ((IZR ay <= IZR y <= IZR by_) \/ (IZR by_ <= IZR y <= IZR ay))%R)
      by (destruct Y as [[U V]|[U V]]; [left|right]; split; now apply IZR_le).
    destruct (Z.eq_dec ay by_) as [E|E].
    + subst. destruct (Z.eq_dec ax bx) as [E|E].
      * subst. exists 0%R. split; [lra|]. f_equal; lra.
      * assert (N : (IZR bx - IZR ax <> 0)%R) by (rewrite <- minus_IZR; apply IZR_neq; lia).
        set (t := ((IZR x - IZR ax) / (IZR bx - IZR ax))%R).
        assert (T : (t * (IZR bx - IZR ax) = IZR x - IZR ax)%R) by (unfold t; field; exact N).
        exists t. split; [|f_equal; lra]. destruct XR; [apply (ratio_pos _ _ _ T)|apply (ratio_neg _ _ _ T)]; lra.
    + assert (N : (IZR by_ - IZR ay <> 0)%R) by (rewrite <- minus_IZR; apply IZR_neq; lia).
      set (t := ((IZR y - IZR ay) / (IZR by_ - IZR ay))%R).
      assert (T : (t * (IZR by_ - IZR ay) = IZR y - IZR ay)%R) by (unfold t; field; exact N).
      exists t. split.
      * destruct YR; [apply (ratio_pos _ _ _ T)|apply (ratio_neg _ _ _ T)]; lra.
      * f_equal; [|lra]. apply (Rmult_eq_reg_r (IZR by_ - IZR ay)); [|exact N].
        replace ((IZR ax + t * (IZR bx - IZR ax)) * (IZR by_ - IZR ay))%R
          with (IZR ax * (IZR by_ - IZR ay) + (t * (IZR by_ - IZR ay)) * (IZR bx - IZR ax))%R by ring.
        rewrite T. lra.
  - intros (t & T & E). injection E as EX EY.
    pose proof (between_t (IZR ax) (IZR bx) t T) as BX. pose proof (between_t (IZR ay) (IZR by_) t T) as BY.
    rewrite EX in BX. rewrite EY in BY. split; [|split].
    + apply eq_IZR. unfold side_d. cbn [fst snd]. repeat (rewrite ?minus_IZR, ?mult_IZR). rewrite <- EX, <- EY. ring.
    + destruct BX as [[U V]|[U V]]; [left|right]; split; now apply le_IZR.
    + destruct BY as [[U V]|[U V]]; [left|right]; split; now apply le_IZR.
Qed.

Lemma pip_edge_spec0 : forall p a b r,
  match pip_edge p a b r with
  | None => edgeb p (a, b)
  | Some r' => p <> a -> ~ edgeb p (a, b) /\ r' = xorb r (crossb p (a, b))
  end.
Proof.
  intros [x y] [ax ay] [bx by_] r. unfold pip_edge, edgeb, crossb, straddle, side_d. cbn [fst snd].
  destruct (Z.eqb_spec by_ y) as [E1|E1]; [destruct (Z.eqb_spec bx x) as [E2|E2]; [|destruct (Z.eqb_spec ay y) as [E3|E3]]|]; cbn [andb orb].
  - subst. repeat split; nia.
  - subst. destruct (Z.ltb_spec x bx), (Z.ltb_spec ax x); cbn [eqb].
    1,4: repeat split; nia.
    + rewrite Z.ltb_irrefl. cbn. intros N. split; [|now destruct r]. intros (D & X & Y).
      assert (ax <> x) by (intros ->; now apply N). lia.
    + rewrite Z.ltb_irrefl. cbn. intros N. split; [|now destruct r]. intros (D & X & Y). lia.
  - subst. rewrite Z.ltb_irrefl.
    destruct (Z.ltb_spec ay y) as [L|L]; cbn [eqb negb xorb andb].
    + destruct (Z.leb_spec x ax), (Z.ltb_spec x bx); cbn [andb].
      * intros _. replace (0 <? _) with true by (symmetry; apply Z.ltb_lt; nia). split; [|now destruct r]. intros (D & X & Y). nia.
      * destruct (Z.eqb_spec ((ax - x) * (y - y) - (bx - x) * (ay - y)) 0) as [D|D].
        -- exfalso. nia.
        -- intros _.
           replace (0 <? _) with false by (symmetry; apply Z.ltb_ge; nia). cbn. split; [|now destruct r]. lia.
      * destruct (Z.eqb_spec ((ax - x) * (y - y) - (bx - x) * (ay - y)) 0) as [D|D].
        -- exfalso. nia.
        -- intros _.
           replace (0 <? _) with true by (symmetry; apply Z.ltb_lt; nia). cbn. split; [|now destruct r]. lia.
      * intros _. replace (0 <? _) with false by (symmetry; apply Z.ltb_ge; nia). split; [|now destruct r]. intros (D & X & Y). nia.
    + intros _. split; [|now destruct r]. intros (D & X & Y). nia.
  - destruct (Z.ltb_spec ay y) as [L|L], (Z.ltb_spec by_ y) as [M|M]; cbn [eqb negb xorb andb].
    + intros _. split; [|now destruct r]. intros (D & X & Y). lia.
    + rewrite (proj2 (Z.ltb_lt ay by_)) by lia.
      destruct (Z.leb_spec x ax), (Z.ltb_spec x bx).
      * intros N. replace (0 <? _) with true by (symmetry; apply Z.ltb_lt; nia). split; [|now destruct r]. intros (D & X & Y). nia.
      * destruct (Z.eqb_spec ((ax - x) * (by_ - y) - (bx - x) * (ay - y)) 0) as [D|D].
        -- repeat split; lia.
        -- intros _. destruct (Z.ltb_spec 0 ((ax - x) * (by_ - y) - (bx - x) * (ay - y))); cbn; (split; [lia|]); now destruct r.
      * destruct (Z.eqb_spec ((ax - x) * (by_ - y) - (bx - x) * (ay - y)) 0) as [D|D].
        -- repeat split; lia.
        -- intros _. destruct (Z.ltb_spec 0 ((ax - x) * (by_ - y) - (bx - x) * (ay - y))); cbn; (split; [lia|]); now destruct r.
      * intros _. replace (0 <? _) with false by (symmetry; apply Z.ltb_ge; nia). split; [|now destruct r]. intros (D & X & Y). nia.
    + assert (G : (ay <? by_) = false) by (apply Z.ltb_ge; lia). rewrite G.
      destruct (Z.leb_spec x ax), (Z.ltb_spec x bx).
      * intros N. assert (Q : x < ax \/ y < ay) by (destruct (Z.eq_dec ax x), (Z.eq_dec ay y); try lia; subst; now destruct N).
        replace (_ <? 0) with true by (symmetry; apply Z.ltb_lt; nia). split; [|now destruct r]. intros (D & X & Y). nia.
      * destruct (Z.eqb_spec ((ax - x) * (by_ - y) - (bx - x) * (ay - y)) 0) as [D|D].
        -- repeat split; lia.
        -- intros _. destruct (Z.ltb_spec 0 ((ax - x) * (by_ - y) - (bx - x) * (ay - y))), (Z.ltb_spec ((ax - x) * (by_ - y) - (bx - x) * (ay - y)) 0); cbn; try lia; (split; [lia|]); now destruct r.
      * destruct (Z.eqb_spec ((ax - x) * (by_ - y) - (bx - x) * (ay - y)) 0) as [D|D].
        -- repeat split; lia.
        -- intros _. destruct (Z.ltb_spec 0 ((ax - x) * (by_ - y) - (bx - x) * (ay - y))), (Z.ltb_spec ((ax - x) * (by_ - y) - (bx - x) * (ay - y)) 0); cbn; try lia; (split; [lia|]); now destruct r.
      * intros _. replace (_ <? 0) with false by (symmetry; apply Z.ltb_ge; nia). split; [|now destruct r]. intros (D & X & Y).
        destruct (Z.eq_dec bx x); nia.
    + intros N. split; [|now destruct r]. intros (D & X & Y).
      assert (ay = y) by lia. subst ay. assert (ax = x) by nia. subst. now apply N.
Qed.
Lemma pip_edge_spec : forall p a b r,
  match pip_edge p a b r with
  | None => on_edge p (a, b)
  | Some r' => p <> a -> ~ on_edge p (a, b) /\ r' = xorb r (crossb p (a, b))
  end.
Proof.
  intros p a b r. pose proof (pip_edge_spec0 p a b r) as H. destruct (pip_edge p a b r).
  - intros N. destruct (H N) as [A B]. split; [|exact B]. intros C. apply A. now apply edgeb_spec.
  - now apply edgeb_spec.
Qed.

Fixpoint links (p : Z * Z) (l : list (Z * Z)) : list ((Z * Z) * (Z * Z)) :=
  match l with [] => [] | q :: r => (p, q) :: links q r end.
Lemma links_edges : forall p r, edges (p :: r) = links p (r ++ [p]).
Proof.
  assert (G : forall r p z, combine (p :: r) (r ++ [z]) = links p (r ++ [z])).
  { induction r as [|q r IH]; intros p z; [reflexivity|].
    cbn [app combine links]. f_equal. apply IH. }
  intros p r. apply G.
Qed.
Definition parity (l : list bool) : bool := fold_right xorb false l.
Lemma parity_count : forall l, Nat.odd (count_occ bool_dec l true) = parity l.
Proof.
  induction l as [|[|] l IH]; [reflexivity| |].
  - cbn [count_occ parity fold_right]. destruct (bool_dec true true) as [_|N]; [|now destruct N].
    rewrite Nat.odd_succ, <- Nat.negb_odd, IH. unfold parity. now destruct (fold_right xorb false l).
  - cbn [count_occ parity fold_right]. destruct (bool_dec false true) as [N|_]; [discriminate|]. rewrite IH. unfold parity. now destruct (fold_right xorb false l).
Qed.
Lemma odd_number_bool : forall {X} (P : X -> Prop) (f : X -> bool) l,
  (forall x, f x = true <-> P x) -> (odd_number P l <-> parity (map f l) = true).
Proof.
  intros X P f l H. unfold odd_number. split.
  - intros (flags & A & B). rewrite parity_count in B. rewrite <- B. f_equal. clear B.
    induction A as [|x b l flags E A IH]; [reflexivity|]. cbn [map]. f_equal; [|exact IH].
    destruct (f x) eqn:F, b; try reflexivity.
    + apply H in F. now apply E in F.
    + symmetry. rewrite <- F. symmetry. apply H, E. reflexivity.
  - intros B. exists (map f l). rewrite parity_count. split; [|exact B]. clear B.
    induction l; constructor; auto.
Qed.
Lemma pip_loop_at : forall l p a r, In p l -> pip_loop p a l r = -1.
Proof.
  induction l as [|q l IH]; intros p a r H; [destruct H|]. cbn [pip_loop].
  destruct (pip_edge p a q r) as [r'|] eqn:E; [|reflexivity]. destruct H as [->|H]; [|now apply IH].
  exfalso. destruct p as [x y], a as [ax ay]. unfold pip_edge in E. rewrite !Z.eqb_refl in E. discriminate.
Qed.
Lemma pip_loop_spec : forall l p a r, p <> a ->
  (Exists (on_edge p) (links a l) -> pip_loop p a l r = -1) /\
  (~ Exists (on_edge p) (links a l) -> pip_loop p a l r = if xorb r (parity (map (crossb p) (links a l))) then 1 else 0) /\
  (pip_loop p a l r = -1 -> Exists (on_edge p) (links a l)).
Proof.
  induction l as [|q l IH]; intros p a r N; cbn [pip_loop links map].
  - split; [intros H; inversion H|]. split; [intros _; cbn; now destruct r|]. now destruct r.
  - pose proof (pip_edge_spec p a q r) as H. destruct (pip_edge p a q r) as [r'|].
    + destruct (H N) as [A B].
      assert (N' : p <> q).
      { intros ->. apply A. exists 1%R. split; [lra|]. unfold along. cbn [fst snd]. f_equal; lra. }
      destruct (IH p q r' N') as (U & V & W). split; [|split].
      * intros E. inversion E; subst; [now destruct A|auto].
      * intros E. rewrite V by (intros C; apply E; now right).
        cbn [parity fold_right map]. rewrite B, xorb_assoc. reflexivity.
      * intros E. right. auto.
    + split; [reflexivity|]. split; [intros C; destruct C; now left|]. intros _. now left.
Qed.

(** The point-in-polygon test: -1 on the outline, otherwise the even-odd rule. *)
Theorem C47_point : forall p l, (3 <= length l)%nat ->
  (point_in_polygon p l = -1 <-> on_outline p l) /\
  (point_in_polygon p l = 1 <-> ~ on_outline p l /\ enclosed p l) /\
  (point_in_polygon p l = 0 <-> ~ on_outline p l /\ ~ enclosed p l).
Proof.
  intros p l L. destruct l as [|p0 [|p1 [|p2 r]]]; cbn in L; try lia. clear L.
  set (l := p1 :: p2 :: r). change (p0 :: p1 :: p2 :: r) with (p0 :: l).
  assert (E : point_in_polygon p (p0 :: l) = pip_loop p p0 (l ++ [p0]) false) by reflexivity.
  clearbody l. unfold on_outline, enclosed. rewrite links_edges.
  rewrite (odd_number_bool (crosses p) (crossb p)) by apply crossb_spec. rewrite E. clear E.
  assert (DEC : p = p0 \/ p <> p0).
  { destruct p as [x y], p0 as [u v]. destruct (Z.eq_dec x u), (Z.eq_dec y v); subst; auto; right; congruence. }
  destruct DEC as [->|N].
  - rewrite (pip_loop_at (l ++ [p0]) p0) by (apply in_or_app; right; now left).
    assert (O : Exists (on_edge p0) (links p0 (l ++ [p0]))).
    { destruct (l ++ [p0]) eqn:E; [now destruct l|]. left. exists 0%R. split; [lra|].
      unfold along. cbn [fst snd]. f_equal; lra. }
    split; [tauto|]. split; split; try lia; tauto.
  - destruct (pip_loop_spec (l ++ [p0]) p p0 false N) as (U & V & W).
    set (o := pip_loop p p0 (l ++ [p0]) false) in *. set (q := parity _) in *. rewrite xorb_false_l in V.
    assert (T : o = -1 \/ o <> -1) by lia. destruct T as [T|T].
    + specialize (W T). split; [tauto|]. split; split; try lia; tauto.
    + assert (O : ~ Exists (on_edge p) (links p0 (l ++ [p0]))) by tauto.
      specialize (V O). split; [tauto|]. rewrite V.
      destruct q; intuition (try lia; try discriminate).
Qed.
Corollary pip_contains : forall p l, negb (point_in_polygon p l =? 0) = true <-> contains l p.
Proof.
  intros p l. unfold contains. destruct (le_lt_dec 3 (length l)) as [L|L].
  - destruct (C47_point p l L) as (A & B & C). destruct (Z.eqb_spec (point_in_polygon p l) 0) as [E|E]; cbn.
    + apply C in E. split; [discriminate|tauto].
    + split; [|reflexivity]. intros _. split; [exact L|].
      assert (R : point_in_polygon p l = -1 \/ point_in_polygon p l = 1).
      { destruct l as [|p0 [|p1 [|p2 r]]]; cbn in L; try lia. clear - E. unfold point_in_polygon in *.
        revert E. generalize (tl (p0 :: p1 :: p2 :: r) ++ [p0]). generalize false. revert p0.
        intros p0 b l. revert p0 b. induction l as [|q l IH]; intros p0 b; cbn [pip_loop]; [destruct b; auto; lia|].
        destruct (pip_edge p p0 q b); [apply IH|auto]. }
      tauto.
  - destruct l as [|p0 [|p1 [|p2 r]]]; cbn in L |- *; try (split; [discriminate|intros [? _]; lia]). lia.
Qed.

(** Reversing the outline does not change what a polygon contains. *)
Definition swap {X} (e : X * X) : X * X := (snd e, fst e).
Lemma links_app : forall l p m, links p (l ++ m) = links p l ++ links (last l p) m.
Proof.
  induction l as [|q r IH]; intros p m; [reflexivity|].
  cbn [app links]. now rewrite IH, last_cons.
Qed.
Lemma links_rev : forall l p z, links z (rev (p :: l)) = rev (map swap (links p (l ++ [z]))).
Proof.
  induction l as [|q l IH]; intros p z; [reflexivity|].
  change (rev (p :: q :: l)) with (rev (q :: l) ++ [p]). rewrite links_app, IH.
  cbn [app links map rev]. now rewrite last_last.
Qed.
Lemma edges_rev : forall l : zpath, Permutation (edges (rev l)) (map swap (edges l)).
Proof.
  intros [|p l]; [constructor|]. rewrite links_edges.
  destruct (rev (p :: l)) as [|q s] eqn:E; [cbn in E; now destruct (rev l)|].
  rewrite links_edges.
  assert (L : last s q = p).
  { assert (last (q :: s) p = p) by (rewrite <- E; cbn [rev]; apply last_last). now rewrite last_cons in H. }
  rewrite links_app, L. cbn [links]. eapply perm_trans; [|apply Permutation_sym, Permutation_rev].
  rewrite <- links_rev, E. cbn [links]. apply Permutation_sym, Permutation_cons_append.
Qed.
Lemma parity_perm : forall l m, Permutation l m -> parity l = parity m.
Proof.
  intros l m H. induction H; cbn [parity fold_right]; unfold parity in *; try congruence.
  now rewrite <- !xorb_assoc, (xorb_comm y x).
Qed.
Lemma crossb_swap : forall p e, crossb p (swap e) = crossb p e.
Proof.
  intros [x y] [[ax ay] [bx by_]]. unfold crossb, straddle, swap, side_d. cbn [fst snd]. rewrite xorb_comm.
  destruct (Z.ltb_spec ay y), (Z.ltb_spec by_ y); cbn [xorb andb]; try reflexivity;
    destruct (Z.ltb_spec ay by_), (Z.ltb_spec by_ ay); try lia;
    match goal with |- (?a <? ?b) = (?c <? ?d) => destruct (Z.ltb_spec a b), (Z.ltb_spec c d); try reflexivity; lia end.
Qed.
Lemma on_edge_swap : forall p e, on_edge p e -> on_edge p (swap e).
Proof.
  intros p [[ax ay] [bx by_]] (t & T & E). exists (1 - t)%R. split; [lra|]. rewrite <- E.
  unfold along, swap. cbn [fst snd]. f_equal; ring.
Qed.
Lemma contains_rev : forall l p, contains (rev l) p <-> contains l p.
Proof.
  assert (G : forall l p, contains l p -> contains (rev l) p).
  { intros l p [L H]. unfold contains. rewrite rev_length. split; [exact L|].
    pose proof (edges_rev l) as P. destruct H as [H|H]; [left|right].
    - unfold on_outline in *. apply Exists_exists in H. destruct H as (e & I & O).
      apply Exists_exists. exists (swap e). split; [|now apply on_edge_swap].
      apply (Permutation_in _ (Permutation_sym P)). now apply in_map.
    - unfold enclosed in *. rewrite (odd_number_bool _ (crossb p)) in * by apply crossb_spec.
      rewrite <- H. apply (Permutation_map (crossb p)) in P. rewrite (parity_perm _ _ P), map_map.
      f_equal. apply map_ext. intros e. apply crossb_swap. }
  intros l p. split; [|apply G]. intros H. rewrite <- (rev_involutive l). now apply G.
Qed.
Lemma contains_parsed : forall s poly p, contains (parse_polygon s true poly) p <-> contains (map (snap s) poly) p.
Proof.
  intros s poly p. destruct (C56_normalised s poly) as [[E|E] _]; rewrite E; [reflexivity|apply contains_rev].
Qed.

(** The bounding box is around everything contained. *)
Definition in_box (b : zbox) (p : zpt) : Prop :=
  let '(x0, x1, y0, y1) := b in x0 <= fst p <= x1 /\ y0 <= snd p <= y1.
Lemma within_box_spec : forall p b, within_box p b = true <-> in_box b p.
Proof. intros [x y] [[[x0 x1] y0] y1]. unfold within_box, in_box. cbn [fst snd]. rewrite !andb_true_iff, !Z.leb_le. tauto. Qed.
Definition box_le (a b : zbox) : Prop :=
  let '(a0, a1, a2, a3) := a in let '(b0, b1, b2, b3) := b in b0 <= a0 /\ a1 <= b1 /\ b2 <= a2 /\ a3 <= b3.
Lemma box_le_refl : forall b, box_le b b.
Proof. intros [[[? ?] ?] ?]. cbn. lia. Qed.
Lemma box_le_in : forall a b p, box_le a b -> in_box a p -> in_box b p.
Proof. intros [[[? ?] ?] ?] [[[? ?] ?] ?] p. cbn. lia. Qed.
Lemma box_le_trans : forall a b c, box_le a b -> box_le b c -> box_le a c.
Proof. intros [[[? ?] ?] ?] [[[? ?] ?] ?] [[[? ?] ?] ?]. cbn. lia. Qed.
Lemma grow_spec : forall b p, box_le b (grow b p) /\ ((exists q, in_box b q) -> in_box (grow b p) p).
Proof.
  intros [[[x0 x1] y0] y1] [x y]. unfold box_le, grow, in_box. cbn [fst snd].
  destruct (Z.ltb_spec x x0), (Z.ltb_spec x1 x), (Z.ltb_spec y y0), (Z.ltb_spec y1 y);
    (split; [lia|]; intros [[u v] Q]; cbn [fst snd] in Q; lia).
Qed.
Lemma grow_all : forall l b, (exists q, in_box b q) ->
  box_le b (fold_left grow l b) /\ forall p, In p l -> in_box (fold_left grow l b) p.
Proof.
  induction l as [|p l IH]; intros b Q; cbn [fold_left]; [split; [apply box_le_refl|intros p []]|].
  destruct (grow_spec b p) as [A B]. destruct (IH (grow b p)) as [C D]; [exists p; auto|].
  split; [eapply box_le_trans; eauto|]. intros q [<-|H]; [|auto]. eapply box_le_in; [exact C|auto].
Qed.
Lemma bounding_box_in : forall l b, bounding_box l = Some b -> forall p, In p l -> in_box b p.
Proof.
  intros [|p0 l] b E; [discriminate|].
  assert (F : fold_left grow (p0 :: l) (fst p0, fst p0, snd p0, snd p0) = b) by (unfold bounding_box in E; congruence).
  destruct (grow_all (p0 :: l) (fst p0, fst p0, snd p0, snd p0)) as [_ G]; [exists p0; cbn; lia|].
  rewrite F in G. exact G.
Qed.
Lemma links_in : forall l p e, In e (links p l) -> In (fst e) (p :: l) /\ In (snd e) l.
Proof.
  induction l as [|q l IH]; intros p e H; [destruct H|]. destruct H as [<-|H]; cbn [fst snd].
  - split; [now left|now left].
  - destruct (IH q e H) as [A B]. split; right; auto.
Qed.
Lemma edges_in : forall (l : zpath) e, In e (edges l) -> In (fst e) l /\ In (snd e) l.
Proof.
  intros [|p l] e H; [destruct H|]. rewrite links_edges in H. apply links_in in H.
  destruct H as [A B]. split.
  - destruct A as [A|A]; [now left|]. apply in_app_or in A. destruct A as [A|[A|[]]]; [now right|now left].
  - apply in_app_or in B. destruct B as [B|[B|[]]]; [now right|now left].
Qed.
Lemma straddle_even : forall l p y, parity (map (straddle y) (links p l)) = xorb (snd p <? y) (snd (last l p) <? y).
Proof.
  induction l as [|q l IH]; intros p y; [cbn [links map last]; now rewrite xorb_nilpotent|].
  cbn [links map]. rewrite last_cons. change (parity (straddle y (p, q) :: map (straddle y) (links q l)))
    with (xorb (straddle y (p, q)) (parity (map (straddle y) (links q l)))).
  rewrite IH. unfold straddle. cbn [fst snd]. now rewrite <- xorb_assoc, (xorb_assoc (snd p <? y)), xorb_nilpotent, xorb_false_r.
Qed.
Lemma parity_false : forall {X} (f : X -> bool) l, (forall x, In x l -> f x = false) -> parity (map f l) = false.
Proof.
  intros X f l. induction l as [|x l IH]; intros H; [reflexivity|].
  cbn [map]. change (xorb (f x) (parity (map f l)) = false). rewrite (H x) by now left.
  rewrite IH; [reflexivity|]. intros; apply H; now right.
Qed.
Theorem contains_in_box : forall l p b, bounding_box l = Some b -> contains l p -> in_box b p.
Proof.
  intros l p b B [L H]. pose proof (bounding_box_in l b B) as I.
  destruct b as [[[x0 x1] y0] y1]. destruct H as [H|H].
  - apply Exists_exists in H. destruct H as ([u v] & E & O). apply edges_in in E. cbn [fst snd] in E.
    destruct E as [U V]. apply I in U, V. cbn in U, V |- *. apply edgeb_spec in O. destruct O as (_ & X & Y).
    cbn [fst snd] in X, Y. lia.
  - unfold enclosed in H. rewrite (odd_number_bool _ (crossb p)) in H by apply crossb_spec.
    assert (EX : exists e, In e (edges l) /\ crossb p e = true).
    { clear - H. induction (edges l) as [|e r IH]; [discriminate|].
      cbn [map] in H. change (xorb (crossb p e) (parity (map (crossb p) r)) = true) in H.
      destruct (crossb p e) eqn:E; [exists e; split; [now left|exact E]|].
      rewrite xorb_false_l in H. destruct (IH H) as (f & A & C). exists f. split; [now right|exact C]. }
    destruct EX as ([u v] & E & C). apply edges_in in E. cbn [fst snd] in E. destruct E as [U V].
    pose proof (I _ U) as U'. pose proof (I _ V) as V'. cbn in U', V'.
    apply crossb_spec in C. destruct C as (S & t & T & _ & X). cbn [fst snd] in S, X.
    assert (R : fst p <= x1).
    { assert (IZR (fst p) <= IZR x1)%R; [|now apply le_IZR].
      assert (IZR (fst u) <= IZR x1)%R by (apply IZR_le; lia). assert (IZR (fst v) <= IZR x1)%R by (apply IZR_le; lia).
      destruct (between_t (IZR (fst u)) (IZR (fst v)) t T); unfold along in X; cbn [fst snd] in X; lra. }
    assert (Y : y0 <= snd p <= y1) by lia. cbn. split; [|exact Y]. split; [|exact R].
    destruct (Z_lt_le_dec (fst p) x0) as [N|N]; [|exact N]. exfalso.
    assert (P : parity (map (crossb p) (edges l)) = parity (map (straddle (snd p)) (edges l))).
    { f_equal. apply map_ext_in. intros [[ax ay] [bx by_]] J. apply edges_in in J. cbn [fst snd] in J.
      destruct J as [J K]. apply I in J, K. cbn in J, K. unfold crossb. cbn [fst snd].
      destruct (straddle (snd p) ((ax, ay), (bx, by_))) eqn:S'; [|reflexivity].
      apply straddle_spec in S'. cbn [fst snd] in S'. cbn [andb]. unfold side_d. cbn [fst snd].
      destruct (Z.ltb_spec ay by_); apply Z.ltb_lt; nia. }
    rewrite P in H. destruct l as [|p0 r]; [discriminate|]. rewrite links_edges, straddle_even, last_last, xorb_nilpotent in H. discriminate.
Qed.

(** The polygons an operand stands for, whatever the types of its parts. *)
Definition item_polys (i : item) : list poly :=
  match i with ISet l | IRobust l | IRef l | IFlex l => l | IPoly p => [p] end.
Definition polys_of (o : operand) : list poly :=
  match o with ONone => [] | OSet l | OObject l => l | OList l => flat_map item_polys l end.
(** There is no FlexPath inside a list. *)
Definition supported (o : operand) : Prop :=
  match o with OList l => Forall (fun i => match i with IFlex _ => False | _ => True end) l | _ => True end.
Lemma gather_spec : forall o, supported o -> gather_polys o = Some (polys_of o).
Proof.
  intros [|l|l|l]; try reflexivity. cbn [supported gather_polys polys_of]. intros H.
  assert (E : all_some (map gather_item l) = Some (map item_polys l)).
  { induction H as [|i l I H IH]; [reflexivity|]. cbn [map all_some]. rewrite IH. now destruct i. }
  rewrite E. cbn [option_map]. now rewrite flat_map_concat_map.
Qed.

Lemma existsb_iff : forall {X} (f : X -> bool) (P : X -> Prop) l,
  (forall x, In x l -> (f x = true <-> P x)) -> (existsb f l = true <-> exists x, In x l /\ P x).
Proof.
  intros X f P l H. rewrite existsb_exists. split; intros (x & I & F); exists x; (split; [exact I|]); now apply H.
Qed.
Definition good_boxes (pbs : list (zpath * zbox)) : Prop := Forall (fun pb => bounding_box (fst pb) = Some (snd pb)) pbs.
Lemma boxed_spec : forall l, Forall (fun q => q <> []) l ->
  exists pbs, boxed l = Some pbs /\ map fst pbs = l /\ good_boxes pbs.
Proof.
  unfold boxed. induction l as [|q l IH]; intros H; [exists []; repeat split; constructor|].
  inversion H as [|? ? N T]; subst. destruct (IH T) as (pbs & E & F & G).
  destruct (bounding_box q) as [b|] eqn:B; [|destruct q; [now destruct N|discriminate]].
  exists ((q, b) :: pbs). cbn [map all_some]. rewrite B, E. cbn. rewrite F.
  split; [reflexivity|split; [reflexivity|]]. constructor; assumption.
Qed.
Lemma hit_spec : forall p pb, bounding_box (fst pb) = Some (snd pb) -> (hit p pb = true <-> contains (fst pb) p).
Proof.
  intros p pb B. unfold hit. rewrite andb_true_iff, pip_contains, within_box_spec.
  split; [tauto|]. intros C. split; [|exact C]. exact (contains_in_box _ _ _ B C).
Qed.
Lemma good_in : forall pbs pb, good_boxes pbs -> In pb pbs -> bounding_box (fst pb) = Some (snd pb).
Proof. intros pbs pb G I. unfold good_boxes in G. rewrite Forall_forall in G. now apply G. Qed.
Lemma join_le : forall a b, box_le a (join_box a b) /\ box_le b (join_box a b).
Proof.
  intros [[[a0 a1] a2] a3] [[[b0 b1] b2] b3]. unfold join_box, box_le.
  destruct (Z.ltb_spec b0 a0), (Z.ltb_spec a1 b1), (Z.ltb_spec b2 a2), (Z.ltb_spec a3 b3); lia.
Qed.
Lemma join_all : forall l a, box_le a (fold_left join_box l a) /\ forall b, In b l -> box_le b (fold_left join_box l a).
Proof.
  induction l as [|c l IH]; intros a; cbn [fold_left]; [split; [apply box_le_refl|intros b []]|].
  destruct (join_le a c) as [A C]. destruct (IH (join_box a c)) as [D E].
  split; [eapply box_le_trans; eauto|]. intros b [<-|H]; [eapply box_le_trans; eauto|auto].
Qed.
Lemma hit_any_spec : forall pb r p, good_boxes (pb :: r) ->
  (hit_any (fold_left join_box (map snd r) (snd pb)) (pb :: r) p = true <->
   exists q, In q (map fst (pb :: r)) /\ contains q p).
Proof.
  intros pb r p G. unfold hit_any. rewrite andb_true_iff, within_box_spec.
  rewrite (existsb_iff (hit p) (fun x => contains (fst x) p)) by (intros x I; apply hit_spec; exact (good_in _ _ G I)).
  split.
  - intros [_ (x & I & C)]. exists (fst x). split; [now apply in_map|exact C].
  - intros (q & I & C). apply in_map_iff in I. destruct I as (x & <- & I). split; [|now exists x].
    pose proof (contains_in_box _ _ _ (good_in _ _ G I) C) as B.
    destruct (join_all (map snd r) (snd pb)) as [D E].
    destruct I as [<-|I]; [exact (box_le_in _ _ _ D B)|].
    refine (box_le_in _ _ _ (E _ _) B). now apply in_map.
Qed.
Lemma boxes_meet_spec : forall g b p, in_box g p -> in_box b p -> boxes_meet g b = true.
Proof.
  intros [[[g0 g1] g2] g3] [[[b0 b1] b2] b3] [x y]. unfold in_box, boxes_meet. cbn [fst snd].
  intros. rewrite !andb_true_iff, !Z.leb_le. lia.
Qed.
Lemma group_any_spec : forall pbs g, good_boxes pbs -> g <> [] ->
  exists b, group_any pbs g = Some b /\ (b = true <-> exists p q, In p g /\ In q (map fst pbs) /\ contains q p).
Proof.
  intros pbs g G N. unfold group_any. destruct (bounding_box g) as [gb|] eqn:B; [|destruct g; [now destruct N|discriminate]].
  eexists. split; [reflexivity|]. rewrite existsb_exists. split.
  - intros (pb & I & H). apply andb_true_iff in H. destruct H as [_ H]. apply existsb_exists in H.
    destruct H as (p & J & H). apply hit_spec in H; [|exact (good_in _ _ G I)].
    exists p, (fst pb). split; [exact J|]. split; [now apply in_map|exact H].
  - intros (p & q & J & I & C). apply in_map_iff in I. destruct I as (pb & <- & I). exists pb. split; [exact I|].
    apply andb_true_iff. pose proof (good_in _ _ G I) as GB. split.
    + apply (boxes_meet_spec _ _ p); [exact (bounding_box_in _ _ B _ J)|exact (contains_in_box _ _ _ GB C)].
    + apply existsb_exists. exists p. split; [exact J|]. now apply hit_spec.
Qed.
Lemma in_parsed : forall s l p,
  (exists q, In q (map (parse_polygon s true) l) /\ contains q (snap s p)) <-> in_some (snap s) l p.
Proof.
  intros s l p. unfold in_some. split.
  - intros (q & I & C). apply in_map_iff in I. destruct I as (r & <- & I). exists r. split; [exact I|]. now apply contains_parsed.
  - intros (r & I & C). exists (parse_polygon s true r). split; [now apply in_map|]. now apply contains_parsed.
Qed.
Lemma parsed_nonempty : forall s l, Forall (fun q => q <> []) l -> Forall (fun q => q <> []) (map (parse_polygon s true) l).
Proof.
  intros s l H. apply Forall_map. eapply Forall_impl; [|exact H]. intros q N E.
  destruct (C56_normalised s q) as (_ & _ & _ & P). rewrite E in P. apply Permutation_nil in P.
  destruct q; [now destruct N|discriminate].
Qed.

(** inside with a list of points: each answer is membership in the polygons, on the
    grid, whatever the boxes say. *)
Theorem C47_points : forall pts o precision,
  supported o -> polys_of o <> [] -> Forall (fun q => q <> []) (polys_of o) -> pts <> [] ->
  exists r, py_inside (Flat pts) o precision = Some r /\
            Forall2 (fun p b => b = true <-> in_some (snap (1 / precision)) (polys_of o) p) pts r.
Proof.
  intros pts o precision S N F P. unfold py_inside. rewrite gather_spec by exact S.
  set (s := (1 / precision)%R). set (l := polys_of o) in *.
  destruct (boxed_spec _ (parsed_nonempty s l F)) as (pbs & E & M & G).
  destruct pts as [|p pts]; [now destruct P|]. unfold inside_c. rewrite E.
  destruct pbs as [|pb r]; [destruct l; [now destruct N|discriminate]|].
  eexists. split; [reflexivity|]. generalize (p :: pts). intros ps.
  induction ps as [|x ps IH]; constructor; [|exact IH]. rewrite hit_any_spec by exact G. rewrite M. apply in_parsed.
Qed.
(** With groups of points, 'any': whether some point of the group is in the polygons. *)
Theorem C47_any : forall gs o precision,
  supported o -> Forall (fun q => q <> []) (polys_of o) -> gs <> [] -> Forall (fun g => g <> []) gs ->
  exists r, py_inside (Grouped true gs) o precision = Some r /\
            Forall2 (fun g b => b = true <-> Exists (in_some (snap (1 / precision)) (polys_of o)) g) gs r.
Proof.
  intros gs o precision S F P Q. unfold py_inside. rewrite gather_spec by exact S.
  set (s := (1 / precision)%R). set (l := polys_of o) in *.
  destruct (boxed_spec _ (parsed_nonempty s l F)) as (pbs & E & M & G).
  assert (R : exists r, inside_c ShortAny (map (map (snap s)) gs) (map (parse_polygon s true) l) = Some r /\
                        Forall2 (fun g b => b = true <-> Exists (in_some (snap s) l) g) gs r).
  { unfold inside_c. rewrite E. clear P. induction Q as [|g gs NG Q IH]; [exists []; split; [reflexivity|constructor]|].
    destruct IH as (r & A & B). destruct (group_any_spec pbs (map (snap s) g) G) as (b & C & D).
    { destruct g; [now destruct NG|discriminate]. }
    exists (b :: r). cbn [map all_some]. rewrite C, A. split; [reflexivity|]. constructor; [|exact B].
    rewrite D, Exists_exists. rewrite M. split.
    - intros (p & q & I & J & K). apply in_map_iff in I. destruct I as (x & <- & I). exists x. split; [exact I|].
      apply in_parsed. now exists q.
    - intros (x & I & J). apply in_parsed in J. destruct J as (q & J & K). exists (snap s x), q.
      split; [now apply in_map|]. now split. }
  destruct gs as [|[|p g] gs]; [now destruct P|now inversion Q|]. exact R.
Qed.
(** 'all': whether every point of the group is. *)
Theorem C47_all : forall g gs o precision,
  supported o -> polys_of o <> [] -> Forall (fun q => q <> []) (polys_of o) -> g <> [] ->
  exists r, py_inside (Grouped false (g :: gs)) o precision = Some r /\
            Forall2 (fun g b => b = true <-> Forall (in_some (snap (1 / precision)) (polys_of o)) g) (g :: gs) r.
Proof.
  intros g gs o precision S N F P. unfold py_inside. rewrite gather_spec by exact S.
  set (s := (1 / precision)%R). set (l := polys_of o) in *.
  destruct (boxed_spec _ (parsed_nonempty s l F)) as (pbs & E & M & G).
  destruct g as [|p g]; [now destruct P|]. unfold inside_c. rewrite E.
  destruct pbs as [|pb r]; [destruct l; [now destruct N|discriminate]|].
  eexists. split; [reflexivity|]. generalize ((p :: g) :: gs). intros ps. rewrite map_map.
  induction ps as [|x ps IH]; constructor; [|exact IH]. rewrite forallb_forall, Forall_forall. split.
  - intros H y I. apply in_parsed. rewrite <- M. apply hit_any_spec; [exact G|]. apply H. now apply in_map.
  - intros H y I. apply in_map_iff in I. destruct I as (z & <- & I). apply hit_any_spec; [exact G|]. rewrite M. apply in_parsed. now apply H.
Qed.

(** Without polygons, the answer for a point (or a group with 'all') is read from an
    array that has no element 0, although membership in no polygon is simply false. *)
Theorem C47_no_polygons_refuted : forall pts precision, pts <> [] ->
  py_inside (Flat pts) ONone precision = None /\ ~ exists p, In p pts /\ in_some (snap (1 / precision)) (polys_of ONone) p.
Proof.
  intros [|p pts] precision H; [now destruct H|]. split; [reflexivity|]. intros (q & _ & r & [] & _).
Qed.

(** A square with a notch: two points inside, one in the notch, one on the outline. *)
Definition notched : zpath := [(0, 0); (10, 0); (10, 10); (5, 2); (0, 10)].
Example C47_demo :
  point_in_polygon (1, 1) notched = 1 /\ point_in_polygon (5, 6) notched = 0 /\
  point_in_polygon (5, 2) notched = -1 /\ point_in_polygon (10, 4) notched = -1 /\
  contains notched (1, 1) /\ ~ contains notched (5, 6).
Proof.
  split; [reflexivity|]. split; [reflexivity|]. split; [reflexivity|]. split; [reflexivity|]. split.
  - apply pip_contains. reflexivity.
  - intros H. apply pip_contains in H. discriminate.
Qed.
(** The even-odd rule: a polygon that goes around the same square twice does not contain
    its inner points, although they are inside the region the other operations
    (non-zero rule) work with. *)
Example C47_twice : point_in_polygon (1, 1) [(0, 0); (4, 0); (4, 4); (0, 4); (0, 0); (4, 0); (4, 4); (0, 4)] = 0 /\
  shoelace [(0, 0); (4, 0); (4, 4); (0, 4); (0, 0); (4, 0); (4, 4); (0, 4)] = 2 * (2 * 16).
Proof. split; reflexivity. Qed.
Lemma snap_int : forall a b, snap (1 / 1) (IZR a, IZR b) = (a, b).
Proof.
  intros a b. rewrite <- (C56_stable (1 / 1) (a, b)) at 1 by lra. unfold unsnap. cbn [fst snd].
  replace (IZR a / (1 / 1))%R with (IZR a) by lra. now replace (IZR b / (1 / 1))%R with (IZR b) by lra.
Qed.
(** The same through [gdspy.inside], the polygon given with negative orientation. *)
Example C47_points_demo :
  py_inside (Flat [(1, 1); (5, 6); (10, 4)]%R) (OSet [[(0, 0); (0, 10); (5, 2); (10, 10); (10, 0)]%R]) 1
  = Some [true; false; true].
Proof.
  unfold py_inside. cbn [gather_polys]. unfold parse_polygon. cbn [map]. rewrite !snap_int. reflexivity.
Qed.
Example C56_demo : shoelace (rev notched) < 0 /\ shoelace notched = 120.
Proof. split; reflexivity. Qed.

Print Assumptions C56_normalised.
Print Assumptions C56_snapped.
Print Assumptions C56_stable.
Print Assumptions C47_point.
Print Assumptions C47_points.
Print Assumptions C47_any.
Print Assumptions C47_all.
Print Assumptions C47_no_polygons_refuted.
