(** The output polygons of the sweep line: every drawn edge holds one end of one polygon, and the
    sides of the polygons are the pieces of the border. *)

From Coq Require Import List ZArith Bool Lia Permutation.
From Verif Require Import Sweep SpecSweep SweepCounts SweepActs.
Import ListNotations.
Open Scope nat_scope.

(** ** Segments *)
Lemma pt_eqb_spec : forall p q, reflect (p = q) (pt_eqb p q).
Proof.
  intros [a b] [c d]. unfold pt_eqb. cbn [fst snd].
  destruct (Z.eqb_spec a c); destruct (Z.eqb_spec b d); cbn; constructor; congruence.
Qed.
Lemma times_app : forall p q a b, times p q (a ++ b) = times p q a + times p q b.
Proof. intros. unfold times. rewrite filter_app, app_length. reflexivity. Qed.
Lemma times_cons : forall p q x b, times p q (x :: b) = times p q [x] + times p q b.
Proof. intros. exact (times_app p q [x] b). Qed.
Lemma times_sym : forall p q a b, times p q [(a, b)] = times p q [(b, a)].
Proof.
  intros p q a b. unfold times. cbn.
  destruct (pt_eqb a p), (pt_eqb b q), (pt_eqb a q), (pt_eqb b p); reflexivity.
Qed.
Lemma times_same : forall p q a, p <> q -> times p q [(a, a)] = 0.
Proof.
  intros p q a H. unfold times. cbn.
  destruct (pt_eqb_spec a p); destruct (pt_eqb_spec a q); cbn; congruence.
Qed.

(** ** Ends of lines *)
Definition tip (s : side) (r : list pt) : pt :=
  match s with LeftSide => hd nowhere r | RightSide => last r nowhere end.

Lemma last_app_ne : forall (a b : list pt) d, b <> [] -> last (a ++ b) d = last b d.
Proof.
  induction a as [|x a IH]; intros b d H; [reflexivity|]. cbn [app].
  destruct (a ++ b) eqn:E.
  - apply app_eq_nil in E. destruct E. contradiction.
  - rewrite <- E in *. transitivity (last (a ++ b) d); [destruct (a ++ b); [discriminate E|reflexivity]|auto].
Qed.
Lemma hd_app_ne : forall (a b : list pt) d, a <> [] -> hd d (a ++ b) = hd d a.
Proof. intros [|x a] b d H; [contradiction|reflexivity]. Qed.
Lemma last_rev : forall (a : list pt) d, last (rev a) d = hd d a.
Proof. intros [|x a] d; [reflexivity|]. cbn [rev]. rewrite last_app_ne; [reflexivity|discriminate]. Qed.
Lemma hd_rev : forall (a : list pt) d, hd d (rev a) = last a d.
Proof. intros a d. rewrite <- (rev_involutive a) at 2. rewrite last_rev. reflexivity. Qed.
Lemma rev_ne : forall (a : list pt), a <> [] -> rev a <> [].
Proof. intros a H E. apply H. rewrite <- (rev_involutive a), E. reflexivity. Qed.

Lemma line_app : forall a b d, a <> [] -> b <> [] ->
  line_sides (a ++ b) = line_sides a ++ (last a d, hd d b) :: line_sides b.
Proof.
  induction a as [|x a IH]; intros b d HA HB; [contradiction|].
  destruct a as [|y a].
  - destruct b as [|z b]; [contradiction|]. reflexivity.
  - cbn [app]. change (line_sides (x :: y :: (a ++ b))) with ((x, y) :: line_sides ((y :: a) ++ b)).
    rewrite (IH b d); [reflexivity|discriminate|assumption].
Qed.
Lemma line_times : forall p q a b, a <> [] -> b <> [] ->
  times p q (line_sides (a ++ b)) =
  times p q (line_sides a) + times p q [(last a nowhere, hd nowhere b)] + times p q (line_sides b).
Proof.
  intros p q a b HA HB. rewrite (line_app a b nowhere HA HB), times_app.
  rewrite (times_cons p q (last a nowhere, hd nowhere b) (line_sides b)). lia.
Qed.
Lemma line_rev : forall p q a, times p q (line_sides (rev a)) = times p q (line_sides a).
Proof.
  intros p q. induction a as [|x a IH]; [reflexivity|]. cbn [rev].
  destruct a as [|y a]; [reflexivity|].
  rewrite (line_app (rev (y :: a)) [x] nowhere); [|apply rev_ne; discriminate|discriminate].
  rewrite times_app, IH, last_rev. cbn [hd].
  change (line_sides (x :: y :: a)) with ((x, y) :: line_sides (y :: a)).
  rewrite (times_cons p q (x, y)), (times_sym p q x y). change (line_sides [x]) with (@nil (pt * pt)). lia.
Qed.

(** ** Sums *)
Fixpoint total (f : nat -> nat) (n : nat) : nat := match n with O => O | S n => total f n + f n end.
Lemma total_ext : forall f g n, (forall i, i < n -> f i = g i) -> total f n = total g n.
Proof.
  induction n as [|n IH]; intros H; [reflexivity|]. cbn. rewrite (H n) by lia. rewrite IH; auto.
Qed.
Lemma total_change : forall f g i n, i < n -> (forall k, k <> i -> f k = g k) ->
  total f n + g i = total g n + f i.
Proof.
  induction n as [|n IH]; intros L H; [lia|]. cbn.
  destruct (Nat.eq_dec i n) as [->|N].
  - rewrite (total_ext f g n); [lia|]. intros k Hk. apply H. lia.
  - rewrite (H n) by auto. specialize (IH ltac:(lia) H). lia.
Qed.

(** ** Who holds which end *)
Definition pen : Type := (nat * side * pt)%type.
Definition same_side (a b : side) : bool :=
  match a, b with LeftSide, LeftSide | RightSide, RightSide => true | _, _ => false end.
Definition flip (s : side) : side := match s with LeftSide => RightSide | RightSide => LeftSide end.
Definition is_pen (i : nat) (s : side) (x : pen) : bool := Nat.eqb (fst (fst x)) i && same_side (snd (fst x)) s.
Definition num (i : nat) (s : side) (l : list pen) : nat := length (filter (is_pen i s) l).

Lemma num_app : forall i s a b, num i s (a ++ b) = num i s a + num i s b.
Proof. intros. unfold num. rewrite filter_app, app_length. reflexivity. Qed.
Lemma num_cons : forall i s x b, num i s (x :: b) = (if is_pen i s x then 1 else 0) + num i s b.
Proof. intros. unfold num. cbn. destruct (is_pen i s x); reflexivity. Qed.
Lemma num_perm : forall i s a b, Permutation a b -> num i s a = num i s b.
Proof.
  intros i s a b H. induction H; rewrite ?num_cons; try lia; reflexivity.
Qed.
Lemma num_in : forall i s q l, In (i, s, q) l -> 1 <= num i s l.
Proof.
  intros i s q l H. induction l as [|x l IH]; [contradiction|]. rewrite num_cons.
  destruct H as [->|H]; [|specialize (IH H); lia].
  unfold is_pen. cbn. rewrite Nat.eqb_refl. destruct s; cbn; lia.
Qed.
Lemma in_num : forall i s l, 1 <= num i s l -> exists q, In (i, s, q) l.
Proof.
  intros i s l. induction l as [|[[k t] q] l IH]; intros H; [cbn in H; lia|]. rewrite num_cons in H.
  unfold is_pen in H. cbn in H. destruct (Nat.eqb_spec k i).
  - subst k. destruct (same_side t s) eqn:E.
    + exists q. left. destruct t, s; try discriminate E; reflexivity.
    + destruct (IH H) as [q' Hq]. exists q'. right. exact Hq.
  - destruct (IH H) as [q' Hq]. exists q'. right. exact Hq.
Qed.
Lemma pen_hit : forall i s q, is_pen i s (i, s, q) = true.
Proof. intros i s q. unfold is_pen. cbn. rewrite Nat.eqb_refl. destruct s; reflexivity. Qed.
Lemma pen_flip : forall i s q, is_pen i (flip s) (i, s, q) = false.
Proof. intros i s q. unfold is_pen. cbn. rewrite Nat.eqb_refl. destruct s; reflexivity. Qed.
Lemma pen_other : forall i k s t q, k <> i -> is_pen i s (k, t, q) = false.
Proof. intros i k s t q H. unfold is_pen. cbn. destruct (Nat.eqb_spec k i); [contradiction|reflexivity]. Qed.
Lemma side_cases : forall s t : side, t = s \/ t = flip s.
Proof. intros [] []; auto. Qed.

(** ** The invariant *)
Definition cell (p q : pt) (c : nat) (r : option (list pt)) : nat :=
  match r with
  | None => 0
  | Some r => times p q (line_sides r) +
              match c with O => times p q [(last r nowhere, hd nowhere r)] | _ => 0 end
  end.
Definition tally (p q : pt) (l : list pen) (o : outs) : nat :=
  total (fun i => cell p q (num i LeftSide l) (nth i o None)) (length o).
Record inv (l : list pen) (o : outs) (ps : list (pt * pt)) : Prop := Inv {
  inv_num : forall i, num i LeftSide l = num i RightSide l /\ num i LeftSide l <= 1;
  inv_tip : forall i s q, In (i, s, q) l -> exists r, nth i o None = Some r /\ tip s r = q;
  inv_ne : forall i r, nth i o None = Some r -> r <> [];
  inv_sum : forall p q, p <> q -> times p q ps = tally p q l o }.

Lemma inv_perm : forall l l' o ps, Permutation l l' -> inv l o ps -> inv l' o ps.
Proof.
  intros l l' o ps H [H1 H2 H3 H4]. constructor.
  - intros i. rewrite <- (num_perm i LeftSide l l' H), <- (num_perm i RightSide l l' H). apply H1.
  - intros i s q HI. apply H2. apply (Permutation_in _ (Permutation_sym H) HI).
  - exact H3.
  - intros p q N. rewrite (H4 p q N). unfold tally. apply total_ext. intros i _.
    rewrite (num_perm i _ l l' H). reflexivity.
Qed.
Lemma inv_pieces : forall l o ps ps', (forall p q, p <> q -> times p q ps' = times p q ps) -> inv l o ps -> inv l o ps'.
Proof.
  intros l o ps ps' H [H1 H2 H3 H4]. constructor; auto. intros p q N. rewrite (H p q N). auto.
Qed.

Lemma put_length : forall o i r, length (put o i r) = length o.
Proof. induction o as [|x o IH]; intros [|i] r; cbn; auto. Qed.
Lemma put_same : forall o i r, i < length o -> nth i (put o i r) None = r.
Proof. induction o as [|x o IH]; intros [|i] r H; cbn in *; try lia; auto. apply IH. lia. Qed.
Lemma put_other : forall o i k r, k <> i -> nth k (put o i r) None = nth k o None.
Proof. induction o as [|x o IH]; intros [|i] [|k] r H; cbn; auto; try lia. Qed.
Lemma nth_some_lt : forall (o : outs) i r, nth i o None = Some r -> i < length o.
Proof.
  intros o i r H. destruct (Nat.lt_ge_cases i (length o)); [assumption|].
  rewrite nth_overflow in H by assumption. discriminate.
Qed.

Ltac nlia := cbv iota in *; lia.
Lemma other_end : forall i s q l o ps, inv ((i, s, q) :: l) o ps ->
  num i s l = 0 /\ num i (flip s) l = 1.
Proof.
  intros i s q l o ps H. destruct (inv_num _ _ _ H i) as [E L]. repeat rewrite num_cons in E; repeat rewrite num_cons in L.
  pose proof (pen_hit i s q) as A. pose proof (pen_flip i s q) as B.
  destruct s; cbn [flip] in *; rewrite ?A, ?B in E; rewrite ?A, ?B in L; nlia.
Qed.

(** Drawing a line on. *)
Definition extend (s : side) (p : pt) (r : list pt) : list pt :=
  match s with LeftSide => p :: r | RightSide => r ++ [p] end.
Definition extended (o : outs) (i : nat) (s : side) (p : pt) (r : list pt) : outs :=
  if pt_eqb p (tip s r) then o else put o i (Some (extend s p r)).
Lemma extend_line : forall a b s p r, r <> [] ->
  times a b (line_sides (extend s p r)) = times a b [(tip s r, p)] + times a b (line_sides r).
Proof.
  intros a b [] p r H; cbn [extend tip].
  - destruct r as [|x r]; [contradiction|].
    change (line_sides (p :: x :: r)) with ((p, x) :: line_sides (x :: r)).
    rewrite times_cons, times_sym. reflexivity.
  - rewrite (line_app r [p] nowhere) by (auto; discriminate). rewrite times_app.
    change (line_sides [p]) with (@nil (pt * pt)). cbn [hd]. nlia.
Qed.
Lemma extend_tip : forall s p r, tip s (extend s p r) = p.
Proof. intros [] p r; cbn [extend tip]; [reflexivity|]. rewrite last_app_ne; [reflexivity|discriminate]. Qed.
Lemma extend_flip : forall s p r, r <> [] -> tip (flip s) (extend s p r) = tip (flip s) r.
Proof. intros [] p [|x r] H; try contradiction; reflexivity. Qed.

Lemma inv_draw : forall i s q l o ps p, inv ((i, s, q) :: l) o ps ->
  exists r, nth i o None = Some r /\ r <> [] /\
    inv ((i, s, p) :: l) (extended o i s p r) ((q, p) :: ps).
Proof.
  intros i s q l o ps p H.
  destruct (inv_tip _ _ _ H i s q (or_introl eq_refl)) as (r & HR & HT).
  pose proof (inv_ne _ _ _ H i r HR) as NE. exists r. split; [exact HR|]. split; [exact NE|].
  destruct (other_end _ _ _ _ _ _ H) as [N0 N1].
  unfold extended. rewrite HT. destruct (pt_eqb_spec p q) as [->|NQ].
  - apply (inv_pieces _ _ ps); [|exact H]. intros a b N. rewrite times_cons, (times_same a b q N). reflexivity.
  - pose proof (nth_some_lt _ _ _ HR) as HL.
    assert (HN : forall k t, num k t ((i, s, p) :: l) = num k t ((i, s, q) :: l)).
    { intros. rewrite !num_cons. reflexivity. }
    constructor.
    + intros k. rewrite !HN. apply (inv_num _ _ _ H).
    + intros k t z [E|HI].
      * injection E as <- <- <-. exists (extend s p r). rewrite put_same by exact HL.
        split; [reflexivity|apply extend_tip].
      * destruct (Nat.eq_dec k i) as [->|NK].
        -- assert (t = flip s) as ->.
           { destruct (side_cases s t) as [->|E]; [|exact E].
             pose proof (num_in _ _ _ _ HI). nlia. }
           exists (extend s p r). rewrite put_same by exact HL. split; [reflexivity|].
           rewrite extend_flip by exact NE.
           destruct (inv_tip _ _ _ H i (flip s) z (or_intror HI)) as (r' & HR' & HT').
           rewrite HR in HR'. injection HR' as <-. exact HT'.
        -- rewrite put_other by exact NK. apply (inv_tip _ _ _ H). right. exact HI.
    + intros k r'. destruct (Nat.eq_dec k i) as [->|NK].
      * rewrite put_same by exact HL. intros E. injection E as <-. destruct s; cbn; [discriminate|].
        destruct r; discriminate.
      * rewrite put_other by exact NK. apply (inv_ne _ _ _ H).
    + intros a b N. rewrite times_cons, (inv_sum _ _ _ H a b N). unfold tally. rewrite put_length.
      pose proof (total_change
        (fun k => cell a b (num k LeftSide ((i, s, q) :: l)) (nth k o None))
        (fun k => cell a b (num k LeftSide ((i, s, p) :: l)) (nth k (put o i (Some (extend s p r))) None))
        i (length o) HL) as HT2.
      cbv beta in HT2. rewrite put_same in HT2 by exact HL. rewrite HR in HT2.
      assert (HC : num i LeftSide ((i, s, q) :: l) = 1).
      { rewrite num_cons. destruct s; cbn [flip] in *; [rewrite pen_hit; lia|].
        change (is_pen i LeftSide (i, RightSide, q)) with (is_pen i (flip RightSide) (i, RightSide, q)).
        rewrite pen_flip. nlia. }
      rewrite HN, HC in HT2. cbn [cell] in HT2. rewrite extend_line in HT2 by exact NE. rewrite HT in HT2.
      specialize (HT2 (fun k NK => ltac:(rewrite HN, put_other by exact NK; reflexivity))).
      nlia.
Qed.

(** A new line. *)
Lemma inv_fresh : forall l o ps k t, inv l o ps -> length o <= k -> num k t l = 0.
Proof.
  intros l o ps k t H L. destruct (num k t l) eqn:E; [reflexivity|].
  destruct (in_num k t l) as [q HI]; [nlia|]. destruct (inv_tip _ _ _ H _ _ _ HI) as (r & HR & _).
  apply nth_some_lt in HR. nlia.
Qed.
Lemma inv_open : forall l o ps p, inv l o ps ->
  inv ((length o, LeftSide, p) :: (length o, RightSide, p) :: l) (o ++ [Some [p]]) ps.
Proof.
  intros l o ps p H. set (n := length o).
  assert (HN : forall i s, num i s ((n, LeftSide, p) :: (n, RightSide, p) :: l) =
                 if Nat.eqb i n then 1 else num i s l).
  { intros i s. rewrite !num_cons. destruct (Nat.eqb_spec i n) as [->|N].
    - unfold is_pen. cbn. rewrite Nat.eqb_refl. rewrite (inv_fresh l o ps n s H) by (unfold n; nlia).
      destruct s; reflexivity.
    - rewrite !pen_other by auto. reflexivity. }
  constructor.
  - intros i. rewrite !HN. destruct (Nat.eqb i n); [nlia|]. apply (inv_num _ _ _ H).
  - intros i s q HI. destruct HI as [E|[E|HI]].
    + injection E as <- <- <-. exists [p]. rewrite app_nth2 by (unfold n; nlia). unfold n.
      rewrite Nat.sub_diag. split; reflexivity.
    + injection E as <- <- <-. exists [p]. rewrite app_nth2 by (unfold n; nlia). unfold n.
      rewrite Nat.sub_diag. split; reflexivity.
    + destruct (inv_tip _ _ _ H i s q HI) as (r & HR & HT). exists r.
      rewrite app_nth1 by (apply (nth_some_lt _ _ _ HR)). auto.
  - intros i r HR. destruct (Nat.lt_ge_cases i (length o)) as [L|L].
    + rewrite app_nth1 in HR by exact L. apply (inv_ne _ _ _ H i r HR).
    + rewrite app_nth2 in HR by exact L. destruct (i - length o) as [|m]; cbn in HR.
      * injection HR as <-. discriminate.
      * destruct m; discriminate.
  - intros a b N. rewrite (inv_sum _ _ _ H a b N). unfold tally. rewrite app_length. cbn [length].
    rewrite Nat.add_1_r. cbn [total]. rewrite HN. fold n. rewrite Nat.eqb_refl.
    rewrite app_nth2 by (unfold n; nlia). replace (n - length o) with 0 by (unfold n; nlia).
    change (cell a b 1 (nth 0 [Some [p]] None)) with 0. rewrite Nat.add_0_r. apply total_ext. intros i Hi. rewrite HN.
    destruct (Nat.eqb_spec i n); [nlia|]. rewrite app_nth1 by exact Hi. reflexivity.
Qed.

(** The two ends of one line meet. *)
Lemma inv_close : forall i s1 q1 s2 q2 l o ps, inv ((i, s1, q1) :: (i, s2, q2) :: l) o ps ->
  inv l o ((q2, q1) :: ps).
Proof.
  intros i s1 q1 s2 q2 l o ps H.
  destruct (other_end _ _ _ _ _ _ H) as [N0 N1].
  assert (s2 = flip s1) as ->.
  { destruct (side_cases s1 s2) as [->|E]; [|exact E]. rewrite num_cons, pen_hit in N0. nlia. }
  rewrite num_cons in N0, N1. rewrite pen_hit in N1.
  assert (Z1 : num i s1 l = 0) by nlia. assert (Z2 : num i (flip s1) l = 0) by nlia. clear N0 N1.
  assert (ZA : forall t, num i t l = 0) by (intros t; destruct (side_cases s1 t) as [-> | ->]; assumption).
  assert (HN : forall k t, k <> i -> num k t ((i, s1, q1) :: (i, flip s1, q2) :: l) = num k t l).
  { intros k t N. rewrite !num_cons, !pen_other by auto. reflexivity. }
  destruct (inv_tip _ _ _ H i s1 q1 (or_introl eq_refl)) as (r & HR & HT1).
  destruct (inv_tip _ _ _ H i (flip s1) q2 (or_intror (or_introl eq_refl))) as (r' & HR' & HT2).
  rewrite HR in HR'. injection HR' as <-.
  constructor.
  - intros k. destruct (Nat.eq_dec k i) as [->|N]; [rewrite !ZA; lia|].
    rewrite <- !(HN k) by exact N. apply (inv_num _ _ _ H).
  - intros k t z HI. apply (inv_tip _ _ _ H). right. right. exact HI.
  - apply (inv_ne _ _ _ H).
  - intros a b N. rewrite times_cons, (inv_sum _ _ _ H a b N). unfold tally.
    pose proof (total_change
      (fun k => cell a b (num k LeftSide ((i, s1, q1) :: (i, flip s1, q2) :: l)) (nth k o None))
      (fun k => cell a b (num k LeftSide l) (nth k o None))
      i (length o) (nth_some_lt _ _ _ HR)) as HS.
    cbv beta in HS. rewrite HR, ZA in HS.
    assert (HC : num i LeftSide ((i, s1, q1) :: (i, flip s1, q2) :: l) = 1).
    { rewrite !num_cons, ZA. unfold is_pen. cbn. rewrite Nat.eqb_refl. destruct s1; reflexivity. }
    rewrite HC in HS. cbn [cell] in HS.
    specialize (HS (fun k NK => ltac:(rewrite HN by exact NK; reflexivity))).
    assert (HQ : times a b [(last r nowhere, hd nowhere r)] = times a b [(q2, q1)]).
    { destruct s1; cbn [tip flip] in HT1, HT2; rewrite HT1, HT2; [reflexivity|apply times_sym]. }
    nlia.
Qed.

(** The ends of two lines meet. *)
Lemma joined_line : forall a b s1 s2 r1 r2, r1 <> [] -> r2 <> [] ->
  times a b (line_sides (joined s1 s2 r1 r2)) =
  times a b (line_sides r1) + times a b (line_sides r2) + times a b [(tip s2 r2, tip s1 r1)].
Proof.
  intros a b s1 s2 r1 r2 H1 H2. pose proof (rev_ne r2 H2) as H3.
  destruct s1, s2; cbn [joined tip].
  - rewrite line_times by assumption. rewrite line_rev, last_rev. lia.
  - rewrite line_times by assumption. lia.
  - rewrite line_times by assumption. rewrite (times_sym a b (last r1 _)). lia.
  - rewrite line_times by assumption. rewrite line_rev, hd_rev, (times_sym a b (last r1 _)). lia.
Qed.
Lemma joined_tip : forall s1 s2 r1 r2, r1 <> [] -> r2 <> [] ->
  tip s1 (joined s1 s2 r1 r2) = tip (flip s2) r2 /\ tip (flip s1) (joined s1 s2 r1 r2) = tip (flip s1) r1.
Proof.
  intros s1 s2 r1 r2 H1 H2. pose proof (rev_ne r2 H2) as H3.
  destruct s1, s2; cbn [joined tip flip]; rewrite ?last_app_ne, ?hd_app_ne by assumption;
    rewrite ?hd_rev, ?last_rev; auto.
Qed.
Lemma joined_ne : forall s1 s2 r1 r2, r1 <> [] -> joined s1 s2 r1 r2 <> [].
Proof.
  intros s1 s2 r1 r2 H E. destruct s1, s2; cbn in E; apply app_eq_nil in E; destruct E; contradiction.
Qed.

Lemma inv_join : forall i s1 q1 k s2 q2 s3 q3 l o ps, i <> k ->
  inv ((i, s1, q1) :: (k, s2, q2) :: (k, s3, q3) :: l) o ps ->
  inv ((i, s1, q3) :: l) (put (put o i (Some (joined s1 s2 (points o i) (points o k)))) k None)
      ((q2, q1) :: ps).
Proof.
  intros i s1 q1 k s2 q2 s3 q3 l o ps NIK H.
  destruct (other_end _ _ _ _ _ _ H) as [N0 N1]. repeat rewrite num_cons in N0; repeat rewrite num_cons in N1. repeat rewrite pen_other in N0 by auto; repeat rewrite pen_other in N1 by auto.
  cbn [Nat.add] in N0, N1.
  assert (HP : Permutation ((i, s1, q1) :: (k, s2, q2) :: (k, s3, q3) :: l)
                           ((k, s2, q2) :: (i, s1, q1) :: (k, s3, q3) :: l)) by apply perm_swap.
  pose proof (inv_perm _ _ _ _ HP H) as H'.
  destruct (other_end _ _ _ _ _ _ H') as [M0 M1]. repeat rewrite num_cons in M0; repeat rewrite num_cons in M1.
  rewrite (pen_other k i) in M0, M1 by auto. cbn [Nat.add] in M0, M1.
  assert (s3 = flip s2) as ->.
  { destruct (side_cases s2 s3) as [->|E]; [|exact E]. rewrite pen_hit in M0. nlia. }
  rewrite pen_hit in M1.
  assert (ZA : forall t, num k t l = 0) by (intros t; destruct (side_cases s2 t) as [-> | ->]; nlia).
  destruct (inv_tip _ _ _ H i s1 q1 (or_introl eq_refl)) as (r1 & R1 & T1).
  destruct (inv_tip _ _ _ H k s2 q2 (or_intror (or_introl eq_refl))) as (r2 & R2 & T2).
  destruct (inv_tip _ _ _ H k (flip s2) q3 (or_intror (or_intror (or_introl eq_refl)))) as (r2' & R2' & T3).
  rewrite R2 in R2'. injection R2' as <-.
  pose proof (inv_ne _ _ _ H i r1 R1) as NE1. pose proof (inv_ne _ _ _ H k r2 R2) as NE2.
  assert (E1 : points o i = r1) by (unfold points; rewrite R1; reflexivity).
  assert (E2 : points o k = r2) by (unfold points; rewrite R2; reflexivity).
  rewrite E1, E2. set (r := joined s1 s2 r1 r2).
  pose proof (nth_some_lt _ _ _ R1) as L1. pose proof (nth_some_lt _ _ _ R2) as L2.
  destruct (joined_tip s1 s2 r1 r2 NE1 NE2) as [J1 J2]. fold r in J1, J2.
  assert (GI : nth i (put (put o i (Some r)) k None) None = Some r).
  { rewrite put_other by exact NIK. apply put_same. exact L1. }
  assert (GK : nth k (put (put o i (Some r)) k None) None = None).
  { apply put_same. rewrite put_length. exact L2. }
  assert (GO : forall m, m <> i -> m <> k -> nth m (put (put o i (Some r)) k None) None = nth m o None).
  { intros m A B. rewrite put_other by exact B. apply put_other. exact A. }
  assert (HN : forall m t, m <> k -> num m t ((i, s1, q3) :: l) =
                 num m t ((i, s1, q1) :: (k, s2, q2) :: (k, flip s2, q3) :: l)).
  { intros m t N. rewrite !num_cons, !(pen_other m k) by auto. reflexivity. }
  assert (HK : forall t, num k t ((i, s1, q3) :: l) = 0).
  { intros t. rewrite num_cons, pen_other by exact NIK. apply ZA. }
  constructor.
  - intros m. destruct (Nat.eq_dec m k) as [->|N]; [rewrite !HK; lia|].
    rewrite !HN by exact N. apply (inv_num _ _ _ H).
  - intros m t z [E|HI].
    + injection E as <- <- <-. exists r. split; [exact GI|]. rewrite J1. exact T3.
    + destruct (Nat.eq_dec m k) as [->|NK].
      { pose proof (num_in _ _ _ _ HI). rewrite ZA in *. nlia. }
      destruct (Nat.eq_dec m i) as [->|NI].
      * assert (t = flip s1) as ->.
        { destruct (side_cases s1 t) as [->|E]; [|exact E]. pose proof (num_in _ _ _ _ HI). nlia. }
        exists r. split; [exact GI|]. rewrite J2.
        destruct (inv_tip _ _ _ H i (flip s1) z (or_intror (or_intror (or_intror HI)))) as (r' & HR' & HT').
        rewrite R1 in HR'. injection HR' as <-. exact HT'.
      * rewrite GO by assumption. apply (inv_tip _ _ _ H). right. right. right. exact HI.
  - intros m r' HR. destruct (Nat.eq_dec m k) as [->|NK]; [rewrite GK in HR; discriminate|].
    destruct (Nat.eq_dec m i) as [->|NI].
    + rewrite GI in HR. injection HR as <-. apply joined_ne. exact NE1.
    + rewrite GO in HR by assumption. apply (inv_ne _ _ _ H m r' HR).
  - intros a b N. rewrite times_cons, (inv_sum _ _ _ H a b N). unfold tally. rewrite !put_length.
    set (f := fun m => cell a b (num m LeftSide ((i, s1, q1) :: (k, s2, q2) :: (k, flip s2, q3) :: l)) (nth m o None)).
    set (g := fun m => cell a b (num m LeftSide ((i, s1, q3) :: l)) (nth m (put (put o i (Some r)) k None) None)).
    set (h := fun m => if Nat.eqb m k then g m else f m).
    assert (CI : num i LeftSide ((i, s1, q1) :: (k, s2, q2) :: (k, flip s2, q3) :: l) = 1).
    { rewrite num_cons, (num_cons i LeftSide (k, s2, q2)), (num_cons i LeftSide (k, flip s2, q3)),
        (pen_other i k LeftSide s2), (pen_other i k LeftSide (flip s2)) by auto.
      destruct s1; cbn [flip] in *; [rewrite pen_hit; lia|].
      change (is_pen i LeftSide (i, RightSide, q1)) with (is_pen i (flip RightSide) (i, RightSide, q1)).
      rewrite pen_flip. nlia. }
    assert (CK : num k LeftSide ((i, s1, q1) :: (k, s2, q2) :: (k, flip s2, q3) :: l) = 1).
    { rewrite !num_cons, ZA, (pen_other k i) by auto. unfold is_pen. cbn. rewrite Nat.eqb_refl.
      destruct s2; reflexivity. }
    assert (FI : f i = times a b (line_sides r1)).
    { unfold f. rewrite CI, R1. cbn [cell]. nlia. }
    assert (FK : f k = times a b (line_sides r2)).
    { unfold f. rewrite CK, R2. cbn [cell]. nlia. }
    assert (GGI : g i = times a b (line_sides r)).
    { unfold g. rewrite GI, HN, CI by exact NIK. cbn [cell]. nlia. }
    assert (GGK : g k = 0) by (unfold g; rewrite GK; reflexivity).
    assert (HKK : h k = g k) by (unfold h; rewrite Nat.eqb_refl; reflexivity).
    assert (HII : h i = f i) by (unfold h; destruct (Nat.eqb_spec i k); [contradiction|reflexivity]).
    pose proof (total_change f h k (length o) L2) as S1.
    pose proof (total_change h g i (length o) L1) as S2.
    specialize (S1 (fun m Nm => ltac:(unfold h; destruct (Nat.eqb_spec m k); [contradiction|reflexivity]))).
    assert (S2' : forall m, m <> i -> h m = g m).
    { intros m Nm. unfold h. destruct (Nat.eqb_spec m k) as [->|Nk]; [reflexivity|].
      unfold f, g. rewrite HN, GO by assumption. reflexivity. }
    specialize (S2 S2'). pose proof (joined_line a b s1 s2 r1 r2 NE1 NE2) as JL. fold r in JL.
    rewrite T1, T2 in JL. nlia.
Qed.

(** ** Edges with the points where their pieces begin *)
Definition held (x : edge * pt) : list pen :=
  match out (fst x) with Some i => [(i, hand (fst x), snd x)] | None => [] end.
Definition pens (l : list (edge * pt)) : list pen := flat_map held l.
Definition mk (x : edge * pt) : strand := Strand (poly (fst x)) (delta (fst x)) (snd x).
Lemma pens_cons : forall x l, pens (x :: l) = held x ++ pens l.
Proof. reflexivity. Qed.
Lemma pens_app : forall a b, pens (a ++ b) = pens a ++ pens b.
Proof. intros. apply flat_map_app. Qed.

Lemma add_out_extended : forall o e p i r, out e = Some i -> nth i o None = Some r ->
  add_out o e p = (extended o i (hand e) p r, e).
Proof. intros o e p i r HO HR. unfold add_out, extended. rewrite HO, HR. destruct (hand e); reflexivity. Qed.

(** [relabel] on pairs. *)
Lemma relabel_split : forall h l i, (exists t q, In (i, t, q) (pens l)) -> obsolete h = i ->
  exists l1 x l2, l = l1 ++ x :: l2 /\ out (fst x) = Some i /\
    relabel h (map fst l) = map fst (l1 ++ (set_hand (set_out (fst x) (Some (ok h))) (new_side h), snd x) :: l2).
Proof.
  intros h l i HE <-. induction l as [|[e z] l IH].
  - destruct HE as (t & q & []).
  - cbn [map relabel fst]. destruct (out e) as [k|] eqn:E.
    + destruct (Nat.eqb_spec k (obsolete h)) as [->|N].
      * exists [], (e, z), l. cbn. auto.
      * destruct HE as (t & q & HI). rewrite pens_cons in HI; unfold held in HI; cbn [fst snd] in HI; rewrite E in HI; cbn [app] in HI.
        destruct HI as [HI|HI]; [congruence|].
        destruct IH as (l1 & x & l2 & H1 & H2 & H3); [eauto|].
        exists ((e, z) :: l1), x, l2. subst l. rewrite H3. auto.
    + destruct HE as (t & q & HI). rewrite pens_cons in HI; unfold held in HI; cbn [fst snd] in HI; rewrite E in HI; cbn [app] in HI.
      destruct IH as (l1 & x & l2 & H1 & H2 & H3); [eauto|].
      exists ((e, z) :: l1), x, l2. subst l. rewrite H3. auto.
Qed.

Lemma append_inv : forall o e1 e2 i k q1 q2 l ps, i <> k ->
  inv ((i, hand e1, q1) :: (k, hand e2, q2) :: pens l) o ps ->
  let '(o', h) := append o e1 e2 i k in
  exists l', map fst l' = relabel h (map fst l) /\ map mk l' = map mk l /\ inv (pens l') o' ((q2, q1) :: ps).
Proof.
  intros o e1 e2 i k q1 q2 l ps N H. unfold append.
  set (h := Handover k i (hand e1)).
  assert (HP : Permutation ((i, hand e1, q1) :: (k, hand e2, q2) :: pens l)
                           ((k, hand e2, q2) :: (i, hand e1, q1) :: pens l)) by apply perm_swap.
  destruct (other_end _ _ _ _ _ _ (inv_perm _ _ _ _ HP H)) as [_ M1].
  rewrite num_cons, pen_other in M1 by exact N. cbn [Nat.add] in M1.
  destruct (in_num k (flip (hand e2)) (pens l)) as [z HI]; [nlia|].
  assert (HX : exists t q, In (k, t, q) (pens l)) by eauto.
  destruct (relabel_split h l k HX eq_refl) as (l1 & x & l2 & E & EO & ER).
  eexists. split; [symmetry; exact ER|]. split.
  - subst l. rewrite !map_app. reflexivity.
  - subst l. rewrite pens_app, pens_cons in H |- *. unfold held in H |- *. rewrite EO in H. cbn [fst snd set_hand set_out out hand ok new_side h app] in *.
    apply (inv_perm ((i, hand e1, snd x) :: pens l1 ++ pens l2)).
    { apply Permutation_middle. }
    apply (inv_join i (hand e1) q1 k (hand e2) q2 (hand (fst x)) (snd x)); [exact N|].
    refine (inv_perm _ _ _ _ _ H). apply perm_skip, perm_skip. symmetry. apply Permutation_middle.
Qed.

Lemma local_max_inv : forall o e1 e2 q1 q2 p l ps i k, out e1 = Some i -> out e2 = Some k ->
  inv ((i, hand e1, q1) :: (k, hand e2, q2) :: pens l) o ps ->
  let '(o', _, _, h) := local_max o e1 e2 p in
  exists l', map fst l' = handing h (map fst l) /\ map mk l' = map mk l /\
    inv (pens l') o' ((q1, p) :: (q2, p) :: ps).
Proof.
  intros o e1 e2 q1 q2 p l ps i k O1 O2 H. unfold local_max.
  destruct (inv_draw i (hand e1) q1 _ o ps p H) as (r & HR & _ & HI).
  rewrite (add_out_extended o e1 p i r O1 HR). rewrite O1, O2.
  destruct (Nat.eqb_spec i k) as [->|N].
  - exists l. split; [reflexivity|]. split; [reflexivity|].
    apply inv_close in HI. refine (inv_pieces _ _ _ _ _ HI). intros a b NN.
    rewrite (times_cons a b (q1, p)), (times_cons a b (q2, p)), (times_cons a b (q2, p) ((q1, p) :: ps)),
      (times_cons a b (q1, p) ps). nlia.
  - destruct (Nat.ltb i k).
    + pose proof (append_inv (extended o i (hand e1) p r) e1 e2 i k p q2 l _ N HI) as HA.
      destruct (append (extended o i (hand e1) p r) e1 e2 i k) as [o' h].
      destruct HA as (l' & A1 & A2 & A3). exists l'. split; [exact A1|]. split; [exact A2|].
      refine (inv_pieces _ _ _ _ _ A3). intros a b NN.
      rewrite (times_cons a b (q1, p)), (times_cons a b (q2, p)), (times_cons a b (q2, p) ((q1, p) :: ps)),
        (times_cons a b (q1, p) ps). nlia.
    + assert (HI' : inv ((k, hand e2, q2) :: (i, hand e1, p) :: pens l) (extended o i (hand e1) p r) ((q1, p) :: ps)).
      { refine (inv_perm _ _ _ _ _ HI). apply perm_swap. }
      pose proof (append_inv (extended o i (hand e1) p r) e2 e1 k i q2 p l _ (not_eq_sym N) HI') as HA.
      destruct (append (extended o i (hand e1) p r) e2 e1 k i) as [o' h].
      destruct HA as (l' & A1 & A2 & A3). exists l'. split; [exact A1|]. split; [exact A2|].
      refine (inv_pieces _ _ _ _ _ A3). intros a b NN.
      rewrite (times_cons a b (q1, p)), (times_cons a b (q2, p)), (times_cons a b (p, q2)),
        (times_cons a b (q1, p) ps), (times_sym a b p q2). nlia.
Qed.
