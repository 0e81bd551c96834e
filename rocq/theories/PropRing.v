(** C90: the clean-up of outlines, before and after a boolean operation, takes away vertices that
    are repeated or in line with their neighbours, all of them, and changes nothing else. *)

From Coq Require Import Reals Lra List ZArith Bool Arith Lia Permutation.
From Verif Require Import SpecEngine LinkHoles SpecLink PropEngine PropLink Ring SpecRing.
Import ListNotations.
Open Scope Z_scope.

(** ** Sums that do not see vertices in line *)
Record blind (f : zpt * zpt -> Z) : Prop := {
  blind_odd : odd_on f;
  blind_line : forall a b c, turn a b c = 0 -> f (a, b) + f (b, c) = f (a, c) }.

Lemma sign_pos : forall k m x y : R, (k * x = m * y -> 0 < k -> 0 < m -> 0 < x -> 0 < y)%R.
Proof. intros k m x y E K M X. assert (0 < k * x)%R by (apply Rmult_lt_0_compat; assumption). apply (Rmult_lt_reg_l m); [exact M|]. lra. Qed.
Lemma sign_neg : forall k m x y : R, (k * x = m * y -> 0 < k -> 0 < m -> x < 0 -> y < 0)%R.
Proof. intros k m x y E K M X. assert (0 < k * (- x))%R by (apply Rmult_lt_0_compat; lra). apply (Rmult_lt_reg_l m); [exact M|]. lra. Qed.
Lemma passes_split : forall q a b c, turn a b c = 0 -> passes q (a, b) + passes q (b, c) = passes q (a, c).
Proof.
  intros q a b c H. unfold turn in H.
  assert (HR : ((IZR (fst b) - IZR (fst a)) * (IZR (snd c) - IZR (snd b)) -
                (IZR (fst c) - IZR (fst b)) * (IZR (snd b) - IZR (snd a)) = 0)%R).
  { rewrite <- !minus_IZR, <- !mult_IZR, <- minus_IZR. f_equal. exact H. }
  clear H. unfold passes.
  assert (E1 : ((IZR (snd b) - IZR (snd a)) * side (b, c) q = (IZR (snd c) - IZR (snd b)) * side (a, b) q)%R).
  { unfold side. cbn [fst snd]. apply Rminus_diag_uniq.
    match goal with |- ?d = 0%R => replace d with (- (snd q - IZR (snd b)) * ((IZR (fst b) - IZR (fst a)) * (IZR (snd c) - IZR (snd b)) -
                (IZR (fst c) - IZR (fst b)) * (IZR (snd b) - IZR (snd a))))%R by ring end.
    rewrite HR. ring. }
  assert (E2 : (side (a, c) q = side (a, b) q + side (b, c) q)%R).
  { unfold side. cbn [fst snd]. lra || nra. }
  clear HR. cbn [fst snd]. generalize dependent (side (a, c) q). generalize dependent (side (a, b) q). generalize dependent (side (b, c) q).
  generalize (IZR (snd a)) (IZR (snd b)) (IZR (snd c)) (snd q). clear. intros ay by_ cy y sbc sab E1 sac E2.
  repeat match goal with |- context [Rle_dec ?x ?y] => destruct (Rle_dec x y) end;
  repeat match goal with |- context [Rlt_dec y ?z] => destruct (Rlt_dec y z) end; try lra;
  repeat match goal with |- context [Rlt_dec ?x ?y] => destruct (Rlt_dec x y) end; try reflexivity; exfalso.
  all: assert (E3 : ((cy - by_) * sac = (cy - ay) * sbc)%R) by (rewrite E2; lra).
  all: assert (E4 : ((by_ - ay) * sac = (cy - ay) * sab)%R) by (rewrite E2; lra).
  all: assert (N3 : ((by_ - cy) * sac = (ay - cy) * sbc)%R) by lra.
  all: assert (N4 : ((ay - by_) * sac = (ay - cy) * sab)%R) by lra.
  all: assert (N1 : ((by_ - ay) * sbc = (by_ - cy) * - sab)%R) by lra.
  all: assert (N2 : ((ay - by_) * sbc = (cy - by_) * - sab)%R) by lra.
  all: assert (P1 : ((ay - by_) * sbc = (by_ - cy) * sab)%R) by lra.
  all: clear E2; repeat match goal with H : ~ (_ <= _)%R |- _ => apply Rnot_le_lt in H | H : ~ (_ < _)%R |- _ => apply Rnot_lt_le in H end.
  all: try solve [match goal with E : (?k * ?x = ?m * ?y)%R |- _ =>
    first [assert (0 < y)%R by (apply (sign_pos k m x y E); lra); lra
          |assert (y < 0)%R by (apply (sign_neg k m x y E); lra); lra
          |assert (0 < x)%R by (apply (sign_pos m k y x (eq_sym E)); lra); lra
          |assert (x < 0)%R by (apply (sign_neg m k y x (eq_sym E)); lra); lra] end].
Qed.
Lemma passes_blind : forall q, blind (passes q).
Proof. intros q. split; [apply passes_odd|apply passes_split]. Qed.
Lemma cross2_blind : blind cross2.
Proof. split; [apply cross2_odd|]. intros a b c H. unfold turn, cross2 in *. cbn [fst snd]. lia. Qed.
Lemma blind_same : forall f a, blind f -> f (a, a) = 0.
Proof. intros f a H. pose proof (blind_odd f H a a). lia. Qed.

(** ** Sums around a ring *)
Fixpoint path_sum (f : zpt * zpt -> Z) (e : zpt) (l : list zpt) : Z :=
  match l with [] => 0 | n :: t => f (e, n) + path_sum f n t end.
Definition cyc (f : zpt * zpt -> Z) (l : list zpt) : Z :=
  match l with [] => 0 | e :: r => path_sum f e r + f (last r e, e) end.
Lemma last_cons : forall (A : Type) (l : list A) a d, last (a :: l) d = last l a.
Proof.
  intros A l. induction l as [|b l IH]; intros a d; [reflexivity|]. change (last (b :: l) d = last (b :: l) a).
  rewrite !IH. reflexivity.
Qed.
Lemma path_sum_app : forall f l e m, path_sum f e (l ++ m) = path_sum f e l + path_sum f (last l e) m.
Proof.
  intros f l. induction l as [|n l IH]; intros e m; [cbn; lia|]. cbn [app path_sum]. rewrite IH, last_cons. lia.
Qed.
Lemma edges_sum : forall f l, sum_over f (edges l) = cyc f l.
Proof.
  intros f [|e r]; [reflexivity|]. unfold edges, cyc.
  assert (G : forall r a z, sum_over f (combine (a :: r) (r ++ [z])) = path_sum f a r + f (last r a, z)).
  { clear. induction r as [|b r IH]; intros a z; [cbn; lia|].
    change (combine (a :: b :: r) ((b :: r) ++ [z])) with ((a, b) :: combine (b :: r) (r ++ [z])).
    rewrite sum_cons, IH, last_cons. cbn [path_sum]. lia. }
  apply G.
Qed.
Lemma cyc_rotate : forall f e n t, cyc f (n :: t ++ [e]) = cyc f (e :: n :: t).
Proof.
  intros f e n t. unfold cyc. rewrite path_sum_app, last_last, last_cons. cbn [path_sum]. lia.
Qed.
Lemma cyc_drop : forall f e n t p, blind f -> turn p e n = 0 -> cyc f (p :: n :: t) = cyc f (e :: n :: t ++ [p]).
Proof.
  intros f e n t p B H. unfold cyc. rewrite !last_cons, last_last. cbn [path_sum]. rewrite path_sum_app. cbn [path_sum].
  pose proof (blind_line f B p e n H). lia.
Qed.
Lemma cyc_same : forall f e t, blind f -> cyc f (e :: t) = cyc f (e :: e :: t).
Proof. intros f e t B. unfold cyc. rewrite last_cons. cbn [path_sum]. rewrite (blind_same f e B). lia. Qed.
Lemma cyc_two : forall f a b, blind f -> cyc f [a; b] = 0.
Proof. intros f a b B. cbn. pose proof (blind_odd f B a b). lia. Qed.
Lemma cyc_one : forall f a, blind f -> cyc f [a] = 0.
Proof. intros f a B. cbn. rewrite (blind_same f a B). reflexivity. Qed.

Lemma slopes_turn : forall p e n, slopes_equal p e n = true <-> turn p e n = 0.
Proof. intros p e n. unfold slopes_equal, turn. rewrite Z.eqb_eq. lia. Qed.
Lemma same_eq : forall p q, same p q = true <-> p = q.
Proof.
  intros [a b] [c d]. unfold same. cbn [fst snd]. rewrite andb_true_iff, !Z.eqb_eq. split; [intros [-> ->]; reflexivity|].
  intros E. injection E as -> ->. auto.
Qed.
Lemma turn_same1 : forall p n, turn p n n = 0. Proof. intros. unfold turn. lia. Qed.
Lemma turn_same2 : forall p n, turn p p n = 0. Proof. intros. unfold turn. lia. Qed.

(** ** Corners *)
Definition good (v : vertex) (others : list vertex) : Prop :=
  turn (snd (last others v)) (snd v) (snd (hd v others)) <> 0.
Definition all_good (l : list vertex) : Prop := forall u v w, l = u ++ v :: w -> good v (w ++ u).
Definition prefix_good (behind : list vertex) (e : vertex) (ahead : list vertex) : Prop :=
  forall u v w, behind = u ++ v :: w -> good v (w ++ e :: ahead ++ u).
Lemma split_last : forall (A : Type) (l : list A) e u v w, l ++ [e] = u ++ v :: w ->
  (w = [] /\ u = l /\ v = e) \/ exists w', w = w' ++ [e] /\ l = u ++ v :: w'.
Proof.
  intros A l e u v w H. destruct w as [|x w] using rev_ind.
  - left. apply app_inj_tail in H. intuition congruence.
  - right. clear IHw. exists w. rewrite app_comm_cons, app_assoc in H. apply app_inj_tail in H. intuition congruence.
Qed.
Lemma prefix_step : forall behind e n ahead, prefix_good behind e (n :: ahead) -> good e (n :: ahead ++ behind) ->
  prefix_good (behind ++ [e]) n ahead.
Proof.
  intros behind e n ahead HP HG u v w H. apply split_last in H. destruct H as [(-> & -> & ->) | (w' & -> & H)].
  - exact HG.
  - specialize (HP u v w' H). rewrite <- app_assoc. exact HP.
Qed.
Lemma prefix_end : forall behind e, prefix_good behind e [] -> good e behind -> all_good (behind ++ [e]).
Proof.
  intros behind e HP HG u v w H. apply split_last in H. destruct H as [(-> & -> & ->) | (w' & -> & H)].
  - exact HG.
  - specialize (HP u v w' H). rewrite <- app_assoc. exact HP.
Qed.
Lemma prefix_none : forall e ahead, prefix_good [] e ahead.
Proof. intros e ahead u v w H. destruct u; discriminate H. Qed.
Lemma good_of : forall e n t, t <> [] -> slopes_equal (snd (last t e)) (snd e) (snd n) = false -> good e (n :: t).
Proof.
  intros e n t H S. unfold good. rewrite last_cons. cbn [hd]. intros E. apply slopes_turn in E.
  destruct t as [|x t]; [contradiction H; reflexivity|]. rewrite last_cons in S. rewrite last_cons in E. congruence.
Qed.

Definition pts (l : list vertex) : list zpt := map snd l.
Lemma removelast_perm : forall (A : Type) (t : list A) d, t <> [] -> t = removelast t ++ [last t d].
Proof. intros A t d H. apply app_removelast_last, H. Qed.
Lemma ring_perm : forall (p n : vertex) t, Permutation (p :: n :: t) (n :: t ++ [p]).
Proof.
  intros p n t. eapply Permutation_trans; [apply perm_swap|]. apply perm_skip. apply Permutation_cons_append.
Qed.
Lemma nodup_drop : forall e l m, NoDup (map fst (e :: l)) -> Permutation m l -> NoDup (map (@fst nat zpt) m).
Proof.
  intros e l m H P. cbn [map] in H. inversion H; subst. eapply Permutation_NoDup; [|eassumption].
  apply Permutation_sym, Permutation_map, P.
Qed.
Lemma cyc_removed : forall f e n t, blind f -> t <> [] -> turn (snd (last t e)) (snd e) (snd n) = 0 ->
  cyc f (pts (last t e :: n :: removelast t)) = cyc f (pts (e :: n :: t)).
Proof.
  intros f e n t B HT H. rewrite (removelast_perm _ t e HT) at 3. unfold pts. cbn [map]. rewrite map_app. cbn [map].
  apply cyc_drop; assumption.
Qed.

Lemma prune_spec : forall steps stop e rest ahead behind,
  NoDup (map fst (e :: rest)) -> rest = ahead ++ behind -> stop = fst (hd e behind) -> prefix_good behind e ahead ->
  (length (e :: rest) * length (e :: rest) + length ahead < steps)%nat ->
  exists r, prune steps stop e rest = Some r /\ (forall f, blind f -> cyc f (pts r) = cyc f (pts (e :: rest))) /\
    incl r (e :: rest) /\ ((3 <= length r)%nat -> all_good r).
Proof.
  intros steps. induction steps as [|steps IH]; intros stop e rest ahead behind HN HR HS HP HL; [lia|].
  destruct rest as [|n t].
  { exists [e]. cbn [prune]. split; [reflexivity|]. split; [reflexivity|]. split; [apply incl_refl|]. cbn. lia. }
  cbn [prune]. destruct (same (snd e) (snd n)) eqn:ES.
  { apply same_eq in ES. destruct (IH (fst n) n t t []) as (r & E1 & E2 & E3 & E4).
    - cbn [map] in *. inversion HN; assumption.
    - symmetry. apply app_nil_r.
    - reflexivity.
    - apply prefix_none.
    - cbn [length] in *. nia.
    - exists r. split; [exact E1|]. split; [|split; [apply incl_tl, E3|exact E4]].
      intros f B. rewrite (E2 f B). unfold pts. cbn [map]. rewrite ES. apply cyc_same, B. }
  destruct t as [|x t'].
  { exists [e; n]. split; [reflexivity|]. split; [reflexivity|]. split; [apply incl_refl|]. cbn. lia. }
  cbv zeta. set (t := x :: t') in *. assert (HT : t <> []) by discriminate. clearbody t. clear x t'.
  match goal with |- context [if ?c then _ else _] => destruct c eqn:EL end.
  { apply slopes_turn in EL.
    assert (PT : Permutation (last t e :: n :: removelast t) (n :: t)).
    { rewrite (removelast_perm _ t e HT) at 3. apply ring_perm. }
    destruct (IH (fst (last t e)) (last t e) (n :: removelast t) (n :: removelast t) []) as (r & E1 & E2 & E3 & E4).
    - eapply nodup_drop; eassumption.
    - symmetry. apply app_nil_r.
    - reflexivity.
    - apply prefix_none.
    - apply Permutation_length in PT. cbn [length] in *. nia.
    - exists r. split; [exact E1|]. split; [|split; [|exact E4]].
      + intros f B. rewrite (E2 f B). apply cyc_removed; assumption.
      + intros v Hv. right. eapply Permutation_in; [exact PT|]. apply E3, Hv. }
  assert (HG : good e (n :: t)) by (apply good_of; assumption).
  destruct ahead as [|n' ahead].
  - cbn [app] in HR. rewrite <- HR in HS. cbn [hd] in HS. subst stop. rewrite Nat.eqb_refl.
    exists (n :: t ++ [e]). split; [reflexivity|]. split; [|split].
    + intros f B. unfold pts. cbn [map]. rewrite map_app. cbn [map]. apply cyc_rotate.
    + intros v [-> | Hv]; [right; left; reflexivity|]. apply in_app_or in Hv.
      destruct Hv as [Hv | [-> | []]]; [right; right; exact Hv|left; reflexivity].
    + intros _. change (n :: t ++ [e]) with ((n :: t) ++ [e]). rewrite HR in *. apply prefix_end; assumption.
  - cbn [app] in HR. injection HR as H1 H2. subst n' t.
    assert (NE : Nat.eqb (fst n) stop = false).
    { apply Nat.eqb_neq. subst stop. intros E. cbn [map] in HN. rewrite map_app in HN.
      destruct behind as [|b behind]; cbn [hd] in E.
      - inversion HN as [|? ? HI HN']. apply HI. left. exact E.
      - inversion HN as [|? ? HI HN']. inversion HN' as [|? ? HI2 HN2]. apply HI2. rewrite E. apply in_or_app. right. left. reflexivity. }
    rewrite NE. destruct (IH stop n ((ahead ++ behind) ++ [e]) ahead (behind ++ [e])) as (r & E1 & E2 & E3 & E4).
    + eapply Permutation_NoDup; [|exact HN]. apply Permutation_map. exact (ring_perm e n (ahead ++ behind)).
    + symmetry. apply app_assoc.
    + rewrite HS. destruct behind; reflexivity.
    + apply prefix_step; assumption.
    + cbn [length] in *. rewrite !app_length in *. cbn [length] in *. nia.
    + exists r. split; [exact E1|]. split; [|split; [|exact E4]].
      * intros f B. rewrite (E2 f B). unfold pts. cbn [map]. rewrite map_app. cbn [map]. apply cyc_rotate.
      * intros v Hv. apply E3 in Hv. destruct Hv as [-> | Hv]; [right; left; reflexivity|]. apply in_app_or in Hv.
        destruct Hv as [Hv | [-> | []]]; [right; right; exact Hv|left; reflexivity].
Qed.

Definition phase (ok : option nat) (pp : vertex) (rest : list vertex) (togo : nat) : Prop :=
  match ok with
  | None => togo = S (length (pp :: rest))
  | Some k =>
      (exists ahead behind, behind <> [] /\ rest = ahead ++ behind /\ k = fst (hd pp behind) /\
         prefix_good behind pp ahead /\ togo = S (length ahead)) \/
      (k = fst pp /\ all_good (pp :: rest) /\ togo = 0%nat)
  end.
Lemma tidy_spec : forall steps ok pp rest togo, NoDup (map fst (pp :: rest)) -> phase ok pp rest togo ->
  (length (pp :: rest) * length (pp :: rest) + togo < steps)%nat ->
  exists r, tidy steps ok pp rest = Some r /\ (forall f, blind f -> cyc f (pts r) = cyc f (pts (pp :: rest))) /\
    incl r (pp :: rest) /\ (r = [] \/ (3 <= length r)%nat /\ all_good r).
Proof.
  intros steps. induction steps as [|steps IH]; intros ok pp rest togo HN HP HL; [lia|].
  destruct rest as [|n [|x t']].
  { exists []. split; [reflexivity|]. split; [|split; [intros v []|left; reflexivity]].
    intros f B. symmetry. apply cyc_one, B. }
  { exists []. split; [reflexivity|]. split; [|split; [intros v []|left; reflexivity]].
    intros f B. symmetry. apply cyc_two, B. }
  cbn [tidy]. cbv zeta. set (t := x :: t') in *. assert (HT : t <> []) by discriminate.
  assert (HT1 : (1 <= length t)%nat) by (cbn; lia). clearbody t. clear x t'.
  match goal with |- context [if ?c then _ else _] => destruct c eqn:EB end.
  { assert (HT0 : turn (snd (last t pp)) (snd pp) (snd n) = 0).
    { apply orb_prop in EB. destruct EB as [EB|EB]; [apply orb_prop in EB; destruct EB as [EB|EB]|].
      - apply same_eq in EB. rewrite EB. apply turn_same1.
      - apply same_eq in EB. change (snd pp = snd (last t pp)) in EB. rewrite <- EB. apply turn_same2.
      - apply slopes_turn, EB. }
    assert (PT : Permutation (last t pp :: n :: removelast t) (n :: t)).
    { rewrite (removelast_perm _ t pp HT) at 3. apply ring_perm. }
    pose proof (Permutation_length PT) as PL.
    destruct (IH None (last t pp) (n :: removelast t) (S (length (last t pp :: n :: removelast t)))) as (r & E1 & E2 & E3 & E4).
    - eapply nodup_drop; eassumption.
    - reflexivity.
    - cbn [length] in *. nia.
    - exists r. split; [exact E1|]. split; [|split; [|exact E4]].
      + intros f B. rewrite (E2 f B). apply cyc_removed; assumption.
      + intros v Hv. right. eapply Permutation_in; [exact PT|]. apply E3, Hv. }
  apply orb_false_elim in EB. destruct EB as [EB1 EB].
  assert (HG : good pp (n :: t)) by (apply good_of; assumption).
  assert (HROT : NoDup (map fst (n :: t ++ [pp]))).
  { eapply Permutation_NoDup; [|exact HN]. apply Permutation_map. exact (ring_perm pp n t). }
  assert (HSTEP : forall ok' togo', phase ok' n (t ++ [pp]) togo' -> (togo' < togo)%nat ->
    exists r, tidy steps ok' n (t ++ [pp]) = Some r /\ (forall f, blind f -> cyc f (pts r) = cyc f (pts (pp :: n :: t))) /\
      incl r (pp :: n :: t) /\ (r = [] \/ (3 <= length r)%nat /\ all_good r)).
  { intros ok' togo' HP' HTG. destruct (IH ok' n (t ++ [pp]) togo' HROT HP') as (r & E1 & E2 & E3 & E4).
    - cbn [length] in *. rewrite app_length. cbn [length]. nia.
    - exists r. split; [exact E1|]. split; [|split; [|exact E4]].
      + intros f B. rewrite (E2 f B). unfold pts. cbn [map]. rewrite map_app. cbn [map]. apply cyc_rotate.
      + intros v Hv. apply E3 in Hv. destruct Hv as [-> | Hv]; [right; left; reflexivity|]. apply in_app_or in Hv.
        destruct Hv as [Hv | [-> | []]]; [right; right; exact Hv|left; reflexivity]. }
  destruct ok as [k|]; cbn [phase] in HP.
  - destruct HP as [(ahead & behind & HB & HR & HK & HPG & HTG) | (HK & HA & HTG)].
    + destruct behind as [|b behind]; [contradiction HB; reflexivity|]. cbn [hd] in HK.
      assert (NE : Nat.eqb (fst pp) k = false).
      { apply Nat.eqb_neq. intros E. cbn [map] in HN. inversion HN as [|? ? HI HN']. apply HI.
        change (fst n :: map fst t) with (map (@fst nat zpt) (n :: t)). rewrite HR, map_app. apply in_or_app. right.
        left. congruence. }
      rewrite NE. destruct ahead as [|n' ahead].
      * cbn [app] in HR. injection HR as H1 H2. subst b behind. apply (HSTEP (Some k) 0%nat); [|lia].
        right. split; [exact HK|]. split; [|reflexivity]. change (n :: t ++ [pp]) with ((n :: t) ++ [pp]).
        apply prefix_end; assumption.
      * cbn [app] in HR. injection HR as H1 H2. subst n' t. apply (HSTEP (Some k) (S (length ahead))); [|cbn [length] in HTG; lia].
        left. exists ahead, ((b :: behind) ++ [pp]). split; [discriminate|]. split; [symmetry; apply app_assoc|].
        split; [exact HK|]. split; [|reflexivity]. apply prefix_step; assumption.
    + subst k. rewrite Nat.eqb_refl. exists (pp :: n :: t). split; [reflexivity|]. split; [reflexivity|].
      split; [apply incl_refl|]. right. split; [|exact HA].
      change (length (pp :: n :: t)) with (S (S (length t))). lia.
  - apply (HSTEP (Some (fst pp)) (S (length t))); [|rewrite HP; cbn [length]; unfold vertex; lia].
    left. exists t, [pp]. split; [discriminate|]. split; [reflexivity|]. split; [reflexivity|]. split; [|reflexivity].
    apply (prefix_step [] pp n t); [apply prefix_none|]. rewrite app_nil_r. exact HG.
Qed.

(** ** Numbered outlines *)
Lemma numbered_pts : forall l, pts (numbered l) = l.
Proof.
  intros l. unfold pts, numbered. generalize 0%nat. induction l as [|p l IH]; intros k; [reflexivity|]. cbn. rewrite IH. reflexivity.
Qed.
Lemma numbered_fst : forall l, map fst (numbered l) = seq 0 (length l).
Proof.
  intros l. unfold numbered. generalize 0%nat. induction l as [|p l IH]; intros k; [reflexivity|]. cbn. rewrite IH. reflexivity.
Qed.
Lemma numbered_length : forall l, length (numbered l) = length l.
Proof.
  intros l. transitivity (length (map fst (numbered l))); [symmetry; apply map_length|]. rewrite numbered_fst. apply seq_length.
Qed.
Lemma numbered_nodup : forall l, NoDup (map fst (numbered l)).
Proof. intros l. rewrite numbered_fst. apply seq_NoDup. Qed.
Lemma last_pts : forall l v, snd (last l v) = last (pts l) (snd v).
Proof. intros l. induction l as [|x l IH]; intros v; [reflexivity|]. unfold pts. cbn [map]. rewrite !last_cons. apply IH. Qed.
Lemma hd_pts : forall l v, snd (hd v l) = hd (snd v) (pts l).
Proof. intros [|x l] v; reflexivity. Qed.
Lemma good_cornered : forall l, all_good l -> cornered (pts l).
Proof.
  intros l H u v w E. unfold pts in E. apply map_eq_app in E. destruct E as (u' & r & -> & <- & E).
  apply map_eq_cons in E. destruct E as (v' & w' & -> & <- & <-). specialize (H u' v' w' eq_refl). unfold good in H.
  rewrite last_pts, hd_pts in H. unfold pts in H. rewrite map_app in H. exact H.
Qed.
Lemma all_blind : forall l m, (forall f, blind f -> cyc f m = cyc f l) -> same_region l m.
Proof.
  intros l m H. split.
  - intros q. unfold winding. rewrite !edges_sum. apply H, passes_blind.
  - rewrite !shoelace_sum, !edges_sum. apply H, cross2_blind.
Qed.
Lemma none_blind : forall l, (forall f, blind f -> cyc f l = 0) -> no_region l.
Proof.
  intros l H. split.
  - intros q. unfold winding. rewrite edges_sum. apply H, passes_blind.
  - rewrite shoelace_sum, edges_sum. apply H, cross2_blind.
Qed.

(** ** The outlines given *)
Lemma drop_first_cyc : forall f p0 rl, blind f -> cyc f (p0 :: rev (drop_first p0 rl)) = cyc f (p0 :: rev rl).
Proof.
  intros f p0 rl B. induction rl as [|p r IH]; [reflexivity|]. cbn [drop_first]. destruct (same p p0) eqn:E; [|reflexivity].
  apply same_eq in E. subst p. rewrite IH. cbn [rev]. unfold cyc. rewrite path_sum_app, last_last. cbn [path_sum].
  rewrite (blind_same f p0 B). lia.
Qed.
Lemma drop_repeated_cyc : forall f p0 rl, blind f -> cyc f (p0 :: rev (drop_repeated p0 rl)) = cyc f (p0 :: rev rl).
Proof.
  intros f p0 rl B. induction rl as [|p r IH]; [reflexivity|]. cbn [drop_repeated].
  destruct (same p match r with [] => p0 | p' :: _ => p' end) eqn:E; [|reflexivity].
  apply same_eq in E. rewrite IH. cbn [rev]. unfold cyc. rewrite path_sum_app, last_last. cbn [path_sum].
  assert (L : last (rev r) p0 = p) by (destruct r as [|p' r]; [symmetry; exact E|cbn [rev]; rewrite last_last; symmetry; exact E]).
  rewrite L, (blind_same f p B). lia.
Qed.
Lemma drop_first_incl : forall p0 rl, incl (drop_first p0 rl) rl.
Proof.
  intros p0 rl. induction rl as [|p r IH]; [apply incl_refl|]. cbn [drop_first]. destruct (same p p0); [|apply incl_refl].
  apply incl_tl, IH.
Qed.
Lemma drop_repeated_incl : forall p0 rl, incl (drop_repeated p0 rl) rl.
Proof.
  intros p0 rl. induction rl as [|p r IH]; [apply incl_refl|]. cbn [drop_repeated].
  destruct (same p match r with [] => p0 | p' :: _ => p' end); [|apply incl_refl]. apply incl_tl, IH.
Qed.
Lemma flat_turn : forall a b c r, flat (a :: b :: c :: r) = true -> ~ all_good (a :: b :: c :: r).
Proof.
  intros a b c r H HA. cbn [flat] in H. rewrite forallb_forall in H.
  specialize (HA [] a (b :: c :: r) eq_refl). apply HA. rewrite app_nil_r. cbn [hd].
  assert (HL : In (last (b :: c :: r) a) (b :: c :: r)).
  { rewrite (app_removelast_last (l := b :: c :: r) a) by discriminate. rewrite last_last. apply in_or_app. right. left. reflexivity. }
  apply H, Z.eqb_eq in HL. assert (HB := H b (or_introl eq_refl)). apply Z.eqb_eq in HB. unfold turn. rewrite HL, HB. lia.
Qed.

(** An outline given to a boolean operation is taken with the vertices that make corners, all of
    them and no others, and encloses the same points with the same winding numbers; an outline
    that is left out encloses nothing.  The loop always ends. *)
Theorem C90_input : forall pg,
  match add_path pg with
  | Endless => False
  | Nothing => no_region pg
  | Outline r => (3 <= length r)%nat /\ incl r pg /\ cornered r /\ same_region pg r
  end.
Proof.
  intros [|p0 t]; [apply none_blind; reflexivity|]. unfold add_path.
  set (l0 := p0 :: rev (drop_repeated p0 (drop_first p0 (rev t)))).
  assert (HC : forall f, blind f -> cyc f l0 = cyc f (p0 :: t)).
  { intros f B. unfold l0. rewrite drop_repeated_cyc, drop_first_cyc, rev_involutive by exact B. reflexivity. }
  assert (HI : incl l0 (p0 :: t)).
  { intros v [-> | Hv]; [left; reflexivity|]. right. rewrite <- in_rev in Hv. apply drop_repeated_incl, drop_first_incl in Hv.
    apply in_rev, Hv. }
  clearbody l0. pose proof (numbered_pts l0) as HP. pose proof (numbered_nodup l0) as HN.
  destruct (numbered l0) as [|e [|n [|x rest]]].
  - apply none_blind. intros f B. rewrite <- (HC f B), <- HP. reflexivity.
  - apply none_blind. intros f B. rewrite <- (HC f B), <- HP. apply cyc_one, B.
  - apply none_blind. intros f B. rewrite <- (HC f B), <- HP. apply cyc_two, B.
  - destruct (prune_spec (enough (length (e :: n :: x :: rest))) (fst e) e (n :: x :: rest) (n :: x :: rest) []) as (r & E1 & E2 & E3 & E4).
    + exact HN.
    + symmetry. apply app_nil_r.
    + reflexivity.
    + apply prefix_none.
    + unfold enough, vertex. cbn [length]. lia.
    + rewrite E1.
      assert (HR : forall f, blind f -> cyc f (pts r) = cyc f (p0 :: t)) by (intros f B; rewrite (E2 f B), <- (HC f B); exact (f_equal (cyc f) HP)).
      destruct r as [|a [|b [|c r]]].
      * apply none_blind. intros f B. rewrite <- (HR f B). reflexivity.
      * apply none_blind. intros f B. rewrite <- (HR f B). apply cyc_one, B.
      * apply none_blind. intros f B. rewrite <- (HR f B). apply cyc_two, B.
      * assert (HA : all_good (a :: b :: c :: r)) by (apply E4; cbn [length]; lia).
        destruct (flat (a :: b :: c :: r)) eqn:EF; [contradiction (flat_turn _ _ _ _ EF HA)|].
        split; [cbn [map length]; lia|]. split; [|split; [apply good_cornered, HA|apply all_blind, HR]].
        intros v Hv. apply HI. rewrite <- HP. unfold pts. apply in_map_iff in Hv. destruct Hv as (w & <- & Hw).
        apply in_map, E3, Hw.
Qed.
Print Assumptions C90_input.

(** ** The outlines found *)
Theorem C90_output : forall l, l <> [] ->
  match fixup_polygon l with
  | Endless => False
  | Nothing => no_region l
  | Outline r => (3 <= length r)%nat /\ incl r l /\ cornered r /\ same_region l r
  end.
Proof.
  intros l HL. unfold fixup_polygon. pose proof (numbered_pts l) as HP. pose proof (numbered_nodup l) as HN.
  pose proof (numbered_length l) as HLen. destruct (numbered l) as [|pp rest]; [contradiction HL; rewrite <- HP; reflexivity|].
  destruct (tidy_spec (enough (length l)) None pp rest (S (length (pp :: rest))) HN eq_refl) as (r & E1 & E2 & E3 & E4).
  { rewrite <- HLen. unfold enough. change (length (pp :: rest)) with (S (length rest)). lia. }
  rewrite E1. assert (HR : forall f, blind f -> cyc f (pts r) = cyc f l) by (intros f B; rewrite (E2 f B); exact (f_equal (cyc f) HP)).
  destruct r as [|a r].
  - apply none_blind. intros f B. rewrite <- (HR f B). reflexivity.
  - destruct E4 as [E4 | [E4 E5]]; [discriminate E4|]. split; [rewrite map_length; exact E4|].
    split; [|split; [apply good_cornered, E5|apply all_blind, HR]].
    intros v Hv. rewrite <- HP. unfold pts. apply in_map_iff in Hv. destruct Hv as (w & <- & Hw). apply in_map, E3, Hw.
Qed.
Print Assumptions C90_output.

(** ** Orientation *)
Lemma cyc_rot1 : forall f e l, cyc f (l ++ [e]) = cyc f (e :: l).
Proof. intros f e [|n t]; [reflexivity|]. apply cyc_rotate. Qed.
Lemma sum_perm : forall (f : zpt * zpt -> Z) l m, Permutation l m -> sum_over f l = sum_over f m.
Proof. intros f l m H. induction H; cbn [sum_over fold_right] in *; unfold sum_over in *; lia. Qed.
Lemma cyc_rev : forall f l, odd_on f -> cyc f (rev l) = - cyc f l.
Proof.
  intros f l B. rewrite <- !edges_sum, (sum_perm f _ _ (edges_rev l)). induction (edges l) as [|[a b] es IH]; [reflexivity|].
  cbn [map sum_over fold_right] in *. unfold sum_over in *. rewrite IH. unfold swap. cbn [fst snd]. rewrite (B a b). lia.
Qed.
Lemma cyc_links : forall f l, odd_on f -> cyc f (reverse_links l) = - cyc f l.
Proof. intros f [|p r] B; [reflexivity|]. cbn [reverse_links]. rewrite <- cyc_rot1. apply (cyc_rev f (p :: r) B). Qed.
Lemma area_terms_path : forall l p,
  area_terms p l = fst p * snd p - fst (last l p) * snd (last l p) - path_sum cross2 p l.
Proof.
  induction l as [|q l IH]; intros p; [cbn; lia|]. rewrite last_cons. cbn [area_terms path_sum]. rewrite IH. unfold cross2.
  cbn [fst snd]. lia.
Qed.
Lemma ring_area_shoelace : forall l, ring_area2 l = - shoelace l.
Proof.
  intros [|p r]; [reflexivity|]. rewrite shoelace_sum, edges_sum. unfold ring_area2, cyc. rewrite last_cons.
  rewrite area_terms_path, last_cons. cbn [path_sum]. lia.
Qed.
Lemma hd_rev : forall (A : Type) (l : list A) d, hd d (rev l) = last l d.
Proof.
  intros A l d. destruct l as [|a l]; [reflexivity|].
  rewrite (app_removelast_last (l := a :: l) d) by discriminate. rewrite rev_app_distr, last_last. reflexivity.
Qed.
Lemma last_rev : forall (A : Type) (l : list A) d, last (rev l) d = hd d l.
Proof. intros A l d. rewrite <- hd_rev, rev_involutive. reflexivity. Qed.
Lemma cornered_rev : forall l, cornered l -> cornered (rev l).
Proof.
  intros l H u v w E. apply (f_equal (@rev _)) in E. rewrite rev_involutive, rev_app_distr in E. cbn [rev] in E.
  rewrite <- app_assoc in E. cbn [app] in E. specialize (H _ _ _ E). rewrite <- rev_app_distr, last_rev, hd_rev in H.
  intros HT. apply H. unfold turn in *. lia.
Qed.

(** An output polygon, drawn in whatever order, is returned with its corners only; it runs one
    way if it is an outer outline and the other way if it is a hole, and encloses what was drawn;
    it is left out only if it encloses nothing. *)
Theorem C90_finish : forall hole reverse l, l <> [] ->
  match finish hole reverse l with
  | None => no_region l
  | Some c =>
      (3 <= length c)%nat /\ incl c l /\ cornered c /\ (if xorb hole reverse then shoelace c <= 0 else 0 <= shoelace c) /\
      exists s, (s = 1 \/ s = -1) /\ (forall q, winding q c = s * winding q l) /\ shoelace c = s * shoelace l
  end.
Proof.
  intros hole reverse l HL. unfold finish.
  assert (HO : exists s, (s = 1 \/ s = -1) /\ (forall f, odd_on f -> cyc f (orient hole reverse l) = s * cyc f l) /\
    (if xorb hole reverse then 0 <= s * shoelace l else s * shoelace l <= 0) /\ incl (orient hole reverse l) l /\
    orient hole reverse l <> []).
  { unfold orient. pose proof (ring_area_shoelace l) as HA. destruct (eqb (xorb hole reverse) (0 <? ring_area2 l)) eqn:E.
    - exists (-1). split; [right; reflexivity|]. split; [intros f B; rewrite cyc_links by exact B; lia|]. split.
      + apply eqb_prop in E. rewrite E. destruct (Z.ltb_spec 0 (ring_area2 l)); lia.
      + destruct l as [|p r]; [contradiction HL; reflexivity|]. split; [|discriminate]. intros v [-> | Hv]; [left; reflexivity|].
        right. apply in_rev, Hv.
    - exists 1. split; [left; reflexivity|]. split; [intros f B; lia|]. split.
      + apply eqb_false_iff in E. destruct (xorb hole reverse), (Z.ltb_spec 0 (ring_area2 l)); lia || (contradiction E; reflexivity).
      + split; [apply incl_refl|exact HL]. }
  destruct HO as (s & HS & HC & HD & HI & HE). pose proof (C90_output _ HE) as HF.
  destruct (fixup_polygon (orient hole reverse l)) as [| |r]; [contradiction| |].
  - destruct HF as [H1 H2]. split.
    + intros q. specialize (H1 q). unfold winding in *. rewrite edges_sum in *. rewrite HC in H1 by apply passes_blind. lia.
    + rewrite shoelace_sum, edges_sum in *. rewrite HC in H2 by apply cross2_blind. lia.
  - destruct HF as (H1 & H2 & H3 & H4 & H5). destruct r as [|a [|b [|c r]]]; [cbn in H1; lia..|].
    cbn [contour_of]. set (r' := a :: b :: c :: r) in *. clearbody r'.
    split; [rewrite rev_length; exact H1|]. split; [intros v Hv; apply HI, H2, in_rev, Hv|]. split; [apply cornered_rev, H3|].
    assert (HS2 : shoelace (rev r') = - (s * shoelace l)).
    { rewrite shoelace_rev, H5, !shoelace_sum, !edges_sum, HC by apply cross2_blind. reflexivity. }
    split; [rewrite HS2; destruct (xorb hole reverse); lia|]. exists (- s). split; [lia|]. split; [|rewrite HS2; lia].
    intros q. specialize (H4 q). unfold winding in *. rewrite !edges_sum in *.
    rewrite cyc_rev, H4, HC by apply passes_blind. lia.
Qed.
Print Assumptions C90_finish.

(** ** Concrete cases *)
(** A square with a repeated vertex, one in the middle of a side, a spike, and the first vertex
    given again at the end. *)
Definition rough : list (Z * Z) :=
  [(0, 0); (5, 0); (10, 0); (10, 0); (10, 10); (10, 14); (10, 10); (0, 10); (0, 0)].
Example rough_input : exists r, add_path rough = Outline r /\ length r = 4%nat.
Proof. eexists. split; reflexivity. Qed.
(** Only a spike: nothing is left. *)
Example spike_input : add_path [(0, 0); (5, 5); (9, 9); (5, 5)] = Nothing.
Proof. reflexivity. Qed.
Example rough_output : exists r, fixup_polygon rough = Outline r /\ length r = 4%nat /\ shoelace r = 200.
Proof. eexists. repeat split; reflexivity. Qed.
(** As an outer outline and as a hole. *)
Example rough_outer : option_map shoelace (finish false false rough) = Some 200.
Proof. reflexivity. Qed.
Example rough_hole : option_map shoelace (finish true false rough) = Some (-200).
Proof. reflexivity. Qed.
