(** C89: within a scanbeam the sweep line finds the pairs of edges that change their order, and
    makes them cross one after the other as neighbours. *)

From Coq Require Import List ZArith Bool Arith Lia Permutation.
From Verif Require Import Sweep SpecSweep Beam SpecBeam.
Import ListNotations.
Open Scope Z_scope.

(** ** The pairs in the wrong order *)
Fixpoint invs (x : nat -> Z) (l : list nat) : list node :=
  match l with [] => [] | e :: l => map (pair e) (filter (fun f => x f <? x e) l) ++ invs x l end.

Lemma filter_perm : forall (f : nat -> bool) l l', Permutation l l' -> Permutation (filter f l) (filter f l').
Proof.
  intros f l l' H. induction H; cbn [filter]; auto.
  - destruct (f x); auto.
  - destruct (f x), (f y); auto. apply perm_swap.
  - eapply Permutation_trans; eassumption.
Qed.
Lemma filter_none : forall (f : nat -> bool) l, (forall a, In a l -> f a = false) -> filter f l = [].
Proof.
  intros f l. induction l as [|e l IH]; intros H; [reflexivity|]. cbn [filter].
  rewrite (H e) by (left; reflexivity). apply IH. intros a Ha. apply H. right. exact Ha.
Qed.
Lemma invs_app : forall x l m, (forall a, In a l -> x a <= x m) -> invs x (l ++ [m]) = invs x l.
Proof.
  intros x l m. induction l as [|e l IH]; intros H; [reflexivity|]. cbn [app invs].
  rewrite IH by (intros a Ha; apply H; right; exact Ha). f_equal. f_equal. rewrite filter_app. cbn [filter].
  assert (x e <= x m) by (apply H; left; reflexivity).
  destruct (Z.ltb_spec (x m) (x e)); [lia|]. apply app_nil_r.
Qed.

Lemma pass_spec : forall x l e r ns, pass x e l = (r, ns) ->
  exists m, Permutation (r ++ [m]) (e :: l) /\ (forall a, In a (e :: l) -> x a <= x m) /\
    Permutation (ns ++ invs x r) (invs x (e :: l)).
Proof.
  intros x l. induction l as [|f l IH]; intros e r ns H; cbn [pass] in H.
  - injection H as H1 H2. subst. exists e. split; [apply Permutation_refl|]. split; [|apply Permutation_refl].
    intros a [-> | []]. lia.
  - destruct (Z.ltb_spec (x f) (x e)) as [L|L].
    + destruct (pass x e l) as [r0 ns0] eqn:E. injection H as H1 H2. subst.
      destruct (IH e r0 ns0 E) as (m & P & M & Q). exists m. split; [|split].
      * cbn [app]. eapply Permutation_trans; [apply perm_skip, P|]. apply perm_swap.
      * intros a [-> | [-> | Ha]]; [apply M; left; reflexivity| |apply M; right; exact Ha].
        specialize (M e (or_introl eq_refl)). lia.
      * cbn [invs filter] in *. destruct (Z.ltb_spec (x f) (x e)); [|lia]. cbn [map app]. apply perm_skip.
        apply (Permutation_trans (l' := map (pair f) (filter (fun g => x g <? x f) l) ++ (ns0 ++ invs x r0))).
        { rewrite !app_assoc. apply Permutation_app_tail.
          eapply Permutation_trans; [apply Permutation_app_comm|]. apply Permutation_app_tail.
          apply Permutation_map.
          assert (EQ : filter (fun g => x g <? x f) (r0 ++ [m]) = filter (fun g => x g <? x f) r0).
          { rewrite filter_app. cbn [filter]. assert (x e <= x m) by (apply M; left; reflexivity).
            destruct (Z.ltb_spec (x m) (x f)); [lia|]. apply app_nil_r. }
          rewrite <- EQ. eapply Permutation_trans; [apply filter_perm, P|]. cbn [filter].
          destruct (Z.ltb_spec (x e) (x f)); [lia|]. apply Permutation_refl. }
        eapply Permutation_trans; [apply Permutation_app_head, Q|]. apply Permutation_app_swap_app.
    + destruct (pass x f l) as [r0 ns0] eqn:E. injection H as H1 H2. subst.
      destruct (IH f r0 ns E) as (m & P & M & Q). exists m. split; [|split].
      * cbn [app]. apply perm_skip, P.
      * intros a [-> | Ha]; [|apply M; exact Ha].
        specialize (M f (or_introl eq_refl)). lia.
      * cbn [invs] in *.
        eapply Permutation_trans; [apply Permutation_app_swap_app|].
        eapply Permutation_trans; [|apply Permutation_app_head, Q]. apply Permutation_app_tail.
        apply Permutation_map.
        assert (EQ : filter (fun g => x g <? x e) (r0 ++ [m]) = filter (fun g => x g <? x e) r0).
        { rewrite filter_app. cbn [filter]. assert (x f <= x m) by (apply M; left; reflexivity).
          destruct (Z.ltb_spec (x m) (x e)); [lia|]. apply app_nil_r. }
        rewrite <- EQ. apply filter_perm, P.
Qed.
Lemma pass_still : forall x l e r, pass x e l = (r, []) -> (forall f, In f l -> x e <= x f) /\ invs x (e :: l) = [].
Proof.
  intros x l. induction l as [|f l IH]; intros e r H; cbn [pass] in H; [split; [intros _ []|reflexivity]|].
  destruct (Z.ltb_spec (x f) (x e)) as [L|L]; [destruct (pass x e l); discriminate H|].
  destruct (pass x f l) as [r0 ns0] eqn:E. injection H as H1 H2. subst.
  destruct (IH f r0 E) as [A B].
  assert (G : forall g, In g (f :: l) -> x e <= x g). { intros g [-> | Hg]; [lia|]. specialize (A g Hg). lia. }
  split; [exact G|]. change (invs x (e :: f :: l)) with (map (pair e) (filter (fun g => x g <? x e) (f :: l)) ++ invs x (f :: l)).
  rewrite B, filter_none; [reflexivity|]. intros a Ha. specialize (G a Ha). lia.
Qed.
Lemma bubble_spec : forall x n l, (length l <= n)%nat -> Permutation (bubble x n l) (invs x l).
Proof.
  intros x n. induction n as [|n IH]; intros l HL.
  - destruct l; [apply Permutation_refl|cbn in HL; lia].
  - destruct l as [|e l]; [apply Permutation_refl|]. cbn [bubble].
    destruct (pass x e l) as [r ns] eqn:E. destruct (pass_spec _ _ _ _ _ E) as (m & P & M & Q).
    assert (LR : (length r <= n)%nat).
    { apply Permutation_length in P. rewrite app_length in P. cbn [length] in *. lia. }
    destruct r as [|a r]; [rewrite app_nil_r in Q; exact Q|].
    destruct ns as [|v ns].
    + apply pass_still in E. destruct E as [_ E]. rewrite E. apply Permutation_refl.
    + eapply Permutation_trans; [apply Permutation_app_head, IH, LR|exact Q].
Qed.
Lemma build_invs : forall x l, Permutation (build x l) (invs x l).
Proof. intros x l. apply bubble_spec. lia. Qed.

Lemma before_cons : forall e l a b, before (e :: l) a b <-> (e = a /\ In b l) \/ before l a b.
Proof.
  intros e l a b. split.
  - intros (l1 & l2 & l3 & H). destruct l1 as [|c l1]; cbn in H; injection H as H1 H2.
    + left. split; [exact H1|]. rewrite H2. apply in_or_app. right. left. reflexivity.
    + right. exists l1, l2, l3. exact H2.
  - intros [[-> H] | (l1 & l2 & l3 & ->)].
    + apply in_split in H. destruct H as (l2 & l3 & ->). exists [], l2, l3. reflexivity.
    + exists (e :: l1), l2, l3. reflexivity.
Qed.
Lemma before_nil : forall a b, ~ before [] a b.
Proof. intros a b (l1 & l2 & l3 & H). destruct l1; discriminate H. Qed.
Lemma invs_in : forall x l a b, In (a, b) (invs x l) <-> before l a b /\ x b < x a.
Proof.
  intros x l a b. induction l as [|e l IH]; cbn [invs].
  - split; [intros []|intros [H _]; exact (before_nil _ _ H)].
  - rewrite in_app_iff, IH, before_cons, in_map_iff. split.
    + intros [(f & E & H) | [H1 H2]]; [|tauto]. injection E as E1 E2. subst.
      apply filter_In in H. destruct H as [H L]. apply Z.ltb_lt in L. tauto.
    + intros [[[-> H] | H] L]; [|tauto]. left. exists b. split; [reflexivity|]. apply filter_In.
      split; [exact H|apply Z.ltb_lt, L].
Qed.
Lemma before_in : forall l a b, before l a b -> In a l /\ In b l.
Proof.
  intros l a b (l1 & l2 & l3 & ->). split; apply in_or_app; right; [left; reflexivity|].
  right. apply in_or_app. right. left. reflexivity.
Qed.
Lemma NoDup_join : forall (A : Type) (l m : list A), NoDup l -> NoDup m -> (forall a, In a l -> ~ In a m) -> NoDup (l ++ m).
Proof.
  intros A l m HL HM HD. induction HL as [|a l HN HL IH]; [exact HM|]. cbn [app]. constructor.
  - intros H. apply in_app_or in H. destruct H as [H|H]; [exact (HN H)|]. exact (HD a (or_introl eq_refl) H).
  - apply IH. intros b Hb. apply HD. right. exact Hb.
Qed.
Lemma invs_nodup : forall x l, NoDup l -> NoDup (invs x l).
Proof.
  intros x l H. induction H as [|e l HN HL IH]; [constructor|]. cbn [invs]. apply NoDup_join.
  - apply FinFun.Injective_map_NoDup; [intros a b E; injection E as E; exact E|apply NoDup_filter, HL].
  - exact IH.
  - intros [a b] H1 H2. apply in_map_iff in H1. destruct H1 as (f & E & _). injection E as E1 E2. subst.
    apply invs_in in H2. destruct H2 as [H2 _]. apply before_in in H2. tauto.
Qed.

(** Every pair that changes its order is found, each once, and no other. *)
Theorem C89_found : forall x l, NoDup l ->
  NoDup (build x l) /\ forall a b, In (a, b) (build x l) <-> before l a b /\ x b < x a.
Proof.
  intros x l H. pose proof (build_invs x l) as P. split.
  - eapply Permutation_NoDup; [apply Permutation_sym, P|]. apply invs_nodup, H.
  - intros a b. rewrite <- invs_in. split; apply Permutation_in; [exact P|apply Permutation_sym, P].
Qed.
Print Assumptions C89_found.

(** ** Crossing neighbours *)
Lemma exchange_off : forall a b l, ~ In a l -> ~ In b l -> exchange a b l = l.
Proof.
  intros a b l HA HB. unfold exchange. induction l as [|e l IH]; [reflexivity|]. cbn [map].
  destruct (Nat.eqb_spec e a) as [-> | _]; [contradiction HA; left; reflexivity|].
  destruct (Nat.eqb_spec e b) as [-> | _]; [contradiction HB; left; reflexivity|].
  f_equal. apply IH; intros H; [apply HA|apply HB]; right; exact H.
Qed.
Lemma exchange_pair : forall l1 a b l2, NoDup (l1 ++ a :: b :: l2) ->
  exchange a b (l1 ++ a :: b :: l2) = l1 ++ b :: a :: l2.
Proof.
  intros l1 a b l2 H. pose proof (NoDup_remove_2 _ _ _ H) as HA.
  apply NoDup_remove_1 in H. pose proof (NoDup_remove_2 _ _ _ H) as HB.
  assert (AB : a <> b). { intros ->. apply HA. apply in_or_app. right. left. reflexivity. }
  unfold exchange. rewrite map_app. cbn [map].
  change (exchange a b l1 ++ (if Nat.eqb a a then b else if Nat.eqb a b then a else a)
            :: (if Nat.eqb b a then b else if Nat.eqb b b then a else b) :: exchange a b l2 = l1 ++ b :: a :: l2).
  rewrite !exchange_off.
  - rewrite !Nat.eqb_refl. destruct (Nat.eqb_spec b a); [congruence|reflexivity].
  - intros I. apply HA. apply in_or_app. right. right. exact I.
  - intros I. apply HB. apply in_or_app. right. exact I.
  - intros I. apply HA. apply in_or_app. left. exact I.
  - intros I. apply HB. apply in_or_app. left. exact I.
Qed.
Lemma next_in_split : forall a l b, next_in a l = Some b -> exists l1 l2, l = l1 ++ a :: b :: l2.
Proof.
  intros a l b. induction l as [|e l IH]; cbn [next_in]; [discriminate|].
  destruct (Nat.eqb_spec e a) as [-> | _].
  - destruct l as [|c l]; cbn; [discriminate|]. intros H. injection H as ->. exists [], l. reflexivity.
  - intros H. destruct (IH H) as (l1 & l2 & ->). exists (e :: l1), l2. reflexivity.
Qed.
Lemma next_in_pair : forall l1 a b l2, ~ In a l1 -> next_in a (l1 ++ a :: b :: l2) = Some b.
Proof.
  intros l1 a b l2 H. induction l1 as [|e l1 IH]; cbn [app next_in].
  - rewrite Nat.eqb_refl. reflexivity.
  - destruct (Nat.eqb_spec e a) as [-> | _]; [contradiction H; left; reflexivity|]. apply IH.
    intros I. apply H. right. exact I.
Qed.
Lemma before_pair : forall l1 a b l2, before (l1 ++ a :: b :: l2) a b.
Proof. intros l1 a b l2. exists l1, [], l2. reflexivity. Qed.
Lemma before_anti : forall l a b, NoDup l -> before l a b -> before l b a -> False.
Proof.
  intros l a b H. induction H as [|e l HN HL IH]; [intros B; contradiction (before_nil _ _ B)|].
  rewrite !before_cons. intros [[-> I1] | B1] [[E2 I2] | B2].
  - subst. tauto.
  - apply before_in in B2. tauto.
  - subst. apply before_in in B1. tauto.
  - exact (IH B1 B2).
Qed.
Lemma adjacent_split : forall l a b, NoDup l -> before l a b -> adjacent l (a, b) = true ->
  exists l1 l2, l = l1 ++ a :: b :: l2.
Proof.
  intros l a b HN HB H. unfold adjacent, is_some in H. cbn [fst snd] in H. apply orb_prop in H. destruct H as [H|H].
  - destruct (next_in a l) as [c|] eqn:E; [|discriminate H]. apply Nat.eqb_eq in H. subst c.
    apply next_in_split in E. exact E.
  - destruct (next_in b l) as [c|] eqn:E; [|discriminate H]. apply Nat.eqb_eq in H. subst c.
    apply next_in_split in E. destruct E as (l1 & l2 & ->).
    contradiction (before_anti _ _ _ HN HB). apply before_pair.
Qed.
Lemma split_adjacent : forall l1 a b l2, NoDup (l1 ++ a :: b :: l2) -> adjacent (l1 ++ a :: b :: l2) (a, b) = true.
Proof.
  intros l1 a b l2 H. unfold adjacent. cbn [fst snd]. rewrite next_in_pair.
  - cbn. rewrite Nat.eqb_refl. reflexivity.
  - apply NoDup_remove_2 in H. intros I. apply H. apply in_or_app. left. exact I.
Qed.
Lemma swapped_perm : forall (A : Type) l1 (a b : A) l2, Permutation (l1 ++ a :: b :: l2) (l1 ++ b :: a :: l2).
Proof. intros. apply Permutation_app_head, perm_swap. Qed.
Lemma invs_swap : forall x l1 a b l2, x b < x a ->
  Permutation (invs x (l1 ++ a :: b :: l2)) ((a, b) :: invs x (l1 ++ b :: a :: l2)).
Proof.
  intros x l1 a b l2 L. induction l1 as [|e l1 IH].
  - cbn [app invs filter]. destruct (Z.ltb_spec (x b) (x a)); [|lia]. destruct (Z.ltb_spec (x a) (x b)); [lia|].
    cbn [map app]. apply perm_skip. rewrite !app_assoc. apply Permutation_app_tail, Permutation_app_comm.
  - cbn [app invs]. eapply Permutation_trans; [apply Permutation_app_head, IH|].
    apply Permutation_sym. eapply Permutation_trans; [|apply Permutation_middle]. apply perm_skip.
    apply Permutation_app_tail, Permutation_map, filter_perm, Permutation_sym, swapped_perm.
Qed.
(** A list that is not in order has neighbours that are not. *)
Lemma invs_neighbours : forall x l, invs x l <> [] -> exists l1 a b l2, l = l1 ++ a :: b :: l2 /\ x b < x a.
Proof.
  intros x l. induction l as [|e l IH]; intros H; [contradiction H; reflexivity|].
  destruct (invs x l) as [|v vs] eqn:E.
  - destruct l as [|f l]; [contradiction H; reflexivity|].
    destruct (Z.lt_ge_cases (x f) (x e)) as [L|L]; [exists [], e, f, l; split; [reflexivity|exact L]|].
    contradiction H. cbn [invs] in E |- *. apply app_eq_nil in E. destruct E as [E1 E2]. apply map_eq_nil in E1.
    rewrite E1, E2, app_nil_r. cbn [map app].
    rewrite filter_none; [reflexivity|]. intros a [-> | Ha]; [lia|].
    destruct (Z.ltb_spec (x a) (x e)); [|reflexivity].
    assert (In a (filter (fun f0 => x f0 <? x f) l)) by (apply filter_In; split; [exact Ha|lia]).
    rewrite E1 in H1. destruct H1.
  - destruct (IH ltac:(discriminate)) as (l1 & a & b & l2 & -> & L). exists (e :: l1), a, b, l2. split; [reflexivity|exact L].
Qed.
Lemma invs_increasing : forall x l, invs x l = [] -> increasing x l.
Proof.
  intros x l. induction l as [|e l IH]; intros H; [exact I|]. cbn [invs] in H. apply app_eq_nil in H.
  destruct H as [H1 H2]. cbn [increasing]. split; [|apply IH, H2]. intros f Hf. apply map_eq_nil in H1.
  destruct (Z.lt_ge_cases (x f) (x e)) as [L|L]; [|exact L].
  assert (In f (filter (fun f0 => x f0 <? x e) l)) by (apply filter_In; split; [exact Hf|lia]).
  rewrite H1 in H. destruct H.
Qed.

Lemma swap_first_spec : forall sel v r u t, swap_first sel v r = Some (u, t) ->
  Permutation (u :: t) (v :: r) /\ adjacent sel u = true.
Proof.
  intros sel v r. induction r as [|w r IH]; intros u t H; cbn [swap_first] in H; [discriminate H|].
  destruct (adjacent sel w) eqn:A.
  - injection H as H1 H2. subst. split; [apply perm_swap|exact A].
  - destruct (swap_first sel v r) as [[u' t']|] eqn:E; [|discriminate H]. injection H as H1 H2. subst.
    destruct (IH _ _ eq_refl) as [P Q]. split; [|exact Q].
    eapply Permutation_trans; [apply perm_swap|]. eapply Permutation_trans; [apply perm_skip, P|]. apply perm_swap.
Qed.
Lemma swap_first_some : forall sel v r w, In w r -> adjacent sel w = true -> swap_first sel v r <> None.
Proof.
  intros sel v r. induction r as [|w' r IH]; intros w H A; cbn [swap_first]; [destruct H|].
  destruct (adjacent sel w') eqn:E; [discriminate|].
  destruct H as [-> | H]; [congruence|]. specialize (IH w H A). destruct (swap_first sel v r) as [[? ?]|]; congruence.
Qed.

(** What the loop does: the pairs left are always those in the wrong order. *)
Lemma fix_loop_spec : forall x n l nodes, NoDup l -> length nodes = n -> Permutation nodes (invs x l) ->
  exists ns, fix_loop n l nodes = Some ns /\ Permutation ns nodes /\
    neighbours l ns (process l ns) /\ increasing x (process l ns) /\ Permutation (process l ns) l /\
    (forall a b, before l a b -> x a <= x b -> before (process l ns) a b).
Proof.
  intros x n. induction n as [|n IH]; intros l nodes HN HL HP.
  - destruct nodes; [|discriminate HL]. exists []. cbn. apply Permutation_nil in HP.
    split; [reflexivity|]. split; [constructor|]. split; [constructor|]. split; [apply invs_increasing, HP|].
    split; [apply Permutation_refl|auto].
  - destruct nodes as [|v r]; [discriminate HL|]. cbn [fix_loop].
    assert (HU : exists u t, (if adjacent l v then Some (v, r) else swap_first l v r) = Some (u, t) /\
               Permutation (u :: t) (v :: r) /\ adjacent l u = true).
    { destruct (adjacent l v) eqn:A; [exists v, r; split; [reflexivity|]; split; [apply Permutation_refl|exact A]|].
      destruct (invs_neighbours x l) as (l1 & a & b & l2 & E & L).
      { intros E. rewrite E in HP. apply Permutation_sym, Permutation_nil in HP. discriminate HP. }
      assert (IN : In (a, b) (v :: r)).
      { eapply Permutation_in; [apply Permutation_sym, HP|]. apply invs_in. split; [|exact L].
        rewrite E. apply before_pair. }
      assert (AD : adjacent l (a, b) = true) by (rewrite E in HN |- *; apply split_adjacent, HN).
      destruct IN as [-> | IN]; [congruence|].
      pose proof (swap_first_some l v r _ IN AD) as NE.
      destruct (swap_first l v r) as [[u t]|] eqn:ES; [|contradiction NE; reflexivity].
      exists u, t. split; [reflexivity|]. apply (swap_first_spec _ _ _ _ _ ES). }
    destruct HU as ([a b] & t & -> & HPu & HA). cbn [fst snd].
    assert (HIN : before l a b /\ x b < x a).
    { apply invs_in. eapply Permutation_in; [exact HP|]. eapply Permutation_in; [exact HPu|]. left. reflexivity. }
    destruct HIN as [HB HX]. destruct (adjacent_split l a b HN HB HA) as (l1 & l2 & E).
    assert (EX : exchange a b l = l1 ++ b :: a :: l2) by (rewrite E in HN |- *; apply exchange_pair, HN).
    assert (HN' : NoDup (exchange a b l)).
    { rewrite EX. eapply Permutation_NoDup; [|exact HN]. rewrite E. apply swapped_perm. }
    destruct (IH (exchange a b l) t HN') as (ns & EL & P1 & P2 & P3 & P4 & P5).
    { apply Permutation_length in HPu. cbn [length] in *. lia. }
    { apply (Permutation_cons_inv (a := (a, b))). eapply Permutation_trans; [exact HPu|].
      eapply Permutation_trans; [exact HP|]. rewrite EX, E. apply invs_swap, HX. }
    exists ((a, b) :: ns). rewrite EL. split; [reflexivity|].
    assert (EP : process l ((a, b) :: ns) = process (exchange a b l) ns) by reflexivity. rewrite EP.
    split; [eapply Permutation_trans; [apply perm_skip, P1|exact HPu]|].
    split. { rewrite E at 1. apply Cross. rewrite <- EX. exact P2. }
    split; [exact P3|]. split.
    { eapply Permutation_trans; [exact P4|]. rewrite EX, E. apply Permutation_sym, swapped_perm. }
    intros c d HC HD. apply P5; [|exact HD]. rewrite EX. rewrite E in HC, HN. clear -HC HD HX HN.
    induction l1 as [|e l1 IHl]; cbn [app] in *.
    + rewrite !before_cons in HC |- *. cbn [In] in *. destruct HC as [[-> [-> | I]] | [[-> I] | B]].
      * lia.
      * tauto.
      * tauto.
      * tauto.
    + rewrite before_cons in HC |- *. inversion HN; subst. destruct HC as [[-> I] | B]; [|right; apply IHl; assumption].
      left. split; [reflexivity|]. eapply Permutation_in; [apply swapped_perm|exact I].
Qed.

(** Whatever order std::sort gives to the intersections, they can be put into an order in which
    all of them are crossings of neighbours with the left edge first: ProcessIntersections never
    fails.  After them the edges are in the order of the top of the scanbeam, and edges that meet
    there keep the order they had. *)
Theorem C89_order : forall sort x l, NoDup l -> (forall ns, Permutation (sort ns) ns) ->
  exists ns, ordered sort x l = Some ns /\ Permutation ns (build x l) /\
    neighbours l ns (process l ns) /\ increasing x (process l ns) /\ Permutation (process l ns) l /\
    (forall a b, before l a b -> x a <= x b -> before (process l ns) a b).
Proof.
  intros sort x l HN HS. pose proof (build_invs x l) as HB. unfold ordered.
  assert (HF : forall nodes, Permutation nodes (build x l) -> exists ns, fixup l nodes = Some ns /\ Permutation ns nodes /\
    neighbours l ns (process l ns) /\ increasing x (process l ns) /\ Permutation (process l ns) l /\
    (forall a b, before l a b -> x a <= x b -> before (process l ns) a b)).
  { intros nodes P. apply fix_loop_spec; [exact HN|reflexivity|]. eapply Permutation_trans; eassumption. }
  destruct (build x l) as [|v [|w vs]] eqn:EB.
  - destruct (HF [] (Permutation_refl _)) as (ns & E & P & Q). exists ns. injection E as <-. auto.
  - destruct (HF [v] (Permutation_refl _)) as (ns & E & P & Q). pose proof P as P'.
    apply Permutation_sym, Permutation_length_1_inv in P'. subst ns. exists [v]. split; [reflexivity|]. auto.
  - destruct (HF (sort (v :: w :: vs)) (HS _)) as (ns & E & P & Q). exists ns. split; [exact E|]. split; [|exact Q].
    eapply Permutation_trans; [exact P|apply HS].
Qed.
Print Assumptions C89_order.

(** An order of the intersections in which neighbours cross is left alone. *)
Lemma neighbours_perm : forall l ns l', neighbours l ns l' -> Permutation l l'.
Proof.
  intros l ns l' H. induction H; [apply Permutation_refl|]. eapply Permutation_trans; [apply swapped_perm|exact IHneighbours].
Qed.
Theorem C89_kept : forall l ns l', NoDup l -> neighbours l ns l' -> fixup l ns = Some ns.
Proof.
  intros l ns l' HN H. unfold fixup. revert HN. induction H as [|l1 a b l2 ns l' H IH]; intros HN; [reflexivity|].
  cbn [length fix_loop]. rewrite split_adjacent by exact HN. cbn [fst snd].
  rewrite exchange_pair by exact HN. rewrite IH; [reflexivity|].
  eapply Permutation_NoDup; [apply swapped_perm|exact HN].
Qed.
Print Assumptions C89_kept.

(** ** The events of the sweep *)
Definition core (e : edge) : kind * Z := (poly e, delta e).
Lemma add_out_core : forall o e p o' e', add_out o e p = (o', e') -> core e' = core e.
Proof.
  intros o e p o' e' H. unfold add_out in H. destruct (out e) as [i|].
  - destruct (nth i o None); injection H as H1 H2; subst; reflexivity.
  - injection H as H1 H2. subst. reflexivity.
Qed.
Lemma local_min_core : forall o e1 e2 p b o' f1 f2, local_min o e1 e2 p b = (o', f1, f2) ->
  core f1 = core e1 /\ core f2 = core e2.
Proof.
  intros o e1 e2 p b o' f1 f2 H. unfold local_min in H. destruct b.
  - destruct (add_out o e1 p) as [o1 g1] eqn:E. apply add_out_core in E. injection H as H1 H2 H3. subst.
    split; [exact E|reflexivity].
  - destruct (add_out o e2 p) as [o1 g1] eqn:E. apply add_out_core in E. injection H as H1 H2 H3. subst.
    split; [reflexivity|exact E].
Qed.
Lemma local_max_core : forall o e1 e2 p o' f1 f2 h, local_max o e1 e2 p = (o', f1, f2, h) ->
  core f1 = core e1 /\ core f2 = core e2.
Proof.
  intros o e1 e2 p o' f1 f2 h H. unfold local_max in H. destruct (add_out o e1 p) as [o1 g1] eqn:E.
  apply add_out_core in E.
  destruct (out g1) as [i|]; [destruct (out e2) as [k|]; [destruct (Nat.eqb i k); [|destruct (Nat.ltb i k)]|]|];
    try unfold append in H; injection H as H1 H2 H3 H4; subst; split; try exact E; reflexivity.
Qed.
Lemma intersect_core : forall j o e1 e2 p b o' f1 f2 h, intersect j o e1 e2 p b = (o', f1, f2, h) ->
  core f1 = core e1 /\ core f2 = core e2.
Proof.
  intros j o e1 e2 p b o' f1 f2 h H. unfold intersect in H.
  destruct (cross_counts j e1 e2) as [c1 c2] eqn:EC.
  assert (HC : core c1 = core e1 /\ core c2 = core e2).
  { unfold cross_counts in EC. destruct (same_kind _ _); [destruct (is_evenodd _)|]; injection EC as H1 H2; subst;
      split; reflexivity. }
  destruct HC as [<- <-]. unfold swap_both, swap_sides, swap_outs in H.
  repeat (cbv beta iota in H; match type of H with
    | local_max _ _ _ _ = _ => apply local_max_core in H; exact H
    | (if ?c then _ else _) = _ => destruct c
    | context [add_out ?a ?b ?c] => let E := fresh "E" in destruct (add_out a b c) eqn:E; apply add_out_core in E
    | context [local_min ?a ?b ?c ?d ?f] =>
        let E := fresh "E" in destruct (local_min a b c d f) as [[? ?] ?] eqn:E; apply local_min_core in E
    end); injection H as H1 H2 H3 H4; subst; try (split; first [assumption | reflexivity]); tauto.
Qed.
Lemma relabel_core : forall h l, map core (relabel h l) = map core l.
Proof.
  intros h l. induction l as [|e l IH]; [reflexivity|]. cbn [relabel].
  destruct (out e) as [i|]; [destruct (Nat.eqb i (obsolete h))|]; cbn [map]; rewrite ?IH; reflexivity.
Qed.
Lemma handing_core : forall h l, map core (handing h l) = map core l.
Proof. intros [h|] l; [apply relabel_core|reflexivity]. Qed.

Lemma place_pair : forall l1 a l2, ~ In a l1 -> place a (l1 ++ a :: l2) = length l1.
Proof.
  intros l1 a l2 H. induction l1 as [|e l1 IH]; cbn [app place length]; [rewrite Nat.eqb_refl; reflexivity|].
  destruct (Nat.eqb_spec e a) as [-> | _]; [contradiction H; left; reflexivity|].
  f_equal. apply IH. intros I. apply H. right. exact I.
Qed.
Lemma map_pair : forall (A B : Type) (f : A -> B) (what : nat -> B) l1 a b l2 (m : list A),
  map f m = map what (l1 ++ a :: b :: l2) ->
  exists e1 e2 rest, skipn (length l1) m = e1 :: e2 :: rest /\ map f (firstn (length l1) m) = map what l1 /\
    f e1 = what a /\ f e2 = what b /\ map f rest = map what l2.
Proof.
  intros A B f what l1 a b l2. induction l1 as [|e l1 IH]; intros m H; cbn [app map length skipn firstn] in *.
  - destruct m as [|e1 [|e2 rest]]; try discriminate H. cbn [map] in H. injection H as H1 H2 H3.
    exists e1, e2, rest. cbn [map]. auto.
  - destruct m as [|x m]; [discriminate H|]. cbn [map] in H. injection H as H1 H2.
    destruct (IH m H2) as (e1 & e2 & rest & P). exists e1, e2, rest. cbn [map]. rewrite H1. intuition congruence.
Qed.
(** The crossings of a scanbeam are events that fit any state of the sweep with these edges, and
    the state after them has the edges in the new order. *)
Theorem C89_events : forall j what sort x at_ b l st, NoDup l -> (forall ns, Permutation (sort ns) ns) ->
  carries what l st ->
  exists ns st', ordered sort x l = Some ns /\ sweep j st (crossings at_ b l ns) = Done st' /\
    carries what (process l ns) st'.
Proof.
  intros j what sort x at_ b l st HN HS HC.
  destruct (C89_order sort x l HN HS) as (ns & EO & _ & HNB & _). exists ns.
  assert (HG : exists st', sweep j st (crossings at_ b l ns) = Done st' /\ carries what (process l ns) st');
    [|destruct HG as (st' & H1 & H2); exists st'; auto].
  clear EO HS x sort. revert HNB. generalize (process l ns) at 1. intros l' HNB. revert st HC HN.
  induction HNB as [l|l1 a c l2 ns l' HNB IH]; intros st HC HN; [exists st; split; [reflexivity|exact HC]|].
  cbn [crossings fst snd sweep step]. rewrite exchange_pair by exact HN.
  rewrite place_pair by (apply NoDup_remove_2 in HN; intros I; apply HN, in_or_app; left; exact I).
  destruct (map_pair _ _ core what l1 a c l2 (ael st) HC) as (e1 & e2 & rest & E1 & E2 & E3 & E4 & E5).
  rewrite E1. destruct (intersect j (polys st) e1 e2 (at_ (a, c)) (b (a, c))) as [[[o f1] f2] h] eqn:EI.
  apply intersect_core in EI. destruct EI as [EI1 EI2].
  assert (HP : process (l1 ++ a :: c :: l2) ((a, c) :: ns) = process (l1 ++ c :: a :: l2) ns).
  { unfold process. cbn [fold_left fst snd]. rewrite exchange_pair by exact HN. reflexivity. }
  rewrite HP. apply IH.
  - unfold carries. cbn [ael]. change (fun e => (poly e, delta e)) with core.
    rewrite handing_core, !map_app. cbn [map]. congruence.
  - eapply Permutation_NoDup; [apply swapped_perm|exact HN].
Qed.
Print Assumptions C89_events.

(** With the edges in order, the winding numbers of the sweep are those of a ray along the
    scanline. *)
Lemma ray_zero : forall what x k t l, (forall f, In f l -> t <= x f) -> ray what x k t l = 0.
Proof.
  intros what x k t l. induction l as [|e l IH]; intros H; [reflexivity|]. unfold ray in *. cbn [map fold_right].
  rewrite IH by (intros f Hf; apply H; right; exact Hf). specialize (H e (or_introl eq_refl)).
  destruct (Z.ltb_spec (x e) t); [lia|]. rewrite andb_false_r. reflexivity.
Qed.
Lemma ray_perm : forall what x k t l l', Permutation l l' -> ray what x k t l = ray what x k t l'.
Proof.
  intros what x k t l l' H. unfold ray. induction H; cbn [map fold_right]; lia.
Qed.
Lemma count_perm : forall x t l l', Permutation l l' -> count_left x t l = count_left x t l'.
Proof. intros x t l l' H. unfold count_left. apply Permutation_length, filter_perm, H. Qed.
Lemma ray_sorted : forall what x k t l es, increasing x l -> map core es = map what l ->
  winding k (map strand_of (firstn (count_left x t l) es)) = ray what x k t l.
Proof.
  intros what x k t l. induction l as [|e l IH]; intros es HI HE; [destruct es; [reflexivity|discriminate HE]|].
  destruct es as [|f es]; [discriminate HE|]. cbn [map] in HE. injection HE as H1 H2. cbn [increasing] in HI. destruct HI as [HI1 HI2].
  unfold count_left. cbn [filter]. destruct (Z.ltb_spec (x e) t) as [L|L].
  - cbn [length firstn map]. specialize (IH es HI2 H2). unfold count_left in IH.
    unfold winding in *. cbn [map filter]. unfold strand_of at 1. cbn [of_kind].
    unfold ray. cbn [map fold_right]. fold (ray what x k t l). destruct (Z.ltb_spec (x e) t); [|lia]. rewrite <- H1. unfold core. cbn [fst snd].
    rewrite andb_true_r. destruct (same_kind (poly f) k); [|exact IH].
    cbn [map fold_right]. unfold strand_of at 1. cbn [turns]. rewrite IH. reflexivity.
  - rewrite (filter_none (fun g => x g <? t)) by (intros g Hg; specialize (HI1 g Hg); lia). cbn [length firstn map].
    rewrite ray_zero; [reflexivity|]. intros g [-> | Hg]; [exact L|]. specialize (HI1 g Hg). lia.
Qed.
(** After the crossings of a scanbeam, the winding number right of the edges that are left of [t]
    is the one that a ray along the top of the scanbeam finds at [t]. *)
Theorem C89_winding : forall j what sort x at_ b l st, NoDup l -> (forall ns, Permutation (sort ns) ns) ->
  carries what l st ->
  exists ns st', ordered sort x l = Some ns /\ sweep j st (crossings at_ b l ns) = Done st' /\
    forall k t, winding k (map strand_of (firstn (count_left x t l) (ael st'))) = ray what x k t l.
Proof.
  intros j what sort x at_ b l st HN HS HC.
  destruct (C89_events j what sort x at_ b l st HN HS HC) as (ns & st' & E1 & E2 & E3).
  destruct (C89_order sort x l HN HS) as (ns' & E1' & _ & _ & HI & HP & _). rewrite E1 in E1'. injection E1' as <-.
  exists ns, st'. split; [exact E1|]. split; [exact E2|]. intros k t.
  rewrite (count_perm x t l _ (Permutation_sym HP)), (ray_perm what x k t l _ (Permutation_sym HP)).
  apply ray_sorted; [exact HI|exact E3].
Qed.
Print Assumptions C89_winding.

(** ** A case: four edges whose order is reversed but for two that meet at the top *)
Definition tops (e : nat) : Z := nth e [6; 4; 4; 1] 0.
Example C89_case : build tops [0; 1; 2; 3]%nat = [(0, 1); (0, 2); (0, 3); (2, 3); (1, 3)]%nat.
Proof. reflexivity. Qed.
(** The worst order is mended. *)
Example C89_mended : ordered (@rev node) tops [0; 1; 2; 3]%nat = Some [(2, 3); (1, 3); (0, 3); (0, 1); (0, 2)]%nat /\
  process [0; 1; 2; 3]%nat [(2, 3); (1, 3); (0, 3); (0, 1); (0, 2)]%nat = [3; 1; 2; 0]%nat.
Proof. split; reflexivity. Qed.
Example C89_carried : exists st, sweep (Job Union NonZero NonZero) start
    [Minimum 0 Subject 1 (2, 4) true; Minimum 2 Clip 1 (4, 4) false] = Done st /\
  carries (fun e => nth e [(Subject, 1); (Subject, -1); (Clip, 1); (Clip, -1)] (Subject, 0)) [0; 1; 2; 3]%nat st.
Proof. eexists. split; reflexivity. Qed.
Example C89_sorts : forall ns : list node, Permutation (rev ns) ns.
Proof. intros ns. apply Permutation_sym, Permutation_rev. Qed.
