(** Proofs about the object graph (Graph.v). *)

From Coq Require Import List ZArith Lia Bool Arith.
From Verif Require Import Graph SpecGraph.
Import ListNotations.

(** ** Dictionaries *)

Lemma dget_In : forall d n c, NoDup (map fst d) -> (dget d n = Some c <-> In (n, c) d).
Proof.
  unfold dget. induction d as [|[m x] d IH]; intros n c Nd; cbn [find option_map].
  - split; [discriminate|intros []].
  - cbn [map fst] in Nd. inversion Nd as [|? ? Hm Nd']; subst. cbn [fst].
    destruct (name_eqb m n) eqn:E.
    + apply name_eqb_eq in E. subst. cbn [option_map snd]. split.
      * intros H; inversion H; subst; left; reflexivity.
      * intros [H|H]; [inversion H; reflexivity|]. exfalso. apply Hm.
        change n with (fst (n, c)). apply in_map. exact H.
    + rewrite (IH n c Nd'). apply name_eqb_neq in E. split.
      * intros; right; assumption.
      * intros [H|H]; [inversion H; congruence|assumption].
Qed.

Lemma dget_Some_In : forall d n c, dget d n = Some c -> In (n, c) d.
Proof.
  unfold dget. intros d n c H. destruct (find _ d) as [[m x]|] eqn:E; [|discriminate].
  apply find_some in E. destruct E as [I E]. cbn [fst] in E. apply name_eqb_eq in E. subst.
  cbn in H. inversion H; subst. exact I.
Qed.

Lemma dget_None : forall d n, dget d n = None <-> ~ In n (map fst d).
Proof.
  unfold dget. induction d as [|[m x] d IH]; intros n; cbn [find option_map map In fst].
  - split; auto.
  - destruct (name_eqb m n) eqn:E.
    + apply name_eqb_eq in E. split; [discriminate|]. intros H. exfalso. apply H. left; exact E.
    + rewrite IH. apply name_eqb_neq in E. tauto.
Qed.

Lemma dset_keys : forall d n c, forall m, In m (map fst (dset d n c)) <-> m = n \/ In m (map fst d).
Proof.
  induction d as [|[k x] d IH]; intros n c m; cbn [dset map fst In].
  - intuition.
  - destruct (name_eqb k n) eqn:E; cbn [map fst In].
    + apply name_eqb_eq in E. subst. intuition congruence.
    + rewrite IH. intuition.
Qed.

Lemma dset_NoDup : forall d n c, NoDup (map fst d) -> NoDup (map fst (dset d n c)).
Proof.
  induction d as [|[k x] d IH]; intros n c Nd; cbn [dset map fst].
  - constructor; [intros []|constructor].
  - cbn [map fst] in Nd. inversion Nd; subst. destruct (name_eqb k n) eqn:E; cbn [map fst].
    + constructor; assumption.
    + constructor; [|apply IH; assumption]. rewrite dset_keys. apply name_eqb_neq in E. intuition.
Qed.

Lemma dset_In : forall d n c m x, NoDup (map fst d) ->
  (In (m, x) (dset d n c) <-> (m = n /\ x = c) \/ (m <> n /\ In (m, x) d)).
Proof.
  induction d as [|[k y] d IH]; intros n c m x Nd; cbn [dset In].
  - split; [intros [H|[]]; inversion H; auto|intros [[-> ->]|[_ []]]; auto].
  - cbn [map fst] in Nd. inversion Nd as [|? ? Hk Nd']; subst. cbn [fst].
    destruct (name_eqb k n) eqn:E; cbn [In].
    + apply name_eqb_eq in E. subst. split.
      * intros [H|H]; [inversion H; auto|]. right. split; [|auto]. intros ->. apply Hk.
        change n with (fst (n, x)). apply in_map. exact H.
      * intros [[-> ->]|[Hn [H|H]]]; [auto|inversion H; congruence|auto].
    + rewrite IH by assumption. apply name_eqb_neq in E. split.
      * intros [H|[[-> ->]|[Hn H]]]; [inversion H; subst|..]; auto.
      * intros [[-> ->]|[Hn [H|H]]]; auto.
Qed.

Lemma ddel_In : forall d n m x, In (m, x) (ddel d n) <-> m <> n /\ In (m, x) d.
Proof.
  intros. unfold ddel. rewrite filter_In. cbn [fst]. rewrite negb_true_iff, name_eqb_neq. tauto.
Qed.
Lemma filter_map_NoDup : forall X Y (f : X -> Y) p (l : list X), NoDup (map f l) -> NoDup (map f (filter p l)).
Proof.
  induction l as [|x l IH]; intros H; cbn [filter map] in *; [constructor|].
  inversion H as [|? ? Hx Hl]; subst. destruct (p x); cbn [map]; [|auto]. constructor; [|auto].
  intros Hi. apply Hx. apply in_map_iff in Hi. destruct Hi as (y & E & Hy). apply filter_In in Hy.
  rewrite <- E. apply in_map. tauto.
Qed.
Lemma ddel_NoDup : forall d n, NoDup (map fst d) -> NoDup (map fst (ddel d n)).
Proof. intros. apply filter_map_NoDup. assumption. Qed.

Lemma dcells_In : forall d c, In c (dcells d) <-> exists n, In (n, c) d.
Proof.
  intros. unfold dcells. rewrite in_map_iff. split.
  - intros ([n x] & E & H). cbn in E. subst. eauto.
  - intros (n & H). exists (n, c). auto.
Qed.

Lemma NoDup_app_snoc : forall X (l : list X) x, NoDup l -> ~ In x l -> NoDup (l ++ [x]).
Proof.
  induction l as [|y l IH]; intros x Nd Hx; cbn [app]; [repeat constructor; intros []|].
  inversion Nd; subst. constructor.
  - intros Hi. apply in_app_or in Hi. destruct Hi as [Hi|[->|[]]]; [contradiction|]. apply Hx. left; reflexivity.
  - apply IH; [assumption|]. intros Hi. apply Hx. right; exact Hi.
Qed.

Lemma filter_idem : forall X (p : X -> bool) l, filter p (filter p l) = filter p l.
Proof.
  induction l as [|x l IH]; [reflexivity|]. cbn [filter]. destruct (p x) eqn:E; [|exact IH].
  cbn [filter]. rewrite E, IH. reflexivity.
Qed.
Lemma filter_split : forall X (p : X -> bool) l,
  length l = length (filter (fun x => negb (p x)) l) + length (filter p l).
Proof.
  induction l as [|x l IH]; [reflexivity|]. cbn [filter]. destruct (p x); cbn [negb length]; lia.
Qed.

Section Proofs.
Context {A B : Type}.
Notation heap := (heap A B).
Implicit Types h : heap.

Lemma upd_eq : forall X (f : nat -> X) k v, upd f k v k = v.
Proof. intros. unfold upd. rewrite Nat.eqb_refl. reflexivity. Qed.
Lemma upd_neq : forall X (f : nat -> X) k v i, i <> k -> upd f k v i = f i.
Proof. intros. unfold upd. destruct (Nat.eqb_spec i k); congruence. Qed.

(** ** get_dependencies *)

Definition deps_loop (sub : nat -> option (list nat)) h :=
  fix loop (rs : list nat) : option (list nat) :=
    match rs with
    | [] => Some []
    | r :: rest =>
        match rtarget h r with
        | ToCell d => match sub d, loop rest with Some s, Some l => Some (s ++ d :: l) | _, _ => None end
        | ToName _ => loop rest
        end
    end.

Lemma deps_fuel_eq : forall f h b c,
  deps_fuel (S f) h b c = deps_loop (fun d => if b then deps_fuel f h true d else Some []) h (crefs h c).
Proof. reflexivity. Qed.

Lemma deps_loop_spec : forall sub h rs l, deps_loop sub h rs = Some l ->
  forall e, In e l <-> exists r d, In r rs /\ rtarget h r = ToCell d /\
                                   (e = d \/ exists s, sub d = Some s /\ In e s).
Proof.
  intros sub h. induction rs as [|r rs IH]; intros l H e.
  - cbn in H. inversion H; subst. split; [intros []|intros (r & d & [] & _)].
  - cbn [deps_loop] in H. destruct (rtarget h r) as [d|n] eqn:T.
    + destruct (sub d) as [s|] eqn:Es; [|discriminate].
      destruct (deps_loop sub h rs) as [l'|] eqn:El; [|discriminate]. inversion H; subst.
      rewrite in_app_iff. cbn [In]. rewrite (IH l' eq_refl e). split.
      * intros [Hi|[->|(r' & d' & Hr & Ht & Hx)]].
        -- exists r, d. split; [left; reflexivity|]. split; [exact T|]. right. eauto.
        -- exists r, e. split; [left; reflexivity|]. split; [exact T|]. left; reflexivity.
        -- exists r', d'. split; [right; exact Hr|]. auto.
      * intros (r' & d' & [<-|Hr] & Ht & Hx).
        -- rewrite T in Ht. inversion Ht; subst. destruct Hx as [->|(s' & E' & Hi)]; [auto|].
           rewrite Es in E'. inversion E'; subst. auto.
        -- right; right. exists r', d'. auto.
    + rewrite (IH l H e). split; intros (r' & d' & Hr & Ht & Hx); exists r', d'; (split; [|auto]).
      * right; exact Hr.
      * destruct Hr as [<-|Hr]; [congruence|exact Hr].
Qed.

Lemma deps_loop_total : forall sub h rs,
  (forall r d, In r rs -> rtarget h r = ToCell d -> sub d <> None) -> deps_loop sub h rs <> None.
Proof.
  intros sub h. induction rs as [|r rs IH]; intros H; cbn [deps_loop]; [discriminate|].
  assert (IH' : deps_loop sub h rs <> None) by (apply IH; intros; eapply H; [right|]; eassumption).
  destruct (rtarget h r) as [d|n] eqn:T; [|exact IH'].
  destruct (sub d) eqn:E; [|exfalso; eapply H; [left; reflexivity|exact T|exact E]].
  destruct (deps_loop sub h rs); [discriminate|congruence].
Qed.

Lemma deps_loop_defined : forall sub h rs l, deps_loop sub h rs = Some l ->
  forall r d, In r rs -> rtarget h r = ToCell d -> sub d <> None.
Proof.
  intros sub h. induction rs as [|r rs IH]; intros l H r' d Hr Ht; [destruct Hr|].
  cbn [deps_loop] in H. destruct Hr as [<-|Hr].
  - rewrite Ht in H. destruct (sub d); [discriminate|]. discriminate.
  - destruct (rtarget h r).
    + destruct (sub c); [|discriminate]. destruct (deps_loop sub h rs) eqn:E; [|discriminate].
      eapply IH; eauto.
    + eapply IH; eauto.
Qed.

Theorem deps_direct : forall h c, exists l, get_dependencies h c false = Some l /\
  forall d, In d l <-> direct h c d.
Proof.
  intros h c. unfold get_dependencies. rewrite deps_fuel_eq.
  destruct (deps_loop (fun _ => Some []) h (crefs h c)) as [l|] eqn:E.
  - exists l. split; [reflexivity|]. intros d. rewrite (deps_loop_spec _ _ _ _ E d). unfold direct. split.
    + intros (r & e & Hr & Ht & [->|(s & Hs & Hi)]); [eauto|]. inversion Hs; subst. destruct Hi.
    + intros (r & Hr & Ht). exists r, d. auto.
  - exfalso. revert E. apply deps_loop_total. discriminate.
Qed.

Lemma deps_fuel_reach : forall f h c l, deps_fuel f h true c = Some l -> forall d, In d l <-> reach h c d.
Proof.
  induction f as [|f IH]; intros h c l H d; [discriminate|].
  rewrite deps_fuel_eq in H. rewrite (deps_loop_spec _ _ _ _ H d). split.
  - intros (r & e & Hr & Ht & [->|(s & Hs & Hi)]).
    + apply reach_one. exists r. auto.
    + apply reach_more with e; [exists r; auto|]. eapply IH; eassumption.
  - intros Hd. inversion Hd as [? ? (r & Hr & Ht)|? e ? (r & Hr & Ht) Hre]; subst.
    + exists r, d. auto.
    + exists r, e. split; [exact Hr|]. split; [exact Ht|]. right.
      destruct (deps_fuel f h true e) as [s|] eqn:Es.
      * exists s. split; [reflexivity|]. eapply IH; eassumption.
      * exfalso. exact (deps_loop_defined _ _ _ _ H r e Hr Ht Es).
Qed.

Lemma reach_trans : forall h a b c, reach h a b -> reach h b c -> reach h a c.
Proof. intros h a b c H. revert c. induction H; intros; [eapply reach_more; eauto|]. eapply reach_more; eauto. Qed.

Lemma reach_last : forall h a b, reach h a b -> exists x, (x = a \/ reach h a x) /\ direct h x b.
Proof.
  intros h a b H. induction H as [a b H|a b c H Hr (x & Hx & Hd)].
  - exists a. auto.
  - exists x. split; [|exact Hd]. right. destruct Hx as [->|Hx]; [apply reach_one; exact H|].
    eapply reach_more; eassumption.
Qed.

Lemma direct_lt : forall h c d, heap_wf h -> c < h_ncell h -> direct h c d -> d < h_ncell h.
Proof. intros h c d [W1 W2] Hc (r & Hr & Ht). eapply W2; [eapply W1|]; eassumption. Qed.
Lemma reach_lt : forall h c d, heap_wf h -> c < h_ncell h -> reach h c d -> d < h_ncell h.
Proof.
  intros h c d W Hc H. induction H; [eapply direct_lt; eassumption|].
  apply IHreach. eapply direct_lt; eassumption.
Qed.

(** With enough fuel the recursion ends, because the cells on the way down are
    all different. *)
Lemma pigeon : forall (l : list nat) n, NoDup l -> (forall x, In x l -> x < n) -> length l <= n.
Proof.
  intros l n Nd H. rewrite <- (seq_length n 0). apply NoDup_incl_length; [exact Nd|].
  intros x Hx. apply in_seq. specialize (H x Hx). lia.
Qed.

Lemma deps_total_gen : forall f h c path, heap_wf h -> c < h_ncell h ->
  (forall x, x = c \/ reach h c x -> ~ reach h x x) ->
  NoDup (c :: path) -> (forall x, In x path -> x < h_ncell h /\ reach h x c) ->
  h_ncell h < f + length (c :: path) -> deps_fuel f h true c <> None.
Proof.
  induction f as [|f IH]; intros h c path W Hc Hac Nd Hp Hf.
  - exfalso. assert (length (c :: path) <= h_ncell h); [|cbn [Nat.add] in Hf; lia].
    apply pigeon; [exact Nd|]. intros x [<-|Hx]; [exact Hc|apply Hp; exact Hx].
  - rewrite deps_fuel_eq. apply deps_loop_total. intros r d Hr Ht.
    assert (Hd : direct h c d) by (exists r; auto).
    apply (IH h d (c :: path)).
    + exact W.
    + eapply direct_lt; eassumption.
    + intros x [->|Hx]; apply Hac; right; [apply reach_one; exact Hd|eapply reach_more; eassumption].
    + constructor; [|exact Nd]. intros [<-|Hi].
      * apply (Hac c); [left; reflexivity|]. apply reach_one; exact Hd.
      * destruct (Hp d Hi) as [_ Hrd]. apply (Hac c); [left; reflexivity|].
        eapply reach_more; eassumption.
    + intros x [<-|Hx]; [split; [exact Hc|apply reach_one; exact Hd]|].
      destruct (Hp x Hx) as [Hlt Hxr]. split; [exact Hlt|].
      eapply reach_trans; [exact Hxr|apply reach_one; exact Hd].
    + cbn [length] in Hf |- *. lia.
Qed.

Theorem deps_total : forall h c, heap_wf h -> c < h_ncell h -> acyclic h c ->
  get_dependencies h c true <> None.
Proof.
  intros h c W Hc Hac. apply (deps_total_gen _ h c []); auto.
  - repeat constructor. intros [].
  - intros x [].
  - cbn [length]. lia.
Qed.

(** On a cyclic hierarchy no recursion limit is enough. *)
Lemma deps_fuel_down : forall f h c l d, deps_fuel (S f) h true c = Some l -> direct h c d ->
  deps_fuel f h true d <> None.
Proof.
  intros f h c l d H (r & Hr & Ht). rewrite deps_fuel_eq in H.
  exact (deps_loop_defined _ _ _ _ H r d Hr Ht).
Qed.
Lemma deps_fuel_mono : forall f h c l, deps_fuel f h true c = Some l -> deps_fuel (S f) h true c = Some l.
Proof.
  induction f as [|f IH]; intros h c l H; [discriminate|].
  rewrite deps_fuel_eq in H. rewrite deps_fuel_eq.
  revert l H. induction (crefs h c) as [|r rs IHr]; intros l H; [exact H|].
  cbn [deps_loop] in H |- *. destruct (rtarget h r) as [d|n]; [|apply IHr; exact H].
  destruct (deps_fuel f h true d) as [s|] eqn:Es; [|discriminate].
  destruct (deps_loop _ h rs) as [l'|] eqn:El; [|discriminate].
  rewrite (IH h d s Es). rewrite (IHr l' eq_refl). exact H.
Qed.
Lemma deps_reach_defined : forall f h c d l, deps_fuel f h true c = Some l -> reach h c d ->
  exists g l', f = S g /\ deps_fuel g h true d = Some l'.
Proof.
  intros f h c d l H R. revert f l H. induction R as [c d D|c d e D R IH]; intros f l H.
  - destruct f as [|f]; [discriminate|]. pose proof (deps_fuel_down f h c l d H D).
    exists f. destruct (deps_fuel f h true d) eqn:E; [|congruence]. exists l0. auto.
  - destruct f as [|f]; [discriminate|]. pose proof (deps_fuel_down f h c l d H D).
    destruct (deps_fuel f h true d) as [l1|] eqn:E; [|congruence].
    destruct (IH f l1 E) as (g & l' & -> & E'). exists (S g), l'. split; [reflexivity|].
    apply deps_fuel_mono. exact E'.
Qed.
Lemma deps_no_cycle : forall f h c l, deps_fuel f h true c = Some l -> ~ reach h c c.
Proof.
  induction f as [|f IH]; intros h c l H R; [discriminate|].
  destruct (deps_reach_defined _ _ _ _ _ H R) as (g & l' & E & H'). inversion E; subst.
  exact (IH h c l' H' R).
Qed.
Theorem deps_acyclic : forall f h c l, deps_fuel f h true c = Some l -> acyclic h c.
Proof.
  intros f h c l H d [->|R]; [eapply deps_no_cycle; eassumption|].
  destruct (deps_reach_defined _ _ _ _ _ H R) as (g & l' & -> & H').
  eapply deps_no_cycle; eassumption.
Qed.

(** ** top_level *)

Definition used_loop h :=
  fix go (l : list nat) : option (list nat) :=
    match l with
    | [] => Some []
    | c :: r => match get_dependencies h c false, go r with
                | Some a, Some b => Some (a ++ b)
                | _, _ => None
                end
    end.
Lemma used_spec : forall h l, exists u, used_loop h l = Some u /\
  forall d, In d u <-> exists c, In c l /\ direct h c d.
Proof.
  intros h. induction l as [|c l (u & E & H)].
  - exists []. split; [reflexivity|]. intros d; split; [intros []|intros (c & [] & _)].
  - destruct (deps_direct h c) as (a & Ea & Ha). exists (a ++ u). cbn [used_loop]. rewrite Ea, E.
    split; [reflexivity|]. intros d. rewrite in_app_iff, Ha, H. split.
    + intros [Hd|(x & Hx & Hd)]; [exists c; cbn; auto|exists x; cbn; auto].
    + intros (x & [<-|Hx] & Hd); eauto.
Qed.

Theorem top_level_spec : forall h d, exists l, top_level h d = Some l /\ NoDup l /\
  forall c, In c l <-> In c (dcells d) /\ ~ exists e, In e (dcells d) /\ direct h e c.
Proof.
  intros h d. destruct (used_spec h (dcells d)) as (u & E & H).
  exists (filter (fun c => negb (existsb (Nat.eqb c) u)) (nodup Nat.eq_dec (dcells d))).
  split; [unfold top_level; fold (used_loop h); rewrite E; reflexivity|].
  split; [apply NoDup_filter, NoDup_nodup|].
  intros c. rewrite filter_In, nodup_In, negb_true_iff. rewrite <- not_true_iff_false, existsb_exists.
  rewrite <- H. split; intros [H1 H2]; (split; [exact H1|]).
  - intros Hi. apply H2. exists c. split; [exact Hi|apply Nat.eqb_refl].
  - intros (x & Hx & Ex). apply Nat.eqb_eq in Ex. subst. auto.
Qed.

(** Climbing from any cell of an acyclic library ends at a top-level cell. *)
Lemma climb : forall n h d c path,
  (forall x, In x (dcells d) -> ~ reach h x x) ->
  In c (dcells d) -> NoDup (c :: path) ->
  (forall x, In x path -> In x (dcells d) /\ reach h c x) ->
  length (dcells d) < n + length (c :: path) ->
  exists t, In t (dcells d) /\ (~ exists e, In e (dcells d) /\ direct h e t) /\ (t = c \/ reach h t c).
Proof.
  induction n as [|n IH]; intros h d c path Hac Hc Nd Hp Hn.
  - exfalso. assert (length (c :: path) <= length (dcells d)); [|cbn [Nat.add] in Hn; lia].
    apply NoDup_incl_length; [exact Nd|]. intros x [<-|Hx]; [exact Hc|apply Hp; exact Hx].
  - destruct (used_spec h (dcells d)) as (u & _ & Hu).
    destruct (in_dec Nat.eq_dec c u) as [Hi|Hi].
    + apply Hu in Hi. destruct Hi as (e & He & Hd).
      destruct (IH h d e (c :: path) Hac He) as (t & Ht & Htop & Hr).
      * constructor; [|exact Nd]. intros [<-|Hin].
        -- apply (Hac c Hc). apply reach_one; exact Hd.
        -- destruct (Hp e Hin) as [_ Hre]. apply (Hac c Hc).
           eapply reach_trans; [exact Hre|apply reach_one; exact Hd].
      * intros x [<-|Hx]; [split; [exact Hc|apply reach_one; exact Hd]|].
        destruct (Hp x Hx) as [Hx1 Hx2]. split; [exact Hx1|]. eapply reach_more; eassumption.
      * cbn [length] in Hn |- *. lia.
      * exists t. split; [exact Ht|]. split; [exact Htop|]. right.
        destruct Hr as [->|Hr]; [apply reach_one; exact Hd|].
        eapply reach_trans; [exact Hr|apply reach_one; exact Hd].
    + exists c. split; [exact Hc|]. split; [|auto]. intros H. apply Hi. apply Hu. exact H.
Qed.

Theorem top_level_covers : forall h d l, top_level h d = Some l ->
  (forall x, In x (dcells d) -> ~ reach h x x) ->
  forall c, In c (dcells d) -> exists t, In t l /\ (t = c \/ reach h t c).
Proof.
  intros h d l H Hac c Hc. destruct (top_level_spec h d) as (l' & E & _ & Hl).
  rewrite H in E. inversion E; subst l'.
  destruct (climb (S (length (dcells d))) h d c [] Hac Hc) as (t & Ht & Htop & Hr).
  - repeat constructor. intros [].
  - intros x [].
  - cbn [length]. lia.
  - exists t. split; [apply Hl; auto|exact Hr].
Qed.

(** ** replace_references *)

Lemma repl_fold : forall old new rs h k h' k',
  fold_left (repl1 old new) rs (h, k) = (h', k') ->
  h_cell h' = h_cell h /\ h_ncell h' = h_ncell h /\ h_nref h' = h_nref h /\
  (forall r, h_ref h' r =
     if existsb (Nat.eqb r) rs && name_eqb (tname h (rtarget h r)) old
     then GRef new (r_data (h_ref h r)) else h_ref h r).
Proof.
  intros old new. induction rs as [|r rs IH]; intros h k h' k' H; cbn [fold_left] in H.
  - inversion H; subst. auto.
  - unfold repl1 in H at 2. destruct (name_eqb (tname h (rtarget h r)) old) eqn:E.
    + specialize (IH _ _ _ _ H). destruct IH as (I1 & I2 & I3 & I4).
      cbn [set_ref h_cell h_ncell h_nref] in I1, I2, I3. repeat (split; [assumption|]).
      intros x. rewrite I4. cbn [existsb].
      assert (Ht : forall t, tname (set_ref h r (GRef new (r_data (h_ref h r)))) t = tname h t) by (intros []; reflexivity).
      rewrite Ht. unfold rtarget. cbn [set_ref h_ref]. unfold upd.
      destruct (Nat.eqb_spec x r) as [->|Hx]; cbn [orb andb].
      * cbn [r_target r_data]. fold (rtarget h r). rewrite E.
        destruct (existsb _ rs && _); reflexivity.
      * reflexivity.
    + specialize (IH _ _ _ _ H). destruct IH as (I1 & I2 & I3 & I4). repeat (split; [assumption|]).
      intros x. rewrite I4. cbn [existsb]. destruct (Nat.eqb_spec x r) as [->|Hx]; cbn [orb]; [|reflexivity].
      rewrite E, !andb_false_r. reflexivity.
Qed.

Lemma repl_count_distinct : forall old new rs h k h' k',
  fold_left (repl1 old new) rs (h, k) = (h', k') -> tname h new <> old ->
  exists l, NoDup l /\ (forall r, In r l <-> In r rs /\ tname h (rtarget h r) = old) /\ k' = k + length l.
Proof.
  intros old new. induction rs as [|r rs IH]; intros h k h' k' H Hn; cbn [fold_left] in H.
  - inversion H; subst. exists []. split; [constructor|]. split; [|cbn; lia]. cbn. tauto.
  - unfold repl1 in H at 2. destruct (name_eqb (tname h (rtarget h r)) old) eqn:E.
    + apply name_eqb_eq in E.
      assert (Ht : forall t, tname (set_ref h r (GRef new (r_data (h_ref h r)))) t = tname h t) by (intros []; reflexivity).
      destruct (IH _ _ _ _ H) as (l & Nd & Hl & Hk); [rewrite Ht; exact Hn|].
      assert (Hm : forall x, In x l <-> In x rs /\ x <> r /\ tname h (rtarget h x) = old).
      { intros x. rewrite Hl, Ht. unfold rtarget at 1. cbn [set_ref h_ref]. unfold upd.
        destruct (Nat.eqb_spec x r) as [->|Hx]; cbn [r_target]; [intuition|fold (rtarget h x); intuition]. }
      exists (r :: l). split; [constructor; [|exact Nd]; rewrite Hm; tauto|]. split; [|cbn; lia].
      intros x. cbn [In]. rewrite Hm. destruct (Nat.eq_dec x r) as [->|Hx]; intuition congruence.
    + apply name_eqb_neq in E. destruct (IH _ _ _ _ H Hn) as (l & Nd & Hl & Hk).
      exists l. split; [exact Nd|]. split; [|exact Hk]. intros x. rewrite Hl. cbn [In].
      intuition. subst. congruence.
Qed.

Lemma repl_count_same : forall old new rs h k h' k',
  fold_left (repl1 old new) rs (h, k) = (h', k') -> tname h new = old ->
  k' = k + length (filter (fun r => name_eqb (tname h (rtarget h r)) old) rs).
Proof.
  intros old new. induction rs as [|r rs IH]; intros h k h' k' H Hn; cbn [fold_left] in H.
  - inversion H; subst. cbn. lia.
  - unfold repl1 in H at 2. cbn [filter]. destruct (name_eqb (tname h (rtarget h r)) old) eqn:E.
    + assert (Ht : forall t, tname (set_ref h r (GRef new (r_data (h_ref h r)))) t = tname h t) by (intros []; reflexivity).
      rewrite (IH _ _ _ _ H); [|rewrite Ht; exact Hn]. cbn [length].
      rewrite <- plus_n_Sm. cbn [Nat.add]. f_equal. f_equal. f_equal. apply filter_ext. intros x. rewrite Ht.
      unfold rtarget at 1. cbn [set_ref h_ref]. unfold upd.
      destruct (Nat.eqb_spec x r) as [->|Hx]; [|reflexivity]. cbn [r_target]. rewrite Hn, E.
      apply name_eqb_refl.
    + apply (IH _ _ _ _ H Hn).
Qed.

Lemma lib_refs_In : forall h d r, In r (flat_map (crefs h) (dcells d)) <-> lib_ref h d r.
Proof. intros. rewrite in_flat_map. reflexivity. Qed.

Lemma repl_refs_spec : forall h d old new h' k, repl_refs h d old new = (h', k) ->
  same_but_targets h h' /\
  (forall r, lib_ref h d r -> tname h (rtarget h r) = old -> rtarget h' r = new) /\
  (forall r, ~ (lib_ref h d r /\ tname h (rtarget h r) = old) -> rtarget h' r = rtarget h r).
Proof.
  intros h d old new h' k H. unfold repl_refs in H. destruct (repl_fold _ _ _ _ _ _ _ H) as (I1 & I2 & I3 & I4).
  split; [split; [intros c; rewrite I1; reflexivity|split; [|split; assumption]]|split].
  - intros r. rewrite I4. destruct (_ && _); reflexivity.
  - intros r Hr Ht. unfold rtarget. rewrite I4. apply lib_refs_In in Hr.
    assert (E : existsb (Nat.eqb r) (flat_map (crefs h) (dcells d)) = true)
      by (apply existsb_exists; exists r; split; [exact Hr|apply Nat.eqb_refl]).
    rewrite E, Ht, name_eqb_refl. reflexivity.
  - intros r Hr. unfold rtarget at 1. rewrite I4. destruct (_ && _) eqn:E; [|reflexivity].
    exfalso. apply Hr. apply andb_true_iff in E. destruct E as [E1 E2]. apply name_eqb_eq in E2.
    split; [|exact E2]. apply existsb_exists in E1. destruct E1 as (x & Hx & Ex). apply Nat.eqb_eq in Ex.
    subst. apply lib_refs_In. exact Hx.
Qed.

Lemma same_cname : forall h h' c, same_but_targets h h' -> cname h' c = cname h c.
Proof. intros h h' c (H & _). unfold cname. rewrite H. reflexivity. Qed.
Lemma same_crefs : forall h h' c, same_but_targets h h' -> crefs h' c = crefs h c.
Proof. intros h h' c (H & _). unfold crefs. rewrite H. reflexivity. Qed.
Lemma same_tname : forall h h' t, same_but_targets h h' -> tname h' t = tname h t.
Proof. intros h h' [c|n] H; [apply same_cname; exact H|reflexivity]. Qed.
Lemma same_refl : forall h, same_but_targets h h.
Proof. intros h. repeat split; reflexivity. Qed.
Lemma same_trans : forall (a b c : heap), same_but_targets a b -> same_but_targets b c -> same_but_targets a c.
Proof.
  intros a b c (H1 & H2 & H3 & H4) (K1 & K2 & K3 & K4). repeat split; congruence || (intros; congruence).
Qed.
Lemma same_lib_ref : forall h h' d r, same_but_targets h h' -> (lib_ref h' d r <-> lib_ref h d r).
Proof.
  intros h h' d r H. unfold lib_ref. split; intros (c & Hc & Hr); exists c; (split; [exact Hc|]);
  [rewrite (same_crefs h h' c H) in Hr|rewrite (same_crefs h h' c H)]; exact Hr.
Qed.

(** Repeating the call replaces nothing more. *)
Lemma repl_refs_again : forall h d old new h' k, repl_refs h d old new = (h', k) ->
  tname h new <> old -> repl_refs h' d old new = (h', 0).
Proof.
  intros h d old new h' k H Hn. destruct (repl_refs_spec _ _ _ _ _ _ H) as (Hs & Hy & Hno).
  assert (Hnone : forall r, lib_ref h d r -> tname h' (rtarget h' r) <> old).
  { intros r Hr. destruct (list_eq_dec Z.eq_dec (tname h (rtarget h r)) old) as [E|E].
    - rewrite (Hy r Hr E). rewrite (same_tname h h' _ Hs). exact Hn.
    - rewrite (Hno r); [|tauto]. rewrite (same_tname h h' _ Hs). exact E. }
  unfold repl_refs.
  assert (Hall : forall r, In r (flat_map (crefs h') (dcells d)) -> tname h' (rtarget h' r) <> old).
  { intros r Hr. apply lib_refs_In in Hr. apply (same_lib_ref h h' d r Hs) in Hr. auto. }
  revert Hall. induction (flat_map (crefs h') (dcells d)) as [|r rs IH]; intros Hall; [reflexivity|].
  cbn [fold_left]. unfold repl1 at 2.
  destruct (name_eqb (tname h' (rtarget h' r)) old) eqn:E.
  - apply name_eqb_eq in E. exfalso. apply (Hall r); [left; reflexivity|exact E].
  - apply IH. intros x Hx. apply Hall. right. exact Hx.
Qed.

(** ** remove *)

Lemma drop_fold : forall n cs h k h' k', fold_left (drop_refs n) cs (h, k) = (h', k') ->
  h_ref h' = h_ref h /\ h_ncell h' = h_ncell h /\ h_nref h' = h_nref h /\
  (forall c, cname h' c = cname h c) /\ (forall c, c_data (h_cell h' c) = c_data (h_cell h c)) /\
  (forall c, crefs h' c = if existsb (Nat.eqb c) cs
     then filter (fun r => negb (name_eqb n (tname h (rtarget h r)))) (crefs h c) else crefs h c) /\
  (NoDup cs -> k' = k + length (filter (fun r => name_eqb n (tname h (rtarget h r))) (flat_map (crefs h) cs))).
Proof.
  intros n. induction cs as [|c cs IH]; intros h k h' k' H; cbn [fold_left] in H.
  - inversion H; subst. repeat (split; [reflexivity|]). intros _. cbn. lia.
  - unfold drop_refs in H at 2.
    set (kept := filter (fun r => negb (name_eqb n (tname h (rtarget h r)))) (crefs h c)) in *.
    set (h1 := set_cell h c (GCell (c_name (h_cell h c)) kept (c_data (h_cell h c)))) in *.
    specialize (IH _ _ _ _ H). destruct IH as (I1 & I2 & I3 & I4 & I5 & I6 & I7).
    assert (Hn : forall x, cname h1 x = cname h x).
    { intros x. unfold h1, cname. cbn [set_cell h_cell]. unfold upd.
      destruct (Nat.eqb_spec x c) as [->|]; reflexivity. }
    assert (Ht : forall r, tname h1 (rtarget h1 r) = tname h (rtarget h r)).
    { intros r. change (rtarget h1 r) with (rtarget h r). destruct (rtarget h r) as [x|m]; [apply Hn|reflexivity]. }
    assert (Hc : forall x, x <> c -> crefs h1 x = crefs h x).
    { intros x Hx. unfold h1, crefs. cbn [set_cell h_cell]. rewrite upd_neq by exact Hx. reflexivity. }
    assert (Hcc : crefs h1 c = kept).
    { unfold h1, crefs. cbn [set_cell h_cell]. rewrite upd_eq. reflexivity. }
    split; [exact I1|]. split; [exact I2|]. split; [exact I3|].
    split; [intros x; rewrite I4; apply Hn|]. split.
    { intros x. rewrite I5. unfold h1. cbn [set_cell h_cell]. unfold upd.
      destruct (Nat.eqb_spec x c) as [->|]; reflexivity. }
    split.
    { intros x. rewrite I6. cbn [existsb].
      rewrite (filter_ext _ (fun r => negb (name_eqb n (tname h (rtarget h r))))) by (intros r; rewrite Ht; reflexivity).
      destruct (Nat.eqb_spec x c) as [->|Hx]; cbn [orb].
      - rewrite Hcc. unfold kept. destruct (existsb _ cs); [|reflexivity].
        apply filter_idem.
      - rewrite (Hc x Hx). reflexivity. }
    intros Nd. inversion Nd as [|? ? Hnc Nd']; subst. rewrite (I7 Nd').
    cbn [flat_map]. rewrite filter_app, app_length.
    assert (E1 : flat_map (crefs h1) cs = flat_map (crefs h) cs).
    { clear - Hc Hnc. induction cs as [|x cs IH]; [reflexivity|]. cbn [flat_map]. f_equal.
      - apply Hc. intros ->. apply Hnc. left; reflexivity.
      - apply IH. intros Hi. apply Hnc. right; exact Hi. }
    rewrite E1. rewrite (filter_ext (fun r => name_eqb n (tname h1 (rtarget h1 r)))
                                    (fun r => name_eqb n (tname h (rtarget h r)))) by (intros r; rewrite Ht; reflexivity).
    assert (E2 : length (crefs h c) = length kept + length (filter (fun r => name_eqb n (tname h (rtarget h r))) (crefs h c))).
    { unfold kept. apply filter_split. }
    lia.
Qed.

Lemma existsb_In : forall c l, existsb (Nat.eqb c) l = true <-> In c l.
Proof.
  intros. rewrite existsb_exists. split.
  - intros (x & Hx & E). apply Nat.eqb_eq in E. subst. exact Hx.
  - intros H. exists c. split; [exact H|apply Nat.eqb_refl].
Qed.

Lemma keyed_NoDup_cells : forall h d, keyed h d -> NoDup (dcells d).
Proof.
  intros h d [Nd Hk]. unfold dcells. induction d as [|[n c] d IH]; [constructor|].
  cbn [map fst snd] in *. inversion Nd as [|? ? Hn Nd']; subst. constructor.
  - intros Hi. apply in_map_iff in Hi. destruct Hi as ([m x] & E & Hx). cbn in E. subst x.
    apply Hn. rewrite <- (Hk n c) by (left; reflexivity). rewrite (Hk m c) by (right; exact Hx).
    change m with (fst (m, c)). apply in_map. exact Hx.
  - apply IH; [exact Nd'|]. intros; apply Hk; right; assumption.
Qed.

Theorem remove_spec : forall h d cell h' d' k, keyed h d -> remove h d cell true = (h', d', k) ->
  let n := tname h cell in
  (forall m c, In (m, c) d' <-> In (m, c) d /\ m <> n) /\
  (forall c, In c (dcells d') ->
     crefs h' c = filter (fun r => negb (name_eqb n (tname h (rtarget h r)))) (crefs h c)) /\
  (forall c, ~ In c (dcells d') -> crefs h' c = crefs h c) /\
  (forall r, h_ref h' r = h_ref h r) /\ (forall c, cname h' c = cname h c) /\
  (forall c, c_data (h_cell h' c) = c_data (h_cell h c)) /\
  k = length (filter (fun r => name_eqb n (tname h (rtarget h r))) (flat_map (crefs h) (dcells d'))).
Proof.
  intros h d cell h' d' k Hk H n. unfold remove in H. fold n in H. change (arg_name h cell) with n in H.
  destruct (fold_left (drop_refs n) (dcells (ddel d n)) (h, 0)) as [h1 k1] eqn:E.
  inversion H; subst. destruct (drop_fold _ _ _ _ _ _ E) as (I1 & I2 & I3 & I4 & I5 & I6 & I7).
  split; [intros m c; rewrite ddel_In; tauto|].
  split; [intros c Hc; rewrite I6; apply existsb_In in Hc; rewrite Hc; reflexivity|].
  split; [intros c Hc; rewrite I6; destruct (existsb _ _) eqn:X; [apply existsb_In in X; contradiction|reflexivity]|].
  split; [intros r; rewrite I1; reflexivity|]. split; [exact I4|]. split; [exact I5|].
  rewrite I7; [reflexivity|]. eapply keyed_NoDup_cells. destruct Hk as [Nd Hk]. split.
  - apply ddel_NoDup. exact Nd.
  - intros m c Hc. apply ddel_In in Hc. apply Hk. tauto.
Qed.

Lemma remove_keeps_keyed : forall h d cell rr h' d' k, keyed h d ->
  remove h d cell rr = (h', d', k) -> keyed h' d'.
Proof.
  intros h d cell rr h' d' k [Nd Hk] H. unfold remove in H. destruct rr.
  - destruct (fold_left _ _ _) as [h1 k1] eqn:E. inversion H; subst.
    destruct (drop_fold _ _ _ _ _ _ E) as (_ & _ & _ & I4 & _).
    split; [apply ddel_NoDup; exact Nd|]. intros n c Hc. apply ddel_In in Hc. rewrite I4. apply Hk. tauto.
  - inversion H; subst. split; [apply ddel_NoDup; exact Nd|]. intros n c Hc. apply ddel_In in Hc. apply Hk. tauto.
Qed.

(** ** add *)

Lemma keyed_get : forall h d c, keyed h d -> In c (dcells d) -> dget d (cname h c) = Some c.
Proof.
  intros h d c [Nd Hk] Hc. apply dcells_In in Hc. destruct Hc as (n & Hn).
  rewrite (Hk n c Hn). apply dget_In; assumption.
Qed.

Lemma add_loop_facts : forall ow upr order h d h' d' ok,
  keyed h d -> add_loop h d ow upr order = (h', d', ok) ->
  same_but_targets h h' /\ keyed h' d' /\
  (forall n c, In (n, c) d' -> In (n, c) d \/ In c order) /\
  (forall n, In n (map fst d) -> In n (map fst d')) /\
  (ow = false -> forall n c, In (n, c) d -> In (n, c) d') /\
  (ok = true -> forall c, In c order -> In (cname h c) (map fst d')) /\
  (ow && upr = false -> h' = h).
Proof.
  intros ow upr. induction order as [|c rest IH]; intros h d h' d' ok Hkd H; cbn [add_loop] in H.
  - inversion H; subst. split; [apply same_refl|]. split; [exact Hkd|].
    repeat split; auto. intros _ c [].
  - destruct (negb ow && clashes h d c) eqn:Ec.
    + inversion H; subst. split; [apply same_refl|]. split; [exact Hkd|].
      repeat split; auto. discriminate.
    + set (h1 := if ow && upr && clashes h d c
                 then fst (repl_refs h d (cname h c) (ToCell c)) else h) in *.
      assert (S1 : same_but_targets h h1).
      { unfold h1. destruct (ow && upr && clashes h d c); [|apply same_refl].
        destruct (repl_refs h d (cname h c) (ToCell c)) as [hh kk] eqn:E.
        apply (repl_refs_spec _ _ _ _ _ _ E). }
      destruct Hkd as [Nd Hk].
      assert (K1 : keyed h1 (dset d (cname h1 c) c)).
      { split; [apply dset_NoDup; exact Nd|]. intros n x Hx. apply dset_In in Hx; [|exact Nd].
        destruct Hx as [[-> ->]|[_ Hx]]; [reflexivity|]. rewrite (same_cname h h1 x S1). apply Hk. exact Hx. }
      destruct (IH _ _ _ _ _ K1 H) as (I1 & I2 & I3 & I4 & I5 & I6 & I7).
      split; [eapply same_trans; eassumption|]. split; [exact I2|].
      split.
      { intros n x Hx. destruct (I3 n x Hx) as [Hx'|Hx']; [|right; right; exact Hx'].
        apply dset_In in Hx'; [|exact Nd]. destruct Hx' as [[-> ->]|[_ Hx']]; [right; left; reflexivity|auto]. }
      split.
      { intros n Hn. apply I4. apply dset_keys. auto. }
      split.
      { intros How n x Hx. apply (I5 How). apply dset_In; [exact Nd|].
        destruct (list_eq_dec Z.eq_dec n (cname h1 c)) as [E|E]; [left|right; auto].
        split; [exact E|]. subst ow. cbn [negb andb] in Ec. unfold clashes in Ec.
        rewrite (same_cname h h1 c S1) in E. subst n.
        rewrite (proj2 (dget_In d _ x Nd) Hx) in Ec.
        apply negb_false_iff in Ec. apply Nat.eqb_eq in Ec. exact Ec. }
      split.
      { intros Hok x [<-|Hx].
        - apply I4. apply dset_keys. left. symmetry. apply (same_cname h h1 c S1).
        - rewrite <- (same_cname h h1 x S1). apply I6; assumption. }
      { intros Hou. rewrite (I7 Hou). unfold h1. rewrite Hou. reflexivity. }
Qed.

(** Everything asked for is in the library, under its own name. *)
Lemma add_loop_all : forall ow upr order h d h' d' ok,
  keyed h d -> add_loop h d ow upr order = (h', d', ok) -> ok = true ->
  (ow = false \/ NoDup (map (cname h) order)) ->
  forall c, In c order -> In (cname h c, c) d'.
Proof.
  intros ow upr. induction order as [|c rest IH]; intros h d h' d' ok Hkd H Hok Hd x Hx; [destruct Hx|].
  cbn [add_loop] in H. destruct (negb ow && clashes h d c) eqn:Ec.
  { inversion H; subst. discriminate. }
  set (h1 := if ow && upr && clashes h d c
             then fst (repl_refs h d (cname h c) (ToCell c)) else h) in *.
  assert (S1 : same_but_targets h h1).
  { unfold h1. destruct (ow && upr && clashes h d c); [|apply same_refl].
    destruct (repl_refs h d (cname h c) (ToCell c)) as [hh kk] eqn:E.
    apply (repl_refs_spec _ _ _ _ _ _ E). }
  destruct Hkd as [Nd Hk].
  assert (K1 : keyed h1 (dset d (cname h1 c) c)).
  { split; [apply dset_NoDup; exact Nd|]. intros n y Hy. apply dset_In in Hy; [|exact Nd].
    destruct Hy as [[-> ->]|[_ Hy]]; [reflexivity|]. rewrite (same_cname h h1 y S1). apply Hk. exact Hy. }
  assert (N1 : forall y, cname h1 y = cname h y) by (intros y; apply (same_cname h h1 y S1)).
  destruct Hx as [<-|Hx].
  - destruct Hd as [Hd|Hd].
    + destruct (add_loop_facts _ _ _ _ _ _ _ _ K1 H) as (_ & _ & _ & _ & I5 & _).
      apply (I5 Hd). apply dset_In; [exact Nd|]. left. split; [symmetry; apply N1|reflexivity].
    + cbn [map] in Hd. inversion Hd as [|? ? Hn Hd']; subst.
      assert (G : forall rest h1 d1 h' d' ok, keyed h1 d1 -> add_loop h1 d1 ow upr rest = (h', d', ok) ->
        ~ In (cname h c) (map (cname h1) rest) -> In (cname h c, c) d1 -> In (cname h c, c) d').
      { clear. induction rest as [|y rest IHr]; intros h1 d1 h' d' ok K Ha Hn Hi; cbn [add_loop] in Ha.
        - inversion Ha; subst. exact Hi.
        - destruct (negb ow && clashes h1 d1 y); [inversion Ha; subst; exact Hi|].
          set (h2 := if ow && upr && clashes h1 d1 y
                     then fst (repl_refs h1 d1 (cname h1 y) (ToCell y)) else h1) in *.
          assert (S2 : same_but_targets h1 h2).
          { unfold h2. destruct (ow && upr && clashes h1 d1 y); [|apply same_refl].
            destruct (repl_refs h1 d1 (cname h1 y) (ToCell y)) as [hh kk] eqn:E.
            apply (repl_refs_spec _ _ _ _ _ _ E). }
          destruct K as [Nd Hk]. cbn [map In] in Hn.
          eapply IHr; [|exact Ha| |].
          + split; [apply dset_NoDup; exact Nd|]. intros n z Hz. apply dset_In in Hz; [|exact Nd].
            destruct Hz as [[-> ->]|[_ Hz]]; [reflexivity|]. rewrite (same_cname h1 h2 z S2). apply Hk. exact Hz.
          + intros Hm. apply Hn. right. apply in_map_iff in Hm. destruct Hm as (z & E & Hz).
            apply in_map_iff. exists z. rewrite <- (same_cname h1 h2 z S2). auto.
          + apply dset_In; [exact Nd|]. right. split; [|exact Hi].
            rewrite (same_cname h1 h2 y S2). intros E. apply Hn. left. symmetry. exact E. }
      eapply G; [exact K1|exact H| |].
      * intros Hm. apply Hn. apply in_map_iff in Hm. destruct Hm as (z & E & Hz). rewrite N1 in E.
        apply in_map_iff. eauto.
      * apply dset_In; [exact Nd|]. left. split; [symmetry; apply N1|reflexivity].
  - rewrite <- N1. eapply IH; try eassumption.
    destruct Hd as [Hd|Hd]; [left; exact Hd|right]. cbn [map] in Hd. inversion Hd; subst.
    replace (map (cname h1) rest) with (map (cname h) rest); [assumption|].
    apply map_ext. intros; symmetry; apply N1.
Qed.

(** Targets of references after an add: as before, or redirected to one of the
    added cells of the same name. *)
Lemma add_loop_targets : forall ow upr order h d h' d' ok, keyed h d ->
  add_loop h d ow upr order = (h', d', ok) ->
  forall r, rtarget h' r = rtarget h r \/
            exists c, In c order /\ rtarget h' r = ToCell c /\ tname h (rtarget h r) = cname h c.
Proof.
  intros ow upr. induction order as [|c rest IH]; intros h d h' d' ok Hkd H r; cbn [add_loop] in H.
  - inversion H; subst. auto.
  - destruct (negb ow && clashes h d c); [inversion H; subst; auto|].
    set (h1 := if ow && upr && clashes h d c
               then fst (repl_refs h d (cname h c) (ToCell c)) else h) in *.
    assert (S1 : same_but_targets h h1 /\
      (rtarget h1 r = rtarget h r \/ rtarget h1 r = ToCell c /\ tname h (rtarget h r) = cname h c)).
    { unfold h1. destruct (ow && upr && clashes h d c); [|split; [apply same_refl|auto]].
      destruct (repl_refs h d (cname h c) (ToCell c)) as [hh kk] eqn:E. cbn [fst].
      destruct (repl_refs_spec _ _ _ _ _ _ E) as (Hs & Hy & Hn). split; [exact Hs|].
      destruct (list_eq_dec Z.eq_dec (tname h (rtarget h r)) (cname h c)) as [Et|Et];
        [|left; apply Hn; tauto].
      destruct (in_dec Nat.eq_dec r (flat_map (crefs h) (dcells d))) as [Hi|Hi].
      - right. split; [apply Hy; [apply lib_refs_In; exact Hi|exact Et]|exact Et].
      - left. apply Hn. intros [Hl _]. apply Hi. apply lib_refs_In. exact Hl. }
    destruct S1 as [S1 T1]. destruct Hkd as [Nd Hk].
    assert (K1 : keyed h1 (dset d (cname h1 c) c)).
    { split; [apply dset_NoDup; exact Nd|]. intros n y Hy. apply dset_In in Hy; [|exact Nd].
      destruct Hy as [[-> ->]|[_ Hy]]; [reflexivity|]. rewrite (same_cname h h1 y S1). apply Hk. exact Hy. }
    destruct (IH _ _ _ _ _ K1 H r) as [E|(x & Hx & E & Et)].
    + destruct T1 as [T1|[T1 T2]]; [left; congruence|right]. exists c. rewrite E, T1. cbn. auto.
    + rewrite (same_cname h h1 x S1), (same_tname h h1 _ S1) in Et.
      right. exists x. split; [right; exact Hx|]. split; [exact E|].
      destruct T1 as [T1|[T1 T2]]; [rewrite T1 in Et; exact Et|].
      rewrite T1 in Et. cbn [tname] in Et. congruence.
Qed.

(** ** cell_set *)

Lemma deps_all_spec : forall h l s, deps_all h l = Some s ->
  forall d, In d s <-> exists c, In c l /\ reach h c d.
Proof.
  intros h. induction l as [|c l IH]; intros s H d; cbn [deps_all] in H.
  - inversion H; subst. split; [intros []|intros (c & [] & _)].
  - destruct (get_dependencies h c true) as [a|] eqn:Ea; [|discriminate].
    destruct (deps_all h l) as [b|]; [|discriminate]. inversion H; subst.
    rewrite in_app_iff, (IH b eq_refl d), (deps_fuel_reach _ _ _ _ Ea d). split.
    + intros [Hd|(x & Hx & Hd)]; [exists c; cbn; auto|exists x; cbn; auto].
    + intros (x & [<-|Hx] & Hd); eauto.
Qed.

Definition args_of (a : cellarg) : list nat := match a with One c => [c] | Many l _ => l end.
Definition reusable (a : cellarg) : Prop := match a with Many _ true => False | _ => True end.

Lemma cell_set_spec : forall h a s, reusable a -> cell_set h a true = Some s ->
  forall d, In d s <-> exists c, In c (args_of a) /\ (d = c \/ reach h c d).
Proof.
  intros h [c|l one] s Hr H d; cbn [cell_set andb negb] in H.
  - destruct (get_dependencies h c true) as [a|] eqn:E; [|discriminate]. cbn [option_map] in H.
    inversion H; subst. cbn [In args_of]. rewrite (deps_fuel_reach _ _ _ _ E d). split.
    + intros [<-|Hd]; exists c; auto.
    + intros (x & [<-|[]] & [->|Hd]); auto.
  - destruct one; [destruct Hr|]. cbn [negb andb] in H.
    destruct (deps_all h l) as [a|] eqn:E; [|discriminate]. cbn [option_map] in H.
    inversion H; subst. rewrite in_app_iff, (deps_all_spec _ _ _ E d). cbn [args_of]. split.
    + intros [Hd|(x & Hx & Hd)]; [exists d; auto|exists x; auto].
    + intros (x & Hx & [->|Hd]); [auto|right; eauto].
Qed.

Lemma cell_set_lt : forall h a incl s, heap_wf h -> arg_ok h a -> cell_set h a incl = Some s ->
  forall c, In c s -> c < h_ncell h.
Proof.
  intros h a incl s W Ha H c Hc.
  assert (Hargs : forall x, In x (args_of a) -> x < h_ncell h).
  { destruct a as [x|l o]; cbn [args_of arg_ok] in *; [intros y [<-|[]]; exact Ha|].
    rewrite Forall_forall in Ha. exact Ha. }
  assert (Hr : forall x, In x (args_of a) -> forall y, reach h x y -> y < h_ncell h)
    by (intros x Hx y; apply reach_lt; auto).
  destruct incl.
  - destruct a as [x|l [|]].
    + apply (cell_set_spec h (One x) s I H) in Hc. destruct Hc as (y & Hy & [->|Hd]); eauto.
    + cbn in H. inversion H; subst. apply Hargs. exact Hc.
    + apply (cell_set_spec h (Many l false) s I H) in Hc. destruct Hc as (y & Hy & [->|Hd]); eauto.
  - destruct a as [x|l o]; cbn in H; inversion H; subst; apply Hargs; exact Hc.
Qed.

(** ** rename_cell *)

Lemma rename_arg_spec : forall h d cell old c, keyed h d -> rename_arg h d cell = Some (old, c) ->
  In (old, c) d /\ cname h c = old /\ renames h d cell c.
Proof.
  intros h d cell old c [Nd Hk] H. unfold rename_arg in H. destruct cell as [e|n].
  - destruct (dget d (cname h e)) as [x|] eqn:E; [|discriminate].
    destruct (Nat.eqb_spec x e) as [->|]; [|discriminate]. inversion H; subst.
    split; [apply dget_Some_In; exact E|]. split; reflexivity.
  - destruct (dget d n) as [x|] eqn:E; [|discriminate]. inversion H; subst.
    apply dget_Some_In in E. split; [exact E|]. split; [apply Hk; exact E|exact E].
Qed.

Theorem rename_spec : forall h d cell new upr h' d' k, keyed h d ->
  rename_cell h d cell new upr = Some (h', d', k) ->
  exists old c, In (old, c) d /\ renames h d cell c /\ ~ In new (map fst d) /\
    d' = filter (fun kv => negb (name_eqb (fst kv) old)) d ++ [(new, c)] /\
    cname h' c = new /\ (forall e, e <> c -> cname h' e = cname h e) /\
    (forall e, crefs h' e = crefs h e /\ c_data (h_cell h' e) = c_data (h_cell h e)) /\
    (forall r, r_data (h_ref h' r) = r_data (h_ref h r)) /\
    (forall r, rtarget h r = ToCell c -> rtarget h' r = ToCell c) /\
    (forall r, ~ lib_ref h d r -> rtarget h' r = rtarget h r) /\
    (upr = false -> k = 0 /\ forall r, rtarget h' r = rtarget h r) /\
    (upr = true ->
      (forall r, lib_ref h d r -> tname h (rtarget h r) = old -> rtarget h' r = ToCell c) /\
      (forall r, tname h (rtarget h r) <> old -> rtarget h' r = rtarget h r) /\
      how_many k (fun r => lib_ref h d r /\ rtarget h r <> ToCell c /\ tname h (rtarget h r) = old)).
Proof.
  intros h d cell new upr h' d' k Hkd H. unfold rename_cell in H.
  destruct (rename_arg h d cell) as [[old c]|] eqn:Ea; [|discriminate].
  destruct (rename_arg_spec _ _ _ _ _ Hkd Ea) as (Hin & Hold & Hren).
  destruct (dget d new) eqn:Eg; [discriminate|]. apply dget_None in Eg.
  assert (Hne : new <> old).
  { intros ->. apply Eg. change old with (fst (old, c)). apply in_map. exact Hin. }
  set (h1 := set_cell h c (GCell new (c_refs (h_cell h c)) (c_data (h_cell h c)))) in *.
  assert (N1 : cname h1 c = new).
  { unfold h1, cname. cbn [set_cell h_cell]. rewrite upd_eq. reflexivity. }
  assert (N2 : forall e, e <> c -> cname h1 e = cname h e).
  { intros e He. unfold h1, cname. cbn [set_cell h_cell]. rewrite upd_neq by exact He. reflexivity. }
  assert (R1 : forall e, crefs h1 e = crefs h e /\ c_data (h_cell h1 e) = c_data (h_cell h e)).
  { intros e. unfold h1, crefs. cbn [set_cell h_cell]. unfold upd. destruct (Nat.eqb_spec e c) as [->|]; auto. }
  set (d1 := ddel d old ++ [(new, c)]) in *.
  assert (Hcells : forall e, In e (dcells d1) <-> In e (dcells d)).
  { intros e. unfold d1, dcells. rewrite map_app, in_app_iff. cbn [map snd In].
    destruct Hkd as [Nd Hk]. rewrite !in_map_iff. split.
    - intros [([m x] & <- & Hx)|[<-|[]]].
      + apply ddel_In in Hx. exists (m, x). tauto.
      + exists (old, c). auto.
    - intros ([m x] & <- & Hx). cbn [snd].
      destruct (list_eq_dec Z.eq_dec m old) as [->|Hm].
      + right; left. apply (dget_In d old x Nd) in Hx. apply (dget_In d old c Nd) in Hin. congruence.
      + left. exists (m, x). split; [reflexivity|]. apply ddel_In. auto. }
  assert (Hlr : forall r, lib_ref h1 d1 r <-> lib_ref h d r).
  { intros r. unfold lib_ref. split; intros (e & He & Hr); exists e; (split; [apply Hcells; exact He|]);
    [rewrite (proj1 (R1 e)) in Hr|rewrite (proj1 (R1 e))]; exact Hr. }
  assert (Ht1 : forall t, tname h1 t = old <-> t <> ToCell c /\ tname h t = old).
  { intros [e|n]; cbn [tname].
    - destruct (Nat.eq_dec e c) as [->|He].
      + rewrite N1. split; [congruence|]. intros [X _]. congruence.
      + rewrite N2 by exact He. split; [intros; split; [congruence|assumption]|tauto].
    - split; [intros; split; [discriminate|assumption]|tauto]. }
  exists old, c. split; [exact Hin|]. split; [exact Hren|]. split; [exact Eg|].
  destruct upr.
  - destruct (repl_refs h1 d1 old (ToCell c)) as [h2 k2] eqn:Er. inversion H; subst h2 d' k2.
    destruct (repl_refs_spec _ _ _ _ _ _ Er) as (Hs & Hy & Hn).
    assert (Hother : forall r, ~ (lib_ref h d r /\ rtarget h r <> ToCell c /\ tname h (rtarget h r) = old) ->
              rtarget h' r = rtarget h r).
    { intros r Hr. rewrite (Hn r); [reflexivity|]. rewrite Hlr. change (rtarget h1 r) with (rtarget h r).
      rewrite Ht1. tauto. }
    split; [reflexivity|]. split; [rewrite (same_cname _ _ _ Hs); exact N1|].
    split; [intros e He; rewrite (same_cname _ _ _ Hs); apply N2; exact He|].
    split.
    { intros e. rewrite (same_crefs _ _ _ Hs). destruct Hs as (Hs1 & _). rewrite Hs1. apply R1. }
    split; [intros r; destruct Hs as (_ & Hs2 & _); rewrite Hs2; reflexivity|].
    split; [intros r Hr; rewrite Hother; [exact Hr|]; intros (_ & X & _); contradiction|].
    split; [intros r Hr; apply Hother; tauto|].
    split; [discriminate|]. intros _. split; [|split].
    + intros r Hr Ho. destruct (rtarget h r) as [e|n] eqn:Et.
      * destruct (Nat.eq_dec e c) as [->|He].
        -- rewrite <- Et. apply Hother. rewrite Et. tauto.
        -- apply Hy; [apply Hlr; exact Hr|]. change (rtarget h1 r) with (rtarget h r). rewrite Et.
           apply Ht1. split; [congruence|exact Ho].
      * apply Hy; [apply Hlr; exact Hr|]. change (rtarget h1 r) with (rtarget h r). rewrite Et. exact Ho.
    + intros r Hr. apply Hother. tauto.
    + unfold repl_refs in Er. apply repl_count_distinct in Er; [|cbn [tname]; rewrite N1; exact Hne].
      destruct Er as (l & Nd & Hl & Hk). exists l. split; [exact Nd|]. split; [|symmetry; exact Hk].
      intros r. rewrite Hl. rewrite lib_refs_In, Hlr. change (rtarget h1 r) with (rtarget h r).
      rewrite Ht1. tauto.
  - inversion H; subst h' d' k. split; [reflexivity|]. split; [exact N1|]. split; [exact N2|].
    split; [exact R1|]. split; [reflexivity|]. split; [auto|]. split; [auto|].
    split; [auto|]. discriminate.
Qed.

Lemma rename_keeps_keyed : forall h d cell new upr h' d' k, keyed h d ->
  rename_cell h d cell new upr = Some (h', d', k) -> keyed h' d'.
Proof.
  intros h d cell new upr h' d' k Hkd H.
  destruct (rename_spec _ _ _ _ _ _ _ _ Hkd H) as (old & c & Hin & Hren & Hnew & -> & N1 & N2 & _).
  destruct Hkd as [Nd Hk]. split.
  - rewrite map_app. cbn [map fst]. apply NoDup_app_snoc.
    + apply filter_map_NoDup. exact Nd.
    + intros Hi. apply Hnew. apply in_map_iff in Hi. destruct Hi as (kv & <- & Hf).
      apply filter_In in Hf. apply in_map. tauto.
  - intros n e He. apply in_app_or in He. destruct He as [He|[He|[]]].
    + apply (ddel_In d old n e) in He. destruct He as [Hn He]. rewrite N2; [apply Hk; exact He|].
      intros ->. apply Hn. rewrite <- (Hk n c He). apply Hk. exact Hin.
    + injection He as En Ec. rewrite <- En, <- Ec. exact N1.
Qed.

End Proofs.
