(** C93: the sweep of a boolean operation stops at every ordinate at which a polygon has a vertex,
    and at no other, from one end to the other without turning back; it starts every local
    minimum at its own ordinate; and it ends. *)

From Coq Require Import List ZArith Bool Lia Permutation.
From Verif Require Import Scan SpecScan ScanFacts.
Import ListNotations.
Open Scope Z_scope.

(** std::sort with LocMinSorter: nothing is lost, the largest ordinates come first. *)
Definition sorts (order : list lmin -> list lmin) : Prop :=
  forall l, Permutation (order l) l /\ falling (order l).

Lemma weight_perm : forall a b, Permutation a b -> weight a = weight b.
Proof. intros a b P. induction P; simpl; lia. Qed.
Lemma weight_work : forall l, (weight l + 2 * length l = work l)%nat.
Proof. intros l. induction l as [|m l IH]; [reflexivity|]. simpl weight. simpl work. simpl length. unfold work in *. lia. Qed.
Lemma scan_spec : forall order minima fuel, sorts order -> (forall m, In m minima -> bounds_ok m) -> (work minima < fuel)%nat ->
  exists tr, scan_lines order fuel minima = Some tr /\ 
    (exists bot, onward true bot (map fst tr)) /\ (forall h, In h (map fst tr) <-> vertex_at minima h) /\
    Permutation (concat (map snd tr)) minima /\ (forall y ms m, In (y, ms) tr -> In m ms -> ly m = y).
Proof.
  intros order minima fuel SO OK F. unfold scan_lines. destruct (SO minima) as [PE FA]. remember (order minima) as lms eqn:EL. clear EL.
  assert (OKL : forall m, In m lms -> bounds_ok m) by (intros m M; apply OK; apply (Permutation_in m PE M)).
  assert (VE : forall h, vertex_at lms h <-> vertex_at minima h).
  { intros h. split; intros (m & M & H); exists m; (split; [|exact H]); [apply (Permutation_in m PE M)|apply (Permutation_in m (Permutation_sym PE) M)]. }
  assert (WE : (weight lms + 2 * length lms = work minima)%nat) by (rewrite (weight_perm _ _ PE), (Permutation_length PE); apply weight_work).
  assert (DQ : desc (push_all (map ly lms) [])) by (apply push_all_desc; exact I).
  assert (IQ : forall h, In h (push_all (map ly lms) []) <-> exists m, In m lms /\ ly m = h).
  { intros h. rewrite push_all_in, in_map_iff. split; [intros [(m & A & B)|[]]|intros (m & A & B); left]; exists m; split; assumption. }
  assert (LQ : length (push_all (map ly lms) []) = length lms) by (rewrite push_all_length, map_length; simpl; lia).
  destruct (pop (push_all (map ly lms) [])) as [[bot q]|] eqn:P.
  - destruct (pop_spec _ _ _ DQ P) as (P1 & P2 & P3 & P4 & P5).
    destruct (begin_spec bot lms FA) as (ms & nb & p3 & lms' & E3 & C1 & C2 & C3 & C4 & C5 & C6 & C7 & C8).
    { intros m M. split; [apply OKL, M|]. apply P2, IQ. exists m. split; [exact M|reflexivity]. }
    rewrite E3.
    assert (BO : vertex_at ms bot).
    { apply C6. left. split; [reflexivity|]. intros N. apply IQ in P1 as (m & M & B). rewrite C1, N in M. simpl in M. specialize (C4 m M). lia. }
    destruct (loop_spec fuel true bot (push_all p3 q) nb lms') as (tr & R & T1 & T2 & T3 & T4 & T5).
    + split; [apply push_all_desc, P3|]. split; [|split; [|split; [exact C3|]]].
      * intros x X. apply push_all_in in X as [X|X]; [destruct (C7 x X); lia|]. apply P4 in X. lia.
      * intros b B. apply (act_more bot p3); [intros x X; apply push_all_in; left; exact X|apply C5, B].
      * intros m M. assert (ML : In m lms) by (rewrite C1; apply in_or_app; right; exact M). split; [apply OKL, ML|]. split; [apply C4, M|].
        apply push_all_in. right. apply P4. split; [apply IQ; exists m; split; [exact ML|reflexivity]|apply C4, M].
    + discriminate.
    + rewrite push_all_length. assert (WA : weight lms = (weight ms + weight lms')%nat) by (rewrite C1 at 1; apply weight_app). clear - WA WE LQ P5 C8 F. lia.
    + rewrite R. exists ((bot, ms) :: tr). split; [reflexivity|]. split; [|split; [|split]].
      * exists (bot + 1). simpl. left. split; [lia|exact T1].
      * intros h. simpl map. rewrite <- VE, C1, vertex_app. split.
        -- intros [<-|H]; [left; exact BO|]. destruct (T3 h H) as [K|[K|K]]; [|left; apply C6; right; exact K|right; exact K].
           apply push_all_in in K as [K|K]; [left; apply C6; right; apply C7, K|]. apply P4 in K as [K _]. apply IQ in K as (m & M & K).
           apply vertex_app. rewrite <- C1. exists m. split; [exact M|left; symmetry; exact K].
        -- intros [H|H].
           ++ apply C6 in H as [[H _]|H]; [left; symmetry; exact H|]. destruct (T2 h (or_intror (or_introl H))) as [K|K]; [left; symmetry; exact K|right; exact K].
           ++ destruct (T2 h (or_intror (or_intror H))) as [K|K]; [left; symmetry; exact K|right; exact K].
      * simpl. rewrite T4, <- C1. exact PE.
      * intros y l m [K|K] M; [injection K as <- <-; apply C2, M|apply (T5 y l m K M)].
  - exists []. destruct (push_all (map ly lms) []) as [|x r] eqn:Q; [|discriminate]. destruct lms as [|m lms]; [|discriminate LQ].
    apply Permutation_nil in PE. subst minima. split; [reflexivity|]. split; [exists 0; exact I|]. split; [|split; [apply perm_nil|intros y ms m []]].
    intros h. split; [intros []|]. intros (m & [] & _).
Qed.

(** It ends, and the ordinates at which it stops are those of the vertices. *)
Theorem C93_heights : forall order minima fuel, sorts order -> (forall m, In m minima -> bounds_ok m) -> (work minima < fuel)%nat ->
  exists tr, scan_lines order fuel minima = Some tr /\ forall y, In y (map fst tr) <-> vertex_at minima y.
Proof.
  intros order minima fuel SO OK F. destruct (scan_spec order minima fuel SO OK F) as (tr & E & _ & A & _). exists tr. split; assumption.
Qed.
(** It never turns back, and stops at the same ordinate at most twice. *)
Theorem C93_onward : forall order minima fuel tr, sorts order -> (forall m, In m minima -> bounds_ok m) -> (work minima < fuel)%nat ->
  scan_lines order fuel minima = Some tr ->
  (forall l1 a b l2, map fst tr = l1 ++ a :: b :: l2 -> b <= a) /\
  (forall l1 a b c l2, map fst tr = l1 ++ a :: b :: c :: l2 -> c < a).
Proof.
  intros order minima fuel tr SO OK F R. destruct (scan_spec order minima fuel SO OK F) as (tr' & E & (bot & O) & _).
  rewrite R in E. injection E as <-. split.
  - intros l1 a b l2 K. apply (onward_sub _ true bot l1 a b l2 O K).
  - intros l1 a b c l2 K. apply (onward_thrice _ true bot l1 a b c l2 O K).
Qed.
(** Each local minimum is started, once, at its own ordinate. *)
Theorem C93_minima : forall order minima fuel tr, sorts order -> (forall m, In m minima -> bounds_ok m) -> (work minima < fuel)%nat ->
  scan_lines order fuel minima = Some tr ->
  Permutation (concat (map snd tr)) minima /\ (forall y ms m, In (y, ms) tr -> In m ms -> ly m = y).
Proof.
  intros order minima fuel tr SO OK F R. destruct (scan_spec order minima fuel SO OK F) as (tr' & E & _ & _ & A).
  rewrite R in E. injection E as <-. exact A.
Qed.
Print Assumptions C93_heights.
Print Assumptions C93_onward.
Print Assumptions C93_minima.

(** A sort that does what std::sort must. *)
Fixpoint put_lmin (m : lmin) (l : list lmin) : list lmin :=
  match l with [] => [m] | n :: r => if ly n <? ly m then m :: l else n :: put_lmin m r end.
Definition by_y (l : list lmin) : list lmin := fold_right put_lmin [] l.
Lemma put_lmin_perm : forall m l, Permutation (put_lmin m l) (m :: l).
Proof. intros m l. induction l as [|n l IH]; simpl; [reflexivity|]. destruct (ly n <? ly m); [reflexivity|]. rewrite IH. apply perm_swap. Qed.
Lemma put_lmin_falling : forall m l, falling l -> falling (put_lmin m l).
Proof.
  intros m l. induction l as [|n l IH]; simpl; [intros _; split; [intros k []|exact I]|]. intros [A B]. destruct (ly n <? ly m) eqn:E; simpl.
  - apply Z.ltb_lt in E. split; [|split; assumption]. intros k [<-|K]; [lia|]. specialize (A k K). lia.
  - apply Z.ltb_ge in E. split; [|apply IH, B]. intros k K. apply (Permutation_in k (put_lmin_perm m l)) in K as [<-|K]; [exact E|apply A, K].
Qed.
Example C93_sorts : sorts by_y.
Proof.
  intros l. induction l as [|m l [P F]]; simpl; [split; [apply perm_nil|exact I]|]. split; [|apply put_lmin_falling, F].
  rewrite put_lmin_perm. apply perm_skip, P.
Qed.

(** A square (0,0) - (4,0) - (4,-4) - (0,-4), whose right bound begins with the horizontal edge, and a
    W-shaped polygon with two local minima at ordinates -1 and -2 that meet at a maximum at -3. *)
Definition two_shapes : list lmin :=
  [Lmin (-2) [-6] [-3]; Lmin 0 [-4; -4] [0; -4]; Lmin (-1) [-3] [-5; -6]].
Example C93_conditions : (forall m, In m two_shapes -> bounds_ok m) /\ (work two_shapes < 30)%nat.
Proof.
  split; [|unfold work; simpl; lia].
  intros m [<-|[<-|[<-|[]]]]; (split; [simpl; lia|]); (split; [simpl; lia|]); split; simpl; eexists; eexists; (split; [reflexivity|]); try lia; intros; simpl in *; try exact I; lia.
Qed.
Example C93_two : scan_lines by_y 30 two_shapes =
  Some [(0, [Lmin 0 [-4; -4] [0; -4]]); (-1, [Lmin (-1) [-3] [-5; -6]]); (-2, [Lmin (-2) [-6] [-3]]); (-3, []); (-4, []); (-5, []); (-6, [])].
Proof. reflexivity. Qed.
(** The sweep stops twice at -4: the horizontal edge at 0 waits until the next scanline is known. *)
Example C93_square : scan_lines by_y 30 [Lmin 0 [-4; -4] [0; -4]] = Some [(0, [Lmin 0 [-4; -4] [0; -4]]); (-4, []); (-4, [])].
Proof. reflexivity. Qed.
