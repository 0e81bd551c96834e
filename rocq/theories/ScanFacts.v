(** Facts on the scanlines of the sweep. *)

From Coq Require Import List ZArith Bool Lia Sorted Permutation.
From Verif Require Import Scan SpecScan.
Import ListNotations.
Open Scope Z_scope.

(** The queue. *)
Fixpoint desc (q : list Z) : Prop :=
  match q with [] => True | y :: r => (forall x, In x r -> x <= y) /\ desc r end.
Lemma push_in : forall y q x, In x (push y q) <-> x = y \/ In x q.
Proof.
  intros y q x. induction q as [|z r IH]; simpl; [intuition|]. destruct (z <? y); simpl; [intuition|]. rewrite IH. intuition.
Qed.
Lemma push_desc : forall y q, desc q -> desc (push y q).
Proof.
  intros y q. induction q as [|z r IH]; simpl; [intros _; split; [intros x []|exact I]|]. intros [A B].
  destruct (z <? y) eqn:E; simpl.
  - apply Z.ltb_lt in E. split; [|split; assumption]. intros x [X|X]; [lia|]. specialize (A x X). lia.
  - apply Z.ltb_ge in E. split; [|apply IH, B]. intros x X. apply push_in in X as [->|X]; [exact E|apply A, X].
Qed.
Lemma push_length : forall y q, length (push y q) = S (length q).
Proof. intros y q. induction q as [|z r IH]; simpl; [reflexivity|]. destruct (z <? y); simpl; [reflexivity|]. rewrite IH. reflexivity. Qed.
Lemma push_all_in : forall ys q x, In x (push_all ys q) <-> In x ys \/ In x q.
Proof.
  unfold push_all. intros ys. induction ys as [|y ys IH]; intros q x; simpl; [intuition|]. rewrite IH, push_in. intuition.
Qed.
Lemma push_all_desc : forall ys q, desc q -> desc (push_all ys q).
Proof. unfold push_all. intros ys. induction ys as [|y ys IH]; intros q D; simpl; [exact D|]. apply IH, push_desc, D. Qed.
Lemma push_all_length : forall ys q, length (push_all ys q) = (length ys + length q)%nat.
Proof. unfold push_all. intros ys. induction ys as [|y ys IH]; intros q; simpl; [reflexivity|]. rewrite IH, push_length. lia. Qed.
Lemma drop_same_spec : forall y q, desc q -> (forall x, In x q -> x <= y) ->
  desc (drop_same y q) /\ (forall x, In x (drop_same y q) <-> In x q /\ x < y) /\ (length (drop_same y q) <= length q)%nat.
Proof.
  intros y q. induction q as [|z r IH]; simpl; intros D L.
  - split; [exact I|]. split; [intuition|lia].
  - destruct D as [D1 D2]. destruct (y =? z) eqn:E.
    + apply Z.eqb_eq in E. subst z. destruct (IH D2 D1) as (P & Q & R). split; [exact P|]. split; [|lia].
      intros x. rewrite Q. intuition. lia.
    + apply Z.eqb_neq in E. split; [split; assumption|]. split; [|simpl; lia]. intros x. simpl. split; [|tauto].
      intros X. split; [exact X|]. assert (B : z <= y) by (apply L; left; reflexivity).
      destruct X as [<-|X]; [lia|]. specialize (D1 x X). lia.
Qed.
Lemma pop_spec : forall q y q', desc q -> pop q = Some (y, q') ->
  In y q /\ (forall x, In x q -> x <= y) /\ desc q' /\ (forall x, In x q' <-> In x q /\ x < y) /\ (length q' < length q)%nat.
Proof.
  intros q y q' D E. destruct q as [|z r]; [discriminate|]. simpl in E. injection E as E1 E2. subst z q'. destruct D as [D1 D2].
  destruct (drop_same_spec y r D2 D1) as (P & Q & R).
  split; [left; reflexivity|]. split; [intros x [X|X]; [lia|apply D1, X]|]. split; [exact P|]. split; [|simpl; lia].
  intros x. rewrite Q. simpl. intuition. lia.
Qed.

(** Bounds. *)
Lemma runs_weaken : forall b y z, y <= z -> runs y b -> runs z b.
Proof. intros [|t r] y z L; simpl; [tauto|]. intros [A B]. split; [lia|exact B]. Qed.
Lemma advance_stay : forall y t r, t <> y -> advance y (t :: r) = (t :: r, []).
Proof. intros y t r N. simpl. apply Z.eqb_neq in N. rewrite N. reflexivity. Qed.
Lemma advance_go : forall y r, runs y r -> exists b ps, advance y (y :: r) = (b, ps) /\
  (forall x, In x r -> x = y \/ In x b) /\ (forall x, In x b -> In x r) /\ (length b + length ps <= S (length r))%nat /\
  ((b = [] /\ ps = []) \/ exists u s, b = u :: s /\ ps = [u] /\ u < y /\ runs u s).
Proof.
  intros y r. induction r as [|u s IH]; intros R.
  - exists [], []. simpl. rewrite Z.eqb_refl. simpl. split; [reflexivity|]. split; [tauto|]. split; [tauto|]. split; [lia|]. left. split; reflexivity.
  - destruct R as [R1 R2]. destruct (Z.eq_dec u y) as [->|N].
    + destruct (IH R2) as (b & ps & E & A & B & C & D). exists b, ps. split.
      * change (advance y (y :: y :: s)) with (if y =? y then let '(r', ps) := advance y (y :: s) in (r', (if y =? y then [] else [y]) ++ ps) else (y :: y :: s, [])).
        rewrite Z.eqb_refl, E. reflexivity.
      * split; [|split; [|split; [simpl; lia|exact D]]].
        -- intros x [X|X]; [left; congruence|apply A, X].
        -- intros x X. right. apply B, X.
    + exists (u :: s), [u]. split.
      * change (advance y (y :: u :: s)) with (if y =? y then let '(r', ps) := advance y (u :: s) in (r', (if u =? y then [] else [u]) ++ ps) else (y :: u :: s, [])).
        rewrite Z.eqb_refl, (advance_stay y u s N). apply Z.eqb_neq in N. rewrite N. reflexivity.
      * split; [tauto|]. split; [tauto|]. split; [simpl; lia|]. right. exists u, s. split; [reflexivity|]. split; [reflexivity|]. split; [lia|exact R2].
Qed.

Lemma advance_all_cons : forall y b bs, advance_all y (b :: bs) =
  (let '(b', ps) := advance y b in let '(bs', qs) := advance_all y bs in (match b' with [] => bs' | _ => b' :: bs' end, ps ++ qs)).
Proof. reflexivity. Qed.
Definition total (bs : list (list Z)) : nat := fold_right (fun b n => (length b + n)%nat) O bs.
Definition seen (bs : list (list Z)) (h : Z) : Prop := exists b, In b bs /\ In h b.
(** What may be said of a list of bounds, and what of the result of advancing them all. *)
Lemma advance_all_spec : forall y (P : list Z -> Prop) bs, (forall b, In b bs -> P b) ->
  (forall b, P b -> exists t r, b = t :: r /\ (t = y -> runs y r)) ->
  exists bs' ps, advance_all y bs = (bs', ps) /\
    (forall b', In b' bs' -> (P b' /\ (exists t r, b' = t :: r /\ t <> y)) \/ exists u s, b' = u :: s /\ In u ps /\ u < y /\ runs u s /\ exists r, P (y :: r) /\ fst (advance y (y :: r)) = u :: s) /\
    (forall h, seen bs h -> h = y \/ seen bs' h) /\ (forall h, seen bs' h -> seen bs h) /\
    (forall h, In h ps -> (exists s, In (h :: s) bs') /\ h < y) /\ (total bs' + length ps <= total bs)%nat.
Proof.
  intros y P bs. induction bs as [|b bs IH]; intros A F.
  - exists [], []. simpl. split; [reflexivity|]. split; [tauto|]. split; [intros h (b & [] & _)|]. split; [intros h (b & [] & _)|]. split; [tauto|lia].
  - destruct (IH (fun c C => A c (or_intror C)) F) as (bs' & ps & E & S1 & S2 & S3 & S4 & S5).
    destruct (F b (A b (or_introl eq_refl))) as (t & r & -> & R). pose proof (A (t :: r) (or_introl eq_refl)) as PB.
    assert (SC : forall h, seen ((t :: r) :: bs) h <-> In h (t :: r) \/ seen bs h).
    { intros h. split.
      - intros (c & [<-|C] & H); [left; exact H|right; exists c; split; assumption].
      - intros [H|(c & C & H)]; [exists (t :: r); split; [left; reflexivity|exact H]|exists c; split; [right; exact C|exact H]]. }
    destruct (Z.eq_dec t y) as [->|N].
    + destruct (advance_go y r (R eq_refl)) as (b & qs & G & G1 & G2 & G3 & G4).
      destruct G4 as [[-> ->]|(u & s & -> & -> & L & RU)].
      * exists bs', ps. rewrite advance_all_cons, G, E. simpl app. split; [reflexivity|]. split; [exact S1|]. split; [|split; [|split]].
        -- intros h H. apply SC in H as [H|H]; [|apply S2, H]. left. destruct H as [H|H]; [congruence|]. destruct (G1 h H) as [K|[]]. exact K.
        -- intros h H. apply SC. right. apply S3, H.
        -- exact S4.
        -- simpl in *. lia.
      * exists ((u :: s) :: bs'), (u :: ps). rewrite advance_all_cons, G, E. simpl app. split; [reflexivity|]. split; [|split; [|split; [|split]]].
        -- intros c [<-|C]; [right; exists u, s; split; [reflexivity|]; split; [left; reflexivity|]; split; [exact L|]; split; [exact RU|]; exists r; split; [exact PB|rewrite G; reflexivity]|].
           destruct (S1 c C) as [K|(u' & s' & K1 & K2 & K3)]; [left; exact K|right; exists u', s'; split; [exact K1|]; split; [right; exact K2|exact K3]].
        -- intros h H. apply SC in H as [H|H].
           ++ destruct H as [H|H]; [left; congruence|]. destruct (G1 h H) as [K|K]; [left; exact K|right]. exists (u :: s). split; [left; reflexivity|exact K].
           ++ destruct (S2 h H) as [K|(c & C & K)]; [left; exact K|right; exists c; split; [right; exact C|exact K]].
        -- intros h (c & [<-|C] & H); apply SC; [left; right; apply G2, H|right; apply S3; exists c; split; assumption].
        -- intros h [<-|H]; [split; [exists s; left; reflexivity|exact L]|].
           destruct (S4 h H) as [(s' & K1) K2]. split; [exists s'; right; exact K1|exact K2].
        -- simpl in *. lia.
    + exists ((t :: r) :: bs'), ps. rewrite advance_all_cons, (advance_stay y t r N), E. simpl app. split; [reflexivity|]. split; [|split; [|split; [|split]]].
      * intros c [<-|C]; [left; split; [exact PB|exists t, r; split; [reflexivity|exact N]]|apply S1, C].
      * intros h H. apply SC in H as [H|H]; [right; exists (t :: r); split; [left; reflexivity|exact H]|].
        destruct (S2 h H) as [K|(c & C & K)]; [left; exact K|right; exists c; split; [right; exact C|exact K]].
      * intros h (c & [<-|C] & H); apply SC; [left; exact H|right; apply S3; exists c; split; assumption].
      * intros h H. destruct (S4 h H) as [(s' & K1) K2]. split; [exists s'; right; exact K1|exact K2].
      * simpl in *. lia.
Qed.

(** Local minima. *)
Definition weight (lms : list lmin) : nat := fold_right (fun m n => (2 + length (left m) + length (right m) + n)%nat) O lms.
Lemma weight_app : forall a b, weight (a ++ b) = (weight a + weight b)%nat.
Proof. intros a b. induction a as [|m a IH]; simpl; [reflexivity|]. rewrite IH. lia. Qed.
Lemma starts_length : forall m, (length (starts m) <= 2)%nat.
Proof.
  intros m. unfold starts. rewrite app_length. destruct (left m) as [|t r]; destruct (right m) as [|u [|v s]]; simpl; try destruct (u =? ly m); simpl; lia.
Qed.
Lemma starts_in : forall m x, bounds_ok m -> In x (starts m) -> (In x (left m) \/ In x (right m)) /\ x < ly m.
Proof.
  intros m x (RL & RR & (t & r & EL & L) & (u & s & ER & R)) H. unfold starts in H. rewrite EL, ER in *. apply in_app_iff in H as [[H|[]]|H].
  - subst x. split; [left; left; reflexivity|exact L].
  - destruct (u =? ly m) eqn:E.
    + apply Z.eqb_eq in E. specialize (R E). destruct s as [|v s]; [destruct H|]. destruct H as [H|[]]. subst x. split; [right; right; left; reflexivity|exact R].
    + apply Z.eqb_neq in E. destruct H as [H|[]]. subst x. split; [right; left; reflexivity|]. destruct RR as [RR _]. lia.
Qed.
(** An active bound at the scanline [y]. *)
Definition act (y : Z) (q : list Z) (b : list Z) : Prop :=
  exists t r, b = t :: r /\ t <= y /\ runs t r /\ (t < y -> In t q) /\
    (t = y -> match r with u :: _ => u < y /\ In u q | [] => True end).
Lemma act_more : forall y q q' b, (forall x, In x q -> In x q') -> act y q b -> act y q' b.
Proof.
  intros y q q' b S (t & r & A & B & C & D & E). exists t, r. split; [exact A|]. split; [exact B|]. split; [exact C|].
  split; [intros L; apply S, D, L|]. intros T. specialize (E T). destruct r as [|u s]; [exact I|]. destruct E as [E1 E2]. split; [exact E1|apply S, E2].
Qed.
Lemma starts_act : forall m b, bounds_ok m -> b = left m \/ b = right m -> act (ly m) (starts m) b.
Proof.
  intros m b (RL & RR & (t & r & EL & L) & (u & s & ER & R)) B. unfold starts. rewrite EL, ER in *.
  destruct B as [-> | ->].
  - exists t, r. split; [reflexivity|]. destruct RL as [R1 R2]. split; [exact R1|]. split; [exact R2|]. split; [intros _; left; reflexivity|]. intros T. lia.
  - exists u, s. split; [reflexivity|]. destruct RR as [R1 R2]. split; [exact R1|]. split; [exact R2|]. split.
    + intros LT. apply in_or_app. right. assert (N : u <> ly m) by lia. apply Z.eqb_neq in N. rewrite N. left. reflexivity.
    + intros EQ. specialize (R EQ). destruct s as [|v s]; [exact I|]. split; [exact R|]. apply in_or_app. right. apply Z.eqb_eq in EQ. rewrite EQ. left. reflexivity.
Qed.
Lemma vertex_app : forall a b h, vertex_at (a ++ b) h <-> vertex_at a h \/ vertex_at b h.
Proof.
  intros a b h. split.
  - intros (m & M & H). apply in_app_iff in M as [M|M]; [left|right]; exists m; split; assumption.
  - intros [(m & M & H)|(m & M & H)]; exists m; (split; [apply in_or_app; tauto|exact H]).
Qed.
Lemma begin_spec : forall y lms, falling lms -> (forall m, In m lms -> bounds_ok m /\ ly m <= y) ->
  exists ms bs ps lms', begin_at y lms = (ms, bs, ps, lms') /\ lms = ms ++ lms' /\ (forall m, In m ms -> ly m = y) /\
    falling lms' /\ (forall m, In m lms' -> ly m < y) /\ (forall b, In b bs -> act y ps b) /\
    (forall h, vertex_at ms h <-> (h = y /\ ms <> []) \/ seen bs h) /\ (forall h, In h ps -> seen bs h /\ h < y) /\
    (total bs + length ps <= weight ms)%nat.
Proof.
  intros y lms. induction lms as [|m lms IH]; intros F A.
  - exists [], [], [], []. simpl. split; [reflexivity|]. split; [reflexivity|]. split; [tauto|]. split; [exact I|]. split; [tauto|]. split; [tauto|].
    split; [|split; [tauto|lia]]. intros h. split; [intros (m & [] & _)|]. intros [[_ H]|(b & [] & _)]. contradiction.
  - destruct F as [F1 F2]. destruct (A m (or_introl eq_refl)) as [OK LE]. destruct (Z.eq_dec (ly m) y) as [EQ|N].
    + destruct (IH F2 (fun n K => A n (or_intror K))) as (ms & bs & ps & lms' & E & S1 & S2 & S3 & S4 & S5 & S6 & S7 & S8).
      exists (m :: ms), (left m :: right m :: bs), (starts m ++ ps), lms'. simpl begin_at. rewrite (proj2 (Z.eqb_eq _ _) EQ), E.
      assert (SC : forall h, seen (left m :: right m :: bs) h <-> In h (left m) \/ In h (right m) \/ seen bs h).
      { intros h. split.
        - intros (b & [<-|[<-|B]] & H); [left; exact H|right; left; exact H|right; right; exists b; split; assumption].
        - intros [H|[H|(b & B & H)]]; [exists (left m)|exists (right m)|exists b]; simpl; tauto. }
      split; [reflexivity|]. split; [simpl; rewrite <- S1; reflexivity|]. split; [intros n [<-|K]; [exact EQ|apply S2, K]|]. split; [exact S3|]. split; [exact S4|].
      split; [|split; [|split]].
      * assert (K : forall b, b = left m \/ b = right m -> act y (starts m ++ ps) b).
        { intros b B. apply (act_more y (starts m)); [intros x X; apply in_or_app; left; exact X|]. rewrite <- EQ. apply starts_act; assumption. }
        intros b [B|[B|B]]; [apply K; left; congruence|apply K; right; congruence|].
        apply (act_more y ps); [intros x X; apply in_or_app; right; exact X|apply S5, B].
      * intros h. rewrite SC. change (m :: ms) with ([m] ++ ms). rewrite vertex_app, S6. split.
        -- intros [(n & [<-|[]] & [H|H])|[[H _]|H]]; [left; split; [congruence|discriminate]|right; tauto|left; split; [exact H|discriminate]|right; tauto].
        -- intros [[H _]|[H|[H|H]]]; [left; exists m; split; [left; reflexivity|left; congruence]|left; exists m; split; [left; reflexivity|tauto]|left; exists m; split; [left; reflexivity|tauto]|right; right; exact H].
      * intros h H. apply in_app_iff in H as [H|H].
        -- destruct (starts_in m h OK H) as [K1 K2]. split; [apply SC; tauto|lia].
        -- destruct (S7 h H) as [K1 K2]. split; [apply SC; tauto|exact K2].
      * pose proof (starts_length m). rewrite app_length. simpl. lia.
    + exists [], [], [], (m :: lms). simpl begin_at. rewrite (proj2 (Z.eqb_neq _ _) N).
      split; [reflexivity|]. split; [reflexivity|]. split; [simpl; tauto|]. split; [split; assumption|]. split; [|split; [simpl; tauto|]].
      * intros n [<-|K]; [lia|]. specialize (F1 n K). lia.
      * split; [|split; [simpl; tauto|simpl; lia]]. intros h. split; [intros (n & [] & _)|]. intros [[_ H]|(b & [] & _)]. contradiction.
Qed.

(** The state at the scanline [bot]. *)
Definition held (bot : Z) (q : list Z) (bs : list (list Z)) (lms : list lmin) : Prop :=
  desc q /\ (forall x, In x q -> x <= bot) /\ (forall b, In b bs -> act bot q b) /\ falling lms /\
  (forall m, In m lms -> bounds_ok m /\ ly m < bot /\ In (ly m) q).
Lemma seen_app : forall a b h, seen (a ++ b) h <-> seen a h \/ seen b h.
Proof.
  intros a b h. split.
  - intros (c & C & H). apply in_app_iff in C as [C|C]; [left|right]; exists c; split; assumption.
  - intros [(c & C & H)|(c & C & H)]; exists c; (split; [apply in_or_app; tauto|exact H]).
Qed.
Lemma total_app : forall a b, total (a ++ b) = (total a + total b)%nat.
Proof. intros a b. induction a as [|m a IH]; simpl; [reflexivity|]. rewrite IH. lia. Qed.
Lemma beam_spec : forall bot q bs lms y q1, held bot q bs lms -> pop q = Some (y, q1) ->
  exists ms q' bs' lms', beam bot y q1 bs lms = (ms, q', bs', lms') /\ held y q' bs' lms' /\ y <= bot /\
    (y = bot -> forall x, In x q' -> x < y) /\ In y q /\ lms = ms ++ lms' /\ (forall m, In m ms -> ly m = y) /\
    (forall h, In h q \/ seen bs h \/ vertex_at lms h -> h = bot \/ h = y \/ In h q' \/ seen bs' h \/ vertex_at lms' h) /\
    (forall h, In h q' \/ seen bs' h \/ vertex_at lms' h -> In h q \/ seen bs h \/ vertex_at lms h) /\
    (length q' + total bs' + weight lms' < length q + total bs + weight lms)%nat.
Proof.
  intros bot q bs lms y q1 (D & QB & AC & FA & LM) P. destruct (pop_spec q y q1 D P) as (P1 & P2 & P3 & P4 & P5).
  destruct (advance_all_spec bot (act bot q) bs AC) as (bs1 & p1 & E1 & A1 & A2 & A3 & A4 & A5).
  { intros b (t & r & -> & _ & R & _). exists t, r. split; [reflexivity|]. intros ->. exact R. }
  assert (W : forall b, In b bs1 -> exists t r, b = t :: r /\ t < bot /\ runs t r /\ In t q /\ t <= y).
  { intros b B. assert (T : forall t, In t q -> t <= y) by exact P2.
    destruct (A1 b B) as [[(t & r & -> & L & R & Q1 & Q2) (t' & r' & E' & N)]|(u & s & -> & UP & L & R & U)].
    - injection E' as <- <-. exists t, r. assert (LT : t < bot) by lia. specialize (Q1 LT). specialize (T t Q1). tauto.
    - destruct U as (r & (t' & r' & E' & _ & R' & _ & Q2) & G). injection E' as <- <-. specialize (Q2 eq_refl).
      destruct r as [|v s']; [simpl in G; rewrite Z.eqb_refl in G; discriminate|]. destruct Q2 as [Q2 Q3].
      assert (N : v <> bot) by lia. assert (EG : advance bot (bot :: v :: s') = (v :: s', [v])).
      { change (advance bot (bot :: v :: s')) with (if bot =? bot then let '(r', ps) := advance bot (v :: s') in (r', (if v =? bot then [] else [v]) ++ ps) else (bot :: v :: s', [])).
        rewrite Z.eqb_refl, (advance_stay bot v s' N). apply Z.eqb_neq in N. rewrite N. reflexivity. }
      rewrite EG in G. simpl in G. injection G as G1 G2. subst v s'. exists u, s. specialize (T u Q3). tauto. }
  set (P' := fun b => exists t r, b = t :: r /\ t < bot /\ runs t r /\ In t q /\ t <= y).
  destruct (advance_all_spec y P' bs1 W) as (bs2 & p2 & E2 & B1 & B2 & B3 & B4 & B5).
  { intros b (t & r & -> & _ & R & _). exists t, r. split; [reflexivity|]. intros ->. exact R. }
  destruct (begin_spec y lms FA) as (ms & nb & p3 & lms' & E3 & C1 & C2 & C3 & C4 & C5 & C6 & C7 & C8).
  { intros m M. destruct (LM m M) as (M1 & _ & M2). split; [exact M1|apply P2, M2]. }
  assert (K1 : forall h, In h p1 -> In h q /\ h <= y /\ h < bot).
  { intros h H. destruct (A4 h H) as [(s & S) L]. destruct (W _ S) as (t & r & E & _ & _ & Q1 & Q2). injection E as <- <-. tauto. }
  assert (IN : forall h, In h (push_all (p1 ++ p2 ++ p3) q1) <-> In h p1 \/ In h p2 \/ In h p3 \/ In h q1).
  { intros h. rewrite push_all_in, !in_app_iff. tauto. }
  exists ms, (push_all (p1 ++ p2 ++ p3) q1), (nb ++ bs2), lms'. unfold beam. rewrite E1, E2, E3. split; [reflexivity|].
  split; [|split; [apply QB, P1|split; [|split; [exact P1|split; [exact C1|split; [exact C2|split; [|split]]]]]]].
  - split; [apply push_all_desc, P3|]. split; [|split; [|split; [exact C3|]]].
    + intros x X. apply IN in X as [X|[X|[X|X]]]; [apply K1, X| | |].
      * destruct (B4 x X). lia.
      * destruct (C7 x X). lia.
      * apply P4 in X. lia.
    + intros b B. apply in_app_iff in B as [B|B].
      * apply (act_more y p3); [intros x X; apply IN; tauto|apply C5, B].
      * destruct (B1 b B) as [[(t & r & -> & L & R & Q1 & Q2) (t' & r' & E' & N)]|(u & s & -> & U & L & R & _)].
        -- injection E' as <- <-. exists t, r. split; [reflexivity|]. split; [exact Q2|]. split; [exact R|]. split; [|intros T; contradiction].
           intros T. apply IN. do 3 right. apply P4. split; assumption.
        -- exists u, s. split; [reflexivity|]. split; [lia|]. split; [exact R|]. split; [intros _; apply IN; tauto|intros T; lia].
    + intros m M. assert (ML : In m lms) by (rewrite C1; apply in_or_app; right; exact M). destruct (LM m ML) as (M1 & _ & M2).
      split; [exact M1|]. specialize (C4 m M). split; [exact C4|]. apply IN. do 3 right. apply P4. split; assumption.
  - intros EQ x X. apply IN in X as [X|[X|[X|X]]].
    + destruct (K1 x X) as (_ & _ & L). lia.
    + apply B4, X.
    + apply C7, X.
    + apply P4, X.
  - intros h [H|[H|H]].
    + specialize (P2 h H). destruct (Z.eq_dec h y) as [T|T]; [tauto|]. right. right. left. apply IN. do 3 right. apply P4. split; [exact H|lia].
    + destruct (A2 h H) as [T|T]; [tauto|]. destruct (B2 h T) as [U|U]; [tauto|]. do 3 right. left. apply seen_app. right. exact U.
    + rewrite C1 in H. apply vertex_app in H as [H|H]; [|tauto]. apply C6 in H as [[H _]|H]; [tauto|]. do 3 right. left. apply seen_app. left. exact H.
  - assert (NB : forall h, seen nb h -> vertex_at lms h) by (intros h H; rewrite C1; apply vertex_app; left; apply C6; right; exact H).
    assert (OB : forall h, seen bs2 h -> seen bs h) by (intros h H; apply A3, B3, H).
    intros h [H|[H|H]].
    + apply IN in H as [H|[H|[H|H]]]; [left; apply K1, H| | |left; apply P4, H].
      * destruct (B4 h H) as [(s & S) _]. right. left. apply OB. exists (h :: s). split; [exact S|left; reflexivity].
      * right. right. apply NB, C7, H.
    + apply seen_app in H as [H|H]; [right; right; apply NB, H|right; left; apply OB, H].
    + right. right. rewrite C1. apply vertex_app. right. exact H.
  - rewrite push_all_length, !app_length, total_app. rewrite C1 at 1. rewrite weight_app. clear - A5 B5 C8 P5. lia.
Qed.

(** The scanlines from [bot] on: never back, and at most once more the same one. *)
Fixpoint onward (again : bool) (bot : Z) (l : list Z) : Prop :=
  match l with
  | [] => True
  | y :: r => (y < bot /\ onward true y r) \/ (again = true /\ y = bot /\ onward false y r)
  end.
Lemma loop_spec : forall fuel again bot q bs lms, held bot q bs lms -> (again = false -> forall x, In x q -> x < bot) ->
  (length q + total bs + weight lms < fuel)%nat ->
  exists tr, loop fuel bot q bs lms = Some tr /\ onward again bot (map fst tr) /\
    (forall h, In h q \/ seen bs h \/ vertex_at lms h -> h = bot \/ In h (map fst tr)) /\
    (forall h, In h (map fst tr) -> In h q \/ seen bs h \/ vertex_at lms h) /\
    concat (map snd tr) = lms /\ (forall y ms m, In (y, ms) tr -> In m ms -> ly m = y).
Proof.
  intros fuel. induction fuel as [|n IH]; intros again bot q bs lms H ST F; [lia|]. simpl loop. destruct (pop q) as [[y q1]|] eqn:P.
  - destruct (beam_spec bot q bs lms y q1 H P) as (ms & q' & bs' & lms' & E & H' & LE & S1 & S2 & S3 & S4 & S5 & S6 & S7).
    rewrite E. set (g := negb (Z.eqb y bot)).
    destruct (IH g y q' bs' lms' H') as (tr & R & T1 & T2 & T3 & T4 & T5).
    { intros G. unfold g in G. apply negb_false_iff, Z.eqb_eq in G. apply S1, G. }
    { lia. }
    rewrite R. exists ((y, ms) :: tr). split; [reflexivity|]. simpl map. split; [|split; [|split; [|split]]].
    + simpl. unfold g in T1. destruct (Z.eq_dec y bot) as [EQ|N].
      * right. subst y. rewrite Z.eqb_refl in T1. split; [|split; [reflexivity|exact T1]].
        destruct again; [reflexivity|]. specialize (ST eq_refl bot S2). lia.
      * left. split; [lia|]. apply Z.eqb_neq in N. rewrite N in T1. exact T1.
    + intros h K. destruct (S5 h K) as [U|[U|U]]; [left; exact U|right; left; congruence|]. destruct (T2 h U) as [V|V]; [right; left; congruence|right; right; exact V].
    + intros h [K|K]; [left; subst h; exact S2|]. apply S6, T3, K.
    + simpl. rewrite T4. symmetry. exact S3.
    + intros z l m [K|K] M; [injection K as <- <-; apply S4, M|apply (T5 z l m K M)].
  - destruct q as [|x q]; [|discriminate]. destruct H as (_ & _ & AC & _ & LM). destruct lms as [|m lms].
    + exists []. split; [reflexivity|]. split; [exact I|]. split; [|split; [intros h []|split; [reflexivity|intros y ms m []]]].
      intros h [[]|[(b & B & K)|(m & [] & _)]]. destruct (AC b B) as (t & r & -> & L & _ & Q1 & Q2).
      destruct (Z.eq_dec t bot) as [EQ|N]; [|exfalso; apply Q1; lia]. specialize (Q2 EQ). destruct r as [|u s]; [|destruct Q2 as [_ []]].
      destruct K as [K|[]]. left. congruence.
    + exfalso. apply (LM m (or_introl eq_refl)).
Qed.
Lemma onward_sub : forall l again bot l1 a b l2, onward again bot l -> l = l1 ++ a :: b :: l2 -> b <= a.
Proof.
  intros l. induction l as [|y r IH]; intros again bot l1 a b l2 O E; [destruct l1; discriminate|].
  assert (N : exists g, onward g y r) by (destruct O as [[_ O]|(_ & _ & O)]; [exists true|exists false]; exact O). destruct N as [g N].
  destruct l1 as [|c l1]; injection E as E1 E2; [|apply (IH g y l1 a b l2 N E2)].
  subst y r. simpl in N. destruct N as [[N _]|(_ & N & _)]; lia.
Qed.
Lemma onward_thrice : forall l again bot l1 a b c l2, onward again bot l -> l = l1 ++ a :: b :: c :: l2 -> c < a.
Proof.
  intros l. induction l as [|y r IH]; intros again bot l1 a b c l2 O E; [destruct l1; discriminate|].
  assert (N : exists g, onward g y r) by (destruct O as [[_ O]|(_ & _ & O)]; [exists true|exists false]; exact O). destruct N as [g N].
  destruct l1 as [|d l1]; injection E as E1 E2; [|apply (IH g y l1 a b c l2 N E2)].
  subst y r. simpl in N. destruct N as [[N M]|(_ & N & M)]; destruct M as [[M _]|(M1 & M & _)]; lia.
Qed.
