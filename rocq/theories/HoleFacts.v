(** Auxiliary facts for C91: ends of outlines on a line as a function from places to outlines. *)

From Coq Require Import List Bool Arith Lia.
Import ListNotations.

(** ** Pointers *)
Section Pointers.
Variable FL : nat -> option nat.
Inductive ends_at : option nat -> Prop :=
| ends_none : ends_at None
| ends_some : forall x, ends_at (FL x) -> ends_at (Some x).
Inductive reach : option nat -> nat -> Prop :=
| reach_here : forall b, reach (Some b) b
| reach_next : forall x b, reach (FL x) b -> reach (Some x) b.
Lemma reach_trans : forall c x y, reach c x -> reach (FL x) y -> reach c y.
Proof. intros c x y H K. induction H; [apply reach_next, K|apply reach_next, IHreach, K]. Qed.
Lemma acyclic : forall c, ends_at c -> forall x, c = Some x -> ~ reach (FL x) x.
Proof.
  intros c H. induction H as [|x H IH]; intros y E; [discriminate|]. injection E as <-. intros K.
  inversion K as [b E|z b K' E]; subst.
  - symmetry in E. exact (IH x E K).
  - symmetry in E. apply (IH z E). rewrite E in K. eapply reach_trans; [exact K'|]. rewrite E. apply reach_here.
Qed.
End Pointers.
Definition upd {A} (f : nat -> A) (a : nat) (t : A) : nat -> A := fun x => if Nat.eqb x a then t else f x.
Lemma upd_same : forall A (f : nat -> A) a t, upd f a t a = t. Proof. intros. unfold upd. rewrite Nat.eqb_refl. reflexivity. Qed.
Lemma upd_other : forall A (f : nat -> A) a t x, x <> a -> upd f a t x = f x.
Proof. intros. unfold upd. destruct (Nat.eqb_spec x a); [contradiction|reflexivity]. Qed.
Lemma reach_upd : forall FL a t c b, ~ reach FL c a -> reach (upd FL a t) c b -> reach FL c b.
Proof.
  intros FL a t c b N H. induction H as [b|x b H IH]; [apply reach_here|]. assert (x <> a) by (intros ->; apply N, reach_here).
  rewrite upd_other in IH by assumption. apply reach_next, IH. intros K. apply N, reach_next, K.
Qed.
Lemma ends_upd : forall FL a t, (forall x, ends_at FL (FL x)) -> ends_at FL t -> ~ reach FL t a ->
  forall x, ends_at (upd FL a t) (upd FL a t x).
Proof.
  intros FL a t HF HT N.
  assert (K0 : forall c, ends_at FL c -> ~ reach FL c a -> ends_at (upd FL a t) c).
  { intros c Hc. induction Hc as [|x Hc IH]; intros Nc; [constructor|]. constructor. assert (x <> a) by (intros ->; apply Nc, reach_here).
    rewrite upd_other by assumption. apply IH. intros K. apply Nc, reach_next, K. }
  assert (K : ends_at (upd FL a t) t) by (apply K0; assumption).
  assert (G : forall c, ends_at FL c -> ends_at (upd FL a t) c).
  { intros c H. induction H as [|x H IH]; [constructor|]. constructor. destruct (Nat.eq_dec x a) as [-> | D].
    - rewrite upd_same. exact K.
    - rewrite upd_other by exact D. exact IH. }
  intros x. unfold upd at 2. destruct (Nat.eqb x a); [exact K|apply G, HF].
Qed.

(** The first live one. *)
Inductive up (live : nat -> Prop) (FL : nat -> option nat) : option nat -> option nat -> Prop :=
| up_none : up live FL None None
| up_live : forall f, live f -> up live FL (Some f) (Some f)
| up_dead : forall d r, ~ live d -> up live FL (FL d) r -> up live FL (Some d) r.
Lemma up_reach : forall live FL c f, up live FL c (Some f) -> reach FL c f /\ live f.
Proof.
  intros live FL c f H. remember (Some f) as r eqn:E. induction H; [discriminate|injection E as ->; split; [apply reach_here|assumption]|].
  destruct (IHup E) as [A B]. split; [apply reach_next, A|exact B].
Qed.

Definition option_eq (r : option nat) (i : nat) : bool := match r with Some f => Nat.eqb f i | None => false end.

(** ** Parity *)
Definition some {A} (o : option A) : bool := match o with Some _ => true | None => false end.
Fixpoint parity {A} (P : nat -> option A) (n : nat) : bool :=
  match n with O => false | S n => xorb (some (P n)) (parity P n) end.

Lemma parity_pair : forall A (P P' : nat -> option A) a,
  (forall x, x <> a -> x <> S a -> some (P' x) = some (P x)) ->
  xorb (some (P' a)) (some (P' (S a))) = xorb (some (P a)) (some (P (S a))) ->
  forall x, x <> S a -> parity P' x = parity P x.
Proof.
  intros A P P' a E1 E2.
  assert (K : forall x, (x <= a -> parity P' x = parity P x) /\ (S a < x -> parity P' x = parity P x)).
  { induction x as [|x [IH1 IH2]]; [split; intros; [reflexivity|lia]|]. split; intros Hx; cbn [parity].
    - rewrite E1 by lia. rewrite IH1 by lia. reflexivity.
    - destruct (Nat.eq_dec x (S a)) as [-> | D].
      + cbn [parity]. assert (Q : parity P' a = parity P a).
        { clear - E1. assert (K : forall x, x <= a -> parity P' x = parity P x); [|apply K; lia].
          induction x as [|x IH]; intros Hx; [reflexivity|]. cbn [parity]. rewrite E1 by lia. rewrite IH by lia. reflexivity. }
        rewrite Q. destruct (some (P' a)), (some (P' (S a))), (some (P a)), (some (P (S a))), (parity P a); cbn in *; congruence.
      + rewrite E1 by lia. rewrite IH2 by lia. reflexivity. }
  intros x D. destruct (K x) as [K1 K2]. destruct (Nat.le_gt_cases x a); [apply K1; assumption|apply K2; lia].
Qed.

(** ** The state *)
Section State.
Variable P : nat -> option nat.
Variables L R : nat -> nat.
Definition live (i : nat) : Prop := P (L i) = Some i.
Definition encl (e k : nat) : Prop := L e < L k /\ R k < R e.
Definition related (r : option nat) (k : nat) : Prop :=
  match r with
  | None => forall e, live e -> ~ encl e k
  | Some f => live f /\ ((encl f k /\ forall e, live e -> encl e k -> e = f \/ encl e f) \/
                         (forall e, live e -> (encl e k <-> encl e f)))
  end.
End State.
Record good (P : nat -> option nat) (L R : nat -> nat) (FL : nat -> option nat) (H : nat -> bool) (N : nat) : Prop := {
  g_at : forall x i, P x = Some i -> i < N /\ P (L i) = Some i /\ P (R i) = Some i /\ L i < R i /\ (x = L i \/ x = R i);
  g_cross : forall i k, live P L i -> live P L k -> L i < L k -> L k < R i -> R k < R i;
  g_order : forall i k, live P L i -> live P L k -> encl L R i k -> i < k;
  g_up : forall k, live P L k -> exists r, up (live P L) FL (FL k) r /\ related P L R r k;
  g_ends : forall x, ends_at FL (FL x);
  g_bound : forall x y, FL x = Some y -> x < N /\ y < N;
  g_hole : forall i, live P L i -> H i = parity P (L i) /\ parity P (R i) = negb (parity P (L i)) }.

(** Two intervals are apart or one is inside the other. *)
Definition lam (a b c d : nat) : Prop := b < c \/ d < a \/ (a < c /\ d < b) \/ (c < a /\ b < d).
Ltac cases := unfold lam; intros; repeat match goal with H : _ \/ _ |- _ => destruct H end; lia.
Lemma side_in : forall a b c d x y, a < b -> S b = c -> c < d -> x < y -> lam a b x y -> lam c d x y ->
  (a < x /\ y < d <-> (a < x /\ y < b) \/ (c < x /\ y < d)).
Proof. cases. Qed.
Lemma side_out : forall a b c d x y, a < b -> S b = c -> c < d -> x < y -> lam a b x y -> lam c d x y ->
  (x < a /\ d < y <-> x < a /\ b < y) /\ (x < a /\ b < y <-> x < c /\ d < y).
Proof. cases. Qed.
Lemma side_lam : forall a b c d x y, a < b -> S b = c -> c < d -> x < y -> lam a b x y -> lam c d x y -> lam a d x y.
Proof. cases. Qed.
(** What is left of an outer interval when it meets an inner one at an end. *)
Definition rest_of (a b c d u v : nat) : Prop := a < c /\ d < b /\ (c = S a /\ u = d /\ v = b \/ b = S d /\ u = a /\ v = c).
Lemma rest_facts : forall a b c d u v x y, rest_of a b c d u v -> c < d -> x < y -> lam a b x y -> lam c d x y ->
  (u < x /\ y < v <-> (a < x /\ y < b) /\ ~ (c < x /\ y < d)) /\ (x < u /\ v < y <-> x < a /\ b < y) /\
  (x < c /\ d < y <-> x < a /\ b < y) /\ lam u v x y.
Proof.
  intros a b c d u v x y (A1 & A2 & A3) A4 A5 A6 A7. unfold lam in *.
  destruct A3 as [(B1 & B2 & B3) | (B1 & B2 & B3)]; subst; destruct A6 as [A6|[A6|[A6|A6]]]; destruct A7 as [A7|[A7|[A7|A7]]]; repeat split; lia.
Qed.
Lemma lam_cross : forall a b c d, lam a b c d -> a < c -> c < b -> d < b.
Proof. cases. Qed.
Lemma lam_cross' : forall a b c d, lam a b c d -> a < b -> c < a -> a < d -> b < d.
Proof. cases. Qed.

Section Facts.
Variables (P : nat -> option nat) (L R : nat -> nat) (FL : nat -> option nat) (H : nat -> bool) (N : nat).
Hypothesis G : good P L R FL H N.
Notation lv := (live P L).
Notation en := (encl L R).
Lemma live_facts : forall i, lv i -> i < N /\ P (L i) = Some i /\ P (R i) = Some i /\ L i < R i.
Proof. intros i Hi. destruct (g_at _ _ _ _ _ _ G _ _ Hi) as (A & B & C & D & _). auto. Qed.
Lemma at_live : forall x i, P x = Some i -> lv i.
Proof. intros x i Hx. apply (g_at _ _ _ _ _ _ G _ _ Hx). Qed.
Lemma apart : forall i k, lv i -> lv k -> i <> k -> L i <> L k /\ L i <> R k /\ R i <> L k /\ R i <> R k.
Proof.
  intros i k Hi Hk D. destruct (live_facts i Hi) as (_ & A1 & A2 & _). destruct (live_facts k Hk) as (_ & B1 & B2 & _).
  repeat split; intros E; rewrite E in *; congruence.
Qed.
Lemma apart_or : forall i k, lv i -> lv k -> i = k \/ (L i <> L k /\ L i <> R k /\ R i <> L k /\ R i <> R k).
Proof. intros i k Hi Hk. destruct (Nat.eq_dec i k) as [E|D]; [left; exact E|right; apply apart; assumption]. Qed.
Lemma laminar : forall i k, lv i -> lv k -> i <> k -> lam (L i) (R i) (L k) (R k).
Proof.
  intros i k Li Lk D. destruct (apart i k Li Lk D) as (A1 & A2 & A3 & A4).
  pose proof (g_cross _ _ _ _ _ _ G i k Li Lk) as B1. pose proof (g_cross _ _ _ _ _ _ G k i Lk Li) as B2.
  destruct (live_facts i Li) as (_ & _ & _ & C1). destruct (live_facts k Lk) as (_ & _ & _ & C2). clear - A1 A2 A3 A4 B1 B2 C1 C2.
  unfold lam. lia.
Qed.
Lemma no_cycle : forall x, ~ reach FL (FL x) x.
Proof. intros x. apply (acyclic FL (Some x)); [constructor; apply (g_ends _ _ _ _ _ _ G)|reflexivity]. Qed.
(** Whatever encloses an outline can be reached from it. *)
Lemma enclosers_reached : forall c, ends_at FL c -> forall k, c = Some k -> forall i, lv i -> lv k -> en i k -> reach FL (FL k) i.
Proof.
  (* by the number of pointers left *)
  assert (K : forall c, ends_at FL c -> forall r, up lv FL c r -> forall f, r = Some f -> forall i, lv i -> lv f -> en i f -> reach FL (FL f) i).
  { intros c Hc. induction Hc as [|x Hc IH]; intros r U f E i Li Lf En; subst r; [inversion U|].
    inversion U as [|f' Lf' E1 E2|d r' Ld U' E1 E2]; subst.
    - destruct (g_up _ _ _ _ _ _ G f Lf) as (r & U2 & Rel). destruct r as [g|]; [|contradiction (Rel i Li En)].
      destruct (up_reach _ _ _ _ U2) as [Rg Lg]. destruct Rel as [_ [[_ Rel] | Rel]].
      + destruct (Rel i Li En) as [-> | En']; [exact Rg|]. eapply reach_trans; [exact Rg|]. apply (IH _ U2 g eq_refl); assumption.
      + apply (Rel i Li) in En. eapply reach_trans; [exact Rg|]. apply (IH _ U2 g eq_refl); assumption.
    - exact (IH _ U' f eq_refl i Li Lf En). }
  intros c Hc k -> i Li Lk En. apply (K _ Hc (Some k) (up_live _ _ k Lk) k eq_refl i Li Lk En).
Qed.
Lemma encloser_reach : forall i k, lv i -> lv k -> en i k -> reach FL (FL k) i.
Proof.
  intros i k Li Lk En. apply (enclosers_reached (Some k)); auto. constructor. apply (g_ends _ _ _ _ _ _ G).
Qed.

(** ** New places *)
Lemma rekey : forall P' (phi : nat -> nat),
  (forall x y i k, P x = Some i -> P y = Some k -> x < y -> phi x < phi y) ->
  (forall x i, P x = Some i -> P' (phi x) = Some i) ->
  (forall y i, P' y = Some i -> exists x, y = phi x /\ P x = Some i) ->
  (forall x i, P x = Some i -> parity P' (phi x) = parity P x) ->
  good P' (fun i => phi (L i)) (fun i => phi (R i)) FL H N.
Proof.
  intros P' phi M1 M2 M3 M4.
  assert (LV : forall i, live P' (fun i => phi (L i)) i <-> lv i).
  { intros i. unfold live. split; intros A; [|apply M2, A]. destruct (M3 _ _ A) as (x & _ & B). apply (at_live x), B. }
  assert (EN : forall e k, lv e -> lv k -> (encl (fun i => phi (L i)) (fun i => phi (R i)) e k <-> en e k)).
  { intros e k Le Lk. destruct (live_facts e Le) as (_ & A1 & A2 & _). destruct (live_facts k Lk) as (_ & B1 & B2 & _). unfold encl.
    pose proof (M1 _ _ _ _ A1 B1). pose proof (M1 _ _ _ _ B1 A1). pose proof (M1 _ _ _ _ A2 B2). pose proof (M1 _ _ _ _ B2 A2).
    destruct (apart_or e k Le Lk) as [-> | D]; lia. }
  assert (UP : forall c r, up lv FL c r -> up (live P' (fun i => phi (L i))) FL c r).
  { intros c r U. induction U; [constructor|constructor; apply LV; assumption|apply up_dead; [rewrite LV; assumption|assumption]]. }
  constructor.
  - intros y i A. destruct (M3 _ _ A) as (x & -> & B). destruct (g_at _ _ _ _ _ _ G _ _ B) as (C1 & C2 & C3 & C4 & C5).
    split; [exact C1|]. split; [apply M2, C2|]. split; [apply M2, C3|]. split; [apply (M1 _ _ _ _ C2 C3 C4)|].
    destruct C5 as [-> | ->]; auto.
  - intros i k Li Lk A B. rewrite LV in Li, Lk. destruct (live_facts i Li) as (_ & A1 & A2 & _). destruct (live_facts k Lk) as (_ & B1 & B2 & _).
    pose proof (M1 _ _ _ _ B1 A1). pose proof (M1 _ _ _ _ A2 B1). pose proof (M1 _ _ _ _ B2 A2).
    destruct (apart_or i k Li Lk) as [-> | D]; [lia|]. apply H2. apply (g_cross _ _ _ _ _ _ G i k Li Lk); lia.
  - intros i k Li Lk A. rewrite LV in Li, Lk. apply (EN i k Li Lk) in A. apply (g_order _ _ _ _ _ _ G i k Li Lk A).
  - intros k Lk. rewrite LV in Lk. destruct (g_up _ _ _ _ _ _ G k Lk) as (r & U & Rel). exists r. split; [apply UP, U|].
    destruct r as [f|]; cbn [related] in *.
    + destruct Rel as [Lf [[E1 E2] | E]]; (split; [apply LV, Lf|]); [left|right].
      * split; [apply EN; assumption|]. intros e Le A. rewrite LV in Le. apply (EN e k Le Lk) in A. destruct (E2 e Le A) as [B|B]; [left; exact B|right].
        apply EN; assumption.
      * intros e Le. rewrite LV in Le. rewrite (EN e k Le Lk), (EN e f Le Lf). apply E, Le.
    + intros e Le A. rewrite LV in Le. apply (EN e k Le Lk) in A. exact (Rel e Le A).
  - apply (g_ends _ _ _ _ _ _ G).
  - apply (g_bound _ _ _ _ _ _ G).
  - intros i Li. rewrite LV in Li. destruct (live_facts i Li) as (_ & A1 & A2 & _). rewrite (M4 _ _ A1), (M4 _ _ A2).
    apply (g_hole _ _ _ _ _ _ G i Li).
Qed.

(** ** Two ends meet: an outline is closed *)
Lemma close : forall a i P', P a = Some i -> P (S a) = Some i ->
  (forall x, P' x = if Nat.eqb x a || Nat.eqb x (S a) then None else P x) ->
  good P' L R FL H N.
Proof.
  intros a i P' Ha Hb HP.
  destruct (g_at _ _ _ _ _ _ G _ _ Ha) as (A1 & A2 & A3 & A4 & A5). destruct (g_at _ _ _ _ _ _ G _ _ Hb) as (_ & _ & _ & _ & A6).
  assert (EL : L i = a) by lia. assert (ER : R i = S a) by lia.
  assert (Li : lv i) by exact (at_live _ _ Ha).
  assert (LV : forall k, live P' L k <-> lv k /\ k <> i).
  { intros k. unfold live. rewrite HP. split.
    - intros A. destruct (Nat.eqb_spec (L k) a); [discriminate|]. destruct (Nat.eqb_spec (L k) (S a)); [discriminate|]. cbn in A.
      split; [exact A|]. intros ->. lia.
    - intros [A D]. destruct (apart k i A Li D) as (D1 & D2 & D3 & D4).
      destruct (Nat.eqb_spec (L k) a); [lia|]. destruct (Nat.eqb_spec (L k) (S a)); [lia|]. exact A. }
  assert (UP : forall r2, up lv FL (FL i) r2 -> forall c r, up lv FL c r -> up (live P' L) FL c (if option_eq r i then r2 else r)).
  { assert (UP1 : forall c r, up lv FL c r -> r <> Some i -> up (live P' L) FL c r).
    { intros c r U. induction U as [|f Lf|d r Ld U IH]; intros D; [constructor|constructor; apply LV; split; [exact Lf|congruence]|].
      apply up_dead; [rewrite LV; tauto|apply IH, D]. }
    intros r2 U2 c r U. induction U as [|f Lf|d r Ld U IH]; [constructor| |apply up_dead; [rewrite LV; tauto|exact IH]].
    cbn [option_eq]. destruct (Nat.eqb_spec f i) as [-> | D].
    - apply up_dead; [rewrite LV; tauto|]. apply UP1; [exact U2|]. intros ->. apply up_reach in U2. exact (no_cycle i (proj1 U2)).
    - constructor. apply LV. split; assumption. }
  assert (PA : forall x, x <> S a -> parity P' x = parity P x).
  { apply parity_pair; [intros x D1 D2|].
    - rewrite HP. destruct (Nat.eqb_spec x a); [contradiction|]. destruct (Nat.eqb_spec x (S a)); [contradiction|]. reflexivity.
    - rewrite !HP, Nat.eqb_refl. rewrite (Nat.eqb_refl (S a)), orb_true_r. rewrite Ha, Hb. reflexivity. }
  destruct (g_up _ _ _ _ _ _ G i Li) as (ri & Ui & Ri).
  constructor.
  - intros x k A. rewrite HP in A. destruct (Nat.eqb_spec x a) as [|X1]; [discriminate|]. destruct (Nat.eqb_spec x (S a)) as [|X2]; [discriminate|]. cbn in A.
    destruct (g_at _ _ _ _ _ _ G _ _ A) as (B1 & B2 & B3 & B4 & B5). split; [exact B1|].
    assert (D : k <> i) by (intros ->; lia). destruct (apart k i B2 Li D) as (D1 & D2 & D3 & D4).
    split; [apply LV; split; assumption|]. rewrite HP. destruct (Nat.eqb_spec (R k) a); [lia|]. destruct (Nat.eqb_spec (R k) (S a)); [lia|]. auto.
  - intros k l Lk Ll. apply LV in Lk, Ll. apply (g_cross _ _ _ _ _ _ G); tauto.
  - intros k l Lk Ll. apply LV in Lk, Ll. apply (g_order _ _ _ _ _ _ G); tauto.
  - intros k Lk. apply LV in Lk. destruct Lk as [Lk D]. destruct (g_up _ _ _ _ _ _ G k Lk) as (r & U & Rel).
    exists (if option_eq r i then ri else r). split; [apply UP; assumption|]. destruct r as [f|]; cbn [option_eq].
    + destruct (Nat.eqb_spec f i) as [-> | Df].
      * destruct Rel as [_ [[E1 _] | E]].
        -- exfalso. unfold encl in E1. destruct (live_facts k Lk) as (_ & _ & _ & X). lia.
        -- destruct ri as [g|]; cbn [related] in *.
           ++ destruct Ri as [Lg Ri]. assert (Dg : g <> i) by (intros ->; apply up_reach in Ui; exact (no_cycle i (proj1 Ui))).
              split; [apply LV; split; assumption|]. destruct Ri as [[F1 F2] | F]; [left|right].
              ** split; [apply E; assumption|]. intros e Le A. apply LV in Le. apply F2; [tauto|]. apply E; tauto.
              ** intros e Le. apply LV in Le. rewrite (E e) by tauto. apply F; tauto.
           ++ intros e Le A. apply LV in Le. apply (Ri e); [tauto|]. apply E; tauto.
      * destruct Rel as [Lf Rel]. split; [apply LV; split; assumption|]. destruct Rel as [[F1 F2] | F]; [left|right].
        -- split; [exact F1|]. intros e Le A. apply LV in Le. apply F2; tauto.
        -- intros e Le. apply LV in Le. apply F; tauto.
    + intros e Le A. apply LV in Le. apply (Rel e); tauto.
  - apply (g_ends _ _ _ _ _ _ G).
  - apply (g_bound _ _ _ _ _ _ G).
  - intros k Lk. apply LV in Lk. destruct Lk as [Lk D]. destruct (apart k i Lk Li D) as (D1 & D2 & D3 & D4).
    rewrite !PA by lia. apply (g_hole _ _ _ _ _ _ G k Lk).
Qed.

(** ** Two outlines become one *)
Definition merged_at (P : nat -> option nat) (a m o : nat) (x : nat) : option nat :=
  if Nat.eqb x a || Nat.eqb x (S a) then None else if option_eq (P x) o then Some m else P x.
Lemma merged_spec : forall a m o x,
  (x = a \/ x = S a) /\ merged_at P a m o x = None \/
  (x <> a /\ x <> S a) /\ (P x = Some o /\ merged_at P a m o x = Some m \/ P x <> Some o /\ merged_at P a m o x = P x).
Proof.
  intros a m o x. unfold merged_at. destruct (Nat.eqb_spec x a); [left; auto|]. destruct (Nat.eqb_spec x (S a)); [left; auto|]. right.
  split; [auto|]. cbn [orb]. destruct (P x) as [f|]; cbn [option_eq].
  - destruct (Nat.eqb_spec f o) as [-> | D]; [left; auto|right; split; [congruence|reflexivity]].
  - right. split; [discriminate|reflexivity].
Qed.
Lemma merged_parity : forall a m o i k, P a = Some i -> P (S a) = Some k ->
  forall x, x <> S a -> parity (merged_at P a m o) x = parity P x.
Proof.
  intros a m o i k Ha Hb. apply parity_pair.
  - intros x D1 D2. destruct (merged_spec a m o x) as [[[E|E] _] | [_ [[E1 E2] | [E1 E2]]]]; [contradiction|contradiction| |rewrite E2; reflexivity].
    rewrite E1, E2. reflexivity.
  - unfold merged_at. rewrite !Nat.eqb_refl, orb_true_r. cbn [orb]. rewrite Ha, Hb. reflexivity.
Qed.
Lemma up_merge : forall (live' : nat -> Prop) FL' m o,
  lv m -> lv o -> m <> o -> (forall k, live' k <-> lv k /\ k <> o) ->
  (forall d, d <> m -> d <> o -> FL' d = FL d) -> FL' o = Some m ->
  forall c r, up lv FL c r -> up live' FL' c (if option_eq r o then Some m else r).
Proof.
  intros live' FL' m o Lm Lo D LV F1 F2 c r U. induction U as [|f Lf|d r Ld U IH]; [constructor| |].
  - cbn [option_eq]. destruct (Nat.eqb_spec f o) as [-> | Df].
    + apply up_dead; [rewrite LV; tauto|]. rewrite F2. constructor. apply LV. split; assumption.
    + constructor. apply LV. split; assumption.
  - apply up_dead; [rewrite LV; tauto|]. rewrite F1; [exact IH|intros ->; contradiction|intros ->; contradiction].
Qed.

(** Side by side. *)
Lemma merge_side : forall a i k m o h,
  P a = Some i -> P (S a) = Some k -> a = R i -> S a = L k ->
  (m = i /\ o = k \/ m = k /\ o = i) -> m < o ->
  (h = m /\ ~ reach FL (FL m) o \/ h = o /\ ~ reach FL (FL o) m) ->
  good (merged_at P a m o) (upd L m (L i)) (upd R m (R k)) (upd (upd FL m (FL h)) o (Some m)) (upd H m (H h)) N.
Proof.
  intros a i k m o h Ha Hb EA EB Hmo Hlt Hh.
  assert (Li : lv i) by exact (at_live _ _ Ha). assert (Lk : lv k) by exact (at_live _ _ Hb).
  assert (Lm : lv m) by (destruct Hmo as [[-> _] | [-> _]]; assumption). assert (Lo : lv o) by (destruct Hmo as [[_ ->] | [_ ->]]; assumption).
  assert (Dik : i <> k) by lia.
  assert (WI : L i < R i) by apply (live_facts i Li). assert (WK : L k < R k) by apply (live_facts k Lk).
  assert (EAB : S (R i) = L k) by congruence.
  set (L' := upd L m (L i)). set (R' := upd R m (R k)). set (P' := merged_at P a m o).
  assert (LM : L' m = L i) by apply upd_same. assert (RM : R' m = R k) by apply upd_same.
  assert (LX : forall x, x <> m -> L' x = L x) by (intros; apply upd_other; assumption).
  assert (RX : forall x, x <> m -> R' x = R x) by (intros; apply upd_other; assumption).
  assert (PLM : P' (L i) = Some m).
  { destruct (merged_spec a m o (L i)) as [[[E|E] _] | [_ [[E1 E2] | [E1 E2]]]]; [lia|lia|exact E2|]. unfold P'. rewrite E2.
    unfold live in Li. rewrite Li in *. destruct Hmo as [[-> _] | [_ ->]]; [reflexivity|congruence]. }
  assert (PRM : P' (R k) = Some m).
  { destruct (live_facts k Lk) as (_ & _ & PR & _).
    destruct (merged_spec a m o (R k)) as [[[E|E] _] | [_ [[E1 E2] | [E1 E2]]]]; [lia|lia|exact E2|]. unfold P'. rewrite E2, PR in *.
    destruct Hmo as [[_ ->] | [-> _]]; [congruence|reflexivity]. }
  assert (PX : forall x y, lv x -> x <> m -> x <> o -> P y = Some x -> P' y = Some x).
  { intros x y Lx D1 D2 E. assert (Q : x <> i /\ x <> k) by (destruct Hmo as [[-> ->] | [-> ->]]; auto). destruct Q.
    destruct (merged_spec a m o y) as [[[E0|E0] _] | [_ [[E1 E2] | [E1 E2]]]]; [subst y; congruence..| |]; unfold P'; congruence. }
  assert (LV : forall x, live P' L' x <-> lv x /\ x <> o).
  { intros x. unfold live at 1. destruct (Nat.eq_dec x m) as [-> | Dm].
    - rewrite LM. split; [intros _; split; [exact Lm|lia]|intros _; exact PLM].
    - rewrite LX by exact Dm. split.
      + intros E. destruct (merged_spec a m o (L x)) as [[_ E0] | [_ [[E1 E2] | [E1 E2]]]]; unfold P' in E; rewrite E in *; [discriminate|congruence|].
        split; [symmetry; exact E2|]. intros ->. congruence.
      + intros [A B]. apply PX; assumption. }
  assert (IK : forall x, lv x -> x <> m -> x <> o -> x <> i /\ x <> k) by (intros x _ D1 D2; destruct Hmo as [[-> ->] | [-> ->]]; auto).
  (* enclosure *)
  assert (EN1 : forall e x, e <> m -> x <> m -> (encl L' R' e x <-> en e x)).
  { intros e x D1 D2. unfold encl. rewrite !LX, !RX by assumption. reflexivity. }
  assert (EN2 : forall x, lv x -> x <> m -> x <> o -> (encl L' R' m x <-> en i x \/ en k x)).
  { intros x Lx D1 D2. destruct (IK x Lx D1 D2). unfold encl. rewrite LM, RM, LX, RX by assumption.
    apply side_in; [exact WI|exact EAB|exact WK|apply (live_facts x Lx)|apply laminar; auto|apply laminar; auto]. }
  assert (EN3 : forall e, lv e -> e <> m -> e <> o -> (encl L' R' e m <-> en e i)).
  { intros e Le D1 D2. destruct (IK e Le D1 D2). unfold encl. rewrite LM, RM, LX, RX by assumption.
    apply (side_out (L i) (R i) (L k)); [exact WI|exact EAB|exact WK|apply (live_facts e Le)|apply laminar; auto|apply laminar; auto]. }
  assert (EN4 : forall e, lv e -> e <> m -> e <> o -> (en e i <-> en e k)).
  { intros e Le D1 D2. destruct (IK e Le D1 D2). unfold encl.
    apply (side_out (L i) (R i) (L k) (R k)); [exact WI|exact EAB|exact WK|apply (live_facts e Le)|apply laminar; auto|apply laminar; auto]. }
  assert (ENh : forall e, lv e -> e <> m -> e <> o -> (encl L' R' e m <-> en e h)).
  { intros e Le D1 D2. rewrite (EN3 e Le D1 D2). assert (HH : h = i \/ h = k) by (destruct Hh as [[-> _] | [-> _]]; tauto).
    destruct HH as [-> | ->]; [reflexivity|apply EN4; assumption]. }
  assert (NS : forall e, ~ en e e) by (intros e; unfold encl; lia).
  assert (NIK : ~ en i k /\ ~ en k i) by (clear - WI WK EAB; unfold encl; lia).
  assert (NSM : forall e, ~ encl L' R' e e) by (intros e; unfold encl; lia).
  assert (PA : forall x, x <> S a -> parity P' x = parity P x) by exact (merged_parity a m o i k Ha Hb).
  set (FL' := upd (upd FL m (FL h)) o (Some m)).
  assert (FX : forall d, d <> m -> d <> o -> FL' d = FL d) by (intros d D1 D2; unfold FL'; rewrite !upd_other by assumption; reflexivity).
  assert (FO : FL' o = Some m) by apply upd_same.
  assert (FM : FL' m = FL h) by (unfold FL'; rewrite upd_other by lia; apply upd_same).
  assert (UP := up_merge (live P' L') FL' m o Lm Lo (Nat.lt_neq _ _ Hlt) LV FX FO).
  assert (NRm : ~ reach FL (FL h) m) by (destruct Hh as [[-> _] | [-> A]]; [apply no_cycle|exact A]).
  assert (NRo : ~ reach FL (FL h) o) by (destruct Hh as [[-> A] | [-> _]]; [exact A|apply no_cycle]).
  assert (Lh : lv h) by (destruct Hh as [[-> _] | [-> _]]; assumption).
  constructor.
  - intros x j E. unfold P' in E. destruct (merged_spec a m o x) as [[_ E0] | [[N1 N2] [[E1 E2] | [E1 E2]]]]; rewrite E in *; [discriminate| |].
    + injection E2 as ->. rewrite LM, RM. split; [apply (live_facts m Lm)|]. split; [exact PLM|]. split; [exact PRM|]. split; [lia|].
      destruct (g_at _ _ _ _ _ _ G _ _ E1) as (_ & _ & _ & _ & E5). destruct Hmo as [[-> ->] | [-> ->]]; lia.
    + symmetry in E2. destruct (g_at _ _ _ _ _ _ G _ _ E2) as (F1 & F2 & F3 & F4 & F5). split; [exact F1|].
      destruct (Nat.eq_dec j m) as [-> | Dm].
      * rewrite LM, RM. split; [exact PLM|]. split; [exact PRM|]. split; [lia|]. destruct Hmo as [[-> ->] | [-> ->]]; lia.
      * assert (Do : j <> o) by congruence. rewrite LX, RX by exact Dm. split; [apply PX; assumption|]. split; [apply PX; assumption|]. auto.
  - intros x y Lx Ly. apply LV in Lx, Ly. destruct Lx as [Lx Dx], Ly as [Ly Dy].
    destruct (Nat.eq_dec x m) as [-> | Dxm], (Nat.eq_dec y m) as [-> | Dym].
    + intros; lia.
    + rewrite LM, RM, LX, RX by assumption. destruct (IK y Ly Dym Dy). apply lam_cross.
      apply (side_lam (L i) (R i) (L k)); [exact WI|exact EAB|exact WK|apply (live_facts y Ly)|apply laminar; auto|apply laminar; auto].
    + rewrite LM, RM, LX, RX by assumption. destruct (IK x Lx Dxm Dx). apply lam_cross'; [|lia].
      apply (side_lam (L i) (R i) (L k)); [exact WI|exact EAB|exact WK|apply (live_facts x Lx)|apply laminar; auto|apply laminar; auto].
    + rewrite !LX, !RX by assumption. apply (g_cross _ _ _ _ _ _ G); assumption.
  - intros x y Lx Ly A. apply LV in Lx, Ly. destruct Lx as [Lx Dx], Ly as [Ly Dy].
    destruct (Nat.eq_dec x m) as [-> | Dxm], (Nat.eq_dec y m) as [-> | Dym].
    + exfalso. exact (NSM _ A).
    + apply (EN2 y Ly Dym Dy) in A.
      destruct A as [A|A]; apply (g_order _ _ _ _ _ _ G) in A; try assumption; destruct Hmo as [[-> ->] | [-> ->]]; lia.
    + apply (EN3 x Lx Dxm Dx) in A. pose proof (proj1 (EN4 x Lx Dxm Dx) A) as B. apply (g_order _ _ _ _ _ _ G) in A, B; try assumption.
      destruct Hmo as [[-> ->] | [-> ->]]; lia.
    + apply (EN1 x y Dxm Dym) in A. apply (g_order _ _ _ _ _ _ G); assumption.
  - intros x Lx. apply LV in Lx. destruct Lx as [Lx Dx]. destruct (Nat.eq_dec x m) as [-> | Dm].
    + destruct (g_up _ _ _ _ _ _ G h Lh) as (r & U & Rel). exists (if option_eq r o then Some m else r). split; [rewrite FM; apply UP, U|].
      destruct r as [f|]; cbn [option_eq].
      * assert (Df : f <> m /\ f <> o) by (apply up_reach in U; destruct U as [U _]; split; intros ->; contradiction).
        destruct Df as [Dfm Dfo]. destruct (Nat.eqb_spec f o) as [|_]; [contradiction|]. destruct Rel as [Lf Rel]. split; [apply LV; auto|].
        destruct Rel as [[E1 E2] | E]; [left|right].
        -- split; [apply ENh; assumption|]. intros e Le A. apply LV in Le. destruct Le as [Le De].
           destruct (Nat.eq_dec e m) as [-> | Dem]; [contradiction (NSM _ A)|]. apply (ENh e Le Dem De) in A. destruct (E2 e Le A) as [B|B]; [left; exact B|].
           right. apply EN1; assumption.
        -- intros e Le. apply LV in Le. destruct Le as [Le De]. destruct (Nat.eq_dec e m) as [-> | Dem].
           ++ rewrite (EN2 f Lf Dfm Dfo), <- (E i Li), <- (E k Lk).
              assert (HH : h = i \/ h = k) by (destruct Hh as [[-> _] | [-> _]]; tauto).
              split; [intros A; contradiction (NSM _ A)|]. intros [A|A]; destruct HH as [-> | ->]; exfalso; [exact (NS _ A)|tauto|tauto|exact (NS _ A)].
           ++ rewrite (ENh e Le Dem De), (EN1 e f Dem Dfm). apply E, Le.
      * intros e Le A. apply LV in Le. destruct Le as [Le De]. destruct (Nat.eq_dec e m) as [-> | Dem]; [exact (NSM _ A)|].
        apply (ENh e Le Dem De) in A. exact (Rel e Le A).
    + destruct (g_up _ _ _ _ _ _ G x Lx) as (r & U & Rel). exists (if option_eq r o then Some m else r). split; [rewrite FX by assumption; apply UP, U|].
      destruct r as [f|]; cbn [option_eq].
      * destruct Rel as [Lf Rel].
        assert (CF : (f = i \/ f = k) \/ (f <> m /\ f <> o)) by (destruct (Nat.eq_dec f m), (Nat.eq_dec f o), Hmo as [[-> ->] | [-> ->]]; tauto).
        destruct CF as [CF | [Dfm Dfo]].
        -- assert (Er : (if Nat.eqb f o then Some m else Some f) = Some m).
           { destruct (Nat.eqb_spec f o); [reflexivity|]. destruct CF as [-> | ->], Hmo as [[-> ->] | [-> ->]]; congruence. }
           rewrite Er. split; [apply LV; split; [exact Lm|lia]|]. destruct Rel as [[E1 E2] | E]; [left|right].
           ++ split; [apply EN2; [assumption..|]; destruct CF as [-> | ->]; tauto|]. intros e Le A. apply LV in Le. destruct Le as [Le De].
              destruct (Nat.eq_dec e m) as [-> | Dem]; [left; reflexivity|right]. apply (EN1 e x Dem Dm) in A. destruct (IK e Le Dem De).
              apply (EN3 e Le Dem De). destruct (E2 e Le A) as [B|B]; [destruct CF as [-> | ->]; contradiction|].
              destruct CF as [-> | ->]; [exact B|apply EN4; assumption].
           ++ intros e Le. apply LV in Le. destruct Le as [Le De]. destruct (Nat.eq_dec e m) as [-> | Dem].
              ** rewrite (EN2 x Lx Dm Dx). split; [|intros A; contradiction (NSM _ A)].
                 intros [A|A]; exfalso; [apply (E i Li) in A|apply (E k Lk) in A]; destruct CF as [-> | ->]; [exact (NS _ A)|tauto|tauto|exact (NS _ A)].
              ** rewrite (EN1 e x Dem Dm), (EN3 e Le Dem De), (E e Le). destruct CF as [-> | ->]; [reflexivity|symmetry; apply EN4; assumption].
        -- destruct (Nat.eqb_spec f o) as [|_]; [contradiction|]. split; [apply LV; auto|]. destruct (IK f Lf Dfm Dfo) as [Dfi Dfk].
           destruct Rel as [[E1 E2] | E]; [left|right].
           ++ split; [apply EN1; assumption|]. intros e Le A. apply LV in Le. destruct Le as [Le De]. destruct (Nat.eq_dec e m) as [-> | Dem].
              ** right. apply (EN2 f Lf Dfm Dfo). apply (EN2 x Lx Dm Dx) in A. destruct A as [A|A]; [left; destruct (E2 i Li A) as [B|B]|right; destruct (E2 k Lk A) as [B|B]]; [congruence|exact B|congruence|exact B].
              ** apply (EN1 e x Dem Dm) in A. destruct (E2 e Le A) as [B|B]; [left; exact B|right; apply EN1; assumption].
           ++ intros e Le. apply LV in Le. destruct Le as [Le De]. destruct (Nat.eq_dec e m) as [-> | Dem].
              ** rewrite (EN2 x Lx Dm Dx), (EN2 f Lf Dfm Dfo), (E i Li), (E k Lk). reflexivity.
              ** rewrite !EN1 by assumption. apply E, Le.
      * intros e Le A. apply LV in Le. destruct Le as [Le De]. destruct (Nat.eq_dec e m) as [-> | Dem].
        -- apply (EN2 x Lx Dm Dx) in A. destruct A as [A|A]; [exact (Rel i Li A)|exact (Rel k Lk A)].
        -- apply (EN1 e x Dem Dm) in A. exact (Rel e Le A).
  - assert (E1 : forall x, ends_at (upd FL m (FL h)) (upd FL m (FL h) x)) by (apply ends_upd; [apply (g_ends _ _ _ _ _ _ G)|apply (g_ends _ _ _ _ _ _ G)|exact NRm]).
    apply ends_upd; [exact E1|constructor; apply E1|]. intros A. inversion A as [b E|y b A' E]; subst; [lia|]. rewrite upd_same in A'.
    apply reach_upd in A'; [|exact NRm]. contradiction.
  - intros x y E. unfold FL', upd in E. destruct (Nat.eqb_spec x o) as [-> | _].
    + injection E as <-. split; [apply (live_facts o Lo)|apply (live_facts m Lm)].
    + destruct (Nat.eqb_spec x m) as [-> | _]; [|apply (g_bound _ _ _ _ _ _ G _ _ E)]. split; [apply (live_facts m Lm)|].
      apply (g_bound _ _ _ _ _ _ G _ _ E).
  - intros x Lx. apply LV in Lx. destruct Lx as [Lx Dx].
    destruct (g_hole _ _ _ _ _ _ G i Li) as [Hi1 Hi2]. destruct (g_hole _ _ _ _ _ _ G k Lk) as [Hk1 Hk2].
    assert (PS : parity P (S a) = negb (parity P a)) by (cbn [parity]; rewrite Ha; destruct (parity P a); reflexivity).
    destruct (Nat.eq_dec x m) as [-> | Dm].
    + rewrite LM, RM, !PA by lia. rewrite upd_same. rewrite Hk2, <- EB, PS, EA, Hi2, negb_involutive. split; [|reflexivity].
      assert (HH : h = i \/ h = k) by (destruct Hh as [[-> _] | [-> _]]; tauto). destruct HH as [-> | ->]; [exact Hi1|].
      rewrite Hk1, <- EB, PS, EA, Hi2, negb_involutive. reflexivity.
    + rewrite LX, RX by exact Dm. rewrite upd_other by exact Dm. destruct (IK x Lx Dm Dx). destruct (apart x k Lx Lk) as (? & ? & ? & ?); [assumption|].
      rewrite !PA by lia. apply (g_hole _ _ _ _ _ _ G x Lx).
Qed.

(** One inside the other. *)
Lemma merge_nested : forall a i k m o u v,
  P a = Some i -> P (S a) = Some k -> 
  (m = i /\ o = k /\ a = L m /\ S a = L o /\ u = R o /\ v = R m \/ m = k /\ o = i /\ a = R o /\ S a = R m /\ u = L m /\ v = L o) ->
  m <> o -> encl L R m o ->
  good (merged_at P a m o) (upd L m u) (upd R m v) (upd FL o (Some m)) H N.
Proof.
  intros a i k m o u v Ha Hb Hmo Dmo EMO.
  assert (Lm : lv m) by (destruct Hmo as [(-> & _) | (-> & _)]; [exact (at_live _ _ Ha)|exact (at_live _ _ Hb)]).
  assert (Lo : lv o) by (destruct Hmo as [(_ & -> & _) | (_ & -> & _)]; [exact (at_live _ _ Hb)|exact (at_live _ _ Ha)]).
  assert (WO : L o < R o) by apply (live_facts o Lo). assert (WM : L m < R m) by apply (live_facts m Lm).
  assert (HR : rest_of (L m) (R m) (L o) (R o) u v) by (clear - Hmo EMO; unfold rest_of; unfold encl in EMO; lia).
  assert (WN : u < v) by (clear - HR WO; unfold rest_of in HR; lia).
  set (L' := upd L m u). set (R' := upd R m v). set (P' := merged_at P a m o).
  assert (LM : L' m = u) by apply upd_same. assert (RM : R' m = v) by apply upd_same.
  assert (LX : forall x, x <> m -> L' x = L x) by (intros; apply upd_other; assumption).
  assert (RX : forall x, x <> m -> R' x = R x) by (intros; apply upd_other; assumption).
  assert (POS : (a = L m /\ S a = L o /\ u = R o /\ v = R m) \/ (a = R o /\ S a = R m /\ u = L m /\ v = L o)).
  { clear - Hmo. lia. }
  assert (NU : u <> S a /\ v <> S a) by (clear - POS WO WM HR; unfold rest_of in HR; lia).
  assert (PIK : forall x, (x = a \/ x = S a) -> P x = Some m \/ P x = Some o) by (intros x [-> | ->]; destruct Hmo as [(-> & -> & _) | (-> & -> & _)]; auto).
  assert (PUV : P' u = Some m /\ P' v = Some m).
  { destruct (live_facts m Lm) as (_ & M1 & M2 & _). destruct (live_facts o Lo) as (_ & O1 & O2 & _).
    assert (K : forall y, (y = u \/ y = v) -> P' y = Some m).
    { intros y Hy. unfold P'. assert (Y : y <> a /\ y <> S a) by (clear - Hy POS WO WM HR; unfold rest_of in HR; lia).
      destruct (merged_spec a m o y) as [[[E|E] _] | [_ [[E1 E2] | [E1 E2]]]]; [tauto|tauto|exact E2|]. rewrite E2.
      destruct POS as [(_ & _ & -> & ->) | (_ & _ & -> & ->)]; destruct Hy as [-> | ->]; congruence. }
    auto. }
  assert (PX : forall x y, lv x -> x <> m -> x <> o -> P y = Some x -> P' y = Some x).
  { intros x y Lx D1 D2 E. destruct (merged_spec a m o y) as [[E0 _] | [_ [[E1 E2] | [E1 E2]]]]; [|unfold P'; congruence..].
    destruct (PIK y E0); congruence. }
  assert (LV : forall x, live P' L' x <-> lv x /\ x <> o).
  { intros x. unfold live at 1. destruct (Nat.eq_dec x m) as [-> | Dm].
    - rewrite LM. split; [intros _; auto|intros _; apply PUV].
    - rewrite LX by exact Dm. split.
      + intros E. destruct (merged_spec a m o (L x)) as [[_ E0] | [_ [[E1 E2] | [E1 E2]]]]; unfold P' in E; rewrite E in *; [discriminate|congruence|].
        split; [symmetry; exact E2|]. intros ->. congruence.
      + intros [A B]. apply PX; assumption. }
  assert (RF : forall x, lv x -> x <> m -> x <> o ->
    (encl L' R' m x <-> en m x /\ ~ en o x) /\ (encl L' R' x m <-> en x m) /\ (en x o <-> en x m) /\ lam u v (L x) (R x)).
  { intros x Lx D1 D2. unfold encl. rewrite LM, RM, LX, RX by assumption.
    apply (rest_facts (L m) (R m) (L o) (R o)); [exact HR|exact WO|apply (live_facts x Lx)|apply laminar; auto|apply laminar; auto]. }
  assert (EN1 : forall e x, e <> m -> x <> m -> (encl L' R' e x <-> en e x)).
  { intros e x D1 D2. unfold encl. rewrite !LX, !RX by assumption. reflexivity. }
  assert (ET : forall x y z, en x y -> en y z -> en x z) by (clear; unfold encl; lia).
  assert (NS : forall e, ~ en e e) by (clear; intros e; unfold encl; lia).
  assert (NSM : forall e, ~ encl L' R' e e) by (clear; intros e; unfold encl; lia).
  assert (PA : forall x, x <> S a -> parity P' x = parity P x) by exact (merged_parity a m o i k Ha Hb).
  assert (NR : ~ reach FL (FL m) o).
  { intros A. apply (no_cycle m). eapply reach_trans; [exact A|]. apply encloser_reach; assumption. }
  set (FL' := upd FL o (Some m)).
  assert (FX : forall d, d <> o -> FL' d = FL d) by (intros d D1; unfold FL'; rewrite upd_other by assumption; reflexivity).
  assert (FO : FL' o = Some m) by apply upd_same.
  assert (UP := up_merge (live P' L') FL' m o Lm Lo Dmo LV (fun d _ D => FX d D) FO).
  constructor.
  - intros x j E. unfold P' in E. destruct (merged_spec a m o x) as [[_ E0] | [[N1 N2] [[E1 E2] | [E1 E2]]]]; rewrite E in *; [discriminate| |].
    + injection E2 as ->. rewrite LM, RM. split; [apply (live_facts m Lm)|]. split; [apply PUV|]. split; [apply PUV|]. split; [exact WN|].
      destruct (g_at _ _ _ _ _ _ G _ _ E1) as (_ & _ & _ & _ & E5). clear - E5 POS N1 N2. lia.
    + symmetry in E2. destruct (g_at _ _ _ _ _ _ G _ _ E2) as (F1 & F2 & F3 & F4 & F5). split; [exact F1|].
      destruct (Nat.eq_dec j m) as [-> | Dm].
      * rewrite LM, RM. split; [apply PUV|]. split; [apply PUV|]. split; [exact WN|]. clear - F5 POS N1 N2. lia.
      * assert (Do : j <> o) by congruence. rewrite LX, RX by exact Dm. split; [apply PX; assumption|]. split; [apply PX; assumption|]. auto.
  - intros x y Lx Ly. apply LV in Lx, Ly. destruct Lx as [Lx Dx], Ly as [Ly Dy].
    destruct (Nat.eq_dec x m) as [-> | Dxm], (Nat.eq_dec y m) as [-> | Dym].
    + intros; lia.
    + rewrite LM, RM, LX, RX by assumption. apply lam_cross, (RF y); assumption.
    + rewrite LM, RM, LX, RX by assumption. apply lam_cross'; [apply (RF x); assumption|exact WN].
    + rewrite !LX, !RX by assumption. apply (g_cross _ _ _ _ _ _ G); assumption.
  - intros x y Lx Ly A. apply LV in Lx, Ly. destruct Lx as [Lx Dx], Ly as [Ly Dy].
    destruct (Nat.eq_dec x m) as [-> | Dxm], (Nat.eq_dec y m) as [-> | Dym].
    + exfalso. exact (NSM _ A).
    + apply (RF y Ly Dym Dy) in A. apply (g_order _ _ _ _ _ _ G); tauto.
    + apply (RF x Lx Dxm Dx) in A. apply (g_order _ _ _ _ _ _ G); tauto.
    + apply (EN1 x y Dxm Dym) in A. apply (g_order _ _ _ _ _ _ G); assumption.
  - intros x Lx. apply LV in Lx. destruct Lx as [Lx Dx].
    destruct (g_up _ _ _ _ _ _ G x Lx) as (r & U & Rel). exists (if option_eq r o then Some m else r). split; [rewrite FX by assumption; apply UP, U|].
    assert (Lm' : live P' L' m) by (apply LV; auto).
    destruct (Nat.eq_dec x m) as [-> | Dm].
    + destruct r as [f|]; cbn [option_eq].
      * assert (Df : f <> m /\ f <> o) by (apply up_reach in U; destruct U as [U _]; split; intros ->; [exact (no_cycle m U)|contradiction]).
        destruct Df as [Dfm Dfo]. destruct (Nat.eqb_spec f o) as [|_]; [contradiction|]. destruct Rel as [Lf Rel]. split; [apply LV; auto|].
        destruct Rel as [[E1 E2] | E]; [left|right].
        -- split; [apply RF; assumption|]. intros e Le A. apply LV in Le. destruct Le as [Le De].
           destruct (Nat.eq_dec e m) as [-> | Dem]; [contradiction (NSM _ A)|]. apply (RF e Le Dem De) in A. destruct (E2 e Le A) as [B|B]; [left; exact B|].
           right. apply EN1; assumption.
        -- intros e Le. apply LV in Le. destruct Le as [Le De]. destruct (Nat.eq_dec e m) as [-> | Dem].
           ++ split; [intros A; contradiction (NSM _ A)|]. intros A. exfalso. apply (RF f Lf Dfm Dfo) in A. destruct A as [A _].
              apply (E m Lm) in A. exact (NS _ A).
           ++ rewrite (EN1 e f Dem Dfm). destruct (RF e Le Dem De) as (_ & Q & _). rewrite Q. apply E, Le.
      * intros e Le A. apply LV in Le. destruct Le as [Le De]. destruct (Nat.eq_dec e m) as [-> | Dem]; [exact (NSM _ A)|].
        apply (RF e Le Dem De) in A. exact (Rel e Le A).
    + destruct (RF x Lx Dm Dx) as (RX1 & _ & _ & _). destruct r as [f|]; cbn [option_eq].
      * destruct Rel as [Lf Rel]. destruct (Nat.eqb_spec f o) as [-> | Dfo]; [|destruct (Nat.eq_dec f m) as [-> | Dfm]].
        -- split; [exact Lm'|]. destruct Rel as [[E1 E2] | E]; [right|left].
           ++ intros e Le. apply LV in Le. destruct Le as [Le De]. destruct (Nat.eq_dec e m) as [-> | Dem].
              ** rewrite RX1. split; [tauto|intros A; contradiction (NSM _ A)].
              ** destruct (RF e Le Dem De) as (_ & Q1 & Q2 & _). rewrite (EN1 e x Dem Dm), Q1, <- Q2. split.
                 --- intros A. destruct (E2 e Le A); [contradiction|assumption].
                 --- intros A. eapply ET; eassumption.
           ++ split; [apply RX1; split; [apply (E m Lm), EMO|intros A; apply (E o Lo) in A; exact (NS _ A)]|].
              intros e Le A. apply LV in Le. destruct Le as [Le De]. destruct (Nat.eq_dec e m) as [-> | Dem]; [left; reflexivity|right].
              destruct (RF e Le Dem De) as (_ & Q1 & Q2 & _). apply Q1, Q2, (E e Le), (EN1 e x Dem Dm), A.
        -- split; [exact Lm'|]. destruct Rel as [[E1 E2] | E]; [left|right].
           ++ split; [apply RX1; split; [exact E1|]; intros A; destruct (E2 o Lo A) as [B|B]; [congruence|exact (NS _ (ET _ _ _ B EMO))]|].
              intros e Le A. apply LV in Le. destruct Le as [Le De]. destruct (Nat.eq_dec e m) as [-> | Dem]; [left; reflexivity|right].
              apply (RF e Le Dem De). apply (EN1 e x Dem Dm) in A. destruct (E2 e Le A); [contradiction|assumption].
           ++ intros e Le. apply LV in Le. destruct Le as [Le De]. destruct (Nat.eq_dec e m) as [-> | Dem].
              ** rewrite RX1. split; [intros [A _]; apply (E m Lm) in A; contradiction (NS _ A)|intros A; contradiction (NSM _ A)].
              ** destruct (RF e Le Dem De) as (_ & Q1 & _). rewrite Q1, (EN1 e x Dem Dm). apply E, Le.
        -- split; [apply LV; auto|]. destruct (RF f Lf Dfm Dfo) as (RF1 & _). destruct Rel as [[E1 E2] | E]; [left|right].
           ++ split; [apply EN1; assumption|]. intros e Le A. apply LV in Le. destruct Le as [Le De]. destruct (Nat.eq_dec e m) as [-> | Dem].
              ** right. apply RX1 in A. destruct A as [A B]. apply RF1. destruct (E2 m Lm A) as [C|C]; [congruence|]. split; [exact C|].
                 intros D. apply B. eapply ET; eassumption.
              ** apply (EN1 e x Dem Dm) in A. destruct (E2 e Le A) as [B|B]; [left; exact B|right; apply EN1; assumption].
           ++ intros e Le. apply LV in Le. destruct Le as [Le De]. destruct (Nat.eq_dec e m) as [-> | Dem].
              ** rewrite RX1, RF1, (E m Lm), (E o Lo). reflexivity.
              ** rewrite !EN1 by assumption. apply E, Le.
      * intros e Le A. apply LV in Le. destruct Le as [Le De]. destruct (Nat.eq_dec e m) as [-> | Dem].
        -- apply RX1 in A. exact (Rel m Lm (proj1 A)).
        -- apply (EN1 e x Dem Dm) in A. exact (Rel e Le A).
  - apply ends_upd; [apply (g_ends _ _ _ _ _ _ G)|constructor; apply (g_ends _ _ _ _ _ _ G)|]. intros A. inversion A as [b E|y b A' E]; [apply Dmo; congruence|contradiction].
  - intros x y E. unfold FL', upd in E. destruct (Nat.eqb_spec x o) as [-> | _].
    + injection E as <-. split; [apply (live_facts o Lo)|apply (live_facts m Lm)].
    + apply (g_bound _ _ _ _ _ _ G _ _ E).
  - intros x Lx. apply LV in Lx. destruct Lx as [Lx Dx].
    assert (PS : parity P (S a) = negb (parity P a)) by (cbn [parity]; rewrite Ha; destruct (parity P a); reflexivity).
    destruct (g_hole _ _ _ _ _ _ G m Lm) as [Hm1 Hm2]. destruct (g_hole _ _ _ _ _ _ G o Lo) as [Ho1 Ho2].
    destruct (Nat.eq_dec x m) as [-> | Dm].
    + rewrite LM, RM. rewrite !PA by tauto.
      destruct POS as [(P1 & P2 & -> & ->) | (P1 & P2 & -> & ->)].
      * rewrite Ho2, <- P2, PS, Hm1, Hm2, P1, negb_involutive. split; reflexivity.
      * rewrite Hm1. rewrite <- P2, PS in Hm2. rewrite <- P1 in Ho2. split; [reflexivity|].
        destruct (parity P (L m)), (parity P (L o)), (parity P a); cbn in *; congruence.
    + rewrite LX, RX by exact Dm. destruct (apart x m Lx Lm Dm) as (Z1 & Z2 & Z3 & Z4). destruct (apart x o Lx Lo Dx) as (Z5 & Z6 & Z7 & Z8).
      assert (NX : L x <> S a /\ R x <> S a) by (destruct POS as [(_ & -> & _) | (_ & -> & _)]; auto). rewrite !PA by tauto. apply (g_hole _ _ _ _ _ _ G x Lx).
Qed.

(** ** A new outline *)
Definition look (tmp : option nat) (o : option nat) : option nat :=
  match o with None => tmp | Some i => match tmp with None => Some i | Some t => if Nat.eqb t i then None else tmp end end.
Fixpoint scan (n : nat) (tmp : option nat) : option nat := match n with O => tmp | S x => scan x (look tmp (P x)) end.
Definition closed (n y : nat) : Prop := forall p i, y <= p -> p < n -> P p = Some i -> y <= L i /\ R i < n.
Definition scanned (n x : nat) (tmp : option nat) : Prop :=
  match tmp with
  | None => closed n x /\ parity P x = parity P n
  | Some t => exists y, x <= y /\ y < n /\ P y = Some t /\ closed n (S y) /\ parity P (S y) = parity P n /\ (y = R t -> L t < x)
  end.
Lemma scan_step : forall n x tmp, S x <= n -> scanned n (S x) tmp -> scanned n x (look tmp (P x)).
Proof.
  intros n x tmp Hx Hs. destruct (P x) as [i|] eqn:E; cbn [look].
  - destruct tmp as [t|]; cbn [scanned] in *.
    + destruct Hs as (y & Y1 & Y2 & Y3 & Y4 & Y5 & Y6). destruct (Nat.eqb_spec t i) as [-> | D].
      * cbn [scanned]. destruct (g_at _ _ _ _ _ _ G _ _ E) as (_ & A1 & A2 & A3 & A4). destruct (g_at _ _ _ _ _ _ G _ _ Y3) as (_ & _ & _ & _ & A5).
        assert (x = L i /\ y = R i) by (clear - Y1 A3 A4 A5; lia). destruct H0 as [-> ->]. split.
        -- intros p k P1 P2 P3. destruct (Nat.le_gt_cases (S (R i)) p) as [Q|Q].
           ++ destruct (Y4 p k Q P2 P3). lia.
           ++ destruct (Nat.eq_dec k i) as [-> | Dk]; [lia|]. destruct (g_at _ _ _ _ _ _ G _ _ P3) as (_ & B1 & B2 & B3 & B4).
              assert (Lk : lv k) by exact B1. assert (Li : lv i) by exact A1. pose proof (laminar i k Li Lk (not_eq_sym Dk)) as LA.
              unfold lam in LA. lia.
        -- rewrite <- Y5. cbn [parity]. rewrite Y3. destruct (g_hole _ _ _ _ _ _ G i A1) as [_ ->]. cbn [some]. destruct (parity P (L i)); reflexivity.
      * exists y. split; [lia|]. split; [exact Y2|]. split; [exact Y3|]. split; [exact Y4|]. split; [exact Y5|]. intros Z. specialize (Y6 Z).
        assert (L t <> x); [|lia]. intros <-. destruct (g_at _ _ _ _ _ _ G _ _ Y3) as (_ & A1 & _). congruence.
    + destruct Hs as [S1 S2]. exists x. split; [lia|]. split; [lia|]. split; [exact E|]. split; [exact S1|]. split; [exact S2|].
      intros ->. destruct (g_at _ _ _ _ _ _ G _ _ E) as (_ & _ & _ & A & _). exact A.
  - destruct tmp as [t|]; cbn [scanned] in *.
    + destruct Hs as (y & Y1 & Y2 & Y3 & Y4 & Y5 & Y6). exists y. split; [lia|]. split; [exact Y2|]. split; [exact Y3|]. split; [exact Y4|]. split; [exact Y5|].
      intros Z. specialize (Y6 Z). assert (L t <> x); [|lia]. intros <-. destruct (g_at _ _ _ _ _ _ G _ _ Y3) as (_ & A1 & _). congruence.
    + destruct Hs as [S1 S2]. split.
      * intros p i P1 P2 P3. assert (p <> x) by (intros ->; congruence). destruct (S1 p i); [lia|exact P2|exact P3|lia].
      * rewrite <- S2. cbn [parity]. rewrite E. cbn [some]. destruct (parity P x); reflexivity.
Qed.
Lemma scan_all : forall n x tmp, x <= n -> scanned n x tmp -> scanned n 0 (scan x tmp).
Proof.
  intros n x. induction x as [|x IH]; intros tmp Hx Hs; [exact Hs|]. cbn [scan]. apply IH; [lia|]. apply scan_step; assumption.
Qed.
(** The innermost outline with one end on each side. *)
Lemma scan_spec : forall n,
  match scan n None with
  | None => (forall e, lv e -> L e < n -> R e < n) /\ parity P n = false
  | Some f => lv f /\ L f < n /\ n <= R f /\ (forall e, lv e -> L e < n -> n <= R e -> e = f \/ en e f) /\ parity P n = negb (H f)
  end.
Proof.
  intros n. pose proof (scan_all n n None (le_n n)) as K. destruct (scan n None) as [f|]; cbn [scanned] in K.
  - destruct K as (y & _ & Y2 & Y3 & Y4 & Y5 & Y6); [split; [intros p i; lia|reflexivity]|].
    destruct (g_at _ _ _ _ _ _ G _ _ Y3) as (_ & A1 & A2 & A3 & A4). assert (Lf : lv f) by exact A1.
    destruct A4 as [-> | ->]; [|lia]. split; [exact Lf|]. split; [exact Y2|].
    assert (RN : n <= R f).
    { destruct (Nat.le_gt_cases n (R f)) as [Q|Q]; [exact Q|]. destruct (Y4 (R f) f); [lia|exact Q|exact A2|lia]. }
    split; [exact RN|]. split.
    + intros e Le E1 E2. destruct (Nat.eq_dec e f) as [-> | D]; [left; reflexivity|right]. pose proof (laminar e f Le Lf D) as LA.
      destruct (Nat.le_gt_cases (L e) (L f)) as [Q|Q].
      * unfold lam in LA. unfold encl. lia.
      * destruct (Y4 (L e) e); [lia|exact E1|exact Le|lia].
    + rewrite <- Y5. cbn [parity]. rewrite Y3. destruct (g_hole _ _ _ _ _ _ G f Lf) as [-> _]. cbn [some]. destruct (parity P (L f)); reflexivity.
  - destruct K as [K1 K2]; [split; [intros p i; lia|reflexivity]|]. split; [|rewrite <- K2; reflexivity].
    intros e Le E. destruct (K1 (L e) e); [lia|exact E|exact Le|assumption].
Qed.
Lemma fresh : forall x y, lv x -> FL y <> Some N /\ x <> N.
Proof.
  intros x y Lx. split; [intros E; apply (g_bound _ _ _ _ _ _ G) in E; lia|]. destruct (live_facts x Lx). lia.
Qed.
Definition created_at (n x : nat) : option nat := if Nat.eqb x n || Nat.eqb x (S n) then Some N else P x.
Lemma create : forall n, P n = None -> P (S n) = None ->
  good (created_at n) (upd L N n) (upd R N (S n)) (upd FL N (scan n None))
       (upd H N (match scan n None with None => false | Some f => negb (H f) end)) (S N).
Proof.
  intros n Pn Pn'. pose proof (scan_spec n) as SP. set (t := scan n None) in *. set (h := match t with None => false | Some f => negb (H f) end).
  assert (NN : forall x, P x <> Some N) by (intros x E; destruct (g_at _ _ _ _ _ _ G _ _ E); lia).
  assert (LN : forall x, lv x -> x <> N) by (intros x Lx ->; exact (NN _ Lx)).
  set (P' := created_at n). set (L' := upd L N n). set (R' := upd R N (S n)).
  assert (PC : forall x, (x = n \/ x = S n) /\ P' x = Some N \/ x <> n /\ x <> S n /\ P' x = P x).
  { intros x. unfold P', created_at. destruct (Nat.eqb_spec x n); [left; auto|]. destruct (Nat.eqb_spec x (S n)); [left; auto|right; auto]. }
  assert (LNN : L' N = n) by apply upd_same. assert (RNN : R' N = S n) by apply upd_same.
  assert (LX : forall x, x <> N -> L' x = L x) by (intros; apply upd_other; assumption).
  assert (RX : forall x, x <> N -> R' x = R x) by (intros; apply upd_other; assumption).
  assert (PX : forall x y, P y = Some x -> P' y = Some x).
  { intros x y E. destruct (PC y) as [[[E0 | E0] _] | (_ & _ & E0)]; [subst y; congruence..|congruence]. }
  assert (POS : forall x, lv x -> L x <> n /\ L x <> S n /\ R x <> n /\ R x <> S n).
  { intros x Lx. destruct (live_facts x Lx) as (_ & A & B & _). repeat split; intros E; rewrite E in *; congruence. }
  assert (PNN : P' n = Some N /\ P' (S n) = Some N) by (unfold P', created_at; rewrite !Nat.eqb_refl, orb_true_r; auto).
  assert (LV : forall x, live P' L' x <-> lv x \/ x = N).
  { intros x. unfold live at 1. destruct (Nat.eq_dec x N) as [-> | D].
    - rewrite LNN. split; [auto|intros _; apply PNN].
    - rewrite LX by exact D. split.
      + intros E. left. destruct (PC (L x)) as [[_ E0] | (_ & _ & E0)]; [congruence|]. unfold live. congruence.
      + intros [A|A]; [apply PX, A|contradiction]. }
  assert (EN1 : forall e x, e <> N -> x <> N -> (encl L' R' e x <-> en e x)).
  { intros e x D1 D2. unfold encl. rewrite !LX, !RX by assumption. reflexivity. }
  assert (EN2 : forall x, lv x -> ~ encl L' R' N x).
  { intros x Lx. unfold encl. rewrite LNN, RNN, LX, RX by (apply LN, Lx). destruct (live_facts x Lx) as (_ & _ & _ & A). clear - A. lia. }
  assert (EN3 : forall e, lv e -> (encl L' R' e N <-> L e < n /\ n <= R e)).
  { intros e Le. unfold encl. rewrite LNN, RNN, LX, RX by (apply LN, Le). pose proof (POS e Le). lia. }
  assert (PA : forall x, x <> S n -> parity P' x = parity P x).
  { apply parity_pair.
    - intros x D1 D2. destruct (PC x) as [[[E|E] _] | (_ & _ & E)]; [contradiction|contradiction|rewrite E; reflexivity].
    - destruct PNN as [E1 E2]. rewrite E1, E2, Pn, Pn'. reflexivity. }
  set (FL' := upd FL N t).
  assert (FB : forall x y, FL x = Some y -> x < N /\ y < N) by apply (g_bound _ _ _ _ _ _ G).
  assert (TB : forall y, t = Some y -> y < N) by (intros y E; rewrite E in SP; apply (live_facts y), SP).
  assert (UP : forall c r, (forall y, c = Some y -> y < N) -> up lv FL c r -> up (live P' L') FL' c r).
  { intros c r B U. induction U as [|f Lf|d r Ld U IH]; [constructor|constructor; apply LV; auto|].
    specialize (B d eq_refl). apply up_dead.
    - rewrite LV. intros [A|A]; [contradiction|lia].
    - unfold FL'. rewrite upd_other by lia. apply IH. intros y E. apply (FB d y E). }
  constructor.
  - intros x i E. destruct (PC x) as [[E0 E1] | (N1 & N2 & E0)].
    + assert (i = N) by congruence. subst i. rewrite LNN, RNN. split; [lia|]. split; [apply PNN|]. split; [apply PNN|]. split; [lia|exact E0].
    + rewrite E in E0. symmetry in E0. destruct (g_at _ _ _ _ _ _ G _ _ E0) as (A1 & A2 & A3 & A4 & A5). rewrite LX, RX by lia.
      split; [lia|]. split; [apply PX, A2|]. split; [apply PX, A3|]. auto.
  - intros x y Lx Ly. apply LV in Lx, Ly. destruct Lx as [Lx | ->], Ly as [Ly | ->].
    + rewrite !LX, !RX by (apply LN; assumption). apply (g_cross _ _ _ _ _ _ G); assumption.
    + rewrite LNN, RNN, LX, RX by (apply LN; assumption). pose proof (POS x Lx). lia.
    + rewrite LNN, RNN, LX, RX by (apply LN; assumption). lia.
    + lia.
  - intros x y Lx Ly A. apply LV in Lx, Ly. destruct Lx as [Lx | ->], Ly as [Ly | ->].
    + apply (g_order _ _ _ _ _ _ G); [assumption..|]. apply EN1; [apply LN; assumption|apply LN; assumption|exact A].
    + destruct (live_facts x Lx). assumption.
    + contradiction (EN2 y Ly A).
    + unfold encl in A. lia.
  - intros x Lx. apply LV in Lx. destruct Lx as [Lx | ->].
    + pose proof (LN x Lx) as Dx. destruct (g_up _ _ _ _ _ _ G x Lx) as (r & U & Rel). exists r. split.
      * unfold FL'. rewrite upd_other by exact Dx. apply UP; [intros y E; apply (FB x y E)|exact U].
      * destruct r as [f|]; cbn [related] in *.
        -- destruct Rel as [Lf Rel]. pose proof (LN f Lf) as Df. split; [apply LV; auto|]. destruct Rel as [[E1 E2] | E]; [left|right].
           ++ split; [apply EN1; assumption|]. intros e Le A. apply LV in Le. destruct Le as [Le | ->]; [|contradiction (EN2 x Lx A)].
              apply (EN1 e x (LN e Le) Dx) in A. destruct (E2 e Le A) as [B|B]; [left; exact B|right]. apply EN1; [apply LN; exact Le|exact Df|exact B].
           ++ intros e Le. apply LV in Le. destruct Le as [Le | ->].
              ** rewrite !EN1 by (assumption || (apply LN; assumption)). apply E, Le.
              ** split; intros A; [contradiction (EN2 x Lx A)|contradiction (EN2 f Lf A)].
        -- intros e Le A. apply LV in Le. destruct Le as [Le | ->]; [|exact (EN2 x Lx A)]. apply (EN1 e x (LN e Le) Dx) in A. exact (Rel e Le A).
    + exists t. unfold FL'. rewrite upd_same. destruct t as [f|]; cbn [related].
      * destruct SP as (Lf & S1 & S2 & S3 & _). split; [constructor; apply LV; auto|]. split; [apply LV; auto|]. left.
        split; [apply EN3; auto|]. intros e Le A. apply LV in Le. destruct Le as [Le | ->]; [|unfold encl in A; lia].
        apply (EN3 e Le) in A. destruct (S3 e Le) as [B|B]; [tauto|tauto|left; exact B|right]. apply EN1; [apply LN; exact Le|apply LN; exact Lf|exact B].
      * destruct SP as [S1 _]. split; [constructor|]. intros e Le A. apply LV in Le. destruct Le as [Le | ->]; [|unfold encl in A; lia].
        apply (EN3 e Le) in A. specialize (S1 e Le). lia.
  - apply ends_upd; [apply (g_ends _ _ _ _ _ _ G)| |].
    + destruct t as [f|]; constructor. apply (g_ends _ _ _ _ _ _ G).
    + intros A. assert (B : forall c b, reach FL c b -> (forall y, c = Some y -> y < N) -> b < N).
      { intros c b HR. induction HR as [b|x b HR IH]; intros Hc; [apply Hc; reflexivity|]. apply IH. intros y E. apply (FB x y E). }
      specialize (B _ _ A TB). lia.
  - intros x y E. unfold FL', upd in E. destruct (Nat.eqb_spec x N) as [-> | D].
    + specialize (TB y E). lia.
    + specialize (FB x y E). lia.
  - intros x Lx. apply LV in Lx. destruct Lx as [Lx | ->].
    + pose proof (LN x Lx) as Dx. rewrite LX, RX by exact Dx. rewrite upd_other by exact Dx. pose proof (POS x Lx). rewrite !PA by tauto.
      apply (g_hole _ _ _ _ _ _ G x Lx).
    + rewrite LNN, RNN. rewrite upd_same. rewrite (PA n) by lia. split.
      * unfold h. destruct t as [f|]; [destruct SP as (_ & _ & _ & _ & ->)|destruct SP as [_ ->]]; reflexivity.
      * cbn [parity]. destruct PNN as [-> _]. rewrite (PA n) by lia. destruct (parity P n); reflexivity.
Qed.
End Facts.
