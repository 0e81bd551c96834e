(** Facts about placements and hierarchies. *)

From Coq Require Import Reals Lra List ZArith Bool Lia Permutation.
From Verif Require Import Graph SpecGraph Plane SpecPlane PlaneProofs Hier SpecHier.
Import ListNotations.
Open Scope R_scope.

Ltac pl := unfold do_org, do_rot, do_mag, do_refl, similar, turn, flip in *; pts.

Lemma flat_map_singleton_map {X Y} (f : X -> Y) l : flat_map (fun x => [f x]) l = map f l.
Proof. induction l as [|x l IH]; [reflexivity|]. simpl. now rewrite IH. Qed.

(** ** Placements *)

Lemma ref_map_similar pl p : p_arr pl = None \/ True ->
  ref_map pl p = similar (origin pl) (angle pl) (factor pl) (p_refl pl) p.
Proof.
  intros _. destruct pl as [o a m b x]; unfold ref_map, origin, angle, factor; cbn [p_org p_rot p_mag p_refl].
  destruct o as [o|], a as [a|], m as [m|], b; pl; apply pt_eq; cbn [fst snd];
    rewrite ?cos_0, ?sin_0; ring.
Qed.

Lemma arr_map_similar pl i j sp p :
  arr_map pl (fst sp * INR i, snd sp * INR j) p = element pl i j sp p.
Proof.
  destruct pl as [o a m b x]; unfold arr_map, element, origin, angle, factor; cbn [p_org p_rot p_mag p_refl].
  destruct o as [o|], a as [a|], m as [m|], b; pl; apply pt_eq; cbn [fst snd];
    rewrite ?cos_0, ?sin_0; ring.
Qed.

Lemma similar_similarity o t k b : similarity k (similar o t k b).
Proof.
  intros p q. pl. pose proof (cs1 t) as H.
  destruct b; cbn [fst snd];
  (transitivity ((cos t * cos t + sin t * sin t) * (k * k) *
       ((fst p - fst q) * (fst p - fst q) + (snd p - snd q) * (snd p - snd q))); [ring|rewrite H; ring]).
Qed.

Lemma similar_det o t k (b : bool) : affine_det (if b then - (k * k) else k * k) (similar o t k b).
Proof.
  intros p x y. pl. pose proof (cs1 t) as H.
  destruct b; cbn [fst snd].
  - transitivity (- (cos t * cos t + sin t * sin t) * (k * k) *
    ((fst x - fst p) * (snd y - snd p) - (fst y - fst p) * (snd x - snd p))); [ring|rewrite H; ring].
  - transitivity ((cos t * cos t + sin t * sin t) * (k * k) *
    ((fst x - fst p) * (snd y - snd p) - (fst y - fst p) * (snd x - snd p))); [ring|rewrite H; ring].
Qed.

Lemma element_det pl i j sp : affine_det (if p_refl pl then - (factor pl * factor pl) else factor pl * factor pl) (element pl i j sp).
Proof. apply similar_det. Qed.

Lemma similar_area o t k b l : poly_area (map (similar o t k b) l) = k * k * poly_area l.
Proof.
  rewrite (area_affine _ _ l (similar_det o t k b)). f_equal.
  assert (0 <= k * k) by apply Rle_0_sqr.
  destruct b; [rewrite Rabs_Ropp|]; rewrite Rabs_right; lra.
Qed.

Lemma grid_in n m sp q : In q (grid n m sp) <->
  exists i j, (i < n)%nat /\ (j < m)%nat /\ q = (fst sp * INR i, snd sp * INR j).
Proof.
  unfold grid. rewrite in_flat_map. split.
  - intros (i & Hi & Hq). apply in_map_iff in Hq as (j & <- & Hj).
    apply in_seq in Hi, Hj. exists i, j; repeat split; lia.
  - intros (i & j & Hi & Hj & ->). exists i; split; [apply in_seq; lia|].
    apply in_map_iff. exists j; split; auto. apply in_seq; lia.
Qed.
Lemma flat_map_const {X Y} (f : X -> list Y) k l : (forall x, length (f x) = k) -> length (flat_map f l) = (length l * k)%nat.
Proof.
  intro H; induction l as [|x l IH]; [reflexivity|]. simpl. now rewrite app_length, H, IH.
Qed.
Lemma grid_length n m sp : length (grid n m sp) = (n * m)%nat.
Proof.
  unfold grid. rewrite (flat_map_const _ m); [now rewrite seq_length|].
  intros i. now rewrite map_length, seq_length.
Qed.

(** The maps of a placement as a list. *)
Definition maps (pl : place) : list (pt -> pt) :=
  match p_arr pl with
  | None => [ref_map pl]
  | Some (n, m, sp) => map (arr_map pl) (grid n m sp)
  end.
Definition code_map (x : inst) : pt -> pt :=
  let (pl, ij) := x in
  match p_arr pl with
  | None => ref_map pl
  | Some (_, _, sp) => arr_map pl (fst sp * INR (fst ij), snd sp * INR (snd ij))
  end.
Lemma code_map_ok x p : code_map x p = inst_map x p.
Proof.
  destruct x as [pl [i j]]; unfold code_map, inst_map. destruct (p_arr pl) as [[[n m] sp]|]; cbn [fst snd].
  - apply arr_map_similar.
  - apply ref_map_similar; now right.
Qed.
Lemma insts_place pl x : In x (insts pl) -> fst x = pl.
Proof.
  unfold insts. destruct (p_arr pl) as [[[n m] sp]|].
  - rewrite in_flat_map. intros (i & _ & H). apply in_map_iff in H as (j & <- & _); auto.
  - intros [<-|[]]; auto.
Qed.
(** Anything done for each element of the grid. *)
Lemma grid_insts {Y} (F : pt -> list Y) pl n m sp : p_arr pl = Some (n, m, sp) ->
  flat_map F (grid n m sp) =
  flat_map (fun x => F (fst sp * INR (fst (snd x)), snd sp * INR (snd (snd x)))) (insts pl).
Proof.
  intro E; unfold grid, insts. rewrite E.
  induction (seq 0 n) as [|i l IH]; [reflexivity|].
  simpl. rewrite !flat_map_app. f_equal; [|exact IH].
  clear IH. induction (seq 0 m) as [|j k IH']; [reflexivity|]. simpl. now rewrite IH'.
Qed.
Lemma maps_insts pl : maps pl = map code_map (insts pl).
Proof.
  unfold maps. destruct (p_arr pl) as [[[n m] sp]|] eqn:E.
  - rewrite <- flat_map_singleton_map. rewrite (grid_insts _ pl n m sp E).
    rewrite <- (flat_map_singleton_map code_map).
    assert (H : forall x, In x (insts pl) -> fst x = pl) by apply insts_place.
    induction (insts pl) as [|[q [i j]] l IH]; [reflexivity|]. simpl. rewrite IH by (intros; apply H; now right).
    f_equal. assert (q = pl) by (apply (H (q, (i, j))); now left). subst q. now rewrite E.
  - unfold insts; rewrite E. cbn. now rewrite E.
Qed.
Lemma place_polys_insts pl l : place_polys pl l = flat_map (fun x => map (map (code_map x)) l) (insts pl).
Proof.
  transitivity (flat_map (fun f => map (map f) l) (maps pl)).
  - unfold place_polys, maps. destruct (p_arr pl) as [[[n m] sp]|].
    + induction (grid n m sp) as [|x g IH]; [auto|]. simpl. now rewrite IH.
    + simpl. now rewrite app_nil_r.
  - rewrite maps_insts. induction (insts pl) as [|x g IH]; [auto|]. simpl. now rewrite IH.
Qed.
Lemma insts_length pl : length (insts pl) = match p_arr pl with None => 1%nat | Some (n, m, _) => (n * m)%nat end.
Proof.
  unfold insts. destruct (p_arr pl) as [[[n m] sp]|]; [|reflexivity].
  rewrite (flat_map_const _ m); [now rewrite seq_length|]. intros i. now rewrite map_length, seq_length.
Qed.
Lemma inst_similar x : exists o, forall p,
  inst_map x p = similar o (angle (fst x)) (factor (fst x)) (p_refl (fst x)) p.
Proof.
  destruct x as [pl [i j]]; cbn [inst_map fst snd]. destruct (p_arr pl) as [[[n m] sp]|]; eexists; intro; reflexivity.
Qed.

(** ** Recursion with fuel *)

Section Fuel.
Context {K X : Type}.
Implicit Type F : (K -> option X) -> K -> option X.

Definition le_opt (f g : K -> option X) := forall k x, f k = Some x -> g k = Some x.
Definition monotone F := forall f g, le_opt f g -> le_opt (F f) (F g).

Lemma iter_mono F (M : monotone F) n m : (n <= m)%nat -> le_opt (iter_fuel F n) (iter_fuel F m).
Proof.
  revert m; induction n as [|n IH]; intros m L k x H; [discriminate|].
  destruct m as [|m]; [lia|]. cbn in *. eapply M; [|exact H]. apply IH; lia.
Qed.
Lemma iter_det F (M : monotone F) n m k x y :
  iter_fuel F n k = Some x -> iter_fuel F m k = Some y -> x = y.
Proof.
  intros A B. destruct (Nat.le_ge_cases n m) as [L|L].
  - rewrite (iter_mono F M n m L _ _ A) in B. congruence.
  - rewrite (iter_mono F M m n L _ _ B) in A. congruence.
Qed.
End Fuel.

(** ** collect *)

Lemma collect_app {X Y} (f : X -> option (list Y)) a b :
  collect f (a ++ b) = match collect f a, collect f b with Some x, Some y => Some (x ++ y) | _, _ => None end.
Proof.
  induction a as [|x a IH]; cbn.
  - destruct (collect f b); auto.
  - rewrite IH. destruct (f x), (collect f a), (collect f b); auto. now rewrite app_assoc.
Qed.
Lemma collect_in {X Y} (f : X -> option (list Y)) l out : collect f l = Some out ->
  forall y, In y out <-> exists x ys, In x l /\ f x = Some ys /\ In y ys.
Proof.
  revert out; induction l as [|x l IH]; cbn; intros out H y.
  - injection H as <-. split; [intros []|intros (x & ys & [] & _)].
  - destruct (f x) as [a|] eqn:E; [|discriminate]. destruct (collect f l) as [b|] eqn:G; [|discriminate].
    injection H as <-. rewrite in_app_iff, (IH b eq_refl). split.
    + intros [H|(z & ys & A & B & C)]; [exists x, a|exists z, ys]; auto.
    + intros (z & ys & [->|A] & B & C); [left; congruence|right; eauto].
Qed.
Lemma collect_mono {X Y} (f g : X -> option (list Y)) l out :
  (forall x ys, f x = Some ys -> g x = Some ys) -> collect f l = Some out -> collect g l = Some out.
Proof.
  intros M; revert out; induction l as [|x l IH]; cbn; intros out H; [auto|].
  destruct (f x) as [a|] eqn:E; [|discriminate]. destruct (collect f l) as [b|] eqn:G; [|discriminate].
  rewrite (M _ _ E), (IH _ eq_refl); auto.
Qed.
(** Two collections in step. *)
Lemma collect_rel {X Y Z} (R : list Y -> list Z -> Prop) (f : X -> option (list Y)) (g : X -> option (list Z)) l a b :
  R [] [] -> (forall a b a' b', R a b -> R a' b' -> R (a ++ a') (b ++ b')) ->
  (forall x a b, In x l -> f x = Some a -> g x = Some b -> R a b) ->
  collect f l = Some a -> collect g l = Some b -> R a b.
Proof.
  intros R0 R1; revert a b; induction l as [|x l IH]; cbn; intros a b S A B.
  - congruence.
  - destruct (f x) as [a1|] eqn:E; [|discriminate]. destruct (collect f l) as [a2|] eqn:G; [|discriminate].
    destruct (g x) as [b1|] eqn:E'; [|discriminate]. destruct (collect g l) as [b2|] eqn:G'; [|discriminate].
    injection A as <-; injection B as <-. apply R1; [eapply S; eauto|apply IH; auto]. intros; eapply S; eauto.
Qed.
Lemma collect_total {X Y} (f : X -> option (list Y)) l :
  (forall x, In x l -> f x <> None) -> collect f l <> None.
Proof.
  induction l as [|x l IH]; cbn; intro H; [discriminate|].
  destruct (f x) eqn:E; [|exfalso; eapply H; eauto].
  destruct (collect f l) eqn:G; [discriminate|]. exfalso; apply IH; auto.
Qed.
Lemma collect_each {X Y} (f : X -> option (list Y)) l out x : collect f l = Some out -> In x l -> exists ys, f x = Some ys.
Proof.
  revert out; induction l as [|y l IH]; cbn; intros out H; [tauto|].
  destruct (f y) as [a|] eqn:E; [|discriminate]. destruct (collect f l) as [b|] eqn:G; [|discriminate].
  intros [->|I]; [eauto|eapply IH; eauto].
Qed.
