(** Facts about points, polygons, areas and boxes. *)

From Coq Require Import Reals Lra List ZArith Bool Lia Permutation.
From Verif Require Import Plane SpecPlane.
Import ListNotations.
Open Scope R_scope.

Lemma pt_eq : forall p q : pt, fst p = fst q -> snd p = snd q -> p = q.
Proof. intros [a b] [c d]; cbn; congruence. Qed.

Ltac pts := unfold rotate_pt, scale_pt, mirror_pt, rot_cs, dist2, cross, dot, smul, pmul, psub, padd in *; cbn [fst snd] in *.

Lemma cs1 a : cos a * cos a + sin a * sin a = 1.
Proof. pose proof (sin2_cos2 a) as H; unfold Rsqr in H; lra. Qed.

(** ** Area *)

Lemma open_cross_app l a : open_cross (l ++ [a]) = match rev l with [] => 0 | z :: _ => open_cross l + cross z a end.
Proof.
  induction l as [|x l IH]; [reflexivity|].
  destruct l as [|y l].
  - cbn. lra.
  - change ((x :: y :: l) ++ [a]) with (x :: ((y :: l) ++ [a])).
    change (open_cross (x :: (y :: l) ++ [a])) with (cross x y + open_cross ((y :: l) ++ [a])).
    rewrite IH. change (open_cross (x :: y :: l)) with (cross x y + open_cross (y :: l)).
    cbn [rev]. destruct (rev l) as [|z r] eqn:E; cbn [app].
    + lra.
    + lra.
Qed.

Lemma fan_shoelace_aux p0 a l :
  fan p0 (a :: l) = open_cross (a :: l ++ [p0]) + cross p0 a.
Proof.
  revert a; induction l as [|b l IH]; intro a.
  - cbn. pts. lra.
  - change (fan p0 (a :: b :: l)) with
      (((fst p0 - fst b) * (snd a - snd p0) - (snd p0 - snd b) * (fst a - fst p0)) + fan p0 (b :: l)).
    rewrite IH. change (open_cross (a :: (b :: l) ++ [p0])) with (cross a b + open_cross (b :: l ++ [p0])).
    pts. lra.
Qed.

Lemma fan_shoelace p0 l : fan p0 l = shoelace (p0 :: l).
Proof.
  destruct l as [|a l]; [cbn; pts; lra|].
  rewrite fan_shoelace_aux. unfold shoelace.
  change (open_cross ((p0 :: a :: l) ++ [p0])) with (cross p0 a + open_cross (a :: l ++ [p0])). lra.
Qed.

Lemma area_shoelace pts : poly_area pts = / 2 * Rabs (shoelace pts).
Proof.
  destruct pts as [|p l]; cbn [poly_area].
  - cbn. rewrite Rabs_R0; lra.
  - now rewrite fan_shoelace.
Qed.

Lemma shoelace_next p l : shoelace (l ++ [p]) = shoelace (p :: l).
Proof.
  destruct l as [|a l]; [reflexivity|].
  unfold shoelace. cbn [app].
  change (a :: (l ++ [p]) ++ [a]) with ((a :: l ++ [p]) ++ [a]).
  rewrite open_cross_app. change (a :: l ++ [p]) with ((a :: l) ++ [p]) at 1.
  rewrite rev_app_distr. cbn [rev app].
  change (open_cross (p :: a :: l ++ [p])) with (cross p a + open_cross (a :: l ++ [p])). lra.
Qed.

Lemma shoelace_turn l1 l2 : shoelace (l1 ++ l2) = shoelace (l2 ++ l1).
Proof.
  revert l2; induction l1 as [|a l1 IH]; intro l2; [now rewrite app_nil_r|].
  change ((a :: l1) ++ l2) with (a :: (l1 ++ l2)).
  rewrite <- shoelace_next, <- app_assoc, IH. now rewrite <- app_assoc.
Qed.

Lemma open_cross_rev l : open_cross (rev l) = - open_cross l.
Proof.
  induction l as [|a l IH]; [cbn; lra|].
  cbn [rev]. rewrite open_cross_app, rev_involutive.
  destruct l as [|b l]; [cbn; lra|].
  rewrite IH. change (open_cross (a :: b :: l)) with (cross a b + open_cross (b :: l)). pts; lra.
Qed.

Lemma shoelace_rev l : shoelace (rev l) = - shoelace l.
Proof.
  destruct l as [|p l]; [cbn; lra|].
  cbn [rev]. rewrite shoelace_next.
  unfold shoelace. rewrite <- open_cross_rev. f_equal.
  cbn [app rev]. rewrite rev_app_distr. reflexivity.
Qed.

(** Affine maps scale cross products of edges by their determinant. *)
Definition affine_det (k : R) (f : pt -> pt) :=
  forall p a b, cross (psub (f a) (f p)) (psub (f b) (f p)) = k * cross (psub a p) (psub b p).

Lemma fan_affine k f p0 l : affine_det k f -> fan (f p0) (map f l) = k * fan p0 l.
Proof.
  intro H; induction l as [|a l IH]; [cbn; lra|].
  destruct l as [|b l]; [cbn; lra|].
  change (map f (a :: b :: l)) with (f a :: f b :: map f l).
  change (fan (f p0) (f a :: f b :: map f l)) with
    (((fst (f p0) - fst (f b)) * (snd (f a) - snd (f p0)) - (snd (f p0) - snd (f b)) * (fst (f a) - fst (f p0)))
     + fan (f p0) (map f (b :: l))).
  rewrite IH.
  change (fan p0 (a :: b :: l)) with
    (((fst p0 - fst b) * (snd a - snd p0) - (snd p0 - snd b) * (fst a - fst p0)) + fan p0 (b :: l)).
  pose proof (H p0 a b) as E. unfold cross, psub in E; cbn [fst snd] in E. lra.
Qed.

Lemma area_affine k f l : affine_det k f -> poly_area (map f l) = Rabs k * poly_area l.
Proof.
  intro H. destruct l as [|p l]; cbn [map poly_area]; [lra|].
  rewrite (fan_affine k f) by exact H. rewrite Rabs_mult. lra.
Qed.

Lemma ps_area_map k f s : affine_det k f -> ps_area (map_pts f s) = Rabs k * ps_area s.
Proof.
  intro H; unfold ps_area, map_pts. induction s as [|g s IH]; cbn [map fold_right]; [lra|].
  rewrite IH. cbn [on_pts g_pts]. rewrite (area_affine k f) by exact H. lra.
Qed.

Lemma det_rotate a c : affine_det 1 (rotate_pt a c).
Proof.
  intros p x y; pts. pose proof (cs1 a) as H.
  transitivity ((cos a * cos a + sin a * sin a) *
    ((fst x - fst p) * (snd y - snd p) - (fst y - fst p) * (snd x - snd p))); [ring|rewrite H; ring].
Qed.
Lemma det_scale sx sy c : affine_det (sx * match sy with Some s => s | None => sx end) (scale_pt sx sy c).
Proof. intros p x y; pts. ring. Qed.
Lemma det_translate v : affine_det 1 (fun p => padd p v).
Proof. intros p x y; pts. ring. Qed.

Lemma dot_pos p q : p <> q -> 0 < dot (psub q p) (psub q p).
Proof.
  intro H; pts.
  destruct (Req_dec (fst q) (fst p)) as [E|E].
  - destruct (Req_dec (snd q) (snd p)) as [F|F].
    + exfalso; apply H; apply pt_eq; auto.
    + rewrite E. assert (0 < (snd q - snd p) * (snd q - snd p)) by (apply Rsqr_pos_lt; lra). nra.
  - assert (0 < (fst q - fst p) * (fst q - fst p)) by (apply Rsqr_pos_lt; lra).
    assert (0 <= (snd q - snd p) * (snd q - snd p)) by apply Rle_0_sqr. lra.
Qed.

Lemma det_mirror p1 p2 : p1 <> p2 -> affine_det (-1) (mirror_pt p1 p2).
Proof.
  intros H p x y. pose proof (dot_pos _ _ H) as D. pts.
  field. lra.
Qed.

(** ** Dictionaries of areas *)

Lemma spec_eqb_eq a b : spec_eqb a b = true <-> a = b.
Proof.
  unfold spec_eqb. rewrite andb_true_iff, !Z.eqb_eq. destruct a, b; cbn. split; [intros [-> ->]|intros [= -> ->]]; auto.
Qed.
Lemma spec_eqb_refl a : spec_eqb a a = true.
Proof. now apply spec_eqb_eq. Qed.

Definition acc_total (d : list (spec * R)) : R := fold_right Rplus 0 (map snd d).
Fixpoint acc_get (d : list (spec * R)) (k : spec) : R :=
  match d with [] => 0 | (k', v) :: r => if spec_eqb k' k then v else acc_get r k end.

Lemma acc_add_total d k v : acc_total (acc_add d k v) = acc_total d + v.
Proof.
  induction d as [|[k' w] d IH]; cbn [acc_add].
  - unfold acc_total; cbn; lra.
  - destruct (spec_eqb k' k); unfold acc_total in *; cbn [map fold_right snd] in *; [lra|rewrite IH; lra].
Qed.
Lemma acc_add_get d k v k2 : acc_get (acc_add d k v) k2 = acc_get d k2 + if spec_eqb k k2 then v else 0.
Proof.
  induction d as [|[k' w] d IH]; cbn [acc_add acc_get].
  - destruct (spec_eqb k k2); lra.
  - destruct (spec_eqb k' k) eqn:E; cbn [acc_get].
    + apply spec_eqb_eq in E; subst. destruct (spec_eqb k k2); lra.
    + destruct (spec_eqb k' k2) eqn:F; [|exact IH].
      apply spec_eqb_eq in F; subst. destruct (spec_eqb k k2) eqn:G; [|lra].
      apply spec_eqb_eq in G; subst. rewrite spec_eqb_refl in E; discriminate.
Qed.
Lemma acc_add_keys d k v x : In x (map fst (acc_add d k v)) <-> In x (map fst d) \/ x = k.
Proof.
  induction d as [|[k' w] d IH]; cbn [acc_add map fst In].
  - intuition auto.
  - destruct (spec_eqb k' k) eqn:E; cbn [map fst In].
    + apply spec_eqb_eq in E; subst. intuition auto.
    + rewrite IH. tauto.
Qed.
Lemma acc_add_nodup d k v : NoDup (map fst d) -> NoDup (map fst (acc_add d k v)).
Proof.
  induction d as [|[k' w] d IH]; cbn [acc_add map fst]; intro H.
  - constructor; auto.
  - destruct (spec_eqb k' k) eqn:E; cbn [map fst]; [exact H|].
    inversion H; subst. constructor; auto. rewrite acc_add_keys. intros [?|?]; [auto|subst].
    rewrite spec_eqb_refl in E; discriminate.
Qed.

(** ** Boxes *)

Lemma rmin_spec x l : (forall y, In y (x :: l) -> rmin x l <= y) /\ In (rmin x l) (x :: l).
Proof.
  revert x; induction l as [|z l IH]; intro x; cbn [rmin].
  - split; [|left; auto]. intros y [->|[]]; lra.
  - destruct (IH z) as [A B]. split.
    + intros y [->|Hy]; [apply Rmin_l|]. eapply Rle_trans; [apply Rmin_r|]. auto.
    + unfold Rmin; destruct (Rle_dec x (rmin z l)); [now left|right; auto].
Qed.
Lemma rmax_spec x l : (forall y, In y (x :: l) -> y <= rmax x l) /\ In (rmax x l) (x :: l).
Proof.
  revert x; induction l as [|z l IH]; intro x; cbn [rmax].
  - split; [|left; auto]. intros y [->|[]]; lra.
  - destruct (IH z) as [A B]. split.
    + intros y [->|Hy]; [apply Rmax_l|]. eapply Rle_trans; [|apply Rmax_r]. auto.
    + unfold Rmax; destruct (Rle_dec x (rmax z l)); [right; auto|now left].
Qed.

Lemma box_of_right pts : right_box (box_of pts) pts.
Proof.
  destruct pts as [|p l]; cbn [box_of right_box]; [auto|].
  destruct (rmin_spec (fst p) (map fst l)) as [A1 A2].
  destruct (rmin_spec (snd p) (map snd l)) as [B1 B2].
  destruct (rmax_spec (fst p) (map fst l)) as [C1 C2].
  destruct (rmax_spec (snd p) (map snd l)) as [D1 D2].
  change (fst p :: map fst l) with (map fst (p :: l)) in *.
  change (snd p :: map snd l) with (map snd (p :: l)) in *.
  unfold is_box; cbn [fst snd]. repeat split.
  - apply A1, in_map; auto.
  - apply C1, in_map; auto.
  - apply B1, in_map; auto.
  - apply D1, in_map; auto.
  - apply in_map_iff in A2 as (q & E & H); eauto.
  - apply in_map_iff in B2 as (q & E & H); eauto.
  - apply in_map_iff in C2 as (q & E & H); eauto.
  - apply in_map_iff in D2 as (q & E & H); eauto.
Qed.

(** A right box is unique. *)
Lemma is_box_unique b b' pts : is_box b pts -> is_box b' pts -> b = b'.
Proof.
  intros (I & (p1 & P1 & E1) & (p2 & P2 & E2) & (p3 & P3 & E3) & (p4 & P4 & E4))
         (I' & (q1 & Q1 & F1) & (q2 & Q2 & F2) & (q3 & Q3 & F3) & (q4 & Q4 & F4)).
  destruct b as [[a1 a2] [a3 a4]], b' as [[c1 c2] [c3 c4]]; cbn [fst snd] in *.
  pose proof (I _ Q1); pose proof (I _ Q2); pose proof (I _ Q3); pose proof (I _ Q4).
  pose proof (I' _ P1); pose proof (I' _ P2); pose proof (I' _ P3); pose proof (I' _ P4).
  f_equal; f_equal; lra.
Qed.
Lemma right_box_unique b b' pts : right_box b pts -> right_box b' pts -> b = b'.
Proof.
  destruct b as [b|], b' as [b'|]; cbn; intros H H'; auto.
  - f_equal; eapply is_box_unique; eauto.
  - subst. destruct H as (_ & (p & [] & _) & _).
  - subst. destruct H' as (_ & (p & [] & _) & _).
Qed.
Lemma is_box_perm b pts pts' : (forall p, In p pts <-> In p pts') -> is_box b pts -> is_box b pts'.
Proof.
  intros H (I & (p1 & P1 & E1) & (p2 & P2 & E2) & (p3 & P3 & E3) & (p4 & P4 & E4)).
  split; [intros p Hp; apply I, H; auto|].
  repeat split; [exists p1|exists p2|exists p3|exists p4]; split; auto; now apply H.
Qed.
