(** A RobustPath with one straight section, evaluated. *)

From Coq Require Import Reals Lra Lia List ZArith Bool.
From Verif Require Import Plane Curve Engine Flex Robust SpecRobust PropRobust PropRobustJoin.
Import ListNotations.
Open Scope R_scope.

(** RobustPath((0, 0), w, o, ...).segment((2, 0)) *)
Definition rod_sub (o w : R) : sub :=
  new_sub (line_to (0, 0) (2, 0)) (fun _ _ => psub (2, 0) (0, 0)) (fun _ => o) (fun _ => w) (/ 100) 1000.
Definition rod (o w : R) (en : cap) (gds wt : bool) : robust :=
  Rob 1 [en] (2, 0) [o] [w] [[rod_sub o w]] [0%Z] [0%Z] (/ 100) (/ 1000) 0 1000 gds wt None.
Definition rod_start (o w : R) (en : cap) (gds wt : bool) : robust :=
  Rob 1 [en] (0, 0) [o] [w] [[]] [0%Z] [0%Z] (/ 100) (/ 1000) 0 1000 gds wt None.
Lemma rod_init o w en gds wt :
  robust_init (0, 0) (One w) (One o) (One en) (/ 100) (/ 1000) 0 1000 gds wt (One 0%Z) (One 0%Z) = Some (rod_start o w en gds wt).
Proof. reflexivity. Qed.
Lemma rod_drawn o w en gds wt : r_segment (2, 0) RKeep RKeep false (rod_start o w en gds wt) = Some (rod o w en gds wt).
Proof. destruct gds; reflexivity. Qed.

Lemma sqrt_sq x : 0 <= x -> sqrt (x ^ 2) = x. Proof. apply sqrt_pow2. Qed.
Lemma right_x k : 0 < k -> right_of (k, 0) = (0, -1).
Proof.
  intro K. unfold right_of, len, len2. cbn [fst snd]. replace (0 ^ 2 + (- k) ^ 2) with (k ^ 2) by ring. rewrite sqrt_sq by lra.
  apply pt_eq; unfold smul; cbn [fst snd]; field; lra.
Qed.
Lemma ev_pos : 0 < INR 1000. Proof. apply lt_0_INR. apply Nat.lt_0_succ. Qed.
Lemma h_pos : 0 < / 2 / INR 1000. Proof. apply Rdiv_lt_0_compat; [lra|apply ev_pos]. Qed.
Lemma rod_centre o w u : s_centre (rod_sub o w) u = (2 * u, - o).
Proof.
  unfold s_centre, rod_sub, new_sub. cbn [s_x s_dx s_off s_h]. replace (psub (2, 0) (0, 0)) with (2, 0) by (apply pt_eq; unfold psub; cbn; ring).
  rewrite right_x by lra. apply pt_eq; unfold line_to, padd, smul; cbn [fst snd]; ring.
Qed.
Lemma rod_across o w u : 0 <= u <= 1 ->
  right_of (psub (s_centre (rod_sub o w) (Rmin 1 (u + s_h (rod_sub o w)))) (s_centre (rod_sub o w) (Rmax 0 (u - s_h (rod_sub o w))))) = (0, -1).
Proof.
  intro U. rewrite !rod_centre. change (s_h (rod_sub o w)) with (/ 2 / INR 1000). pose proof h_pos as H. set (h := / 2 / INR 1000) in *. clearbody h.
  replace (psub _ _) with (2 * (Rmin 1 (u + h) - Rmax 0 (u - h)), 0) by (apply pt_eq; unfold psub; cbn [fst snd]; ring).
  apply right_x. unfold Rmin, Rmax. destruct (Rle_dec _ _), (Rle_dec _ _); lra.
Qed.
(** The sides at [0 <= u <= 1]: arm -1 is on the left, arm 1 on the right. *)
Lemma rod_raw o w u arm : 0 <= u <= 1 -> (arm = 0 \/ arm = 1 \/ arm = -1)%Z ->
  s_raw (rod_sub o w) u arm = (2 * u, - o - / 2 * w * IZR arm).
Proof.
  intros U A. unfold s_raw. rewrite rod_across by assumption. rewrite rod_centre. cbn [rod_sub new_sub s_wid].
  destruct A as [-> | [-> | ->]]; cbn [Z.eqb Z.ltb Z.compare]; apply pt_eq; unfold padd, psub, smul; cbn [fst snd]; ring.
Qed.
Lemma rod_at o w u arm : 0 <= u <= 1 -> (arm = 0 \/ arm = 1 \/ arm = -1)%Z -> s_at (rod_sub o w) u arm = (2 * u, - o - / 2 * w * IZR arm).
Proof. intros U A. unfold s_at. rewrite rod_raw by assumption. cbn [rod_sub new_sub s_tr]. apply id_apply. Qed.
Lemma rod_regular o w u : 0 <= u <= 1 -> regular (rod_sub o w) u.
Proof.
  intros U E. pose proof (rod_across o w u U) as A. rewrite E in A.
  replace (psub _ _) with (0, 0) in A by (apply pt_eq; unfold psub; cbn [fst snd]; ring).
  unfold right_of in A. apply (f_equal snd) in A. unfold smul in A. cbn in A. lra.
Qed.
Lemma whole_small u : 0 <= u < 1 -> whole u = 0%nat.
Proof. intro U. unfold whole. unfold Int_part. rewrite <- (tech_up u 1); [reflexivity| |]; lra. Qed.
Lemma whole_1 : whole 1 = 1%nat.
Proof. unfold whole, Int_part. rewrite <- (tech_up 1 2); [reflexivity| |]; lra. Qed.

(** ** C35: a case, and what fails *)

(** The left side of a rod turned by a quarter and doubled *)
Example C35_case : forall hob eng, exists q, Forall plain_move [RRotate (PI / 2) (0, 0); RScale 2 (0, 0)] /\
  do_rcalls 2 hob eng [RRotate (PI / 2) (0, 0); RScale 2 (0, 0)] (rod 0 2 Flush false true) = Some q /\
  r_at (rod 0 2 Flush false true) (/ 2) (-1) = Some [(1, 1)] /\ r_at q (/ 2) (-1) = Some [(-2, 2)].
Proof.
  intros hob eng. eexists. split; [repeat constructor|]. split; [reflexivity|].
  assert (A : r_at (rod 0 2 Flush false true) (/ 2) (-1) = Some [(1, 1)]).
  { unfold r_at. rewrite whole_small by lra. cbn [Nat.eqb r_len rod r_paths hd length on_all map nth_error option_map all_some].
    rewrite rod_at; [|cbn; lra|auto]. do 3 f_equal; cbn; lra. }
  split; [exact A|].
  match goal with |- r_at ?q _ _ = _ => 
    destruct (C35_chain 2 hob eng [RRotate (PI / 2) (0, 0); RScale 2 (0, 0)] (rod 0 2 Flush false true) q (/ 2) (-1)) as [B _]; [repeat constructor|reflexivity|] end.
  rewrite B, A. cbn [option_map map moves_all moves]. do 2 f_equal. unfold rigid. cbn [fst snd]. rewrite cos_PI2, sin_PI2. apply pt_eq; cbn [fst snd]; ring.
Qed.
(** transform adds the displacement of an array element before it magnifies: the
    point (1, 1) of the rod goes to (4, 2), not to (3, 2). *)
Theorem C35_array_refuted : exists r q u arm, let c := RTransform None None (Some 2) false (Some (1, 0)) in
  (forall fuel hob eng, do_rcall fuel hob eng c r = Some q) /\
  r_at r u arm = Some [(1, 1)] /\ moves c (1, 1) = (3, 2) /\ r_at q u arm = Some [(4, 2)].
Proof.
  exists (rod 0 2 Flush false true), (r_transform None None (Some 2) false (Some (1, 0)) (rod 0 2 Flush false true)), (/ 2), (-1)%Z. cbv zeta.
  assert (A : r_at (rod 0 2 Flush false true) (/ 2) (-1) = Some [(1, 1)]).
  { unfold r_at. rewrite whole_small by lra. cbn [Nat.eqb r_len rod r_paths hd length on_all map nth_error option_map all_some].
    rewrite rod_at; [|cbn; lra|auto]. do 3 f_equal; cbn; lra. }
  split; [reflexivity|]. split; [exact A|]. split.
  - unfold moves, rigid, opt. cbn [fst snd]. rewrite cos_0, sin_0. apply pt_eq; cbn [fst snd]; ring.
  - destruct (transform_by None None (Some 2) false (Some (1, 0)) (rod 0 2 Flush false true)) as [B _].
    unfold r_at. rewrite (r_len_by _ _ _ B). rewrite whole_small by lra. cbn [r_len rod r_paths hd length Nat.eqb]. unfold on_all.
    rewrite (on_all_by _ (fun s => s_at s (/ 2 - INR 0) (-1)) _ (code_map None None (Some 2) false (Some (1, 0))) _ _ 0%nat B)
      by (intros; now apply moved_at).
    cbn [rod r_paths map nth_error option_map all_some]. rewrite rod_at; [|cbn; lra|auto]. cbn [map option_map]. do 2 f_equal.
    unfold code_map, rigid, padd, opt. cbn [fst snd]. rewrite cos_0, sin_0. apply pt_eq; cbn [fst snd]; cbn; lra.
Qed.
(** "If width_transform is False, the widths are not scaled" (scale, Notes): the
    list of widths is not, the path is. *)
Theorem C35_width_transform_refuted : exists r q, r_gds r = true /\ r_wt r = false /\
  (forall fuel hob eng, do_rcall fuel hob eng (RScale 2 (0, 0)) r = Some q) /\
  r_w q = [2] /\ r_width r 1 = Some [2] /\ r_width q 1 = Some [4].
Proof.
  exists (rod 0 2 Flush true false), (r_scale 2 (0, 0) (rod 0 2 Flush true false)). repeat (split; [reflexivity|]).
  assert (A : r_width (rod 0 2 Flush true false) 1 = Some [2]).
  { unfold r_width. rewrite whole_1. destruct (Req_EM_T _ _) as [_|N]; [|exfalso; apply N; cbn; lra].
    cbn [Nat.eqb r_len rod r_paths hd length on_all map nth_error option_map all_some]. do 2 f_equal.
    unfold s_width. rewrite !rod_at; [|lra|auto|lra|auto]. unfold len, len2, psub. cbn [fst snd].
    match goal with |- sqrt ?e = _ => replace e with (2 ^ 2) by field end. apply sqrt_sq. lra. }
  split; [exact A|].
  rewrite (C35_widths 2 (fun x _ => x) (fun _ a _ => a) (RScale 2 (0, 0)) (rod 0 2 Flush true false) (r_scale 2 (0, 0) (rod 0 2 Flush true false)) 1 eq_refl eq_refl), A.
  cbn [option_map map grows]. do 2 f_equal. rewrite Rabs_pos_eq; lra.
Qed.
Print Assumptions C35_array_refuted.
Print Assumptions C35_width_transform_refuted.

(** ** C68: a case, and what fails *)

Lemma rod_segment p rel r : r_n r = 1%nat -> forall path w0 o0, r_paths r = [path] -> r_w r = [w0] -> r_o r = [o0] -> 
  r_segment p RKeep RKeep rel r = let x := if rel then padd p (r_x r) else p in
   Some (r_with r x [o0] [w0] [path ++ [new_sub (line_to (r_x r) x) (fun _ _ => psub x (r_x r)) (fun _ => o0) (fun _ => w0) (r_tol r) (r_evals r)]]).
Proof.
  intros N path w0 o0 P W O. destruct r as [n en x oo ww ps la dt to pr mx ev gd wt ca]. cbn in *. subst.
  unfold r_segment, add_section. cbn. destruct gd; reflexivity.
Qed.
(** Two sections in a line, the path turned over and doubled between them: the
    directions agree, and so do centre lines and widths. *)
Example C68_case : forall hob eng, exists r s t,
  let cs := [RSegment (2, 0) RKeep RKeep false; RTransform None None (Some 2) true None; RSegment (8, 0) RKeep RKeep false] in
  Forall steady cs /\ do_rcalls 2 hob eng cs (rod_start 1 2 Flush false true) = Some r /\ r_paths r = [[s; t]] /\
  same_way (heading s 1) (heading t 0) /\ regular s 1 /\ s_at s 1 0 = (4, 2) /\ r_w r = [-4] /\ s_width s 1 = 4.
Proof.
  intros hob eng. cbv zeta. set (q := r_transform None None (Some 2) true None (rod 1 2 Flush false true)).
  assert (X : r_x q = (4, 0)) by (apply pt_eq; unfold q, r_transform; cbn; ring).
  assert (O : r_o q = [-2]) by (unfold q, r_transform; cbn; f_equal; ring).
  assert (W : r_w q = [-4]) by (unfold q, r_transform; cbn; f_equal; ring).
  set (s := s_scale 2 2 (s_scale 1 (-1) (rod_sub 1 2))).
  assert (P : r_paths q = [[s]]) by reflexivity.
  pose proof (rod_segment (8, 0) false q eq_refl [s] (-4) (-2) P W O) as D. rewrite X in D. cbn beta iota zeta in D.
  eexists. exists s. eexists. split.
  { repeat (apply Forall_cons); [split; exact I|cbn; lra|split; exact I|apply Forall_nil]. }
  split.
  { cbn [do_rcalls do_rcall]. rewrite rod_drawn. cbn [do_rcalls]. fold q. rewrite D. reflexivity. }
  split; [reflexivity|].
  assert (M : moved_by (fun p => (2 * fst p, - 2 * snd p)) (rod_sub 1 2) s).
  { unfold s. eapply moved_ext; [|eapply moved_trans; apply scale_by]. intro p. apply pt_eq; cbn; ring. }
  split; [|split; [|split; [|split]]].
  - unfold same_way, heading. cbn [new_sub s_tr s_dx s_h]. rewrite !id_apply. destruct M as [M1 M2]. rewrite !M2. rewrite M1. cbn [with_tr s_dx rod_sub new_sub s_tr s_h].
    rewrite !id_apply. unfold psub. cbn [fst snd]. split.
    + intro C. apply (f_equal fst) in C. cbn in C. lra.
    + exists 1. split; [lra|]. apply pt_eq; unfold smul; cbn [fst snd]; ring.
  - destruct M as [M1 _]. rewrite M1. apply (rod_regular 1 2 1). lra.
  - rewrite (moved_at _ _ _ M), rod_at; [|lra|auto]. apply pt_eq; cbn; lra.
  - reflexivity.
  - unfold s_width. rewrite !(moved_at _ _ _ M), !rod_at; [|lra|auto|lra|auto]. unfold len, len2, psub. cbn [fst snd].
    match goal with |- sqrt ?e = _ => replace e with (4 ^ 2) by field end. apply sqrt_sq. lra.
Qed.
(** After scaling by -1 (half a turn) the next section in the same direction
    continues on the other side of the spine. *)
Theorem C68_negative_refuted : exists r s t, (forall fuel hob eng,
    do_rcalls fuel hob eng [RSegment (2, 0) RKeep RKeep false; RScale (-1) (0, 0); RSegment (-4, 0) RKeep RKeep false] (rod_start 1 2 Flush false true) = Some r) /\
  r_paths r = [[s; t]] /\ same_way (heading s 1) (heading t 0) /\ s_at s 1 0 = (-2, 1) /\ s_at t 0 0 = (-2, -1).
Proof.
  set (q := r_scale (-1) (0, 0) (rod 1 2 Flush false true)).
  assert (X : r_x q = (-2, 0)) by (apply pt_eq; unfold q, r_scale; cbn; ring).
  assert (O : r_o q = [-1]) by (unfold q, r_scale; cbn; f_equal; ring).
  assert (W : r_w q = [-2]) by (unfold q, r_scale; cbn; f_equal; ring).
  set (s := s_translate (smul (1 - -1) (0, 0)) (s_scale (-1) (-1) (rod_sub 1 2))).
  assert (P : r_paths q = [[s]]) by reflexivity.
  pose proof (rod_segment (-4, 0) false q eq_refl [s] (-2) (-1) P W O) as D. rewrite X in D. cbn beta iota zeta in D.
  eexists. exists s. eexists. split.
  { intros. cbn [do_rcalls do_rcall]. rewrite rod_drawn. cbn [do_rcalls]. fold q. rewrite D. reflexivity. }
  split; [reflexivity|].
  assert (M : moved_by (fun p => (- fst p, - snd p)) (rod_sub 1 2) s).
  { unfold s. eapply moved_ext; [|eapply moved_trans; [apply scale_by|apply translate_by]]. intro p. apply pt_eq; unfold padd, smul; cbn; ring. }
  split; [|split].
  - unfold same_way, heading. cbn [new_sub s_tr s_dx s_h]. rewrite !id_apply. destruct M as [M1 M2]. rewrite !M2. rewrite M1. cbn [with_tr s_dx rod_sub new_sub s_tr s_h].
    rewrite !id_apply. unfold psub. cbn [fst snd]. split.
    + intro C. apply (f_equal fst) in C. cbn in C. lra.
    + exists 1. split; [lra|]. apply pt_eq; unfold smul; cbn [fst snd]; ring.
  - rewrite (moved_at _ _ _ M), rod_at; [|lra|auto]. apply pt_eq; cbn; lra.
  - unfold s_at. cbn [new_sub s_tr s_raw Z.eqb]. rewrite id_apply. unfold s_centre. cbn [new_sub s_x s_off s_dx s_h].
    unfold right_of, len, len2, psub. cbn [fst snd]. match goal with |- context [sqrt ?e] => replace e with (2 ^ 2) by ring end. rewrite sqrt_sq by lra.
    apply pt_eq; unfold line_to, padd, smul; cbn [fst snd]; field.
Qed.
Print Assumptions C68_negative_refuted.
