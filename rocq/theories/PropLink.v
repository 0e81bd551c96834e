(** C83: polygons with holes become single outlines that stand for them. *)

From Coq Require Import Reals Lra Lia List ZArith Bool Permutation Sorted.
From Verif Require Engine.
From Verif Require Import SpecEngine LinkHoles SpecLink PropEngine.
Import ListNotations.
Open Scope Z_scope.

(** ** Outlines *)

Lemma links_mid : forall u p q w, links p (u ++ q :: w) = links p (u ++ [q]) ++ links q w.
Proof.
  intros u p q w. change (q :: w) with ([q] ++ w). rewrite app_assoc, links_app, last_last. reflexivity.
Qed.
Lemma edges_rotate : forall l1 l2 : zpath, Permutation (edges (l1 ++ l2)) (edges (l2 ++ l1)).
Proof.
  intros [|p u] [|q v]; rewrite ?app_nil_r; cbn [app]; try reflexivity.
  rewrite !links_edges, <- !app_assoc. cbn [app]. rewrite (links_mid u p q (v ++ [p])), (links_mid v q p (u ++ [q])). apply Permutation_app_comm.
Qed.
Lemma edges_split : forall (u v : zpath) b, v = [] \/ True ->
  Permutation (edges (u ++ b :: v)) ((last (b :: v ++ u) b, b) :: links b (v ++ u)).
Proof.
  intros u v b _. rewrite edges_rotate. cbn [app]. rewrite links_edges, links_app. cbn [links].
  replace (last (b :: v ++ u) b) with (last (v ++ u) b) by (destruct (v ++ u); reflexivity).
  apply Permutation_sym, Permutation_cons_append.
Qed.
Lemma last_default : forall (A : Type) (l : list A) d d', l <> [] -> last l d = last l d'.
Proof. induction l as [|x [|y l] IH]; intros d d' H; [now destruct H|reflexivity|]. cbn [last] in *. apply IH. discriminate. Qed.

(** ** The leftmost vertex *)
Lemma min_from_spec : forall l best u w p, let k := min_from best (length u) (length u + 1 + length w) l in
  (forall q, In q u -> fst best < fst q) -> (forall q, In q w -> fst best <= fst q) ->
  p = nth k (u ++ best :: w ++ l) (0, 0) ->
  exists a b, u ++ best :: w ++ l = a ++ p :: b /\ length a = k /\
              (forall q, In q a -> fst p < fst q) /\ (forall q, In q b -> fst p <= fst q).
Proof.
  induction l as [|x l IH]; intros best u w p k U W E; unfold k in *; clear k; cbn [min_from] in *.
  - rewrite app_nil_r in *. rewrite app_nth2 in E by lia. rewrite Nat.sub_diag in E. cbn in E. subst p.
    exists u, w. repeat split; assumption.
  - destruct (Z.ltb_spec (fst x) (fst best)) as [L|L].
    + specialize (IH x (u ++ best :: w) []).
      replace ((u ++ best :: w) ++ x :: [] ++ l) with (u ++ best :: w ++ x :: l) in IH
        by (rewrite <- app_assoc; reflexivity).
      replace (length (u ++ best :: w)) with (length u + 1 + length w)%nat in IH
        by (rewrite app_length; cbn; lia).
      replace (length u + 1 + length w + 1 + length (@nil zpt))%nat with (S (length u + 1 + length w)) in IH by (cbn; lia).
      apply IH; [|intros q []|exact E].
      intros q Hq. apply in_app_iff in Hq. destruct Hq as [Hq|[<-|Hq]]; [specialize (U q Hq); lia|lia|specialize (W q Hq); lia].
    + specialize (IH best u (w ++ [x])).
      replace (u ++ best :: (w ++ [x]) ++ l) with (u ++ best :: w ++ x :: l) in IH
        by (rewrite <- app_assoc; reflexivity).
      replace (length u + 1 + length (w ++ [x]))%nat with (S (length u + 1 + length w)) in IH by (rewrite app_length; cbn; lia).
      apply IH; [exact U| |exact E]. intros q Hq. apply in_app_iff in Hq. destruct Hq as [Hq|[<-|[]]]; [now apply W|lia].
Qed.
Lemma min_element_spec : forall h k, min_element h = Some k ->
  exists u v, h = u ++ nth k h (0, 0) :: v /\ length u = k /\
    (forall q, In q u -> fst (nth k h (0, 0)) < fst q) /\ (forall q, In q v -> fst (nth k h (0, 0)) <= fst q).
Proof.
  intros [|p h] k E; [discriminate|]. injection E as E.
  destruct (min_from_spec h p [] [] (nth k (p :: h) (0, 0))) as (a & b & H1 & H2 & H3 & H4);
    [intros q []|intros q []|cbn; now rewrite E|].
  cbn [app length] in *. replace (0 + 1 + 0)%nat with 1%nat in H2 by reflexivity. rewrite E in H2.
  exists a, b. repeat split; assumption.
Qed.

(** ** The search *)
Lemma meets_spec : forall p a b, meets p a b = true <->
  (snd b <= snd p < snd a \/ snd a < snd p <= snd b).
Proof.
  intros. unfold meets. rewrite orb_true_iff, !andb_true_iff, !Z.leb_le, !Z.ltb_lt. tauto.
Qed.
(** The branch for horizontal edges is never taken. *)
Lemma dead_branch : forall p a b, meets p a b = true -> (snd b =? snd p) && (snd a =? snd p) = false.
Proof.
  intros p a b H. apply meets_spec in H. apply andb_false_iff. rewrite !Z.eqb_neq. lia.
Qed.
Lemma search_step : forall p i a b r found, search p i a (b :: r) found =
  if meets p a b && ((match found with None => true | Some (_, x0) => x0 <? edge_x p a b end) && (edge_x p a b <=? fst p))
  then search p (S i) b r (Some (i, edge_x p a b)) else search p (S i) b r found.
Proof.
  intros. cbn [search]. destruct (meets p a b) eqn:M; [|reflexivity].
  rewrite (dead_branch _ _ _ M). cbn [andb]. destruct (_ && _); reflexivity.
Qed.
Lemma search_spec : forall l p i a found j x, search p i a l found = Some (j, x) ->
  (found = Some (j, x) \/
   exists l1 b l2, l = l1 ++ b :: l2 /\ j = (i + length l1)%nat /\ meets p (last l1 a) b = true /\
                   x = edge_x p (last l1 a) b /\ x <= fst p) /\
  (forall e, In e (links a l) -> meets p (fst e) (snd e) = true ->
             edge_x p (fst e) (snd e) <= x \/ fst p < edge_x p (fst e) (snd e)) /\
  (forall j' x', found = Some (j', x') -> x' <= x).
Proof.
  induction l as [|b l IH]; intros p i a found j x H.
  - cbn in H. split; [now left|]. split; [intros e []|]. intros j' x' E. rewrite E in H. injection H as _ ->. lia.
  - rewrite search_step in H.
    destruct (meets p a b && _) eqn:C; apply IH in H; destruct H as (H1 & H2 & H3).
    + rewrite !andb_true_iff, Z.leb_le in C. destruct C as (M & C & C').
      specialize (H3 _ _ eq_refl). split; [|split].
      * right. destruct H1 as [H1|(l1 & b1 & l2 & -> & -> & M1 & -> & L1)].
        -- injection H1 as <- <-. exists [], b, l. cbn [app length last]. rewrite Nat.add_0_r. auto.
        -- exists (b :: l1), b1, l2. cbn [app length].
           rewrite last_cons.
           repeat split; try assumption. lia.
      * cbn [links]. intros e [<-|I] Me; [cbn [fst snd] in *; lia|now apply H2].
      * intros j' x' ->. apply Z.ltb_lt in C. lia.
    + split; [|split].
      * destruct H1 as [H1|(l1 & b1 & l2 & -> & -> & M1 & -> & L1)]; [now left|right].
        exists (b :: l1), b1, l2. cbn [app length].
        rewrite last_cons.
        repeat split; try assumption. lia.
      * cbn [links]. intros e [<-|I] Me; [cbn [fst snd] in *|now apply H2].
        rewrite Me in C. cbn [andb] in C. apply andb_false_iff in C. destruct C as [C|C].
        -- destruct found as [[j' x']|]; [|discriminate]. apply Z.ltb_ge in C. specialize (H3 _ _ eq_refl). lia.
        -- apply Z.leb_gt in C. now right.
      * exact H3.
Qed.
Lemma search_found : forall l p i a found, found <> None -> search p i a l found <> None.
Proof.
  induction l as [|b l IH]; intros p i a found H; [exact H|]. rewrite search_step.
  destruct (_ && _); apply IH; [discriminate|exact H].
Qed.
Lemma search_none : forall l p i a, search p i a l None = None <->
  forall e, In e (links a l) -> meets p (fst e) (snd e) = true -> fst p < edge_x p (fst e) (snd e).
Proof.
  induction l as [|b l IH]; intros p i a; [cbn; split; [intros _ e []|reflexivity]|].
  rewrite search_step. cbn [links]. destruct (meets p a b) eqn:M; cbn [andb].
  - destruct (Z.leb_spec (edge_x p a b) (fst p)) as [L|L].
    + split; [intros H; exfalso; revert H; apply search_found; discriminate|].
      intros H. specialize (H _ (or_introl eq_refl) M). cbn [fst snd] in H. lia.
    + rewrite IH. split.
      * intros H e [<-|I] Me; [exact L|now apply H].
      * intros H e I. apply H. now right.
  - rewrite IH. split.
    + intros H e [<-|I] Me; [cbn [fst snd] in Me; congruence|now apply H].
    + intros H e I. apply H. now right.
Qed.

(** ** One hole *)
Definition joint (a n b : zpt) : list (zpt * zpt) :=
  if (fst n =? fst b) && (snd n =? snd b) then [] else [(n, b)].
Lemma insert_at : forall (u v xs : zpath), insert (length u) xs (u ++ v) = u ++ xs ++ v.
Proof.
  intros. unfold insert. rewrite firstn_app, skipn_app, Nat.sub_diag, firstn_all, skipn_all. cbn. now rewrite app_nil_r.
Qed.
Lemma attach_spec : forall result h r, attach result h = Some r -> exists p a b rest x w,
  leftmost p h /\ Permutation (edges result) ((a, b) :: rest) /\ meets p a b = true /\ x = edge_x p a b /\ x <= fst p /\
  (forall e, In e (edges result) -> meets p (fst e) (snd e) = true ->
             edge_x p (fst e) (snd e) <= x \/ fst p < edge_x p (fst e) (snd e)) /\
  Permutation (edges r) ((a, (x, snd p)) :: ((x, snd p), p) :: (p, (x, snd p)) :: edges h ++ joint a (x, snd p) b ++ rest) /\
  (exists u v, result = u ++ b :: v /\ r = u ++ ((x, snd p) :: w) ++ b :: v /\ a = last (v ++ u) b) /\
  (exists s t, h = s ++ p :: t /\ w = p :: t ++ s ++ p :: map fst (joint a (x, snd p) b) /\
               (forall q, In q s -> fst p < fst q) /\ (forall q, In q t -> fst p <= fst q)).
Proof.
  intros result h r H. unfold attach in H. destruct (min_element h) as [k|] eqn:K; [|discriminate].
  destruct result as [|r0 rs]; [discriminate|]. set (result := r0 :: rs) in *.
  destruct (min_element_spec _ _ K) as (s & t & Eh & Lk & Hs & Ht). set (p := nth k h (0, 0)) in *.
  destruct (search p 0 (last result (0, 0)) result None) as [[i x]|] eqn:S; [|discriminate].
  apply search_spec in S. destruct S as ([S|(u & b & v & Er & Ei & M & Ex & Lx)] & Max & _); [discriminate|].
  cbn [Nat.add] in Ei. subst i.
  assert (N : result <> []) by discriminate. clearbody result. clear r0 rs.
  set (a := last u (last result (0, 0))) in *. set (n := (x, snd p)) in *.
  assert (Pb : nth (length u) result (0, 0) = b) by (rewrite Er, app_nth2, Nat.sub_diag by lia; reflexivity).
  rewrite Pb in H.
  assert (La : last (b :: v ++ u) b = a).
  { unfold a. destruct u as [|u0 u]; [change (last (b :: v ++ []) b = last result (0, 0)); rewrite app_nil_r, Er; apply last_default; discriminate|].
    change (b :: v ++ u0 :: u) with ((b :: v) ++ u0 :: u). rewrite (last_default _ (u0 :: u) _ b) by discriminate.
    generalize (b :: v). intros l. induction l as [|y l IH]; [reflexivity|]. cbn [app]. destruct l; exact IH. }
  assert (Er2 : r = u ++ (n :: (p :: t ++ s ++ p :: map fst (joint a n b))) ++ b :: v).
  { assert (F1 : firstn (Datatypes.S k) h = s ++ [p]).
    { rewrite Eh, <- Lk. replace (Datatypes.S (length s)) with (length s + 1)%nat by lia. now rewrite firstn_app_2. }
    assert (F2 : skipn k h = p :: t).
    { rewrite Eh, <- Lk, skipn_app, skipn_all, Nat.sub_diag. reflexivity. }
    rewrite F1, F2 in H. unfold joint. destruct ((fst n =? fst b) && (snd n =? snd b)) eqn:B.
    - rewrite <- negb_andb, B in H. cbn [negb] in H. rewrite Er, !insert_at in H. injection H as <-.
      cbn [app map]. now rewrite <- !app_assoc.
    - rewrite <- negb_andb, B in H. cbn [negb] in H. rewrite Er, !insert_at in H. injection H as <-.
      cbn [app map]. now rewrite <- !app_assoc. }
  exists p, a, b, (links b (v ++ u)), x, (p :: t ++ s ++ p :: map fst (joint a n b)).
  assert (Ph : Permutation (edges h) (links p (t ++ s ++ [p]))).
  { rewrite Eh. rewrite edges_rotate. cbn [app]. rewrite links_edges, <- app_assoc. reflexivity. }
  split; [exists s, t; auto|]. split; [rewrite Er, <- La; now apply edges_split; right|].
  split; [exact M|]. split; [exact Ex|]. split; [exact Lx|]. split.
  { intros e I. apply Max. destruct result as [|r0 rs]; [now destruct N|]. rewrite links_edges in I.
    rewrite links_app in I. cbn [links] in I |- *. apply in_app_iff in I.
    destruct I as [I|[<-|[]]]; [now right|left]. f_equal. apply last_cons. }
  split; [|split].
  2: { exists u, v. split; [exact Er|]. split; [exact Er2|]. rewrite <- La. apply last_cons. }
  2: { exists s, t. split; [exact Eh|]. split; [reflexivity|]. split; assumption. }
  assert (J : links p (map fst (joint a n b) ++ [b]) = (p, n) :: joint a n b).
  { unfold joint. destruct ((fst n =? fst b) && (snd n =? snd b)) eqn:B; [|reflexivity].
    apply andb_true_iff in B. rewrite !Z.eqb_eq in B. cbn [map app links]. do 2 f_equal.
    destruct b as [bx by_]. unfold n in *. cbn [fst snd] in B. now destruct B as [-> ->]. }
  rewrite Er2. rewrite app_assoc, edges_rotate. cbn [app]. rewrite links_edges, <- !app_assoc. cbn [app].
  rewrite app_assoc, links_app. replace (last (v ++ u) b) with a by (rewrite <- La; apply last_cons).
  cbn [links]. rewrite <- !app_assoc. cbn [app]. rewrite app_assoc, (links_mid (t ++ s) p p), J, <- app_assoc, <- Ph.
  eapply perm_trans; [apply Permutation_app_comm|]. cbn [app]. do 2 apply perm_skip.
  rewrite <- app_assoc. cbn [app]. apply Permutation_sym. apply Permutation_middle.
Qed.

(** ** Where the bridge starts *)
Lemma edge_x_spec : forall p a b, meets p a b = true ->
  let d := (edge_x p a b - fst b) * (snd a - snd b) - (fst a - fst b) * (snd p - snd b) in
  Z.abs d < Z.abs (snd a - snd b) /\
  ((fst b <= edge_x p a b <= fst a) \/ (fst a <= edge_x p a b <= fst b)) /\
  Z.abs (edge_x p a b - fst b) * Z.abs (snd a - snd b) <= Z.abs ((fst a - fst b) * (snd p - snd b)).
Proof.
  intros p a b M d. apply meets_spec in M. unfold d, edge_x. clear d.
  set (N := (fst a - fst b) * (snd p - snd b)). set (D := snd a - snd b).
  assert (ND : D <> 0) by (unfold D; lia).
  pose proof (Z.quot_rem' N D) as Q. pose proof (Z.rem_bound_abs N D ND) as B.
  replace (fst b + Z.quot N D - fst b) with (Z.quot N D) by lia.
  assert (A : Z.abs (Z.quot N D) * Z.abs D <= Z.abs N).
  { rewrite <- Z.quot_abs, Z.quot_div_nonneg by lia. rewrite Z.mul_comm. apply Z.mul_div_le. lia. }
  split; [replace (Z.quot N D * D - N) with (- Z.rem N D) by lia; lia|]. split; [|exact A].
  assert (L : Z.abs (snd p - snd b) <= Z.abs D) by (unfold D; lia).
  assert (L2 : Z.abs N <= Z.abs (fst a - fst b) * Z.abs D) by (unfold N; rewrite Z.abs_mul; nia).
  assert (L3 : Z.abs (Z.quot N D) <= Z.abs (fst a - fst b)) by nia.
  destruct (Z.eq_dec (Z.quot N D) 0) as [E|E]; [lia|].
  assert (Sg : 0 < Z.quot N D * (fst a - fst b)).
  { assert (S0 : 0 <= (snd p - snd b) * D) by (unfold D; nia).
    assert (S1 : 0 < Z.quot N D * D * N).
    { assert (S : 0 <= Z.rem N D * N) by (apply Z.rem_sign_mul; exact ND).
      assert (N0 : N <> 0) by (intros N0; apply E; rewrite N0; apply Z.quot_0_l; exact ND). nia. }
    unfold N in S1 at 2. nia. }
  nia.
Qed.

(** ** Sums over the edges *)
Lemma sum_perm : forall A (f : A -> Z) l m, Permutation l m -> sum_over f l = sum_over f m.
Proof. intros A f l m H. induction H; cbn [sum_over fold_right] in *; unfold sum_over in *; lia. Qed.
Lemma sum_app : forall A (f : A -> Z) l m, sum_over f (l ++ m) = sum_over f l + sum_over f m.
Proof. intros A f l m. induction l as [|x l IH]; [reflexivity|]. cbn [app]. unfold sum_over in *. cbn [fold_right]. lia. Qed.
Lemma sum_cons : forall A (f : A -> Z) x l, sum_over f (x :: l) = f x + sum_over f l.
Proof. reflexivity. Qed.
Definition odd_on (f : zpt * zpt -> Z) : Prop := forall a b, f (b, a) = - f (a, b).
Lemma attach_sum : forall f p a n b result h r rest, odd_on f ->
  Permutation (edges result) ((a, b) :: rest) ->
  Permutation (edges r) ((a, n) :: (n, p) :: (p, n) :: edges h ++ joint a n b ++ rest) ->
  sum_over f (edges r) = sum_over f (edges result) + sum_over f (edges h) + (f (a, n) + f (n, b) - f (a, b)).
Proof.
  intros f p a n b result h r rest O E1 E2. rewrite (sum_perm _ f _ _ E1), (sum_perm _ f _ _ E2).
  rewrite !sum_cons, !sum_app. rewrite (O n p). unfold joint.
  destruct ((fst n =? fst b) && (snd n =? snd b)) eqn:B.
  - apply andb_true_iff in B. rewrite !Z.eqb_eq in B. replace n with b by (destruct n, b; cbn in B; destruct B; now subst).
    pose proof (O b b). cbn. lia.
  - cbn. lia.
Qed.

Definition cross2 (e : zpt * zpt) : Z := fst (fst e) * snd (snd e) - fst (snd e) * snd (fst e).
Lemma shoelace_sum : forall l, shoelace l = sum_over cross2 (edges l).
Proof. reflexivity. Qed.
Lemma cross2_odd : odd_on cross2.
Proof. intros a b. unfold cross2. cbn [fst snd]. lia. Qed.

Lemma passes_odd : forall q, odd_on (passes q).
Proof.
  intros [qx qy] [ax ay] [bx by_]. unfold passes, side. cbn [fst snd].
  repeat match goal with |- context [Rle_dec ?x ?y] => destruct (Rle_dec x y) end;
  repeat match goal with |- context [Rlt_dec ?x ?y] => destruct (Rlt_dec x y) end; try lia; exfalso; lra.
Qed.

(** The point at height [y] on the line through [a] and [b]. *)
Definition xat (e : zpt * zpt) (y : R) : R :=
  (IZR (fst (fst e)) + (IZR (fst (snd e)) - IZR (fst (fst e))) * ((y - IZR (snd (fst e))) / (IZR (snd (snd e)) - IZR (snd (fst e)))))%R.
Lemma side_xat : forall e q, snd (fst e) <> snd (snd e) ->
  side e q = ((IZR (snd (snd e)) - IZR (snd (fst e))) * (xat e (snd q) - fst q))%R.
Proof.
  intros [[ax ay] [bx by_]] [qx qy] H. unfold side, xat. cbn [fst snd] in *. field.
  rewrite <- minus_IZR. apply not_0_IZR. lia.
Qed.
Lemma passes_up : forall q e, snd (fst e) < snd (snd e) ->
  passes q e = if Rle_dec (IZR (snd (fst e))) (snd q) then
                 if Rlt_dec (snd q) (IZR (snd (snd e))) then if Rlt_dec (fst q) (xat e (snd q)) then 1 else 0 else 0
               else 0.
Proof.
  intros q e H. unfold passes. assert (HR := IZR_lt _ _ H). rewrite (side_xat e q) by lia.
  destruct (Rle_dec (IZR (snd (fst e))) (snd q)).
  - destruct (Rlt_dec (snd q) (IZR (snd (snd e)))); [|reflexivity].
    destruct (Rlt_dec 0 _), (Rlt_dec (fst q) _); try reflexivity; exfalso; nra.
  - destruct (Rle_dec (IZR (snd (snd e))) (snd q)); [lra|reflexivity].
Qed.
Lemma passes_flat : forall q e, snd (fst e) = snd (snd e) -> passes q e = 0.
Proof.
  intros q [[ax ay] [bx by_]] H. cbn [fst snd] in H. subst. unfold passes. cbn [fst snd].
  destruct (Rle_dec (IZR by_) (snd q)); [|reflexivity]. destruct (Rlt_dec (snd q) (IZR by_)); [lra|reflexivity].
Qed.

(** [q] is between two edges at its height. *)
Definition apart_at (q : R * R) (s e : zpt * zpt) : Prop :=
  snd (fst s) <> snd (snd s) /\
  (IZR (Z.min (snd (fst s)) (snd (snd s))) <= snd q <= IZR (Z.max (snd (fst s)) (snd (snd s))))%R /\
  (xat s (snd q) <> xat e (snd q) /\ (fst q - xat s (snd q)) * (fst q - xat e (snd q)) <= 0)%R.
Lemma split_up : forall q a n b, snd a < snd b -> snd a <= snd n <= snd b ->
  passes q (a, n) + passes q (n, b) = passes q (a, b) \/ apart_at q (a, n) (a, b) \/ apart_at q (n, b) (a, b).
Proof.
  intros q a n b H [H1 H2]. rewrite (passes_up q (a, b)) by exact H. cbn [fst snd].
  assert (H1R := IZR_le _ _ H1). assert (H2R := IZR_le _ _ H2).
  assert (PN : forall e, snd (fst e) <= snd (snd e) -> (snd q < IZR (snd (fst e)) \/ IZR (snd (snd e)) <= snd q)%R -> passes q e = 0).
  { intros e L B. destruct (Z.eq_dec (snd (fst e)) (snd (snd e))) as [E|E]; [now apply passes_flat|].
    rewrite passes_up by lia. destruct (Rle_dec _ _); [|reflexivity]. destruct (Rlt_dec _ _); [|reflexivity]. exfalso; lra. }
  destruct (Rle_dec (IZR (snd a)) (snd q)) as [A|A].
  2: { left. rewrite (PN (a, n)), (PN (n, b)); cbn [fst snd]; try lia; lra. }
  destruct (Rlt_dec (snd q) (IZR (snd b))) as [B|B].
  2: { left. rewrite (PN (a, n)), (PN (n, b)); cbn [fst snd]; try lia; lra. }
  assert (G : forall s, snd (fst s) < snd (snd s) -> (IZR (snd (fst s)) <= snd q < IZR (snd (snd s)))%R ->
    passes q s = (if Rlt_dec (fst q) (xat (a, b) (snd q)) then 1 else 0) \/ apart_at q s (a, b)).
  { intros s L [B1 B2]. rewrite passes_up by exact L. destruct (Rle_dec _ _) as [_|?]; [|lra].
    destruct (Rlt_dec (snd q) _) as [_|?]; [|lra].
    destruct (Rlt_dec (fst q) (xat s (snd q))) as [L1|L1], (Rlt_dec (fst q) (xat (a, b) (snd q))) as [L2|L2];
      try (now left); right; (split; [lia|]); rewrite Z.min_l, Z.max_r by lia; (split; [lra|]); (split; [lra|nra]). }
  destruct (Rlt_dec (snd q) (IZR (snd n))) as [C|C].
  - assert (L : snd a < snd n) by (apply lt_IZR; lra).
    rewrite (PN (n, b)) by (cbn [fst snd]; try lia; lra).
    destruct (G (a, n) L) as [G'|G']; [cbn [fst snd]; lra|left; lia|right; left; exact G'].
  - assert (L : snd n < snd b) by (apply lt_IZR; lra).
    rewrite (PN (a, n)) by (cbn [fst snd]; try lia; lra).
    destruct (G (n, b) L) as [G'|G']; [cbn [fst snd]; lra|left; lia|right; right; exact G'].
Qed.
Lemma xat_swap : forall a b y, snd a <> snd b -> xat (b, a) y = xat (a, b) y.
Proof.
  intros [ax ay] [bx by_] y H. unfold xat. cbn [fst snd] in *. field. rewrite <- !minus_IZR. split; apply not_0_IZR; lia.
Qed.
Lemma apart_swap : forall q a b c d, apart_at q (a, b) (c, d) -> snd c <> snd d -> apart_at q (b, a) (d, c).
Proof.
  intros q a b c d (H1 & H2 & H3) N. unfold apart_at in *. cbn [fst snd] in *. rewrite Z.min_comm, Z.max_comm.
  rewrite (xat_swap a b), (xat_swap c d) by lia. repeat split; try tauto; try lra. lia.
Qed.
Lemma split_passes : forall q a n b, snd a <> snd b -> (snd a <= snd n <= snd b \/ snd b <= snd n <= snd a) ->
  passes q (a, n) + passes q (n, b) = passes q (a, b) \/ apart_at q (a, n) (a, b) \/ apart_at q (n, b) (a, b).
Proof.
  intros q a n b N [H|H].
  - apply split_up; lia.
  - destruct (split_up q b n a) as [E|[E|E]]; try lia.
    + left. rewrite (passes_odd q n b), (passes_odd q a n), (passes_odd q a b) in E. lia.
    + right. right. apply apart_swap; [exact E|lia].
    + right. left. apply apart_swap; [exact E|lia].
Qed.

(** ** Every edge follows an edge of the tree *)
Definition in_range (e : zpt * zpt) (y : R) : Prop :=
  (IZR (Z.min (snd (fst e)) (snd (snd e))) <= y <= IZR (Z.max (snd (fst e)) (snd (snd e))))%R.
Definition follows (m : Z) (e : zpt * zpt) (z : zpt) : Prop :=
  in_range e (IZR (snd z)) /\ (Rabs (xat e (IZR (snd z)) - IZR (fst z)) <= IZR m)%R.
Definition close (m : Z) (E : list (zpt * zpt)) (s : zpt * zpt) : Prop :=
  snd (fst s) = snd (snd s) \/
  exists e, In e E /\ snd (fst e) <> snd (snd e) /\ follows m e (fst s) /\ follows m e (snd s).

Lemma in_range_t : forall s y, snd (fst s) <> snd (snd s) -> in_range s y ->
  exists t, (0 <= t <= 1)%R /\ y = (IZR (snd (fst s)) + t * (IZR (snd (snd s)) - IZR (snd (fst s))))%R /\
            xat s y = (IZR (fst (fst s)) + t * (IZR (fst (snd s)) - IZR (fst (fst s))))%R.
Proof.
  intros [[ax ay] [bx by_]] y N H. unfold in_range, xat in *. cbn [fst snd] in *.
  assert (D : (IZR by_ - IZR ay <> 0)%R) by (rewrite <- minus_IZR; apply not_0_IZR; lia).
  exists ((y - IZR ay) / (IZR by_ - IZR ay))%R. split; [|split; [field; exact D|ring]].
  destruct (Z.lt_ge_cases ay by_) as [L|L].
  - rewrite Z.min_l, Z.max_r in H by lia. apply IZR_lt in L. split.
    + apply Rmult_le_pos; [lra|]. left. apply Rinv_0_lt_compat. lra.
    + apply Rmult_le_reg_r with (IZR by_ - IZR ay)%R; [lra|]. unfold Rdiv. rewrite Rmult_assoc, Rinv_l by exact D. lra.
  - assert (L' : by_ < ay) by lia. rewrite Z.min_r, Z.max_l in H by lia. apply IZR_lt in L'.
    replace ((y - IZR ay) / (IZR by_ - IZR ay))%R with ((IZR ay - y) / (IZR ay - IZR by_))%R by (field; split; lra).
    split.
    + apply Rmult_le_pos; [lra|]. left. apply Rinv_0_lt_compat. lra.
    + apply Rmult_le_reg_r with (IZR ay - IZR by_)%R; [lra|]. unfold Rdiv. rewrite Rmult_assoc, Rinv_l by lra. lra.
Qed.
Lemma xat_affine : forall e y z t, snd (fst e) <> snd (snd e) -> xat e (y + t * (z - y))%R = (xat e y + t * (xat e z - xat e y))%R.
Proof.
  intros [[ax ay] [bx by_]] y z t N. unfold xat. cbn [fst snd] in *. field. rewrite <- minus_IZR. apply not_0_IZR. lia.
Qed.
Lemma off_segment : forall e s y K, snd (fst e) <> snd (snd e) -> snd (fst s) <> snd (snd s) -> in_range s y ->
  (Rabs (xat e (IZR (snd (fst s))) - IZR (fst (fst s))) <= K)%R ->
  (Rabs (xat e (IZR (snd (snd s))) - IZR (fst (snd s))) <= K)%R -> (Rabs (xat e y - xat s y) <= K)%R.
Proof.
  intros e s y K N N' H H1 H2. destruct (in_range_t s y N' H) as (t & T & Ey & ->). rewrite Ey, xat_affine by exact N.
  replace (xat e (IZR (snd (fst s))) + t * (xat e (IZR (snd (snd s))) - xat e (IZR (snd (fst s)))) -
     (IZR (fst (fst s)) + t * (IZR (fst (snd s)) - IZR (fst (fst s)))))%R
    with ((1 - t) * (xat e (IZR (snd (fst s))) - IZR (fst (fst s))) + t * (xat e (IZR (snd (snd s))) - IZR (fst (snd s))))%R by ring.
  eapply Rle_trans; [apply Rabs_triang|]. rewrite !Rabs_mult, (Rabs_pos_eq (1 - t)), (Rabs_pos_eq t) by lra. nra.
Qed.
Lemma near_of : forall e q k, snd (fst e) <> snd (snd e) -> in_range e (snd q) ->
  (Rabs (xat e (snd q) - fst q) < IZR k)%R -> near k q e.
Proof.
  intros e q k N H L. destruct (in_range_t e (snd q) N H) as (t & T & Ey & Ex). exists t. split; [exact T|].
  unfold along. cbn [fst snd]. rewrite <- Ey, <- Ex. auto.
Qed.
Lemma in_range_sub : forall e s y, in_range e (IZR (snd (fst s))) -> in_range e (IZR (snd (snd s))) -> in_range s y -> in_range e y.
Proof.
  intros e s y [A1 A2] [B1 B2] [C1 C2]. unfold in_range in *. apply le_IZR in A1, A2, B1, B2.
  assert (D1 : Z.min (snd (fst e)) (snd (snd e)) <= Z.min (snd (fst s)) (snd (snd s))) by lia.
  assert (D2 : Z.max (snd (fst s)) (snd (snd s)) <= Z.max (snd (fst e)) (snd (snd e))) by lia.
  apply IZR_le in D1, D2. lra.
Qed.
(** The start of the bridge is less than one unit away from the edge. *)
Lemma start_of : forall p a b, meets p a b = true ->
  snd a <> snd b /\ in_range (a, b) (IZR (snd p)) /\ (Rabs (xat (a, b) (IZR (snd p)) - IZR (edge_x p a b)) < 1)%R.
Proof.
  intros p a b M. destruct (edge_x_spec p a b M) as (H & _ & _). apply meets_spec in M.
  assert (N : snd a <> snd b) by lia. split; [exact N|]. split.
  { unfold in_range. cbn [fst snd]. split; apply IZR_le; lia. }
  set (x := edge_x p a b) in *. clearbody x. apply IZR_lt in H. rewrite !abs_IZR, minus_IZR, !mult_IZR, !minus_IZR in H.
  assert (D : (IZR (snd a) - IZR (snd b) <> 0)%R) by (rewrite <- minus_IZR; apply not_0_IZR; lia).
  assert (E : (xat (a, b) (IZR (snd p)) - IZR x = - ((IZR x - IZR (fst b)) * (IZR (snd a) - IZR (snd b)) -
    (IZR (fst a) - IZR (fst b)) * (IZR (snd p) - IZR (snd b))) / (IZR (snd a) - IZR (snd b)))%R).
  { unfold xat. cbn [fst snd]. field. split; lra. }
  rewrite E. unfold Rdiv. rewrite Rabs_mult, Rabs_Ropp, Rabs_inv.
  assert (P : (0 < Rabs (IZR (snd a) - IZR (snd b)))%R) by (now apply Rabs_pos_lt).
  apply Rmult_lt_reg_r with (Rabs (IZR (snd a) - IZR (snd b))); [exact P|]. rewrite Rmult_assoc, Rinv_l by lra. lra.
Qed.

Lemma close_start : forall m E p a b, meets p a b = true -> close m E (a, b) ->
  exists e, In e E /\ snd (fst e) <> snd (snd e) /\ follows m e a /\ follows m e b /\
    in_range e (IZR (snd p)) /\ (Rabs (xat e (IZR (snd p)) - IZR (edge_x p a b)) < IZR m + 1)%R.
Proof.
  intros m E p a b M [C|(e & I & N & F1 & F2)].
  { apply meets_spec in M. cbn [fst snd] in C. lia. }
  destruct (start_of p a b M) as (N' & R & S). exists e. cbn [fst snd] in *. repeat (split; [assumption|]).
  split; [apply (in_range_sub e (a, b)); [apply F1|apply F2|exact R]|].
  assert (O : (Rabs (xat e (IZR (snd p)) - xat (a, b) (IZR (snd p))) <= IZR m)%R)
    by (apply off_segment; auto; [apply F1|apply F2]).
  replace (xat e (IZR (snd p)) - IZR (edge_x p a b))%R
    with ((xat e (IZR (snd p)) - xat (a, b) (IZR (snd p))) + (xat (a, b) (IZR (snd p)) - IZR (edge_x p a b)))%R by ring.
  eapply Rle_lt_trans; [apply Rabs_triang|]. lra.
Qed.
Lemma follows_le : forall m m' e z, m <= m' -> follows m e z -> follows m' e z.
Proof. intros m m' e z L [H1 H2]. split; [exact H1|]. apply IZR_le in L. lra. Qed.
Lemma close_le : forall m m' E s, m <= m' -> close m E s -> close m' E s.
Proof.
  intros m m' E s L [H|(e & H1 & H2 & H3 & H4)]; [now left|right]. exists e. repeat (split; [assumption|]).
  split; eapply follows_le; eassumption.
Qed.
Lemma follows_end : forall e z, snd (fst e) <> snd (snd e) -> z = fst e \/ z = snd e -> follows 0 e z.
Proof.
  intros [[ax ay] [bx by_]] z N H. cbn [fst snd] in *.
  assert (D : (IZR by_ - IZR ay <> 0)%R) by (rewrite <- minus_IZR; apply not_0_IZR; lia).
  split.
  - unfold in_range. destruct H as [-> | ->]; cbn [fst snd]; split; apply IZR_le; lia.
  - unfold xat. destruct H as [-> | ->]; cbn [fst snd].
    + replace (IZR ax + (IZR bx - IZR ax) * ((IZR ay - IZR ay) / (IZR by_ - IZR ay)) - IZR ax)%R with 0%R by (field; exact D).
      rewrite Rabs_R0. lra.
    + replace (IZR ax + (IZR bx - IZR ax) * ((IZR by_ - IZR ay) / (IZR by_ - IZR ay)) - IZR bx)%R with 0%R by (field; exact D).
      rewrite Rabs_R0. lra.
Qed.
Lemma close_self : forall E s, In s E -> close 0 E s.
Proof.
  intros E s I. destruct (Z.eq_dec (snd (fst s)) (snd (snd s))) as [H|H]; [now left|right].
  exists s. repeat (split; [assumption|]). split; apply follows_end; auto.
Qed.

Lemma attach_close : forall m E result h r, 0 <= m -> attach result h = Some r ->
  (forall s, In s (edges result) -> close m E s) -> incl (edges h) E ->
  forall s, In s (edges r) -> close (m + 1) E s.
Proof.
  intros m E result h r M0 A C I s Hs.
  destruct (attach_spec _ _ _ A) as (p & a & b & rest & x & w & _ & P1 & M & -> & _ & _ & P2 & _).
  assert (Cab : close m E (a, b)) by (apply C; rewrite P1; now left).
  destruct (close_start _ _ _ _ _ M Cab) as (e & Ie & Ne & Fa & Fb & Rp & Xp).
  assert (Fn : follows (m + 1) e (edge_x p a b, snd p)).
  { split; [exact Rp|]. cbn [fst snd]. rewrite plus_IZR. lra. }
  rewrite P2 in Hs. destruct Hs as [<-|[<-|[<-|Hs]]].
  - right. exists e. split; [exact Ie|]. split; [exact Ne|]. split; [|exact Fn]. apply (follows_le m); [lia|exact Fa].
  - now left.
  - now left.
  - apply in_app_iff in Hs. destruct Hs as [Hs|Hs].
    + apply (close_le 0); [lia|]. apply close_self. now apply I.
    + apply in_app_iff in Hs. destruct Hs as [Hs|Hs].
      * unfold joint in Hs. destruct (_ && _); [destruct Hs|]. destruct Hs as [<-|[]].
        right. exists e. split; [exact Ie|]. split; [exact Ne|]. split; [exact Fn|]. apply (follows_le m); [lia|exact Fb].
      * apply (close_le m); [lia|]. apply C. rewrite P1. now right.
Qed.

Lemma apart_near : forall m e q s t, snd (fst e) <> snd (snd e) -> snd (fst t) <> snd (snd t) ->
  in_range e (snd q) -> in_range t (snd q) -> apart_at q s t ->
  (Rabs (xat e (snd q) - xat s (snd q)) < IZR (m + 1))%R -> (Rabs (xat e (snd q) - xat t (snd q)) < IZR (m + 1))%R ->
  near (m + 1) q e.
Proof.
  intros m e q s t N N' R R' (_ & _ & _ & B) H1 H2. apply near_of; [exact N|exact R|].
  apply Rabs_def2 in H1, H2. destruct H1 as [H1 H1'], H2 as [H2 H2']. apply Rabs_def1; nra.
Qed.
Lemma attach_winding : forall m E result h r q, 0 <= m -> attach result h = Some r ->
  (forall s, In s (edges result) -> close m E s) ->
  (forall e, In e E -> ~ near (m + 1) q e) ->
  winding q r = winding q result + winding q h.
Proof.
  intros m E result h r q M0 A C Q.
  destruct (attach_spec _ _ _ A) as (p & a & b & rest & x & w & _ & P1 & M & -> & _ & _ & P2 & _).
  unfold winding. rewrite (attach_sum (passes q) p a _ b _ _ _ _ (passes_odd q) P1 P2).
  set (n := (edge_x p a b, snd p)) in *.
  assert (Cab : close m E (a, b)) by (apply C; rewrite P1; now left).
  destruct (close_start _ _ _ _ _ M Cab) as (e & Ie & Ne & Fa & Fb & Rp & Xp).
  destruct (start_of _ _ _ M) as (Nab & Rab & _).
  assert (Hn : snd a <= snd n <= snd b \/ snd b <= snd n <= snd a) by (apply meets_spec in M; cbn [n snd]; lia).
  assert (Key : forall s, (s = (a, n) \/ s = (n, b)) -> ~ apart_at q s (a, b)).
  { intros s Hs Ap. apply (Q e Ie). pose proof Ap as (Ns & Rs & _). change (in_range s (snd q)) in Rs.
    assert (IZR m < IZR (m + 1))%R by (apply IZR_lt; lia).
    assert (Fn : in_range e (IZR (snd n)) /\ (Rabs (xat e (IZR (snd n)) - IZR (fst n)) < IZR (m + 1))%R)
      by (split; [exact Rp|rewrite plus_IZR; exact Xp]).
    assert (Re : in_range e (snd q)).
    { apply (in_range_sub e s); [| |exact Rs]; destruct Hs as [-> | ->]; cbn [fst snd]; try apply Fa; try apply Fb; apply Fn. }
    assert (Rt : in_range (a, b) (snd q)).
    { apply (in_range_sub (a, b) s); [| |exact Rs]; destruct Hs as [-> | ->]; unfold in_range; cbn [fst snd];
        split; apply IZR_le; lia. }
    apply (apart_near m e q s (a, b)); auto.
    - set (K := Rmax (IZR m) (Rabs (xat e (IZR (snd n)) - IZR (fst n)))).
      assert (HK : (K < IZR (m + 1))%R) by (unfold K; apply Rmax_lub_lt; [assumption|apply Fn]).
      eapply Rle_lt_trans; [|exact HK]. unfold K.
      destruct Hs as [-> | ->]; (apply off_segment; [exact Ne|exact Ns|exact Rs| |]); cbn [fst snd];
        first [apply Rmax_r | eapply Rle_trans; [first [apply (proj2 Fa)|apply (proj2 Fb)]|apply Rmax_l]].
    - eapply Rle_lt_trans; [|eassumption]. apply off_segment; auto; [apply Fa|apply Fb]. }
  destruct (split_passes q a n b Nab Hn) as [S|[S|S]].
  - change (edge_x p a b, snd p) with n. lia.
  - exfalso. revert S. apply Key. now left.
  - exfalso. revert S. apply Key. now right.
Qed.

Lemma attach_all_winding : forall holes m E result r q, 0 <= m -> attach_all result holes = Some r ->
  (forall s, In s (edges result) -> close m E s) -> (forall h, In h holes -> incl (edges h) E) ->
  (forall e, In e E -> ~ near (m + Z.of_nat (length holes)) q e) ->
  winding q r = winding q result + sum_over (winding q) holes.
Proof.
  induction holes as [|h holes IH]; intros m E result r q M0 A C I Q; cbn [attach_all] in A.
  - injection A as <-. cbn. lia.
  - destruct (attach result h) as [r1|] eqn:A1; [|discriminate].
    rewrite sum_cons. rewrite (IH (m + 1) E r1 r q); try assumption; try lia.
    + rewrite (attach_winding m E result h r1 q); try assumption; [lia|].
      intros e Ie Nr. apply (Q e Ie). destruct Nr as (t & T & Y & X). exists t. repeat (split; [assumption|]).
      eapply Rlt_le_trans; [exact X|]. apply IZR_le. cbn [length]. lia.
    + intros s Hs. eapply attach_close; eauto. apply I. now left.
    + intros h' Hh. apply I. now right.
    + intros e Ie. replace (m + 1 + Z.of_nat (length holes)) with (m + Z.of_nat (length (h :: holes))) by (cbn [length]; lia).
      now apply Q.
Qed.

(** ** What link_holes does *)
Lemma reaches_meets : forall p e x0, reaches p e x0 <->
  meets p (fst e) (snd e) = true /\ x0 = xat e (IZR (snd p)).
Proof.
  intros p [[ax ay] [bx by_]] x0. rewrite meets_spec. unfold reaches, along. cbn [fst snd]. split.
  - intros (N & t & T & E). injection E as E1 E2.
    assert (D : ay <> by_) by (intros ->; apply N; apply eq_IZR; lra).
    assert (DR : (IZR by_ - IZR ay <> 0)%R) by (rewrite <- minus_IZR; apply not_0_IZR; lia).
    split.
    + destruct (Z.lt_ge_cases ay by_) as [L|L].
      * right. pose proof (IZR_lt _ _ L). split; [|apply le_IZR; nra].
        assert (ay <= snd p) by (apply le_IZR; nra). lia.
      * left. assert (L' : by_ < ay) by lia. pose proof (IZR_lt _ _ L'). split; [apply le_IZR; nra|].
        assert (snd p <= ay) by (apply le_IZR; nra). lia.
    + unfold xat. cbn [fst snd]. rewrite <- E1, <- E2. field. exact DR.
  - intros (M & ->). split; [lia|].
    destruct (in_range_t ((ax, ay), (bx, by_)) (IZR (snd p))) as (t & T & Y & X).
    + cbn [fst snd]. lia.
    + unfold in_range. cbn [fst snd]. split; apply IZR_le; lia.
    + exists t. split; [exact T|]. rewrite X. cbn [fst snd] in *. now rewrite <- Y.
Qed.
Lemma attach_bridged : forall o h r, attach o h = Some r -> bridged o h r.
Proof.
  intros o h r H.
  destruct (attach_spec _ _ _ H) as (p & a & b & rest & x & w & _ & P1 & M & Ex & Lx & Max & _ & (u & v & Eo & Er & Ea) & (s & t & Eh & Ew & Hs & Ht)).
  exists u, b, v, s, p, t, x. split; [exact Eo|]. split; [exact Eh|]. split; [exact Hs|]. split; [exact Ht|].
  cbv zeta. rewrite <- Ea. split.
  { rewrite Er, Ew. unfold joint. destruct (_ && _); cbn [map fst app]; now rewrite <- ?app_assoc. }
  split; [|split; [exact Lx|]].
  - exists (xat (a, b) (IZR (snd p))). split; [apply reaches_meets; auto|].
    destruct (start_of _ _ _ M) as (_ & _ & B). rewrite Ex, Rabs_minus_sym. exact B.
  - intros e x0 I R. apply reaches_meets in R. destruct R as [Me ->].
    destruct (start_of p (fst e) (snd e) Me) as (_ & _ & B). rewrite <- surjective_pairing in B.
    apply Rabs_def2 in B. destruct (Max e I Me) as [L|L].
    + left. apply IZR_le in L. lra.
    + right. assert (L' : fst p + 1 <= edge_x p (fst e) (snd e)) by lia. apply IZR_le in L'. rewrite plus_IZR in L'. lra.
Qed.
Lemma attach_all_joined : forall hs o r, attach_all o hs = Some r -> joined o hs r.
Proof.
  induction hs as [|h hs IH]; intros o r H; cbn [attach_all] in H.
  - injection H as <-. constructor.
  - destruct (attach o h) as [o'|] eqn:A; [|discriminate]. econstructor; [apply attach_bridged; exact A|auto].
Qed.

(** An order by leftmost vertex, whatever it does with holes that start at the same x. *)
Lemma leftmost_exists : forall h : zpath, h <> [] -> exists p, leftmost p h.
Proof.
  intros [|p h] H; [now destruct H|]. clear H.
  destruct (min_element_spec (p :: h) _ eq_refl) as (u & v & E & _ & U & V). eexists. exists u, v. eauto.
Qed.
Lemma leftmost_le : forall p h, leftmost p h -> forall q, In q h -> fst p <= fst q.
Proof.
  intros p h (u & v & -> & U & V) q I. apply in_app_iff in I. destruct I as [I|[<-|I]]; [specialize (U q I); lia|lia|auto].
Qed.
Lemma leftmost_unique : forall p q h, leftmost p h -> leftmost q h -> fst p = fst q.
Proof.
  intros p q h A B. assert (In p h) by (destruct A as (u & v & -> & _); apply in_elt).
  assert (In q h) by (destruct B as (u & v & -> & _); apply in_elt).
  pose proof (leftmost_le _ _ A q H0). pose proof (leftmost_le _ _ B p H). lia.
Qed.

(** ** The theorems *)

(** The holes are joined one after the other, from left to right, by bridges that
    nothing crosses: neither the outline so far nor the holes still to come, which are on
    the right of the bridge. *)
Theorem C83_joined : forall psort node r, sorts psort -> Forall (fun h => h <> []) (map contour (children node)) ->
  link_holes psort node = Some r ->
  exists hs, Permutation hs (map contour (children node)) /\ StronglySorted left_to_right hs /\ joined (contour node) hs r.
Proof.
  intros psort node r S F H. destruct (S _ F) as [P O]. eexists. split; [exact P|]. split; [exact O|].
  now apply attach_all_joined.
Qed.

Lemma link_winding : forall psort c hs r, sorts psort -> Forall (fun h => h <> []) hs ->
  attach_all c (psort hs) = Some r -> stands_for (Z.of_nat (length hs)) c hs r.
Proof.
  intros psort c hs r S F H q Q. destruct (S _ F) as [P _].
  rewrite <- (sum_perm _ (winding q) _ _ P).
  apply (attach_all_winding _ 0 (flat_map edges (c :: hs)) c r q); [lia|exact H| | |].
  - intros s Hs. apply close_self. cbn [flat_map]. apply in_app_iff. now left.
  - intros h Hh s Hs. rewrite P in Hh. apply in_flat_map. exists h. split; [now right|exact Hs].
  - intros e He. apply in_flat_map in He. destruct He as (l & Hl & He).
    replace (0 + Z.of_nat (length (psort hs))) with (Z.of_nat (length hs)) by (rewrite (Permutation_length P); lia).
    now apply (Q l).
Qed.
(** The outline goes around a point as many times as the polygon and its holes together,
    unless the point is less than one unit per hole away from an edge. *)
Theorem C83_region : forall psort node r, let hs := map contour (children node) in
  sorts psort -> Forall (fun h => h <> []) hs ->
  link_holes psort node = Some r -> stands_for (Z.of_nat (length hs)) (contour node) hs r.
Proof. intros. now apply link_winding with psort. Qed.

(** ** Area *)
Definition between_y (y0 y1 : Z) (l : zpath) : Prop := forall z, In z l -> y0 <= snd z <= y1.
Lemma attach_in : forall o h r z, attach o h = Some r -> In z r ->
  In z o \/ In z h \/ exists p e, leftmost p h /\ snd z = snd p /\ In e (edges o) /\
     (fst (fst e) <= fst z <= fst (snd e) \/ fst (snd e) <= fst z <= fst (fst e)).
Proof.
  intros o h r z H I.
  destruct (attach_spec _ _ _ H) as (p & a & b & rest & x & w & Lp & P1 & M & Ex & Lx & _ & _ & (u & v & Eo & Er & _) & (s & t & Eh & Ew & _)).
  assert (N : forall z, z = (x, snd p) -> In z o \/ In z h \/ exists p e, leftmost p h /\ snd z = snd p /\ In e (edges o) /\
     (fst (fst e) <= fst z <= fst (snd e) \/ fst (snd e) <= fst z <= fst (fst e))).
  { intros z' ->. right. right. exists p, (a, b). split; [exact Lp|]. split; [reflexivity|].
    split; [rewrite P1; now left|]. cbn [fst snd]. destruct (edge_x_spec p a b M) as (_ & B & _). rewrite Ex. lia. }
  assert (J : forall z, In z (map fst (joint a (x, snd p) b)) -> z = (x, snd p)).
  { intros z' Hz. unfold joint in Hz. destruct (_ && _); cbn in Hz; [destruct Hz|destruct Hz as [<-|[]]; reflexivity]. }
  rewrite Er, Ew in I. cbn [app In] in I. rewrite in_app_iff in I. cbn [In] in I. rewrite !in_app_iff in I. cbn [In] in I.
  rewrite ?in_app_iff in I. cbn [In] in I.
  assert (Io : In z u \/ z = b \/ In z v -> In z o).
  { rewrite Eo, in_app_iff. cbn [In]. intuition. }
  assert (Ih : In z s \/ z = p \/ In z t -> In z h).
  { rewrite Eh, in_app_iff. cbn [In]. intuition. }
  specialize (J z). specialize (N z). intuition.
Qed.
Lemma attach_y : forall y0 y1 o h r, attach o h = Some r ->
  (forall z, In z (o ++ h) -> y0 <= snd z <= y1) -> forall z, In z r -> y0 <= snd z <= y1.
Proof.
  intros y0 y1 o h r H B z I. destruct (attach_in _ _ _ _ H I) as [J|[J|(p & e & L & -> & _)]].
  - apply B, in_app_iff. now left.
  - apply B, in_app_iff. now right.
  - apply B, in_app_iff. right. destruct L as (s & t & -> & _). apply in_elt.
Qed.
Lemma attach_x : forall x0 x1 o h r, attach o h = Some r ->
  (forall z, In z (o ++ h) -> x0 <= fst z <= x1) -> forall z, In z r -> x0 <= fst z <= x1.
Proof.
  intros x0 x1 o h r H B z I. destruct (attach_in _ _ _ _ H I) as [J|[J|(p & e & _ & _ & Ie & X)]].
  - apply B, in_app_iff. now left.
  - apply B, in_app_iff. now right.
  - apply edges_in in Ie. destruct Ie as [I1 I2].
    pose proof (B _ (proj2 (in_app_iff _ _ _) (or_introl I1))).
    pose proof (B _ (proj2 (in_app_iff _ _ _) (or_introl I2))). lia.
Qed.
Lemma attach_area : forall y0 y1 o h r, attach o h = Some r ->
  (forall z, In z (o ++ h) -> y0 <= snd z <= y1) ->
  Z.abs (shoelace r - (shoelace o + shoelace h)) <= y1 - y0.
Proof.
  intros y0 y1 o h r H B.
  destruct (attach_spec _ _ _ H) as (p & a & b & rest & x & w & _ & P1 & M & -> & _ & _ & P2 & _).
  rewrite !shoelace_sum, (attach_sum cross2 p a _ b _ _ _ _ cross2_odd P1 P2).
  destruct (edge_x_spec p a b M) as (D & _ & _).
  assert (I : In (a, b) (edges o)) by (rewrite P1; now left). apply edges_in in I. destruct I as [Ia Ib]. cbn [fst snd] in Ia, Ib.
  pose proof (B _ (proj2 (in_app_iff _ _ _) (or_introl Ia))). pose proof (B _ (proj2 (in_app_iff _ _ _) (or_introl Ib))).
  set (X := edge_x p a b) in *. clearbody X. unfold cross2. cbn [fst snd].
  match goal with |- Z.abs ?e <= _ => replace e with (- ((X - fst b) * (snd a - snd b) - (fst a - fst b) * (snd p - snd b))) by ring end.
  lia.
Qed.
Lemma attach_length : forall o h r, attach o h = Some r ->
  length r = (length o + length h + 2)%nat \/ length r = (length o + length h + 3)%nat.
Proof.
  intros o h r A.
  destruct (attach_spec _ _ _ A) as (p & a & b & rest & x & w & _ & _ & _ & _ & _ & _ & _ & (u & v & -> & -> & _) & (s & t & -> & -> & _)).
  unfold joint. destruct (_ && _); [left|right]; cbn [map]; rewrite ?app_length; cbn [length app]; rewrite ?app_length; cbn [length]; lia.
Qed.
Lemma attach_all_y : forall y0 y1 hs o r, attach_all o hs = Some r ->
  (forall l z, In l (o :: hs) -> In z l -> y0 <= snd z <= y1) ->
  (forall z, In z r -> y0 <= snd z <= y1) /\
  Z.abs (shoelace r - (shoelace o + sum_over shoelace hs)) <= Z.of_nat (length hs) * (y1 - y0).
Proof.
  intros y0 y1. induction hs as [|h hs IH]; intros o r H B; cbn [attach_all] in H.
  - injection H as <-. split; [intros z; apply B; now left|cbn; lia].
  - destruct (attach o h) as [o'|] eqn:A; [|discriminate].
    assert (B' : forall z, In z (o ++ h) -> y0 <= snd z <= y1).
    { intros z I. apply in_app_iff in I. destruct I; [apply (B o)|apply (B h)]; auto; [now left|right; now left]. }
    pose proof (attach_y _ _ _ _ _ A B') as Bo. pose proof (attach_area _ _ _ _ _ A B') as Ar.
    destruct (IH o' r H) as (I1 & I2).
    { intros l z [<-|I]; [apply Bo|apply B; right; now right]. }
    split; [exact I1|].
    rewrite sum_cons. replace (Z.of_nat (length (h :: hs)) * (y1 - y0)) with (Z.of_nat (length hs) * (y1 - y0) + (y1 - y0)) by (cbn [length]; lia). lia.
Qed.
Lemma attach_all_x : forall x0 x1 hs o r, attach_all o hs = Some r ->
  (forall l z, In l (o :: hs) -> In z l -> x0 <= fst z <= x1) -> forall z, In z r -> x0 <= fst z <= x1.
Proof.
  intros x0 x1. induction hs as [|h hs IH]; intros o r H B; cbn [attach_all] in H.
  - injection H as <-. intros z; apply B; now left.
  - destruct (attach o h) as [o'|] eqn:A; [|discriminate]. apply (IH o' r H).
    intros l z [<-|I]; [|apply B; right; now right]. apply (attach_x _ _ _ _ _ A).
    intros y J. apply in_app_iff in J. destruct J; [apply (B o)|apply (B h)]; auto; [now left|right; now left].
Qed.
(** Twice the area changes by less than the height of the polygon for each hole. *)
Theorem C83_area : forall psort node r y0 y1, let hs := map contour (children node) in
  sorts psort -> Forall (fun h => h <> []) hs -> link_holes psort node = Some r ->
  (forall l z, In l (contour node :: hs) -> In z l -> y0 <= snd z <= y1) ->
  Z.abs (shoelace r - (shoelace (contour node) + sum_over shoelace hs)) <= Z.of_nat (length hs) * (y1 - y0).
Proof.
  intros psort node r y0 y1 hs S F H B. destruct (S _ F) as [P _]. apply attach_all_y with (y0 := y0) (y1 := y1) in H.
  - destruct H as [_ H]. fold hs in H. rewrite (Permutation_length P), (sum_perm _ _ _ _ P) in H. exact H.
  - intros l z I. apply B. destruct I as [<-|I]; [now left|right]. fold hs in I. now rewrite P in I.
Qed.

(** The vector has room for everything that is inserted. *)
Theorem C83_room : forall psort node r, let hs := map contour (children node) in
  sorts psort -> Forall (fun h => h <> []) hs -> link_holes psort node = Some r ->
  (length r <= length (contour node) + list_sum (map (fun h => length h + 3) hs))%nat.
Proof.
  intros psort node r hs S F H. destruct (S _ F) as [P _].
  assert (G : forall l o r, attach_all o l = Some r -> (length r <= length o + list_sum (map (fun h => length h + 3) l))%nat).
  { clear. induction l as [|h l IH]; intros o r H; cbn [attach_all] in H; [injection H as <-; cbn; lia|].
    destruct (attach o h) as [o'|] eqn:A; [|discriminate]. apply IH in H. apply attach_length in A.
    change (list_sum (map (fun h => length h + 3) (h :: l)))%nat with (length h + 3 + list_sum (map (fun h => length h + 3) l))%nat. lia. }
  apply G in H. fold hs in H.
  replace (list_sum (map (fun h => length h + 3) hs))%nat with (list_sum (map (fun h => length h + 3) (psort hs)))%nat; [exact H|].
  clear - P. revert P. generalize (psort hs) hs. intros l m P. unfold list_sum. induction P; cbn [map fold_right]; lia.
Qed.

(** The vertices stay in the box of the polygon and its holes.  If the coordinates in it
    are below 2^30, the computation of the start of a bridge stays in 64 bits. *)
Theorem C83_range : forall psort node r x0 x1 y0 y1, let hs := map contour (children node) in
  sorts psort -> Forall (fun h => h <> []) hs -> link_holes psort node = Some r ->
  (forall l z, In l (contour node :: hs) -> In z l -> x0 <= fst z <= x1 /\ y0 <= snd z <= y1) ->
  (forall z, In z r -> x0 <= fst z <= x1 /\ y0 <= snd z <= y1).
Proof.
  intros psort node r x0 x1 y0 y1 hs S F H B z I. destruct (S _ F) as [P _].
  assert (B' : forall l z, In l (contour node :: psort hs) -> In z l -> x0 <= fst z <= x1 /\ y0 <= snd z <= y1).
  { intros l z' J. apply B. destruct J as [<-|J]; [now left|right]. now rewrite P in J. }
  split.
  - apply (attach_all_x _ _ _ _ _ H); [|exact I]. intros l z' J K. now apply (B' l z').
  - refine (proj1 (attach_all_y y0 y1 _ _ _ H _) z I). intros l z' J K. now apply (B' l z').
Qed.
Theorem C83_fits : forall p a b, let fits k := - 2 ^ 63 <= k < 2 ^ 63 in
  (forall z, In z [p; a; b] -> - 2 ^ 30 <= fst z <= 2 ^ 30 /\ - 2 ^ 30 <= snd z <= 2 ^ 30) -> meets p a b = true ->
  fits (fst a - fst b) /\ fits (snd p - snd b) /\ fits ((fst a - fst b) * (snd p - snd b)) /\ fits (snd a - snd b) /\
  snd a - snd b <> 0 /\ fits (edge_x p a b - fst b) /\ fits (edge_x p a b).
Proof.
  intros p a b fits B M. unfold fits. clear fits.
  pose proof (B p (or_introl eq_refl)). pose proof (B a (or_intror (or_introl eq_refl))).
  pose proof (B b (or_intror (or_intror (or_introl eq_refl)))).
  destruct (edge_x_spec p a b M) as (_ & X & _). apply meets_spec in M. set (x := edge_x p a b) in *. clearbody x. clear B.
  change (2 ^ 63) with (8 * (2 ^ 30 * 2 ^ 30)). set (K := 2 ^ 30) in *. assert (0 < K) by (unfold K; lia).
  assert (Q : K <= K * K) by nia. clearbody K.
  assert (Z.abs (fst a - fst b) <= 2 * K) by lia. assert (Z.abs (snd p - snd b) <= 2 * K) by lia.
  assert (Z.abs ((fst a - fst b) * (snd p - snd b)) <= 4 * (K * K)) by (rewrite Z.abs_mul; nia).
  repeat split; lia.
Qed.

(** ** When nothing is lost *)
Lemma whole_start : forall p a b, meets p a b = true -> whole_slope (a, b) ->
  let n := (edge_x p a b, snd p) in
  (fst n - fst b) * (snd a - snd b) = (fst a - fst b) * (snd p - snd b) /\ whole_slope (a, n) /\ whole_slope (n, b).
Proof.
  intros p a b M W n. unfold n. clear n. apply meets_spec in M. destruct W as [W|[s W]]; cbn [fst snd] in *; [lia|].
  assert (E : edge_x p a b = fst b + s * (snd p - snd b)).
  { unfold edge_x. f_equal. replace ((fst a - fst b) * (snd p - snd b)) with (s * (snd p - snd b) * (snd a - snd b)) by nia.
    apply Z.quot_mul. lia. }
  rewrite E. split; [nia|]. unfold whole_slope. cbn [fst snd].
  split; right; [exists s; nia|exists s; nia].
Qed.
Lemma line_split : forall a n b, snd a <> snd b ->
  (fst n - fst b) * (snd a - snd b) = (fst a - fst b) * (snd n - snd b) ->
  forall s y, s = (a, n) \/ s = (n, b) -> snd (fst s) <> snd (snd s) -> xat s y = xat (a, b) y.
Proof.
  intros [ax ay] [nx ny] [bx by_] N E s y Hs Ns. cbn [fst snd] in *.
  assert (DR : (IZR by_ - IZR ay <> 0)%R) by (rewrite <- minus_IZR; apply not_0_IZR; lia).
  assert (ER : ((IZR nx - IZR bx) * (IZR ay - IZR by_) = (IZR ax - IZR bx) * (IZR ny - IZR by_))%R)
    by (rewrite <- !minus_IZR, <- !mult_IZR; now f_equal).
  assert (X : IZR nx = (IZR bx + (IZR ax - IZR bx) * (IZR ny - IZR by_) / (IZR ay - IZR by_))%R).
  { rewrite <- ER. field. lra. }
  destruct Hs as [-> | ->]; cbn [fst snd] in Ns; unfold xat; cbn [fst snd]; rewrite X; field.
  - assert (IZR ny - IZR ay <> 0)%R by (rewrite <- minus_IZR; apply not_0_IZR; lia). repeat split; lra.
  - assert (IZR by_ - IZR ny <> 0)%R by (rewrite <- minus_IZR; apply not_0_IZR; lia). repeat split; lra.
Qed.
Lemma attach_exact : forall o h r, attach o h = Some r ->
  (forall e, In e (edges o) -> whole_slope e) -> (forall e, In e (edges h) -> whole_slope e) ->
  (forall q, winding q r = winding q o + winding q h) /\ shoelace r = shoelace o + shoelace h /\
  (forall e, In e (edges r) -> whole_slope e).
Proof.
  intros o h r H Wo Wh.
  destruct (attach_spec _ _ _ H) as (p & a & b & rest & x & w & _ & P1 & M & -> & _ & _ & P2 & _).
  assert (Wab : whole_slope (a, b)) by (apply Wo; rewrite P1; now left).
  destruct (whole_start p a b M Wab) as (E & W1 & W2). cbn [fst snd] in E.
  set (n := (edge_x p a b, snd p)) in *. pose proof M as M'. apply meets_spec in M'. split; [|split].
  - intros q. unfold winding. rewrite (attach_sum (passes q) p a n b _ _ _ _ (passes_odd q) P1 P2).
    destruct (split_passes q a n b) as [S|[S|S]]; try (unfold n; cbn [fst snd]; lia).
    + lia.
    + exfalso. destruct S as (Ns & _ & S & _). apply S. apply (line_split a n b); auto; lia.
    + exfalso. destruct S as (Ns & _ & S & _). apply S. apply (line_split a n b); auto; lia.
  - rewrite !shoelace_sum, (attach_sum cross2 p a n b _ _ _ _ cross2_odd P1 P2). unfold cross2, n in *. cbn [fst snd] in *.
    set (X := edge_x p a b) in *. clearbody X. nia.
  - intros e I. rewrite P2 in I. destruct I as [<-|[<-|[<-|I]]]; [exact W1|now left|now left|].
    apply in_app_iff in I. destruct I as [I|I]; [now apply Wh|]. apply in_app_iff in I. destruct I as [I|I].
    + unfold joint in I. destruct (_ && _); [destruct I|]. destruct I as [<-|[]]. exact W2.
    + apply Wo. rewrite P1. now right.
Qed.
(** With vertical, horizontal and 45 degree edges only (more generally, whole slopes), the
    outline stands for the polygon and its holes exactly, everywhere. *)
Theorem C83_exact : forall psort node r, let hs := map contour (children node) in
  sorts psort -> Forall (fun h => h <> []) hs -> link_holes psort node = Some r ->
  (forall l e, In l (contour node :: hs) -> In e (edges l) -> whole_slope e) ->
  stands_exactly (contour node) hs r.
Proof.
  intros psort node r hs S F H W. destruct (S _ F) as [P _].
  assert (G : forall l o r, attach_all o l = Some r -> (forall k e, In k (o :: l) -> In e (edges k) -> whole_slope e) -> stands_exactly o l r).
  { clear. induction l as [|h l IH]; intros o r H W; cbn [attach_all] in H.
    - injection H as <-. split; [intros q|]; cbn; lia.
    - destruct (attach o h) as [o'|] eqn:A; [|discriminate].
      destruct (attach_exact o h o' A) as (E1 & E2 & E3); [intros e; apply W; now left|intros e; apply W; right; now left|].
      destruct (IH o' r H) as [I1 I2].
      { intros k e [<-|I]; [apply E3|apply W; right; now right]. }
      split; [intros q; rewrite sum_cons, I1, E1; lia|rewrite sum_cons, I2, E2; lia]. }
  destruct (G _ _ _ H) as [G1 G2].
  { intros k e I. apply W. destruct I as [<-|I]; [now left|right]. fold hs in I. now rewrite P in I. }
  fold hs in G1, G2. split; [intros q; rewrite G1|rewrite G2]; now rewrite (sum_perm _ _ _ _ P).
Qed.

(** ** When a bridge is found *)
Lemma attach_defined : forall o h, h <> [] ->
  (forall p, leftmost p h -> exists e, In e (edges o) /\ meets p (fst e) (snd e) = true /\ edge_x p (fst e) (snd e) <= fst p) ->
  attach o h <> None.
Proof.
  intros o h N H. unfold attach. destruct (min_element h) as [k|] eqn:K; [|destruct h; [now destruct N|discriminate K]].
  destruct (min_element_spec _ _ K) as (s & t & Eh & _ & Hs & Ht). set (p := nth k h (0, 0)) in *.
  destruct (H p) as (e & Ie & M & L); [exists s, t; auto|].
  destruct o as [|o0 os]; [destruct Ie|]. destruct (search p 0 _ _ None) as [[i x]|] eqn:S; [discriminate|].
  exfalso. assert (G : forall e, In e (links (last (o0 :: os) (0, 0)) (o0 :: os)) -> meets p (fst e) (snd e) = true -> fst p < edge_x p (fst e) (snd e))
    by (apply (search_none (o0 :: os) p 0), S).
  enough (In e (links (last (o0 :: os) (0, 0)) (o0 :: os))) by (specialize (G e H0 M); lia).
  rewrite links_edges, links_app in Ie. cbn [links] in Ie |- *. apply in_app_iff in Ie.
  destruct Ie as [Ie|[<-|[]]]; [now right|left]. f_equal. apply last_cons.
Qed.
Lemma edge_left : forall p a b, meets p a b = true -> (xat (a, b) (IZR (snd p)) <= IZR (fst p))%R -> edge_x p a b <= fst p.
Proof.
  intros p a b M L. destruct (start_of p a b M) as (_ & _ & B). apply Rabs_def2 in B.
  apply Z.lt_succ_r. apply lt_IZR. unfold Z.succ. rewrite plus_IZR. lra.
Qed.

(** An edge that is met at the height of [p] is still met, up to one unit, when a hole has
    been joined to the outline. *)
Lemma attach_meets : forall m e p o h r, 0 <= m -> snd (fst e) <> snd (snd e) -> attach o h = Some r ->
  (exists s, In s (edges o) /\ meets p (fst s) (snd s) = true /\ follows m e (fst s) /\ follows m e (snd s)) ->
  exists s, In s (edges r) /\ meets p (fst s) (snd s) = true /\ follows (m + 1) e (fst s) /\ follows (m + 1) e (snd s).
Proof.
  intros m e p o h r M0 Ne A (s & Is & Ms & F1 & F2).
  destruct (attach_spec _ _ _ A) as (p' & a & b & rest & x & w & _ & P1 & M & -> & _ & _ & P2 & _).
  assert (U : forall z, follows m e z -> follows (m + 1) e z) by (intros z; apply follows_le; lia).
  rewrite P1 in Is. destruct Is as [<-|Is].
  - cbn [fst snd] in *. set (n := (edge_x p' a b, snd p')) in *.
    assert (Fn : follows (m + 1) e n).
    { destruct (start_of p' a b M) as (N' & R & S). split.
      - apply (in_range_sub e (a, b)); [apply F1|apply F2|exact R].
      - cbn [n fst snd]. assert (O : (Rabs (xat e (IZR (snd p')) - xat (a, b) (IZR (snd p'))) <= IZR m)%R)
          by (apply off_segment; auto; [apply F1|apply F2]).
        replace (xat e (IZR (snd p')) - IZR (edge_x p' a b))%R
          with ((xat e (IZR (snd p')) - xat (a, b) (IZR (snd p'))) + (xat (a, b) (IZR (snd p')) - IZR (edge_x p' a b)))%R by ring.
        eapply Rle_trans; [apply Rabs_triang|]. rewrite plus_IZR. lra. }
    apply meets_spec in M, Ms.
    assert (C : meets p a n = true \/ (meets p n b = true /\ snd n <> snd b)).
    { rewrite !meets_spec. unfold n. cbn [fst snd]. lia. }
    destruct C as [C|[C C']].
    + exists (a, n). split; [rewrite P2; now left|]. split; [exact C|]. split; [now apply U|exact Fn].
    + exists (n, b). split.
      * rewrite P2. right. right. right. apply in_app_iff. right. apply in_app_iff. left. unfold joint.
        destruct (Z.eqb_spec (snd n) (snd b)) as [E|E]; [now destruct C'|]. rewrite andb_false_r. now left.
      * split; [exact C|]. split; [exact Fn|now apply U].
  - exists s. split; [|auto]. rewrite P2. right. right. right. apply in_app_iff. right. apply in_app_iff. now right.
Qed.
Lemma attach_all_defined : forall hs m o, 0 <= m ->
  (forall h, In h hs -> h <> [] /\ forall p, leftmost p h -> exists e,
     snd (fst e) <> snd (snd e) /\ (xat e (IZR (snd p)) + IZR (m + Z.of_nat (length hs) - 1) <= IZR (fst p))%R /\
     exists s, In s (edges o) /\ meets p (fst s) (snd s) = true /\ follows m e (fst s) /\ follows m e (snd s)) ->
  attach_all o hs <> None.
Proof.
  induction hs as [|h hs IH]; intros m o M0 H; cbn [attach_all]; [discriminate|].
  destruct (attach o h) as [o'|] eqn:A.
  - apply (IH (m + 1)); [lia|]. intros h' I. destruct (H h' (or_intror I)) as [N H']. split; [exact N|].
    intros p L. destruct (H' p L) as (e & Ne & X & S). exists e. split; [exact Ne|]. split.
    + replace (m + 1 + Z.of_nat (length hs) - 1) with (m + Z.of_nat (length (h :: hs)) - 1) by (cbn [length]; lia). exact X.
    + apply (attach_meets m e p o h o'); assumption.
  - exfalso. revert A. destruct (H h (or_introl eq_refl)) as [N H']. apply attach_defined; [exact N|].
    intros p L. destruct (H' p L) as (e & Ne & X & (s & Is & Ms & F1 & F2)). exists s. split; [exact Is|]. split; [exact Ms|].
    apply edge_left; [exact Ms|]. rewrite <- surjective_pairing.
    assert (Rs : in_range s (IZR (snd p))) by (apply meets_spec in Ms; unfold in_range; split; apply IZR_le; lia).
    assert (O : (Rabs (xat e (IZR (snd p)) - xat s (IZR (snd p))) <= IZR m)%R)
      by (apply off_segment; [exact Ne|apply meets_spec in Ms; lia|exact Rs|apply F1|apply F2]).
    assert (IZR m <= IZR (m + Z.of_nat (length (h :: hs)) - 1))%R by (apply IZR_le; cbn [length]; lia).
    revert O. unfold Rabs. destruct (Rcase_abs _); intros; lra.
Qed.
(** The holes can be joined if, at the height of its leftmost vertex, each has an edge of
    the outer polygon on its left, as many units away as there are other holes. *)
Theorem C83_defined : forall psort node, let hs := map contour (children node) in
  sorts psort -> Forall (fun h => h <> []) hs ->
  (forall h p, In h hs -> leftmost p h -> exists e x0, In e (edges (contour node)) /\ reaches p e x0 /\
     (x0 + IZR (Z.of_nat (length hs) - 1) <= IZR (fst p))%R) ->
  link_holes psort node <> None.
Proof.
  intros psort node hs S F H. destruct (S _ F) as [P _].
  apply (attach_all_defined (psort hs) 0 (contour node)); [lia|].
  intros h I. rewrite P in I. split; [exact (proj1 (Forall_forall _ _) F h I)|]. intros p L.
  destruct (H h p I L) as (e & x0 & Ie & R & X). apply reaches_meets in R. destruct R as [M ->].
  assert (N : snd (fst e) <> snd (snd e)) by (apply meets_spec in M; lia).
  exists e. split; [exact N|]. split.
  - rewrite (Permutation_length P). exact X.
  - exists e. split; [exact Ie|]. split; [exact M|]. split; apply follows_end; auto.
Qed.

(** A point inside a polygon has an edge on its left. *)
Lemma round_links : forall (Q : zpt -> Prop) l p, (forall e, In e (links p l) -> Q (snd e) -> Q (fst e)) ->
  forall z, In z l -> Q z -> Q p.
Proof.
  intros Q. induction l as [|y l IH]; intros p H z I Hz; [destruct I|]. destruct I as [->|I].
  - apply (H (p, z)); [now left|exact Hz].
  - apply (H (p, y)); [now left|]. cbn [snd]. apply (IH y) with z; auto. intros e He. apply H. now right.
Qed.
Lemma round : forall (Q : zpt -> Prop) (l : zpath), (forall e, In e (edges l) -> Q (snd e) -> Q (fst e)) ->
  forall z, In z l -> Q z -> forall y, In y l -> Q y.
Proof.
  intros Q [|p l] H z I Hz y J; [destruct I|]. rewrite links_edges in H.
  assert (Hp : Q p).
  { destruct I as [->|I]; [exact Hz|]. apply (round_links Q (l ++ [p]) p H z); [apply in_app_iff; now left|exact Hz]. }
  destruct J as [<-|J]; [exact Hp|]. apply in_split in J. destruct J as (l1 & l2 & ->).
  apply (round_links Q (l2 ++ [p]) y) with p; [|apply in_app_iff; right; now left|exact Hp].
  intros e He. apply H. rewrite <- app_assoc. cbn [app]. rewrite links_mid. apply in_app_iff. now right.
Qed.
Lemma enclosed_left : forall p o, enclosed p o -> ~ on_outline p o ->
  exists e x0, In e (edges o) /\ reaches p e x0 /\ (x0 <= IZR (fst p))%R.
Proof.
  intros p o En No. unfold enclosed in En. rewrite (odd_number_bool _ (crossb p)) in En by apply crossb_spec.
  assert (St : parity (map (straddle (snd p)) (edges o)) = false).
  { destruct o as [|o0 o]; [reflexivity|]. rewrite links_edges, straddle_even, last_last. apply xorb_nilpotent. }
  assert (X : exists e, In e (edges o) /\ straddle (snd p) e = true /\ crossb p e = false).
  { destruct (existsb (fun e => straddle (snd p) e && negb (crossb p e)) (edges o)) eqn:B.
    - apply existsb_exists in B. destruct B as (e & I & B). apply andb_true_iff in B. destruct B as [B1 B2].
      apply negb_true_iff in B2. eauto.
    - exfalso. assert (Eq : map (crossb p) (edges o) = map (straddle (snd p)) (edges o)); [|rewrite Eq in En; congruence].
      apply map_ext_in. intros e I. destruct (straddle (snd p) e) eqn:S1, (crossb p e) eqn:S2; try reflexivity.
      + exfalso. assert (existsb (fun e => straddle (snd p) e && negb (crossb p e)) (edges o) = true); [|congruence].
        apply existsb_exists. exists e. rewrite S1, S2. auto.
      + unfold crossb in S2. rewrite S1 in S2. discriminate. }
  destruct X as (e & Ie & S1 & S2). apply straddle_spec in S1.
  assert (NC : ~ crosses p e) by (intros C; apply crossb_spec in C; congruence).
  set (Q := fun z : zpt => snd z = snd p /\ fst z <= fst p).
  assert (L : forall t, (0 <= t <= 1)%R -> snd (along (fst e) (snd e) t) = IZR (snd p) -> (fst (along (fst e) (snd e) t) <= IZR (fst p))%R).
  { intros t T Y. apply Rnot_lt_le. intros G. apply NC. split; [exact S1|]. exists t. auto. }
  destruct (Z.eq_dec (snd (fst e)) (snd p)) as [Ea|Ea].
  2: { destruct (in_range_t e (IZR (snd p))) as (t & T & Y & X); [lia|unfold in_range; split; apply IZR_le; lia|].
       exists e, (xat e (IZR (snd p))). split; [exact Ie|]. split; [apply reaches_meets; split; [apply meets_spec; lia|reflexivity]|].
       rewrite X. apply (L t T). unfold along. cbn [fst snd]. now rewrite Y. }
  (* the edge goes down from a vertex as high as p: the edge before it, or one before that *)
  assert (Qa : Q (fst e)).
  { split; [exact Ea|]. apply le_IZR. specialize (L 0%R ltac:(lra)). unfold along in L. cbn [fst snd] in L.
    replace (IZR (fst (fst e)) + 0 * (IZR (fst (snd e)) - IZR (fst (fst e))))%R with (IZR (fst (fst e))) in L by ring.
    apply L. rewrite <- Ea. ring. }
  destruct (existsb (fun s => meets p (fst s) (snd s) && (edge_x p (fst s) (snd s) <=? fst p) && (snd (snd s) =? snd p)) (edges o)) eqn:B.
  { apply existsb_exists in B. destruct B as (s & Is & B). rewrite !andb_true_iff, Z.leb_le, Z.eqb_eq in B. destruct B as ((B1 & B2) & B3).
    exists s, (xat s (IZR (snd p))). split; [exact Is|]. split; [apply reaches_meets; auto|].
    assert (Ex : edge_x p (fst s) (snd s) = fst (snd s)).
    { unfold edge_x. rewrite B3, Z.sub_diag, Z.mul_0_r, Z.quot_0_l; [lia|]. apply meets_spec in B1. lia. }
    rewrite Ex in B2. apply IZR_le in B2. apply meets_spec in B1.
    assert (DR : (IZR (snd (snd s)) - IZR (snd (fst s)) <> 0)%R) by (rewrite <- minus_IZR; apply not_0_IZR; lia).
    unfold xat. rewrite <- B3. replace ((IZR (snd (snd s)) - IZR (snd (fst s))) / (IZR (snd (snd s)) - IZR (snd (fst s))))%R with 1%R by (field; exact DR).
    lra. }
  exfalso.
  assert (Back : forall s, In s (edges o) -> Q (snd s) -> Q (fst s)).
  { intros s Is [Y X]. destruct (Z.eq_dec (snd (fst s)) (snd p)) as [E|E].
    - split; [exact E|]. destruct (Z.le_gt_cases (fst (fst s)) (fst p)) as [G|G]; [exact G|]. exfalso. apply No.
      apply Exists_exists. exists s. split; [exact Is|].
      assert (D : (IZR (fst (snd s)) < IZR (fst (fst s)))%R) by (apply IZR_lt; lia).
      exists ((IZR (fst p) - IZR (fst (fst s))) / (IZR (fst (snd s)) - IZR (fst (fst s))))%R. split.
      + apply IZR_le in X. assert (G' : (IZR (fst p) < IZR (fst (fst s)))%R) by (apply IZR_lt; lia).
        replace ((IZR (fst p) - IZR (fst (fst s))) / (IZR (fst (snd s)) - IZR (fst (fst s))))%R
          with ((IZR (fst (fst s)) - IZR (fst p)) / (IZR (fst (fst s)) - IZR (fst (snd s))))%R by (field; lra).
        split; [apply Rmult_le_pos; [lra|left; apply Rinv_0_lt_compat; lra]|].
        apply Rmult_le_reg_r with (IZR (fst (fst s)) - IZR (fst (snd s)))%R; [lra|].
        unfold Rdiv. rewrite Rmult_assoc, Rinv_l by lra. lra.
      + unfold along. rewrite E, Y. f_equal; [field; lra|ring].
    - exfalso. assert (existsb (fun s => meets p (fst s) (snd s) && (edge_x p (fst s) (snd s) <=? fst p) && (snd (snd s) =? snd p)) (edges o) = true); [|congruence].
      apply existsb_exists. exists s. split; [exact Is|]. rewrite !andb_true_iff, Z.leb_le, Z.eqb_eq. split; [split|exact Y].
      + apply meets_spec. lia.
      + unfold edge_x. rewrite Y, Z.sub_diag, Z.mul_0_r, Z.quot_0_l; lia. }
  destruct (edges_in _ _ Ie) as [I1 I2].
  destruct (round Q o Back _ I1 Qa _ I2) as [Y _]. lia.
Qed.
(** One hole, whose leftmost vertex is inside the polygon, can always be joined. *)
Theorem C83_one_hole : forall psort node h, sorts psort -> map contour (children node) = [h] -> h <> [] ->
  (forall p, leftmost p h -> enclosed p (contour node) /\ ~ on_outline p (contour node)) ->
  link_holes psort node <> None.
Proof.
  intros psort node h S E N H. apply C83_defined; [exact S|rewrite E; constructor; auto|]. rewrite E.
  intros h' p [<-|[]] L. destruct (H p L) as [H1 H2]. destruct (enclosed_left p _ H1 H2) as (e & x0 & A & B & C).
  exists e, x0. split; [exact A|]. split; [exact B|]. cbn. lra.
Qed.

(** ** The tree *)
Definition fams_at (hole : bool) (t : ptree) : list (zpath * list zpath) :=
  if hole then flat_map families (children t) else families t.
Fixpoint rest_at (hole : bool) (later : list (list ptree)) : list (zpath * list zpath) :=
  match later with [] => [] | l :: up => flat_map (fams_at hole) l ++ rest_at (negb hole) up end.
Fixpoint level (later : list (list ptree)) : bool := match later with [] => true | _ :: up => negb (level up) end.
Lemma is_hole_level : forall c, is_hole c = level (snd c).
Proof.
  intros [t later]. unfold is_hole. cbn [snd].
  assert (G : forall (l : list (list ptree)) b, fold_left (fun r _ => negb r) l b = if level l then b else negb b).
  { induction l as [|x l IH]; intros b; [reflexivity|]. cbn [fold_left level]. rewrite IH. destruct (level l), b; reflexivity. }
  rewrite G. now destruct (level later).
Qed.
Lemma fams_at_eq : forall hole t, fams_at hole t =
  (if hole then [] else [(contour t, map contour (children t))]) ++ flat_map (fams_at (negb hole)) (children t).
Proof.
  intros hole [c l]. unfold fams_at. destruct hole; cbn [negb children contour app].
  - reflexivity.
  - cbn [families]. f_equal. apply flat_map_ext. now intros [c' m].
Qed.
Definition todo (c : cursor) : list (zpath * list zpath) := fams_at (level (snd c)) (fst c) ++ rest_at (level (snd c)) (snd c).
Definition todo_opt (c : option cursor) : list (zpath * list zpath) := match c with None => [] | Some c => todo c end.
Definition weight (c : cursor) : nat := (size (fst c) + list_sum (map (fun l => list_sum (map size l)) (snd c)))%nat.
Definition weight_opt (c : option cursor) : nat := match c with None => O | Some c => weight c end.
Lemma sibling_up_spec : forall later, rest_at (level later) later = todo_opt (sibling_up later) /\
  weight_opt (sibling_up later) = list_sum (map (fun l => list_sum (map size l)) later).
Proof.
  induction later as [|[|y r] up [IH1 IH2]]; [split; reflexivity| |].
  - cbn [rest_at level flat_map app sibling_up]. rewrite negb_involutive. split; [exact IH1|rewrite IH2; reflexivity].
  - cbn [sibling_up todo_opt weight_opt]. unfold todo, weight. cbn [fst snd rest_at flat_map level].
    split; [now rewrite <- app_assoc|]. cbn [map]. unfold list_sum. cbn [fold_right]. lia.
Qed.
Lemma get_next_spec : forall c, todo c =
  (if is_hole c then [] else [(contour (fst c), map contour (children (fst c)))]) ++ todo_opt (get_next c) /\
  weight c = S (weight_opt (get_next c)).
Proof.
  intros [t later]. rewrite is_hole_level. unfold todo, get_next. cbn [fst snd]. rewrite fams_at_eq, <- app_assoc.
  destruct t as [c l]. cbn [children contour]. destruct l as [|x r].
  - destruct (sibling_up_spec later) as [E1 E2]. split; [f_equal; exact E1|]. rewrite E2. reflexivity.
  - split; [f_equal; cbn [todo_opt]; unfold todo; cbn [fst snd level rest_at flat_map]; rewrite negb_involutive, <- !app_assoc; reflexivity|].
    cbn [weight_opt]. unfold weight. cbn [fst snd map size children]. unfold list_sum. cbn [fold_right]. lia.
Qed.
Lemma walk_spec : forall psort, psort [] = [] -> forall fuel node out res, walk psort fuel node out = Some res ->
  exists outs, res = out ++ outs /\ Forall2 (fun f r => attach_all (fst f) (psort (snd f)) = Some r) (todo_opt node) outs.
Proof.
  intros psort P0. induction fuel as [|n IH]; intros [c|] out res H; cbn [walk] in H; try discriminate.
  - injection H as <-. exists []. rewrite app_nil_r. split; [reflexivity|constructor].
  - cbn [todo_opt]. destruct (get_next_spec c) as [E _]. rewrite E. clear E. destruct (is_hole c).
    + apply IH in H. exact H.
    + assert (G : exists r, attach_all (contour (fst c)) (psort (map contour (children (fst c)))) = Some r /\
                             walk psort n (get_next c) (out ++ [r]) = Some res).
      { destruct (children (fst c)) as [|x l] eqn:Ch.
        - exists (contour (fst c)). cbn [map]. rewrite P0. auto.
        - unfold link_holes in H. rewrite Ch in H. destruct (attach_all _ _) as [r|]; [|discriminate]. exists r. auto. }
      destruct G as (r & G1 & G2). apply IH in G2. destruct G2 as (outs & -> & F). exists (r :: outs).
      split; [now rewrite <- app_assoc|]. cbn [app]. constructor; assumption.
  - injection H as <-. exists []. rewrite app_nil_r. split; [reflexivity|constructor].
Qed.
Lemma walk_defined : forall psort, psort [] = [] -> forall fuel node out, (weight_opt node <= fuel)%nat ->
  (forall f, In f (todo_opt node) -> attach_all (fst f) (psort (snd f)) <> None) -> walk psort fuel node out <> None.
Proof.
  intros psort P0. induction fuel as [|n IH]; intros [c|] out W D; cbn [walk]; try discriminate.
  - destruct (get_next_spec c) as [_ E]. cbn [weight_opt] in W. lia.
  - cbn [todo_opt weight_opt] in *. destruct (get_next_spec c) as [E Ew]. rewrite E in D. rewrite Ew in W. clear E Ew. destruct (is_hole c).
    + apply IH; [lia|exact D].
    + assert (D1 := D _ (or_introl eq_refl)). cbn [fst snd] in D1.
      destruct (children (fst c)) as [|x l] eqn:Ch.
      * apply IH; [lia|]. intros f I. apply D. now right.
      * unfold link_holes. rewrite Ch. destruct (attach_all _ _) as [r|]; [|now destruct D1].
        apply IH; [lia|]. intros f I. apply D. now right.
Qed.
Lemma todo_first : forall roots, todo_opt (get_first roots) = flat_map families roots /\
  weight_opt (get_first roots) = list_sum (map size roots).
Proof.
  intros [|x r]; [split; reflexivity|]. cbn [get_first todo_opt weight_opt]. unfold todo, weight. cbn [fst snd level rest_at negb fams_at flat_map].
  split.
  - rewrite app_nil_r. reflexivity.
  - cbn [map]. unfold list_sum. cbn [fold_right]. lia.
Qed.
Lemma sorts_nil : forall psort, sorts psort -> psort [] = [].
Proof.
  intros psort S. destruct (S [] (Forall_nil _)) as [P _]. now apply Permutation_nil, Permutation_sym.
Qed.

(** Each outer outline of the tree, at whatever depth, gives one polygon, which stands for
    it and for the holes in it, in the order of the tree. *)
Theorem C83_tree : forall psort roots out, sorts psort -> Forall (fun l => l <> []) (flat_map all_contours roots) ->
  tree2paths psort roots = Some out ->
  Forall2 (fun f r => stands_for (Z.of_nat (length (snd f))) (fst f) (snd f) r) (flat_map families roots) out /\
  Permutation (flat_map (fun f => fst f :: snd f) (flat_map families roots)) (flat_map all_contours roots).
Proof.
  intros psort roots out S F H.
  assert (Perm : Permutation (flat_map (fun f => fst f :: snd f) (flat_map families roots)) (flat_map all_contours roots)).
  { clear. assert (G : forall n t, (size t <= n)%nat -> Permutation (flat_map (fun f => fst f :: snd f) (families t)) (all_contours t)).
    { induction n as [|n IH]; intros [c l] L; [cbn in L; lia|].
      cbn [families all_contours flat_map fst snd app]. apply perm_skip.
      assert (Ls : (list_sum (map size l) <= n)%nat) by (change (size (Node c l)) with (S (list_sum (map size l))) in L; lia). clear L. induction l as [|[c' m] l IHl]; [constructor|].
      change (list_sum (map size (Node c' m :: l))) with (S (list_sum (map size m)) + list_sum (map size l))%nat in Ls.
      cbn [map contour flat_map all_contours app]. rewrite flat_map_app.
      apply perm_skip. rewrite <- IHl by lia. rewrite Permutation_app_swap_app. apply Permutation_app_tail.
      assert (Lm : (list_sum (map size m) <= n)%nat) by lia. clear - IH Lm. induction m as [|t m IHm]; [constructor|].
      cbn [flat_map]. rewrite flat_map_app. change (list_sum (map size (t :: m))) with (size t + list_sum (map size m))%nat in Lm.
      apply Permutation_app; [apply IH; lia|apply IHm; lia]. }
    induction roots as [|t r IH]; [constructor|]. cbn [flat_map]. rewrite flat_map_app. apply Permutation_app; [|exact IH].
    apply (G (size t)). lia. }
  split; [|exact Perm].
  unfold tree2paths in H. apply walk_spec in H; [|now apply sorts_nil]. destruct H as (outs & -> & H). cbn [app].
  rewrite (proj1 (todo_first roots)) in H.
  assert (Ne : forall f l, In f (flat_map families roots) -> In l (snd f) -> l <> []).
  { intros f l I J. rewrite <- Perm in F. rewrite Forall_forall in F. apply F. apply in_flat_map. exists f. split; [exact I|now right]. }
  clear Perm F. induction H as [|f r fs rs Hf Hr IH]; constructor.
  - apply link_winding with psort; [exact S| |exact Hf]. apply Forall_forall. intros l. apply Ne. now left.
  - apply IH. intros f' l I. apply Ne. now right.
Qed.
(** Nothing else stops tree2paths: it is defined when the holes of each outline can be joined. *)
Theorem C83_tree_defined : forall psort roots, sorts psort ->
  (forall f, In f (flat_map families roots) -> link_holes psort (Node (fst f) (map (fun h => Node h []) (snd f))) <> None) ->
  tree2paths psort roots <> None.
Proof.
  intros psort roots S D. unfold tree2paths. destruct (todo_first roots) as [E W].
  apply walk_defined; [now apply sorts_nil|lia|]. rewrite E. intros f I. specialize (D f I). unfold link_holes in D.
  cbn [contour children] in D. rewrite map_map in D. cbn [contour] in D. rewrite map_id in D. exact D.
Qed.
(** All the polygons together go around a point as many times as the tree. *)
Theorem C83_total : forall psort roots out q, sorts psort -> Forall (fun l => l <> []) (flat_map all_contours roots) ->
  tree2paths psort roots = Some out ->
  (forall f l e, In f (flat_map families roots) -> In l (fst f :: snd f) -> In e (edges l) -> ~ near (Z.of_nat (length (snd f))) q e) ->
  sum_over (winding q) out = sum_over (winding q) (flat_map all_contours roots).
Proof.
  intros psort roots out q S F H Q. destruct (C83_tree psort roots out S F H) as [T P].
  rewrite <- (sum_perm _ _ _ _ P). clear H P F. induction T as [|f r fs rs Hf Hr IH]; [reflexivity|].
  cbn [flat_map]. rewrite sum_cons, sum_app, sum_cons, (Hf q), IH; [lia| |].
  - intros f' l e I. apply Q. now right.
  - intros l e. apply Q. now left.
Qed.

(** ** Cases *)

(** Insertion sort is one of the orders allowed. *)
Definition min_x (h : zpath) : Z := match min_element h with Some k => fst (nth k h (0, 0)) | None => 0 end.
Fixpoint put (h : zpath) (l : list zpath) : list zpath :=
  match l with [] => [h] | g :: r => if min_x h <=? min_x g then h :: l else g :: put h r end.
Definition by_x (l : list zpath) : list zpath := fold_right put [] l.
Lemma min_x_spec : forall h p, leftmost p h -> fst p = min_x h.
Proof.
  intros h p L. unfold min_x. destruct (min_element h) as [k|] eqn:K.
  - destruct (min_element_spec _ _ K) as (u & v & E & _ & U & V). apply (leftmost_unique _ _ h L). exists u, v. auto.
  - destruct h; [|discriminate K]. destruct L as (u & v & E & _). now destruct u.
Qed.
Lemma min_x_le : forall h q, In q h -> min_x h <= fst q.
Proof.
  intros h q I. destruct (leftmost_exists h) as [p L]; [intros ->; destruct I|]. rewrite <- (min_x_spec _ _ L).
  now apply (leftmost_le p h).
Qed.
Lemma put_perm : forall h l, Permutation (put h l) (h :: l).
Proof.
  intros h. induction l as [|g r IH]; [reflexivity|]. cbn [put]. destruct (_ <=? _); [reflexivity|].
  rewrite IH. apply perm_swap.
Qed.
Lemma put_sorted : forall h l, StronglySorted (fun a b => min_x a <= min_x b) l -> StronglySorted (fun a b => min_x a <= min_x b) (put h l).
Proof.
  intros h. induction l as [|g r IH]; intros S; [repeat constructor|]. cbn [put].
  inversion S as [|? ? S1 F]; subst. destruct (Z.leb_spec (min_x h) (min_x g)) as [L|L].
  - constructor; [exact S|]. constructor; [exact L|]. eapply Forall_impl; [|exact F]. cbv beta. lia.
  - constructor; [now apply IH|]. rewrite put_perm. constructor; [lia|exact F].
Qed.
Lemma by_x_sorts : sorts by_x.
Proof.
  intros l _. split.
  - induction l as [|h l IH]; [reflexivity|]. cbn. rewrite put_perm. now apply perm_skip.
  - assert (G : StronglySorted (fun a b => min_x a <= min_x b) (by_x l)).
    { induction l as [|h l IH]; [constructor|]. now apply put_sorted. }
    induction G as [|a r G IH F]; constructor; [exact IH|]. eapply Forall_impl; [|exact F]. intros b Hb p L q I.
    rewrite (min_x_spec _ _ L). pose proof (min_x_le _ _ I). cbv beta in Hb. lia.
Qed.

(** A square with two holes, the first with an island in it: two polygons. *)
Definition yard : list ptree :=
  [Node [(0, 0); (20, 0); (20, 20); (0, 20)]
     [Node [(10, 10); (10, 18); (18, 18); (18, 10)] [Node [(12, 12); (16, 12); (16, 16); (12, 16)] []];
      Node [(2, 2); (2, 6); (12, 6); (12, 2)] []]].
Example C83_case : tree2paths by_x yard = Some
  [[(0, 10); (10, 10); (10, 18); (18, 18); (18, 10); (10, 10); (0, 10);
    (0, 2); (2, 2); (2, 6); (12, 6); (12, 2); (2, 2); (0, 2); (0, 0); (20, 0); (20, 20); (0, 20)];
   [(12, 12); (16, 12); (16, 16); (12, 16)]] /\
  Forall (fun l => l <> []) (flat_map all_contours yard) /\
  (forall t, In t yard -> forall l e, In l (contour t :: map contour (children t)) -> In e (edges l) -> whole_slope e).
Proof.
  split; [reflexivity|]. split; [repeat constructor; discriminate|].
  intros t [<-|[]] l e I J. cbn in I. unfold whole_slope.
  destruct I as [<-|[<-|[<-|[]]]]; cbn in J;
    repeat (destruct J as [<-|J]; [cbn; first [left; lia|right; exists 0; lia]|]); destruct J.
Qed.

(** A triangle with a hole next to its left edge.  At the height of the hole the edge is at 4.8,
    which becomes 5, and the outline goes through the hole's vertex: twice the area
    differs by 2. *)
Definition tent : zpath := [(6, 0); (10, 6); (3, 10)].
Definition low : zpath := [(5, 4); (6, 5); (6, 4)].
Definition high : zpath := [(4, 9); (8, 6); (6, 7)].
Lemma one_sort : forall psort h, sorts psort -> h <> [] -> psort [h] = [h].
Proof.
  intros psort h S N. destruct (S [h]) as [P _]; [constructor; auto|]. now apply Permutation_sym, Permutation_length_1_inv in P.
Qed.
Theorem C83_area_refuted : forall psort, sorts psort -> exists r,
  link_holes psort (Node tent [Node low []]) = Some r /\ shoelace r <> shoelace tent + shoelace low /\
  (forall z, In z low -> enclosed z tent /\ ~ on_outline z tent).
Proof.
  intros psort S. exists [(5, 4); (5, 4); (6, 5); (6, 4); (5, 4); (5, 4); (6, 0); (10, 6); (3, 10)].
  unfold link_holes. cbn [contour children map]. rewrite (one_sort psort low S) by discriminate.
  split; [reflexivity|]. split; [cbn; lia|]. intros z I.
  assert (Engine.point_in_polygon z tent = 1) by (repeat (destruct I as [<-|I]; [reflexivity|]); destruct I).
  apply C47_point in H; [tauto|cbn; lia].
Qed.
(** With another hole, joined before: the two holes are strictly inside the triangle, one
    above the other, and yet no edge is found for the second, so the end of the vector is read. *)
Theorem C83_inside_refuted :
  (forall z, In z (high ++ low) -> enclosed z tent /\ ~ on_outline z tent) /\
  (forall y z, In y high -> In z low -> snd z < snd y) /\
  0 < shoelace tent /\ shoelace high < 0 /\ shoelace low < 0 /\
  forall psort, sorts psort -> link_holes psort (Node tent [Node high []; Node low []]) = None.
Proof.
  split; [|split; [|split; [cbn; lia|split; [cbn; lia|split; [cbn; lia|]]]]].
  - intros z I. assert (Engine.point_in_polygon z tent = 1) by (repeat (destruct I as [<-|I]; [reflexivity|]); destruct I).
    apply C47_point in H; [tauto|cbn; lia].
  - intros y z I J. repeat (destruct I as [<-|I]; [repeat (destruct J as [<-|J]; [cbn; lia|]); destruct J|]); destruct I.
  - intros psort S. unfold link_holes. cbn [contour children map].
    destruct (S [high; low]) as [P O]; [repeat constructor; discriminate|].
    apply Permutation_sym in P. apply Permutation_length_2_inv in P. destruct P as [P|P]; rewrite P in *; [reflexivity|].
    exfalso. inversion O as [|? ? _ F]; subst. inversion F as [|? ? G _]; subst.
    assert (L : leftmost (5, 4) low).
    { exists [], [(6, 5); (6, 4)]. split; [reflexivity|]. split; [intros q []|]. intros q [<-|[<-|[]]]; cbn; lia. }
    specialize (G _ L (4, 9) (or_introl eq_refl)). cbn in G. lia.
Qed.
(** Nor for a hole whose leftmost vertex touches an edge that runs to the left. *)
Theorem C83_touching_refuted :
  let c := [(0, 0); (10, 0); (10, 10); (0, 10)] in let h := [(5, 10); (8, 5); (6, 5)] in
  leftmost (5, 10) h /\ on_outline (5, 10) c /\ (forall z, In z h -> contains c z) /\
  forall psort, sorts psort -> link_holes psort (Node c [Node h []]) = None.
Proof.
  intros c h. split; [|split; [|split]].
  - exists [], [(8, 5); (6, 5)]. split; [reflexivity|]. split; [intros q []|]. intros q [<-|[<-|[]]]; cbn; lia.
  - apply C47_point; [cbn; lia|reflexivity].
  - intros z I. split; [cbn; lia|]. destruct I as [<-|[<-|[<-|[]]]].
    + left. apply C47_point; [cbn; lia|reflexivity].
    + right. apply C47_point; [cbn; lia|reflexivity].
    + right. apply C47_point; [cbn; lia|reflexivity].
  - intros psort S. unfold link_holes. cbn [contour children map]. rewrite (one_sort psort h S) by discriminate. reflexivity.
Qed.

(** The hypotheses of [C83_defined] for two holes beside a slanted edge. *)
Example C83_defined_case : let node := Node [(30, 0); (60, 30); (0, 33)] [Node [(20, 20); (22, 25); (25, 20)] []; Node [(28, 10); (30, 12); (33, 10)] []] in
  forall h p, In h (map contour (children node)) -> leftmost p h -> exists e x0, In e (edges (contour node)) /\ reaches p e x0 /\
     (x0 + IZR (Z.of_nat (length (map contour (children node))) - 1) <= IZR (fst p))%R.
Proof.
  intros node h p I L. exists ((0, 33), (30, 0)), (xat ((0, 33), (30, 0)) (IZR (snd p))).
  assert (Hp : p = (20, 20) \/ p = (28, 10)).
  { destruct I as [<-|[<-|[]]]; destruct L as (u & v & E & U & V); cbn in E.
    - left. destruct u as [|x u]; [cbn in E; congruence|]. injection E as <- E.
      assert (In p ((20, 20) :: u ++ p :: v)) by (right; apply in_elt). specialize (U (20, 20) (or_introl eq_refl)).
      assert (J : In p [(22, 25); (25, 20)]) by (rewrite E; apply in_elt). destruct J as [<-|[<-|[]]]; cbn in U; lia.
    - right. destruct u as [|x u]; [cbn in E; congruence|]. injection E as <- E.
      specialize (U (28, 10) (or_introl eq_refl)).
      assert (J : In p [(30, 12); (33, 10)]) by (rewrite E; apply in_elt). destruct J as [<-|[<-|[]]]; cbn in U; lia. }
  split; [cbn; tauto|]. split.
  - apply reaches_meets. split; [|reflexivity]. destruct Hp as [-> | ->]; reflexivity.
  - unfold xat. destruct Hp as [-> | ->]; cbn; lra.
Qed.

Print Assumptions C83_joined.
Print Assumptions C83_region.
Print Assumptions C83_area.
Print Assumptions C83_room.
Print Assumptions C83_range.
Print Assumptions C83_fits.
Print Assumptions C83_exact.
Print Assumptions C83_defined.
Print Assumptions C83_one_hole.
Print Assumptions C83_tree.
Print Assumptions C83_tree_defined.
Print Assumptions C83_total.
Print Assumptions C83_area_refuted.
Print Assumptions C83_inside_refuted.
Print Assumptions C83_touching_refuted.
