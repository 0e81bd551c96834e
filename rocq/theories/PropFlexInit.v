(** C67: the FlexPath constructor. *)

From Coq Require Import Reals Lra Lia List ZArith Bool.
From Verif Require Import Plane Curve Engine Flex SpecFlex.
Import ListNotations.
Open Scope R_scope.

(** Number of parallel paths: that of the list of widths if there is one, else that
    of the list of offsets, else one. *)
Definition paths_given (width offset : many R) : nat :=
  match width, offset with Many ws, _ => length ws | One _, Many os => length os | One _, One _ => 1%nat end.
(** A value for parallel path [k]: the same for all, or taken from the list, which is
    repeated as needed. *)
Definition value_for {X} (k : nat) (a : many X) (d : X) : X := match a with One x => x | Many l => nth (k mod length l) l d end.
Definition entry (k : nat) (a : many R) : R := match a with One x => x | Many l => nth k l 0 end.

Lemma cyclic_nth {X} n (a : many X) l k d : cyclic n a = Some l -> (k < n)%nat -> nth k l d = value_for k a d.
Proof.
  intros C K. destruct a as [x|[|x a]]; cbn [cyclic] in C.
  - injection C as <-. cbn [value_for]. revert k K. induction n as [|n IH]; intros [|k] K; try lia; [reflexivity|]. cbn. apply IH. lia.
  - destruct n; [lia|discriminate].
  - injection C as <-. cbn [value_for]. set (f := fun i => nth (i mod length (x :: a)) (x :: a) x).
    rewrite (nth_indep _ d (f 0%nat)) by (rewrite map_length, seq_length; exact K). rewrite map_nth, seq_nth by exact K. unfold f. rewrite Nat.add_0_l.
    assert (B : (k mod length (x :: a) < length (x :: a))%nat) by (apply Nat.mod_upper_bound; discriminate).
    exact (nth_indep (x :: a) x d B).
Qed.
Theorem C67_init : forall pts width offset corners ends bend tol prec max gds wt layer dt f,
  flex_init (Spine pts) width offset corners ends bend tol prec max gds wt layer dt = Some f ->
  f_pts f = pts /\ f_n f = paths_given width offset /\ f_cache f = None /\ f_gds f = gds /\ f_wt f = wt /\ f_tol f = tol /\ f_max f = max /\
  length (f_w f) = length pts /\ length (f_o f) = length pts /\
  forall k, (k < f_n f)%nat ->
    (forall r, In r (f_w f) -> nth k r 0 = entry k width) /\
    nth k (f_corners f) Natural = value_for k corners Natural /\ nth k (f_ends f) Flush = value_for k ends Flush /\
    nth k (f_bend f) None = value_for k bend None /\ nth k (f_layers f) 0%Z = value_for k layer 0%Z /\ nth k (f_dts f) 0%Z = value_for k dt 0%Z.
Proof.
  intros pts width offset corners ends bend tol prec max gds wt layer dt f H. unfold flex_init in H.
  destruct (start_rows width offset) as [[n w] o] eqn:S.
  destruct (cyclic n ends) as [e|] eqn:E; [|discriminate]. destruct (cyclic n corners) as [c|] eqn:C; [|discriminate].
  destruct (cyclic n bend) as [b|] eqn:B; [|discriminate]. destruct (cyclic n layer) as [l|] eqn:L; [|discriminate].
  destruct (cyclic n dt) as [d|] eqn:D; [|discriminate]. injection H as <-. cbn [f_pts f_n f_cache f_gds f_wt f_tol f_max f_w f_o f_corners f_ends f_bend f_layers f_dts].
  assert (N : n = paths_given width offset).
  { unfold start_rows in S. destruct width, offset; injection S as <- <- <-; reflexivity. }
  split; [reflexivity|]. split; [exact N|]. do 5 (split; [reflexivity|]). split; [apply repeat_length|]. split; [apply repeat_length|].
  intros k K. split; [|split; [|split; [|split; [|split]]]]; try (eapply cyclic_nth; eassumption).
  intros r R. apply repeat_spec in R. subst r. unfold start_rows in S. destruct width as [x|ws]; cbn [entry].
  - destruct offset as [y|os]; injection S as <- <- <-; [destruct k as [|k]; [reflexivity|lia]|].
    clear - K. revert k K. induction (length os) as [|m IH]; intros [|k] K; try lia; [reflexivity|]. cbn. apply IH. lia.
  - injection S as <- <- <-. reflexivity.
Qed.
(** The offsets: a list gives them; a number is the offset of a single path, and
    otherwise the distance between neighbours, which are centred about the spine. *)
Theorem C67_offsets : forall pts width offset corners ends bend tol prec max gds wt layer dt f,
  flex_init (Spine pts) width offset corners ends bend tol prec max gds wt layer dt = Some f ->
  forall r, In r (f_o f) ->
  match offset, width with
  | Many os, _ => r = os
  | One o, One _ => r = [o]
  | One o, Many ws => length r = length ws /\
      (forall k, (S k < length ws)%nat -> nth (S k) r 0 - nth k r 0 = o) /\
      (forall k, (k < length ws)%nat -> nth k r 0 + nth (length ws - 1 - k) r 0 = 0)
  end.
Proof.
  intros pts width offset corners ends bend tol prec max gds wt layer dt f H r R. unfold flex_init in H.
  destruct (start_rows width offset) as [[n w] o] eqn:S.
  destruct (cyclic n ends) as [e|]; [|discriminate]. destruct (cyclic n corners) as [c|]; [|discriminate].
  destruct (cyclic n bend) as [b|]; [|discriminate]. destruct (cyclic n layer) as [l|]; [|discriminate].
  destruct (cyclic n dt) as [d|]; [|discriminate]. injection H as <-. cbn [f_o] in R. apply repeat_spec in R. subst r.
  unfold start_rows in S. destruct width as [x|ws], offset as [y|os]; injection S as <- <- <-; try reflexivity.
  set (g := fun i => (INR i - / 2 * (INR (length ws) - 1)) * y).
  assert (G : forall k, (k < length ws)%nat -> nth k (map g (seq 0 (length ws))) 0 = g k).
  { intros k K. rewrite (nth_indep _ 0 (g 0%nat)) by (rewrite map_length, seq_length; exact K). rewrite map_nth, seq_nth by exact K. reflexivity. }
  split; [now rewrite map_length, seq_length|]. split; intros k K.
  - rewrite !G by lia. unfold g. rewrite S_INR. ring.
  - rewrite !G by lia. unfold g. rewrite minus_INR, minus_INR by lia. cbn [INR]. field.
Qed.
Example C67_case : exists f, flex_init (Spine [(0, 0); (1, 0)]) (Many [1; 2; 3]) (One 5) (One Miter) (Many [Flush; Extended]) (One None) (/ 100) (/ 1000) 199
    false true (Many [1; 2]%Z) (One 7%Z) = Some f /\ f_layers f = [1; 2; 1]%Z /\ f_ends f = [Flush; Extended; Flush] /\ nth 2 (hd [] (f_o f)) 0 = 5.
Proof. eexists. split; [reflexivity|]. split; [reflexivity|]. split; [reflexivity|]. cbn. lra. Qed.
Print Assumptions C67_init.
Print Assumptions C67_offsets.
