(** C78: smooth sections of FlexPath. *)

From Coq Require Import Reals Lra Lia List Arith ZArith Bool.
From Verif Require Import Plane PlaneProofs Curve Engine SpecCurve CurveProofs PropCurve Flex SpecFlex PropFlexEnds SpecSpine SpecSmooth Smooth Gauss PropSmooth PropSmoothMore PropRobustSmooth.
Import ListNotations.
Open Scope R_scope.

Section Call.
Context (fuel : nat) (hob : pt * pt -> R * R -> pt * pt) (eng : op -> list zpath -> list zpath -> list zpath).
Definition none3 : pt * pt * pt := ((0, 0), (0, 0), (0, 0)).
Lemma sections_steps : forall secs w o f g, f_sections fuel secs w o f = Some g ->
  exists st : nat -> flex, st 0%nat = f /\ st (length secs) = g /\
    forall i, (i < length secs)%nat -> let '(a, b, e) := nth i secs none3 in do_call fuel hob eng (Bezier [a; b; e] w o false) (st i) = Some (st (S i)).
Proof.
  induction secs as [|[[a b] e] secs IH]; intros w o f g H; cbn [f_sections] in H.
  - injection H as <-. exists (fun _ => f). repeat split. intros i I. cbn in I. lia.
  - destruct (f_bezier fuel [a; b; e] w o false f) as [h|] eqn:B; [|discriminate]. destruct (IH _ _ _ _ H) as (st & S0 & SL & ST).
    exists (fun i => match i with O => f | S i => st i end). split; [reflexivity|]. split; [exact SL|]. intros [|i] I.
    + cbn [nth do_call]. now rewrite S0.
    + cbn [length] in I. exact (ST i ltac:(lia)).
Qed.
Lemma flat3_ext : forall f g tol u v, (forall x, f x = g x) -> flat3 f tol u v -> flat3 g tol u v.
Proof. intros f g tol u v E H t T. rewrite <- !E. now apply H. Qed.
Lemma links_imp : forall {X} (P Q : X -> X -> Prop) l a, (forall x y, P x y -> Q x y) -> links P a l -> links Q a l.
Proof. intros X P Q l. induction l as [|b l IH]; intros a I H; [exact H|]. destruct H as [H1 H2]. split; [now apply I|now apply IH]. Qed.
Lemma bezier_cubic : forall p a b e u, bezier [p; a; b; e] u = cubic p a b e u.
Proof. intros p a b e u. rewrite C31_bernstein by discriminate. apply PropRobustSmooth.cubic_bernstein. Qed.

(** smooth makes the calls of bezier for the arcs between consecutive points, with the
    control points computed for them; the last arc of a closed curve leads back to the
    start.  The points that are added lie on the arcs, in order. *)
Theorem C78_flex : forall (hs : list pt -> list (pt * pt)) (cyc : bool) l w o rel f g, l <> [] ->
  let z := end_of f :: map (at_end rel f) l in let n := length z in let arcs := if cyc then n else (n - 1)%nat in
  let p i := nth (i mod n) z (0, 0) in let c i := nth i (hs z) ((0, 0), (0, 0)) in
  let arc i := cubic (p i) (fst (c i)) (snd (c i)) (p (S i)) in
  length (hs z) = arcs -> do_call fuel hob eng (Smooth hs cyc l w o rel) f = Some g ->
  exists st us, st 0%nat = f /\ st arcs = g /\
    (forall i, (i < arcs)%nat -> do_call fuel hob eng (Bezier [fst (c i); snd (c i); p (S i)] w o false) (st i) = Some (st (S i))) /\
    f_pts g = f_pts f ++ concat (map (fun i => map (arc i) (us i)) (seq 0 arcs)) /\
    forall i, (i < arcs)%nat -> end_of (st i) = p i /\ links Rlt 0 (us i) /\ last (us i) 0 = 1 /\ links (flat3 (arc i) (f_tol f ^ 2)) 0 (us i).
Proof.
  intros hs cyc l w o rel f g NE z n arcs p c arc LH H. cbn [do_call] in H. unfold f_smooth in H.
  replace (f_last f :: (if rel then map (padd (f_last f)) l else l)) with z in H
    by (unfold z, at_end, end_of, f_last; destruct rel; [reflexivity|now rewrite map_id]).
  assert (LN : n = S (length l)) by (unfold n, z; cbn [length]; now rewrite map_length).
  assert (LL : (0 < length l)%nat) by (destruct l; [congruence|cbn; lia]).
  cbv zeta in H. set (secs := _ ++ _) in H.
  assert (LM : length (map (fun kp : pt * pt * pt => (fst (fst kp), snd (fst kp), snd kp)) (combine (hs z) (tl z))) = length l)
    by (rewrite map_length, combine_length, LH; unfold z; cbn [tl]; rewrite map_length; unfold arcs; destruct cyc; lia).
  assert (LS : length secs = arcs).
  { unfold secs. rewrite app_length, LM. unfold arcs. destruct cyc; cbn [length]; lia. }
  destruct (sections_steps secs w o f g H) as (st & S0 & SL & ST). rewrite LS in SL, ST.
  assert (E : forall i, (i < arcs)%nat -> nth i secs none3 = (fst (c i), snd (c i), p (S i))).
  { intros i I. unfold secs. destruct (lt_dec i (length l)) as [J|J].
    - rewrite app_nth1 by (rewrite LM; exact J). rewrite (nth_indep _ none3 ((fun kp : pt * pt * pt => (fst (fst kp), snd (fst kp), snd kp)) (((0, 0), (0, 0)), (0, 0)))) by (rewrite LM; exact J).
      rewrite (map_nth (fun kp : pt * pt * pt => (fst (fst kp), snd (fst kp), snd kp))).
      assert (C : nth i (combine (hs z) (tl z)) (((0, 0), (0, 0)), (0, 0)) = (c i, nth (S i) z (0, 0))).
      { assert (G : forall (x : list (pt * pt)) (y : list pt) i, (i < length x)%nat -> (i < length y)%nat -> nth i (combine x y) (((0, 0), (0, 0)), (0, 0)) = (nth i x ((0, 0), (0, 0)), nth i y (0, 0))).
        { induction x as [|a x IH]; intros [|b y] k K1 K2; cbn [length] in *; try lia. destruct k as [|k]; [reflexivity|]. cbn [combine nth]. apply IH; lia. }
        rewrite G; [reflexivity|rewrite LH; exact I|unfold z; cbn [tl]; rewrite map_length; exact J]. }
      rewrite C. cbn [fst snd]. unfold p. rewrite Nat.mod_small by lia. reflexivity.
    - assert (cyc = true) by (unfold arcs in I; destruct cyc; [reflexivity|lia]). subst cyc. assert (i = length l) by (unfold arcs in I; lia). subst i.
      rewrite app_nth2 by lia. rewrite LM, Nat.sub_diag. cbn [nth].
      assert (LA : last (hs z) ((0, 0), (0, 0)) = c (length l)).
      { unfold c. clear - LH LN. assert (Q : length (hs z) = S (length l)) by (rewrite LH; exact LN). revert Q. generalize (hs z) as x, (length l) as k.
        induction x as [|a x IH]; intros k Q; [discriminate|]. destruct x as [|b x]; [destruct k; [reflexivity|discriminate]|]. destruct k as [|k]; [discriminate|].
        change (last (b :: x) ((0, 0), (0, 0)) = nth k (b :: x) ((0, 0), (0, 0))). apply IH. cbn in Q |- *. lia. }
      rewrite LA. unfold p. rewrite <- LN. rewrite Nat.mod_same by lia. reflexivity. }
  assert (CB : forall i, (i < arcs)%nat -> f_bezier fuel [fst (c i); snd (c i); p (S i)] w o false (st i) = Some (st (S i))).
  { intros i I. specialize (ST i I). rewrite (E i I) in ST. exact ST. }
  assert (P0 : p 0%nat = end_of f) by (unfold p; rewrite Nat.mod_0_l by lia; reflexivity).
  assert (EN : forall i, (i <= arcs)%nat -> end_of (st i) = p i /\ f_tol (st i) = f_tol f).
  { induction i as [|i IH]; intro I; [rewrite S0; now split|]. destruct (IH ltac:(lia)) as [IE IT]. specialize (CB i ltac:(lia)). split.
    - apply bezier_end in CB. rewrite CB. reflexivity.
    - rewrite <- IT. unfold f_bezier, f_parametric in CB. cbv zeta in CB. destruct (f_pts (st i)); [discriminate|]. destruct (final_w _ _ _); [|discriminate]. destruct (final_o _ _ _); [|discriminate].
      destruct (refine3 _ _ _ _ _); [|discriminate]. injection CB as <-. reflexivity. }
  assert (SM : forall i, (i < arcs)%nat -> exists us, f_pts (st (S i)) = f_pts (st i) ++ map (arc i) us /\
    links Rlt 0 us /\ last us 0 = 1 /\ links (flat3 (arc i) (f_tol f ^ 2)) 0 us).
  { intros i I. destruct (EN i ltac:(lia)) as [IE IT]. destruct (C64_bezier _ _ _ _ _ _ _ (CB i I)) as (us & P & L1 & L2 & L3). exists us. rewrite IE, IT in *. cbn [map at_end] in *.
    split; [rewrite P; f_equal; apply map_ext; intro u; apply bezier_cubic|]. split; [exact L1|]. split; [exact L2|].
    apply (links_imp (flat3 (bezier [p i; fst (c i); snd (c i); p (S i)]) (f_tol f ^ 2))); [|exact L3]. intros x y. apply flat3_ext. intro u. apply bezier_cubic. }
  assert (CH : forall k, (k <= arcs)%nat -> exists us : nat -> list R, f_pts (st k) = f_pts f ++ concat (map (fun i => map (arc i) (us i)) (seq 0 k)) /\
    forall i, (i < k)%nat -> links Rlt 0 (us i) /\ last (us i) 0 = 1 /\ links (flat3 (arc i) (f_tol f ^ 2)) 0 (us i)).
  { induction k as [|k IH]; intro K.
    - exists (fun _ => []). rewrite S0. split; [now rewrite app_nil_r|lia].
    - destruct (IH ltac:(lia)) as (us & P & U). destruct (SM k ltac:(lia)) as (vs & Q & V). exists (fun i => if (i =? k)%nat then vs else us i). split.
      + rewrite Q, P, seq_S, map_app, concat_app, <- app_assoc. cbn [map concat Nat.add]. rewrite Nat.eqb_refl, app_nil_r. f_equal. f_equal. f_equal. apply map_ext_in. intros i I. apply in_seq in I.
        destruct (Nat.eqb_spec i k); [lia|reflexivity].
      + intros i I. destruct (Nat.eqb_spec i k) as [->|N]; [exact V|]. apply U. lia. }
  destruct (CH arcs (le_n _)) as (us & P & U). exists st, us. split; [exact S0|]. split; [exact SL|]. split; [exact CB|]. rewrite SL in P. split; [exact P|].
  intros i I. split; [now apply EN; lia|now apply U].
Qed.
End Call.
Print Assumptions C78_flex.

(** The call succeeds if the widths and offsets given fit the path. *)
Lemma refine3_more : forall n m c tol prev rest r, refine3 n c tol prev rest = Some r -> (n <= m)%nat -> refine3 m c tol prev rest = Some r.
Proof.
  induction n as [|n IH]; intros m c tol prev [|next more] r H L; cbn [refine3] in H; try discriminate.
  - destruct m; exact H.
  - destruct m; exact H.
  - destruct m as [|m]; [lia|]. cbn [refine3]. destruct (first_bad c tol prev next thirds) as [bad|]; [now apply IH; [|lia]|].
    destruct (refine3 n c tol next more) as [l|] eqn:E; [|discriminate]. rewrite (IH m _ _ _ _ _ E) by lia. exact H.
Qed.
Lemma f_bezier_more : forall n m l w o rel f r, f_bezier n l w o rel f = Some r -> (n <= m)%nat -> f_bezier m l w o rel f = Some r.
Proof.
  intros n m l w o rel f r H L. unfold f_bezier, f_parametric in *. destruct (f_pts f); [discriminate|]. destruct (final_w _ _ _); [|discriminate]. destruct (final_o _ _ _); [|discriminate].
  destruct (refine3 n _ _ _ _) as [x|] eqn:E; [|discriminate]. rewrite (refine3_more _ m _ _ _ _ _ E L). exact H.
Qed.
Lemma sections_more : forall n m secs w o f r, f_sections n secs w o f = Some r -> (n <= m)%nat -> f_sections m secs w o f = Some r.
Proof.
  intros n m secs w o. induction secs as [|[[a b] e] secs IH]; intros f r H L; [exact H|]. cbn [f_sections] in *.
  destruct (f_bezier n [a; b; e] w o false f) as [g|] eqn:E; [|discriminate]. rewrite (f_bezier_more _ m _ _ _ _ _ _ E L). now apply IH.
Qed.
Definition fits (n : nat) (d : dim) : Prop := match d with Row l => length l = n \/ length l = 1%nat | _ => True end.
Lemma fits_w : forall f d, fits (f_n f) d -> final_w true f (width_arg f d) <> None.
Proof.
  intros f d F. unfold width_arg. destruct (f_gds f); [discriminate|]. destruct d as [|x|l]; try discriminate. cbn in *. unfold fit.
  destruct (Nat.eqb_spec (length l) (f_n f)); [discriminate|]. destruct F as [F|F]; [congruence|]. destruct l as [|x [|y l]]; try discriminate.
Qed.
Lemma fits_o : forall f d, fits (f_n f) d -> final_o true f d <> None.
Proof.
  intros f d F. destruct d as [|x|l]; try discriminate. cbn in *. unfold fit.
  destruct (Nat.eqb_spec (length l) (f_n f)); [discriminate|]. destruct F as [F|F]; [congruence|]. destruct l as [|x [|y l]]; try discriminate.
Qed.
Lemma sections_total : forall secs w o f, 0 < f_tol f -> f_pts f <> [] -> fits (f_n f) w -> fits (f_n f) o -> exists fuel g, f_sections fuel secs w o f = Some g.
Proof.
  induction secs as [|[[a b] e] secs IH]; intros w o f T N W O; [exists 0%nat, f; reflexivity|].
  destruct (bezier_slope [f_last f; a; b; e]) as [K SK]; [discriminate|].
  destruct (C64_terminates (bezier [f_last f; a; b; e]) K w o false f SK T N (fits_w _ _ W) (fits_o _ _ O)) as (n1 & g & E).
  assert (F : f_n g = f_n f /\ f_tol g = f_tol f /\ f_pts g <> []).
  { unfold f_parametric in E. destruct (f_pts f) as [|q l] eqn:P; [discriminate|]. destruct (final_w _ _ _); [|discriminate]. destruct (final_o _ _ _); [|discriminate].
    destruct (refine3 _ _ _ _ _); [|discriminate]. injection E as <-. cbn [extend set_spine f_n f_tol f_pts]. split; [reflexivity|]. split; [reflexivity|]. intro Z. apply app_eq_nil in Z. destruct Z as [Z _]. congruence. }
  destruct F as (F1 & F2 & F3). destruct (IH w o g) as (n2 & h & E2); [now rewrite F2|exact F3|now rewrite F1|now rewrite F1|].
  exists (Nat.max n1 n2), h. cbn [f_sections]. change (f_bezier n1 [a; b; e] w o false f = Some g) in E. rewrite (f_bezier_more _ (Nat.max n1 n2) _ _ _ _ _ _ E) by lia.
  apply (sections_more _ _ _ _ _ _ _ E2). lia.
Qed.
Theorem C78_flex_defined : forall hob eng hs cyc l w o rel f, 0 < f_tol f -> f_pts f <> [] -> fits (f_n f) w -> fits (f_n f) o ->
  exists fuel g, do_call fuel hob eng (Smooth hs cyc l w o rel) f = Some g.
Proof. intros hob eng hs cyc l w o rel f T N W O. cbn [do_call]. unfold f_smooth. now apply sections_total. Qed.
Print Assumptions C78_flex_defined.

(** The control points of the spline through three corners of a square, for a path that
    becomes wider. *)
Example C78_flex_case : forall hob eng, let f := Flex 1 [(0, 0)] [[1]] [[0]] [Flush] [Natural] [None] [0%Z] [0%Z] (/ 100) (/ 1000) 199 false true None in
  exists c fuel g us vs, hobby gauss (end_of f :: map (at_end false f) [(1, 0); (1, 1)]) [None; None; None] 1 1 [1; 1; 1] [1; 1; 1] false = Some c /\
  do_call fuel hob eng (Smooth (fun _ => c) false [(1, 0); (1, 1)] (Num_ 2) Keep false) f = Some g /\
  f_pts g = [(0, 0)] ++ map (cubic (0, 0) (fst (nth 0 c ((0, 0), (0, 0)))) (snd (nth 0 c ((0, 0), (0, 0)))) (1, 0)) us ++
    map (cubic (1, 0) (fst (nth 1 c ((0, 0), (0, 0)))) (snd (nth 1 c ((0, 0), (0, 0)))) (1, 1)) vs.
Proof.
  intros hob eng f. destruct C78_case as (c & H & L & _). exists c. destruct (C78_flex_defined hob eng (fun _ => c) false [(1, 0); (1, 1)] (Num_ 2) Keep false f) as (fuel & g & E);
    [cbn; lra|discriminate|exact I|exact I|].
  destruct (C78_flex fuel hob eng (fun _ => c) false [(1, 0); (1, 1)] (Num_ 2) Keep false f g) as (st & us & _ & _ & _ & P & _); [discriminate|exact L|exact E|].
  exists fuel, g, (us 0%nat), (us 1%nat). split; [exact H|]. split; [exact E|]. rewrite P. cbn [length map seq concat Nat.sub Nat.modulo Nat.divmod nth fst snd f f_pts app end_of last at_end]. now rewrite app_nil_r.
Qed.
