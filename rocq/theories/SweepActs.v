(** What a crossing does to the output is decided by which of the two edges border the result
    before and after it. *)

From Coq Require Import List ZArith Bool Lia.
From Verif Require Import Sweep SpecSweep SweepCounts.
Import ListNotations.
Open Scope Z_scope.

Inductive act := Nothing | Sides | Opens | Closes | Both | Pass1 | Pass2.

Definition decide (j : job) (c1 c2 : bool) (e1 e2 : edge) : act :=
  let w1 := reading (own_fill j (poly e1)) (cnt e1) in
  let w2 := reading (own_fill j (poly e2)) (cnt e2) in
  if c1 && c2 then
    if negb (zero_one w1) || negb (zero_one w2) ||
       (negb (same_kind (poly e1) (poly e2)) && negb (is_xor (op j))) then Closes else Both
  else if c1 then (if zero_one w2 then Pass1 else Nothing)
  else if c2 then (if zero_one w1 then Pass2 else Nothing)
  else if zero_one w1 && zero_one w2 then
    let v1 := reading (alt_fill j (poly e1)) (cnt2 e1) in
    let v2 := reading (alt_fill j (poly e2)) (cnt2 e2) in
    if negb (same_kind (poly e1) (poly e2)) then Opens
    else if (w1 =? 1) && (w2 =? 1) then
      if match op j with
         | Intersection => (0 <? v1) && (0 <? v2)
         | Union => (v1 <=? 0) && (v2 <=? 0)
         | Difference =>
             match poly e1 with
             | Clip => (0 <? v1) && (0 <? v2)
             | Subject => (v1 <=? 0) && (v2 <=? 0)
             end
         | Xor => true
         end then Opens else Nothing
    else Sides
  else Nothing.

Definition perform (a : act) (o : outs) (e1 e2 : edge) (p : pt) (b : bool)
  : outs * edge * edge * option handover :=
  match a with
  | Nothing => (o, e1, e2, None)
  | Sides => let '(e1, e2) := swap_sides e1 e2 in (o, e1, e2, None)
  | Opens => let '(o, e1, e2) := local_min o e1 e2 p b in (o, e1, e2, None)
  | Closes => local_max o e1 e2 p
  | Both =>
      let '(o, e1) := add_out o e1 p in
      let '(o, e2) := add_out o e2 p in
      let '(e1, e2) := swap_both e1 e2 in (o, e1, e2, None)
  | Pass1 =>
      let '(o, e1) := add_out o e1 p in
      let '(e1, e2) := swap_both e1 e2 in (o, e1, e2, None)
  | Pass2 =>
      let '(o, e2) := add_out o e2 p in
      let '(e1, e2) := swap_both e1 e2 in (o, e1, e2, None)
  end.

Lemma intersect_act : forall j o e1 e2 p b,
  intersect j o e1 e2 p b =
  let '(f1, f2) := cross_counts j e1 e2 in
  perform (decide j (drawn e1) (drawn e2) f1 f2) o f1 f2 p b.
Proof.
  intros j o e1 e2 p b. unfold intersect, decide.
  destruct (cross_counts j e1 e2) as [f1 f2].
  destruct (drawn e1); destruct (drawn e2); cbn [andb].
  - match goal with |- (if ?x then _ else _) = _ => destruct x; reflexivity end.
  - match goal with |- (if ?x then _ else _) = _ => destruct x; reflexivity end.
  - match goal with |- (if ?x then _ else _) = _ => destruct x; reflexivity end.
  - match goal with |- (if ?x then _ else _) = _ => destruct x; [|reflexivity] end.
    match goal with |- (if ?x then _ else _) = _ => destruct x; [reflexivity|] end.
    match goal with |- (if ?x then _ else _) = _ => destruct x; [|reflexivity] end.
    match goal with |- (if ?x then _ else _) = _ => destruct x; reflexivity end.
Qed.

(** What each action needs before and leaves after. *)
Definition fits (a : act) (b1 b2 a1 a2 : bool) : Prop :=
  match a with
  | Nothing => a1 = b1 /\ a2 = b2 /\ b1 && b2 = false
  | Sides => b1 = false /\ b2 = false /\ a1 = false /\ a2 = false
  | Opens => b1 = false /\ b2 = false /\ a1 = true /\ a2 = true
  | Closes => b1 = true /\ b2 = true /\ a1 = false /\ a2 = false
  | Both => b1 = true /\ b2 = true /\ a1 = true /\ a2 = true
  | Pass1 => b1 = true /\ b2 = false /\ a1 = false /\ a2 = true
  | Pass2 => b1 = false /\ b2 = true /\ a1 = true /\ a2 = false
  end.

Lemma cross_keeps : forall j e1 e2, let '(f1, f2) := cross_counts j e1 e2 in
  poly f1 = poly e1 /\ delta f1 = delta e1 /\ out f1 = out e1 /\ hand f1 = hand e1 /\
  poly f2 = poly e2 /\ delta f2 = delta e2 /\ out f2 = out e2 /\ hand f2 = hand e2.
Proof.
  intros j e1 e2. unfold cross_counts. destruct (same_kind _ _); [destruct (is_evenodd _)|];
    cbn; repeat split; reflexivity.
Qed.

Lemma same_core : forall o k A B1 B2 C v xr,
  (B1 = B2 \/ A = C) ->
  let g := gate o k v in
  fits (if (xorb A B1 && g) && (xorb B1 C && g) then
          (if negb (xorb B2 C) || negb (xorb A B2) || (negb true && xr) then Closes else Both)
        else if xorb A B1 && g then (if xorb A B2 then Pass1 else Nothing)
        else if xorb B1 C && g then (if xorb B2 C then Pass2 else Nothing)
        else if xorb B2 C && xorb A B2 then
          (if xorb B2 C && xorb A B2 then (if g then Opens else Nothing) else Sides)
        else Nothing)
       (xorb A B1 && g) (xorb B1 C && g) (xorb B2 C && g) (xorb A B2 && g).
Proof.
  intros o k A B1 B2 C v xr H g. clearbody g. destruct A, B1, B2, C, g; cbn;
    try (repeat split; reflexivity); destruct H; discriminate.
Qed.

Lemma diff_core : forall o k1 k2 s s' c c' xr, same_kind k1 k2 = false -> xr = negb (is_xor o) ->
  fits (if (xorb s s' && gate o k1 c) && (xorb c c' && gate o k2 s') then
          (if negb (xorb s s') || negb (xorb c c') || (negb false && xr) then Closes else Both)
        else if xorb s s' && gate o k1 c then (if xorb c c' then Pass1 else Nothing)
        else if xorb c c' && gate o k2 s' then (if xorb s s' then Pass2 else Nothing)
        else if xorb s s' && xorb c c' then Opens
        else Nothing)
       (xorb s s' && gate o k1 c) (xorb c c' && gate o k2 s')
       (xorb s s' && gate o k1 c') (xorb c c' && gate o k2 s).
Proof.
  intros o k1 k2 s s' c c' xr H ->. destruct o, k1, k2; try discriminate H;
    destruct s, s', c, c'; cbn; repeat split; reflexivity.
Qed.

Lemma decide_fits : forall j s c e1 e2,
  counted j s c e1 -> counted j (go_s e1 s) (go_c e1 c) e2 ->
  let '(f1, f2) := cross_counts j e1 e2 in
  fits (decide j (light j s c e1) (light j (go_s e1 s) (go_c e1 c) e2) f1 f2)
       (light j s c e1) (light j (go_s e1 s) (go_c e1 c) e2)
       (light j (go_s e2 s) (go_c e2 c) f1) (light j s c f2).
Proof.
  intros j s c e1 e2 H1 H2.
  pose proof (cross_counted j s c e1 e2 H1 H2) as HC. pose proof (cross_keeps j e1 e2) as HK.
  destruct (cross_counts j e1 e2) as [f1 f2].
  destruct HC as [(U2 & A2 & B2) (U1 & A1 & B1)].
  destruct HK as (P1 & D1 & _ & _ & P2 & D2 & _ & _).
  destruct (wc_eff _ _ _ _ U1 A1) as [Z1 O1]. destruct (wc_eff _ _ _ _ U2 A2) as [Z2 O2].
  destruct (wc2_in _ _ _ B1) as (G1 & E1 & _). destruct (wc2_in _ _ _ B2) as (G2 & E2 & _).
  unfold decide. rewrite Z1, Z2, O1, O2, G1, E1, G2, E2. clear Z1 Z2 O1 O2 G1 E1 G2 E2 A1 A2 B1 B2.
  rewrite D1 in *. rewrite D2 in *. unfold light, lit.
  rewrite D1, D2, P1, P2. clear P1 P2 D1 D2 f1 f2 H1 H2.
  destruct (same_kind (poly e1) (poly e2)) eqn:K.
  - apply same_kind_eq in K. rewrite <- K.
    set (k := poly e1) in *.
    assert (HW1 : w_of k (go_s e1 s) (go_c e1 c) = w_of k s c + delta e1).
    { unfold go_s, go_c. fold k. destruct k; reflexivity. }
    assert (HV1 : v_of k (go_s e1 s) (go_c e1 c) = v_of k s c).
    { unfold go_s, go_c. fold k. destruct k; reflexivity. }
    assert (HW2 : w_of k (go_s e2 s) (go_c e2 c) = w_of k s c + delta e2).
    { unfold go_s, go_c. rewrite <- K. fold k. destruct k; reflexivity. }
    assert (HV2 : v_of k (go_s e2 s) (go_c e2 c) = v_of k s c).
    { unfold go_s, go_c. rewrite <- K. fold k. destruct k; reflexivity. }
    rewrite HW1, HV1, HW2, HV2. set (w := w_of k s c). set (v := v_of k s c).
    set (f := own_fill j k). unfold eff.
    replace (w + delta e1 + delta e2) with (w + delta e2 + delta e1) by lia.
    pose proof (same_core (op j) k (inside f w) (inside f (w + delta e1)) (inside f (w + delta e2))
                  (inside f (w + delta e2 + delta e1)) (inside (alt_fill j k) v) (negb (is_xor (op j)))) as HS.
    cbn zeta in HS. cbn [negb].
    replace (match op j with
             | Intersection => inside (alt_fill j k) v && inside (alt_fill j k) v
             | Union => negb (inside (alt_fill j k) v) && negb (inside (alt_fill j k) v)
             | Difference => match k with
                             | Subject => negb (inside (alt_fill j k) v) && negb (inside (alt_fill j k) v)
                             | Clip => inside (alt_fill j k) v && inside (alt_fill j k) v
                             end
             | Xor => true
             end) with (gate (op j) k (inside (alt_fill j k) v)).
    2:{ unfold gate. rewrite !andb_diag. reflexivity. }
    apply HS.
    destruct U1 as [-> | ->]; destruct U2 as [-> | ->]; auto; right; f_equal; lia.
  - destruct (poly e1) eqn:P1; destruct (poly e2) eqn:P2; try discriminate K;
      unfold go_s, go_c; rewrite P1, P2; cbn [w_of v_of own_fill alt_fill]; unfold eff; cbn [negb].
    + exact (diff_core (op j) Subject Clip _ _ _ _ _ eq_refl eq_refl).
    + exact (diff_core (op j) Clip Subject _ _ _ _ _ eq_refl eq_refl).
Qed.

(** ** Which edges are drawn afterwards *)
Lemma add_out_keeps : forall o e p, let e' := snd (add_out o e p) in
  poly e' = poly e /\ delta e' = delta e /\ cnt e' = cnt e /\ cnt2 e' = cnt2 e /\ hand e' = hand e /\
  drawn e' = true /\ (drawn e = true -> e' = e).
Proof.
  intros o e p. unfold add_out, drawn. destruct (out e) as [i|] eqn:E.
  - destruct (nth i o None); cbn; rewrite E; auto 10.
  - cbn. repeat split; auto. discriminate.
Qed.

Definition like (f e : edge) : Prop :=
  poly f = poly e /\ delta f = delta e /\ cnt f = cnt e /\ cnt2 f = cnt2 e.
Lemma like_refl : forall e, like e e. Proof. intros e. repeat split. Qed.

Lemma local_min_keeps : forall o e1 e2 p b, let '(_, f1, f2) := local_min o e1 e2 p b in
  like f1 e1 /\ like f2 e2 /\ drawn f1 = true /\ drawn f2 = true.
Proof.
  intros o e1 e2 p b. unfold local_min. destruct b.
  - pose proof (add_out_keeps o e1 p) as H. destruct (add_out o e1 p) as [o' e1']. cbn in H.
    destruct H as (H1 & H2 & H3 & H4 & _ & H6 & _). unfold like, drawn in *. cbn. auto 10.
  - pose proof (add_out_keeps o e2 p) as H. destruct (add_out o e2 p) as [o' e2']. cbn in H.
    destruct H as (H1 & H2 & H3 & H4 & _ & H6 & _). unfold like, drawn in *. cbn. auto 10.
Qed.
Lemma local_max_keeps : forall o e1 e2 p, drawn e1 = true -> drawn e2 = true ->
  let '(_, f1, f2, _) := local_max o e1 e2 p in
  like f1 e1 /\ like f2 e2 /\ drawn f1 = false /\ drawn f2 = false.
Proof.
  intros o e1 e2 p D1 D2. unfold local_max.
  pose proof (add_out_keeps o e1 p) as H. destruct (add_out o e1 p) as [o' e1']. cbn in H.
  destruct H as (_ & _ & _ & _ & _ & _ & H). specialize (H D1). subst e1'.
  unfold drawn in D1, D2. destruct (out e1) as [i|]; [|discriminate]. destruct (out e2) as [k|]; [|discriminate].
  destruct (Nat.eqb i k); [|destruct (Nat.ltb i k)]; cbn; repeat split; reflexivity.
Qed.

Lemma perform_keeps : forall a o e1 e2 p b a1 a2, fits a (drawn e1) (drawn e2) a1 a2 ->
  let '(_, f1, f2, _) := perform a o e1 e2 p b in
  like f1 e1 /\ like f2 e2 /\ drawn f1 = a1 /\ drawn f2 = a2.
Proof.
  intros a o e1 e2 p b a1 a2 H. destruct a; cbn [fits] in H; cbn [perform].
  - destruct H as (-> & -> & _). repeat split.
  - destruct H as (H1 & H2 & -> & ->). cbn. unfold like, drawn in *. cbn. auto 10.
  - destruct H as (H1 & H2 & -> & ->). pose proof (local_min_keeps o e1 e2 p b) as H.
    destruct (local_min o e1 e2 p b) as [[o' f1] f2]. exact H.
  - destruct H as (H1 & H2 & -> & ->). exact (local_max_keeps o e1 e2 p H1 H2).
  - destruct H as (H1 & H2 & -> & ->).
    pose proof (add_out_keeps o e1 p) as HA. destruct (add_out o e1 p) as [o1 f1]. cbn in HA.
    destruct HA as (_ & _ & _ & _ & _ & _ & HA). rewrite (HA H1) in *.
    pose proof (add_out_keeps o1 e2 p) as HB. destruct (add_out o1 e2 p) as [o2 f2]. cbn in HB.
    destruct HB as (_ & _ & _ & _ & _ & _ & HB). rewrite (HB H2) in *.
    cbn. unfold like, drawn in *. cbn. auto 10.
  - destruct H as (H1 & H2 & -> & ->).
    pose proof (add_out_keeps o e1 p) as HA. destruct (add_out o e1 p) as [o1 f1]. cbn in HA.
    destruct HA as (_ & _ & _ & _ & _ & _ & HA). rewrite (HA H1) in *.
    cbn. unfold like, drawn in *. cbn. auto 10.
  - destruct H as (H1 & H2 & -> & ->).
    pose proof (add_out_keeps o e2 p) as HA. destruct (add_out o e2 p) as [o1 f1]. cbn in HA.
    destruct HA as (_ & _ & _ & _ & _ & _ & HA). rewrite (HA H2) in *.
    cbn. unfold like, drawn in *. cbn. auto 10.
Qed.

(** ** The counts and the drawn edges through a whole sweep *)
Lemma like_counted : forall j s c e f, like f e -> counted j s c e -> counted j s c f.
Proof. intros j s c e f (P & D & C & C2) H. unfold counted in *. rewrite P, D, C, C2. exact H. Qed.
Lemma like_light : forall j s c e f, like f e -> light j s c f = light j s c e.
Proof. intros j s c e f (P & D & _) . unfold light. rewrite P, D. reflexivity. Qed.
Lemma like_go : forall e f s c, like f e -> go_s f s = go_s e s /\ go_c f c = go_c e c.
Proof. intros e f s c (P & D & _). unfold go_s, go_c. rewrite P, D. auto. Qed.

(** [relabel] keeps everything but the output index and the side. *)
Lemma relabel_sounds : forall h j l s c, sounds j s c l -> sounds j s c (relabel h l).
Proof.
  intros h j l. induction l as [|e l IH]; intros s c H; [exact I|]. cbn [relabel].
  destruct H as [[H1 H2] H3].
  destruct (out e) as [i|] eqn:E; [destruct (Nat.eqb i (obsolete h))|]; cbn [sounds].
  - split; [|exact H3]. split; [exact H1|]. unfold drawn in *. rewrite E in H2. cbn. exact H2.
  - split; [split; assumption|]. apply IH. exact H3.
  - split; [split; assumption|]. apply IH. exact H3.
Qed.
Lemma handing_sounds : forall h j l s c, sounds j s c l -> sounds j s c (handing h l).
Proof. intros [h|] j l s c H; [apply relabel_sounds; exact H|exact H]. Qed.

Lemma go_comm_s : forall e1 e2 s, go_s e1 (go_s e2 s) = go_s e2 (go_s e1 s).
Proof. intros e1 e2 s. unfold go_s. destruct (poly e1), (poly e2); lia. Qed.
Lemma go_comm_c : forall e1 e2 s, go_c e1 (go_c e2 s) = go_c e2 (go_c e1 s).
Proof. intros e1 e2 s. unfold go_c. destruct (poly e1), (poly e2); lia. Qed.

Lemma intersect_sounds : forall j o e1 e2 p b s c rest, sounds j s c (e1 :: e2 :: rest) ->
  let '(_, f1, f2, _) := intersect j o e1 e2 p b in
  sounds j s c (f2 :: f1 :: rest) /\
  fits (let '(g1, g2) := cross_counts j e1 e2 in decide j (drawn e1) (drawn e2) g1 g2)
       (light j s c e1) (light j (go_s e1 s) (go_c e1 c) e2)
       (light j (go_s e2 s) (go_c e2 c) e1) (light j s c e2).
Proof.
  intros j o e1 e2 p b s c rest H. cbn [sounds] in H. destruct H as ([C1 L1] & [C2 L2] & HR).
  rewrite intersect_act. pose proof (cross_counted j s c e1 e2 C1 C2) as HC.
  pose proof (cross_keeps j e1 e2) as HK. pose proof (decide_fits j s c e1 e2 C1 C2) as HF.
  destruct (cross_counts j e1 e2) as [g1 g2].
  destruct HC as [CC2 CC1]. destruct HK as (P1 & D1 & O1 & _ & P2 & D2 & O2 & _).
  rewrite <- L1, <- L2 in HF.
  assert (DR1 : drawn g1 = drawn e1) by (unfold drawn; rewrite O1; reflexivity).
  assert (DR2 : drawn g2 = drawn e2) by (unfold drawn; rewrite O2; reflexivity).
  pose proof HF as HF'. rewrite <- DR1, <- DR2 in HF.
  pose proof (perform_keeps _ o g1 g2 p b _ _ HF) as HP. rewrite DR1, DR2 in HP.
  destruct (perform (decide j (drawn e1) (drawn e2) g1 g2) o g1 g2 p b) as [[[o' f1] f2] h].
  destruct HP as (K1 & K2 & F1 & F2).
  assert (LG1 : forall s c, light j s c g1 = light j s c e1) by (intros; unfold light; rewrite P1, D1; reflexivity).
  assert (LG2 : forall s c, light j s c g2 = light j s c e2) by (intros; unfold light; rewrite P2, D2; reflexivity).
  assert (GS : forall s, go_s f1 s = go_s e1 s).
  { intros. destruct K1 as (KP & KD & _). unfold go_s. rewrite KP, KD, P1, D1. reflexivity. }
  assert (GC : forall s, go_c f1 s = go_c e1 s).
  { intros. destruct K1 as (KP & KD & _). unfold go_c. rewrite KP, KD, P1, D1. reflexivity. }
  assert (GS2 : forall s, go_s f2 s = go_s e2 s).
  { intros. destruct K2 as (KP & KD & _). unfold go_s. rewrite KP, KD, P2, D2. reflexivity. }
  assert (GC2 : forall s, go_c f2 s = go_c e2 s).
  { intros. destruct K2 as (KP & KD & _). unfold go_c. rewrite KP, KD, P2, D2. reflexivity. }
  split.
  - cbn [sounds]. rewrite GS, GC, GS2, GC2. split; [|split].
    + split; [apply (like_counted j s c g2 f2 K2 CC2)|].
      rewrite (like_light j s c g2 f2 K2). exact F2.
    + split; [apply (like_counted j _ _ g1 f1 K1 CC1)|].
      rewrite (like_light j _ _ g1 f1 K1). exact F1.
    + rewrite go_comm_s, go_comm_c. exact HR.
  - rewrite <- L1, <- L2. rewrite LG1, LG2 in HF'. exact HF'.
Qed.

Lemma min_sounds : forall j l rest k d o p b hd1 hd2,
  sounds j 0 0 (l ++ rest) -> unit_step d ->
  let '(c, c2) := set_winding j l k d in
  let lb := Edge k d c c2 hd1 None in
  let rb := Edge k (- d) c c2 hd2 None in
  let '(o', lb', rb') := if contributing j lb then local_min o lb rb p b else (o, lb, rb) in
  sounds j 0 0 (l ++ lb' :: rb' :: rest) /\ like lb' lb /\ like rb' rb /\
  contributing j lb = light j (end_s 0 l) (end_c 0 l) lb /\
  light j (go_s lb (end_s 0 l)) (go_c lb (end_c 0 l)) rb = light j (end_s 0 l) (end_c 0 l) lb /\
  drawn lb' = contributing j lb /\ drawn rb' = contributing j lb.
Proof.
  intros j l rest k d o p b hd1 hd2 H U. apply sounds_app in H. destruct H as [HL HR].
  pose proof (set_winding_ok j l k d U HL) as [HC HC2].
  destruct (set_winding j l k d) as [c c2]. cbn [fst snd] in HC, HC2.
  cbv zeta. set (s0 := end_s 0 l) in *. set (c0 := end_c 0 l) in *.
  set (lb := Edge k d c c2 hd1 None). set (rb := Edge k (- d) c c2 hd2 None).
  assert (CL : counted j s0 c0 lb) by (repeat split; assumption).
  assert (UR : unit_step (- d)) by (destruct U as [-> | ->]; [right|left]; reflexivity).
  assert (WK : w_of k (go_s lb s0) (go_c lb c0) = w_of k s0 c0 + d) by (destruct k; reflexivity).
  assert (VK : v_of k (go_s lb s0) (go_c lb c0) = v_of k s0 c0) by (destruct k; reflexivity).
  assert (CR : counted j (go_s lb s0) (go_c lb c0) rb).
  { split; [exact UR|]. change (poly rb) with k. change (delta rb) with (- d).
    change (cnt rb) with c. change (cnt2 rb) with c2. rewrite WK, VK. split; [|exact HC2].
    unfold cnt_ok in *. destruct (is_evenodd (own_fill j k)); [exact HC|].
    rewrite HC. replace (w_of k s0 c0 + d + - d) with (w_of k s0 c0) by lia.
    symmetry. apply larger_neg. exact U. }
  assert (LR : light j (go_s lb s0) (go_c lb c0) rb = light j s0 c0 lb).
  { unfold light. change (poly rb) with k. change (poly lb) with k. rewrite WK, VK.
    change (delta rb) with (- d). change (delta lb) with d. unfold lit, eff. f_equal.
    replace (w_of k s0 c0 + d + - d) with (w_of k s0 c0) by lia. apply xorb_comm. }
  pose proof (contributing_ok j s0 c0 lb CL) as HB.
  assert (G0 : go_s rb (go_s lb s0) = s0) by (unfold go_s; destruct k; cbn; lia).
  assert (G1 : go_c rb (go_c lb c0) = c0) by (unfold go_c; destruct k; cbn; lia).
  assert (HQ : let '(o', lb', rb') := if contributing j lb then local_min o lb rb p b else (o, lb, rb) in
               like lb' lb /\ like rb' rb /\ drawn lb' = contributing j lb /\ drawn rb' = contributing j lb).
  { destruct (contributing j lb).
    - pose proof (local_min_keeps o lb rb p b) as HM. destruct (local_min o lb rb p b) as [[o' f1] f2].
      exact HM.
    - repeat split; auto. }
  destruct (if contributing j lb then local_min o lb rb p b else (o, lb, rb)) as [[o' lb'] rb'].
  destruct HQ as (K1 & K2 & D1 & D2). repeat split; try apply K1; try apply K2; auto.
  apply sounds_app. split; [exact HL|]. cbn [sounds]. fold s0 c0.
  destruct (like_go _ _ s0 c0 K1) as [-> ->]. destruct (like_go _ _ (go_s lb s0) (go_c lb c0) K2) as [-> ->].
  rewrite G0, G1. repeat split; try exact HR.
  - apply (like_counted _ _ _ _ _ K1 CL).
  - apply (like_counted _ _ _ _ _ K1 CL).
  - apply (like_counted _ _ _ _ _ K1 CL).
  - rewrite (like_light _ _ _ _ _ K1). congruence.
  - apply (like_counted _ _ _ _ _ K2 CR).
  - apply (like_counted _ _ _ _ _ K2 CR).
  - apply (like_counted _ _ _ _ _ K2 CR).
  - rewrite (like_light _ _ _ _ _ K2). congruence.
Qed.

(** The two bounds of a maximum are both drawn or both not. *)
Lemma max_sounds : forall j s c e1 e2 rest, sounds j s c (e1 :: e2 :: rest) ->
  poly e1 = poly e2 -> delta e1 + delta e2 = 0 ->
  drawn e1 = drawn e2 /\ sounds j s c rest.
Proof.
  intros j s c e1 e2 rest ([C1 L1] & [C2 L2] & HR) HP HD.
  assert (E : delta e2 = - delta e1) by lia.
  split.
  - rewrite L1, L2. unfold light, go_s, go_c. rewrite <- HP, E.
    unfold lit, eff. destruct (poly e1); cbn [w_of v_of].
    + f_equal. replace (s + delta e1 + - delta e1) with s by lia. apply xorb_comm.
    + f_equal. replace (c + delta e1 + - delta e1) with c by lia. apply xorb_comm.
  - unfold go_s, go_c in HR. rewrite <- HP, E in HR.
    destruct (poly e1).
    + replace (s + delta e1 + - delta e1) with s in HR by lia. exact HR.
    + replace (c + delta e1 + - delta e1) with c in HR by lia. exact HR.
Qed.

Lemma step_sounds : forall j st ev, sounds j 0 0 (ael st) ->
  match step j st ev with Done st' => sounds j 0 0 (ael st') | Unfit => True | Throws => False end.
Proof.
  intros j st ev H. destruct ev as [n k d p b|n p b|n p|n p b]; cbn [step].
  - destruct (Nat.leb n (length (ael st))); [|exact I]. cbn [andb].
    destruct ((d =? 1) || (d =? -1)) eqn:E; [|exact I].
    assert (U : unit_step d).
    { apply orb_true_iff in E. destruct E as [E|E]; apply Z.eqb_eq in E; [left|right]; exact E. }
    rewrite <- (firstn_skipn n (ael st)) in H.
    pose proof (min_sounds j (firstn n (ael st)) (skipn n (ael st)) k d (polys st) p b LeftSide RightSide H U) as HM.
    unfold insert_min. destruct (set_winding j (firstn n (ael st)) k d) as [c c2]. cbn zeta in HM.
    destruct (contributing j _).
    + destruct (local_min _ _ _ _ _) as [[o' f1] f2]. apply HM.
    + apply HM.
  - rewrite <- (firstn_skipn n (ael st)) in H. destruct (skipn n (ael st)) as [|e1 [|e2 rest]]; try exact I.
    apply sounds_app in H. destruct H as [H1 H2].
    pose proof (intersect_sounds j (polys st) e1 e2 p b _ _ rest H2) as HI.
    destruct (intersect j (polys st) e1 e2 p b) as [[[o' f1] f2] h]. cbn [ael].
    apply handing_sounds. apply sounds_app. split; [exact H1|apply HI].
  - pose proof H as H'. rewrite <- (firstn_skipn n (ael st)) in H. destruct (skipn n (ael st)) as [|e rest]; [exact I|].
    destruct (drawn e) eqn:D; [|exact H'].
    pose proof (add_out_keeps (polys st) e p) as HA. destruct (add_out (polys st) e p) as [o' e'].
    cbn in HA. destruct HA as (_ & _ & _ & _ & _ & _ & HA). rewrite (HA D). exact H.
  - rewrite <- (firstn_skipn n (ael st)) in H. destruct (skipn n (ael st)) as [|e1 [|e2 rest]]; try exact I.
    destruct (same_kind (poly e1) (poly e2)) eqn:K; [|exact I]. cbn [andb].
    destruct (delta e1 + delta e2 =? 0) eqn:D; [|exact I].
    apply same_kind_eq in K. apply Z.eqb_eq in D.
    apply sounds_app in H. destruct H as [H1 H2].
    destruct (max_sounds _ _ _ _ _ _ H2 K D) as [HD HR].
    assert (HS : sounds j 0 0 (firstn n (ael st) ++ rest)) by (apply sounds_app; split; assumption).
    unfold drawn in HD. destruct (out e1), (out e2); try discriminate HD; [|exact HS].
    destruct b.
    + destruct (local_max _ e1 e2 p) as [[[o' f1] f2] h]. apply handing_sounds. exact HS.
    + destruct (local_max _ e2 e1 p) as [[[o' f1] f2] h]. apply handing_sounds. exact HS.
Qed.
