(** Curve commands: C33 (relative commands), C46 (get_points), C59 (smooth
    commands), C60 (end points), C62 (interpolation). *)

From Coq Require Import Reals Lra Lia List ZArith Bool.
From Verif Require Import Plane SpecPlane Curve SpecCurve CurveProofs PropCurve.
Import ListNotations.
Open Scope R_scope.

(** ** C60: where a command ends *)

Lemma last_app {X} (a b : list X) d : last (a ++ b) d = last b (last a d).
Proof.
  revert d; induction a as [|x a IH]; intro d; [reflexivity|]. cbn [app]. rewrite !last_cons. apply IH.
Qed.
Lemma drawn1_end tol pts ctrl q : drawn1 tol pts ctrl q ->
  exists new, q = pts ++ new /\ In (last ctrl (last pts (0, 0))) new /\ last q (0, 0) = last ctrl (last pts (0, 0)).
Proof.
  unfold drawn1. set (f := bezier _). intros (us & E & L & U & _). exists (map f us). split; [auto|].
  assert (F1 : f 1 = last ctrl (last pts (0, 0))) by (unfold f; rewrite bezier_1 by discriminate; apply last_cons).
  assert (N : us <> []) by (intros ->; cbn in U; lra).
  split.
  - rewrite <- F1. apply in_map. rewrite <- U. clear - N. destruct us as [|u us]; [congruence|]. rewrite last_cons.
    clear N. revert u. induction us as [|a us IH]; intro u; [now left|]. rewrite last_cons. right. apply IH.
  - rewrite E, last_app. rewrite <- F1, <- U. destruct us as [|u us]; [congruence|]. cbn [map]. rewrite !last_cons. apply last_map.
Qed.
(** Every section end is a point of the curve, in order, and the last one is the end. *)
Lemma sub_app {X} (a b c d : list X) : sub a b -> sub c d -> sub (a ++ c) (b ++ d).
Proof.
  intros H K. induction H as [m|x l m S IH|x l m S IH]; cbn [app].
  - induction m; [auto|]. now constructor.
  - now constructor.
  - now constructor.
Qed.
Lemma sub_in {X} (x : X) l : In x l -> sub [x] l.
Proof. induction l as [|a l IH]; [intros []|]. intros [->|H]; [apply sub_take; constructor|apply sub_skip; auto]. Qed.
Lemma drawn_ends tol pts cs q : drawn tol pts cs q -> (forall c, In c cs -> c <> []) ->
  exists new, q = pts ++ new /\ sub (map (fun c => last c (0, 0)) cs) new /\
    last q (0, 0) = last (map (fun c => last c (0, 0)) cs) (last pts (0, 0)).
Proof.
  induction 1 as [pts|pts ctrl q rest r D1 D IH]; intro N.
  - exists []. rewrite app_nil_r. repeat split. constructor.
  - destruct IH as (n2 & E2 & S2 & L2); [intros; apply N; now right|].
    destruct (drawn1_end _ _ _ _ D1) as (n1 & E1 & I1 & L1).
    assert (R : last ctrl (last pts (0, 0)) = last ctrl (0, 0)).
    { assert (Nc : ctrl <> []) by (apply N; now left). destruct ctrl as [|a l]; [congruence|]. now rewrite !last_cons. }
    exists (n1 ++ n2). split; [rewrite E2, E1, app_assoc; reflexivity|]. split.
    + cbn [map]. apply (sub_app [last ctrl (0, 0)]); [|auto]. apply sub_in. now rewrite <- R.
    + cbn [map]. rewrite last_cons, L2, L1, R. reflexivity.
Qed.

(** S, T and the control points they supply themselves: the reflection of the
    previous one about the start of the section. *)
Fixpoint reflected (start prev : pt) (gs : list (pt * pt)) : list (list pt) :=
  match gs with
  | [] => []
  | (b, e) :: r => [psub (smul 2 start) prev; b; e] :: reflected e b r
  end.
Fixpoint reflected2 (start prev : pt) (es : list pt) : list (list pt) :=
  match es with
  | [] => []
  | e :: r => let k := psub (smul 2 start) prev in [k; e] :: reflected2 e k r
  end.
Lemma smooth_cubics_drawn fuel tol gs : forall pts lc q z, smooth_cubics fuel tol pts lc gs = Some (q, z) ->
  drawn tol pts (reflected (last pts (0, 0)) lc gs) q /\ z = last (map fst gs) lc.
Proof.
  induction gs as [|[b e] gs IH]; intros pts lc q z E; cbn [smooth_cubics reflected map] in *; [injection E as <- <-; split; [constructor|reflexivity]|].
  destruct (section fuel tol pts _) as [p|] eqn:S; [|discriminate]. apply C32_section in S as [D1 _].
  destruct (drawn1_end _ _ _ _ D1) as (_ & _ & _ & L). cbn [last] in L.
  apply IH in E as [D ->]. rewrite L in D. split; [econstructor; eauto|]. symmetry; apply last_cons.
Qed.
(** The last control point the chain of T uses. *)
Fixpoint last_k (start prev : pt) (es : list pt) : pt :=
  match es with [] => prev | e :: r => last_k e (psub (smul 2 start) prev) r end.
Lemma smooth_quads_drawn fuel tol es : forall pts lq q z, smooth_quads fuel tol pts lq es = Some (q, z) ->
  drawn tol pts (reflected2 (last pts (0, 0)) lq es) q /\ z = last_k (last pts (0, 0)) lq es.
Proof.
  induction es as [|e es IH]; intros pts lq q z E; cbn [smooth_quads reflected2 last_k] in *; [injection E as <- <-; split; [constructor|reflexivity]|].
  destruct (section fuel tol pts _) as [p|] eqn:S; [|discriminate]. apply C32_section in S as [D1 _].
  destruct (drawn1_end _ _ _ _ D1) as (_ & _ & _ & L). cbn [last] in L.
  apply IH in E as [D ->]. rewrite L in *. split; [econstructor; eauto|]. reflexivity.
Qed.

Theorem C59_smooth_cubic : forall fuel rel c args c', curve_S fuel rel c args = Some c' ->
  exists ps gs, places rel c args = Some ps /\ ps = flat_map (fun g => [fst g; snd g]) gs /\
    drawn (cv_tol c) (cv_pts c) (reflected (cv_end c) (or_end (cv_c c) c) gs) (cv_pts c') /\
    cv_c c' = Some (last (map fst gs) (or_end (cv_c c) c)) /\ cv_q c' = None.
Proof.
  intros fuel rel c args c' E. unfold curve_S in E. destruct (places rel c args) as [ps|]; [|discriminate].
  destruct (by2 ps) as [gs|] eqn:B; [|discriminate].
  destruct (smooth_cubics _ _ _ _ gs) as [[q z]|] eqn:Q; [|discriminate]. injection E as <-.
  apply smooth_cubics_drawn in Q as [D ->]. exists ps, gs. split; [auto|]. split; [now apply by2_flat|]. auto.
Qed.
Theorem C59_smooth_quadratic : forall fuel rel c args c', curve_T fuel rel c args = Some c' ->
  exists es, places rel c args = Some es /\
    drawn (cv_tol c) (cv_pts c) (reflected2 (cv_end c) (or_end (cv_q c) c) es) (cv_pts c') /\
    cv_q c' = Some (last_k (cv_end c) (or_end (cv_q c) c) es) /\ cv_c c' = None.
Proof.
  intros fuel rel c args c' E. unfold curve_T in E. destruct (places rel c args) as [es|]; [|discriminate].
  destruct (smooth_quads _ _ _ _ es) as [[q z]|] eqn:Q; [|discriminate]. injection E as <-.
  apply smooth_quads_drawn in Q as [D ->]. exists es. auto.
Qed.
(** What the other commands leave for S and T: nothing, or the control point
    before the end of the last section. *)
Theorem C59_memory : forall fuel c k c', run fuel c k = Some c' ->
  match k with
  | DoL _ _ | DoH _ _ | DoV _ _ | DoB _ _ => cv_c c' = None /\ cv_q c' = None
  | DoC rel args => cv_q c' = None /\
      exists ps, places rel c args = Some ps /\ cv_c c' = Some (nth (length ps - 2) ps (0, 0)) /\ (3 <= length ps)%nat
  | DoQ rel args => cv_c c' = None /\
      exists ps, places rel c args = Some ps /\ cv_q c' = Some (nth (length ps - 2) ps (0, 0)) /\ (2 <= length ps)%nat
  | DoS _ _ => cv_q c' = None
  | DoT _ _ => cv_c c' = None
  | _ => True
  end.
Proof.
  intros fuel c k c' E.
  destruct k as [rel args|rel xs|rel ys|rx ry a0 a1 rot|rel args|rel args|rel args|rel args|rel args|hob rel cycle points]; cbn [run] in *; auto.
  - unfold curve_L in E. destruct (places rel c args); [|discriminate]. injection E as <-. auto.
  - injection E as <-. unfold curve_H. destruct (cv_end c). auto.
  - injection E as <-. unfold curve_V. destruct (cv_end c). auto.
  - unfold curve_C in E. destruct (places rel c args) as [ps|]; [|discriminate].
    destruct (by3 ps) as [[|g gs]|] eqn:B; try discriminate.
    destruct (cubics _ _ _ (g :: gs)) as [q|] eqn:Q; [|discriminate]. injection E as <-. split; [auto|]. exists ps. split; [auto|].
    apply by3_flat in B. subst ps. cbn [cv_c]. clear. split; [f_equal|].
    + revert g. induction gs as [|h gs IH]; intro g; [reflexivity|]. cbn [flat_map] in *. rewrite app_length.
      specialize (IH h). cbn [last] in *. rewrite IH. rewrite !app_length. cbn [length app].
      destruct (length (flat_map _ gs)) eqn:Lg; cbn [nth Nat.add Nat.sub]; reflexivity.
    + cbn [flat_map]. rewrite app_length. cbn; lia.
  - apply C59_smooth_cubic in E as (ps & gs & _ & _ & _ & _ & H). exact H.
  - unfold curve_Q in E. destruct (places rel c args) as [ps|]; [|discriminate].
    destruct (by2 ps) as [[|g gs]|] eqn:B; try discriminate.
    destruct (quads _ _ _ (g :: gs)) as [q|] eqn:Q; [|discriminate]. injection E as <-. split; [auto|]. exists ps. split; [auto|].
    apply by2_flat in B. subst ps. cbn [cv_q]. clear. split; [f_equal|].
    + revert g. induction gs as [|h gs IH]; intro g; [reflexivity|]. cbn [flat_map] in *. rewrite app_length.
      specialize (IH h). cbn [last] in *. rewrite IH. rewrite !app_length. cbn [length app].
      destruct (length (flat_map _ gs)) eqn:Lg; cbn [nth Nat.add Nat.sub]; reflexivity.
    + cbn [flat_map]. rewrite app_length. cbn; lia.
  - apply C59_smooth_quadratic in E as (es & _ & _ & _ & H). exact H.
  - unfold curve_B in E. destruct (places rel c args); [|discriminate]. destruct (sample _ _ _ _); [|discriminate]. injection E as <-. auto.
Qed.

(** C60.  The commands taking coordinates: the curve is extended, and ends at the
    last coordinates given. *)
Definition coords (k : cmd) : option (bool * list arg) :=
  match k with
  | DoL rel a | DoC rel a | DoS rel a | DoQ rel a | DoT rel a | DoB rel a => Some (rel, a)
  | _ => None
  end.
Lemma last_flat3 (gs : list (pt * pt * pt)) d : last (flat_map (fun g => [fst (fst g); snd (fst g); snd g]) gs) d = last (map snd gs) d.
Proof. revert d; induction gs as [|g gs IH]; intro d; [reflexivity|]. cbn [flat_map map app]. rewrite !last_cons. apply IH. Qed.
Lemma last_flat2 (gs : list (pt * pt)) d : last (flat_map (fun g => [fst g; snd g]) gs) d = last (map snd gs) d.
Proof. revert d; induction gs as [|g gs IH]; intro d; [reflexivity|]. cbn [flat_map map app]. rewrite !last_cons. apply IH. Qed.
Lemma reflected_ends gs : forall s p, map (fun c => last c (0, 0)) (reflected s p gs) = map snd gs.
Proof. induction gs as [|[b e] gs IH]; intros s p; [reflexivity|]. cbn [reflected map last snd]. now rewrite IH. Qed.
Lemma reflected2_ends es : forall s p, map (fun c => last c (0, 0)) (reflected2 s p es) = es.
Proof. induction es as [|e es IH]; intros s p; [reflexivity|]. cbn [reflected2 map last]. now rewrite IH. Qed.
Lemma reflected_ne gs : forall s p c, In c (reflected s p gs) -> c <> [].
Proof. induction gs as [|[b e] gs IH]; intros s p c; cbn [reflected]; [intros []|]. intros [<-|H]; [discriminate|eauto]. Qed.
Lemma reflected2_ne es : forall s p c, In c (reflected2 s p es) -> c <> [].
Proof. induction es as [|e es IH]; intros s p c; cbn [reflected2]; [intros []|]. intros [<-|H]; [discriminate|eauto]. Qed.
Theorem C60_end : forall fuel c k c' rel args, coords k = Some (rel, args) -> run fuel c k = Some c' ->
  exists ps new, places rel c args = Some ps /\ cv_pts c' = cv_pts c ++ new /\ cv_end c' = last ps (cv_end c).
Proof.
  intros fuel c k c' rel args K E. unfold cv_end.
  destruct k as [rel0 args0|rel0 xs|rel0 ys|rx ry a0 a1 rot|rel0 args0|rel0 args0|rel0 args0|rel0 args0|rel0 args0|hob rel0 cycle points];
    cbn [coords run] in *; try discriminate; injection K as -> ->.
  - unfold curve_L in E. destruct (places rel c args) as [ps|]; [|discriminate]. injection E as <-. exists ps, ps. cbn [cv_pts].
    split; [auto|]. split; [auto|]. apply last_app.
  - apply C32_cubic in E as (ps & gs & P & F & D). apply drawn_ends in D as (new & N & _ & L).
    + exists ps, new. split; [auto|]. split; [auto|]. rewrite L, F, last_flat3, map_map. reflexivity.
    + intros x H. apply in_map_iff in H as (g & <- & _). discriminate.
  - apply C59_smooth_cubic in E as (ps & gs & P & F & D & _). apply drawn_ends in D as (new & N & _ & L); [|apply reflected_ne].
    exists ps, new. split; [auto|]. split; [auto|]. rewrite L, F, last_flat2, reflected_ends. reflexivity.
  - apply C32_quadratic in E as (ps & gs & P & F & D). apply drawn_ends in D as (new & N & _ & L).
    + exists ps, new. split; [auto|]. split; [auto|]. rewrite L, F, last_flat2, map_map. reflexivity.
    + intros x H. apply in_map_iff in H as (g & <- & _). discriminate.
  - apply C59_smooth_quadratic in E as (es & P & D & _). apply drawn_ends in D as (new & N & _ & L); [|apply reflected2_ne].
    exists es, new. split; [auto|]. split; [auto|]. rewrite L, reflected2_ends. reflexivity.
  - apply C32_general in E as (ps & P & D). destruct (drawn1_end _ _ _ _ D) as (new & N & _ & L). exists ps, new. auto.
Qed.

(** C62: the interpolating curve passes through all the points given, in order,
    and, when closed, comes back to where it started, whatever control points the Hobby
    algorithm chooses; each section is the cubic curve with its two control points. *)
Theorem C62_through : forall fuel hob rel cycle c points c', sized cycle hob -> curve_I fuel hob rel cycle c points = Some c' ->
  let start := cv_end c :: map (fun p => if rel then padd p (cv_end c) else p) points in
  let targets := map (fun p => if rel then padd p (cv_end c) else p) points ++ (if cycle then [cv_end c] else []) in
  exists new ks, cv_pts c' = cv_pts c ++ new /\ sub targets new /\ cv_end c' = last targets (cv_end c) /\
    hob start = Some ks /\ length ks = length targets /\
    drawn (cv_tol c) (cv_pts c) (map (fun g => [fst (fst g); snd (fst g); snd g]) (combine ks targets)) (cv_pts c').
Proof.
  intros fuel hob rel cycle c points c' L E start targets. unfold curve_I in E.
  replace (if rel then map (fun p => padd p (cv_end c)) points else points) with (map (fun p => if rel then padd p (cv_end c) else p) points) in E
    by (destruct rel; [reflexivity|apply map_id]).
  fold start in E. destruct (hob start) as [ks|] eqn:H; [|discriminate]. specialize (L _ _ H).
  assert (LT : length ks = length targets).
  { rewrite L. unfold start, targets. rewrite app_length. cbn [length]. rewrite map_length. destruct cycle; cbn [length]; lia. }
  apply C32_cubic in E as (ps & gs & P & F & D). unfold places in P. rewrite hobby_pairs in P by (auto; discriminate).
  cbn [option_map] in P. injection P as P. change (tl start ++ (if cycle then [hd (0, 0) start] else [])) with targets in P.
  assert (G : gs = combine ks targets).
  { assert (T3 : forall gs1 gs2 : list (pt * pt * pt), flat_map (fun g => [fst (fst g); snd (fst g); snd g]) gs1 = flat_map (fun g => [fst (fst g); snd (fst g); snd g]) gs2 -> gs1 = gs2).
    { induction gs1 as [|[[a b] e] g1 IH]; intros [|[[a' b'] e'] g2] Q; cbn in Q; try discriminate; [reflexivity|].
      injection Q as -> -> -> Q. f_equal. auto. }
    apply T3. rewrite <- F, <- P. reflexivity. }
  subst gs. pose proof D as D'.
  apply drawn_ends in D as (new & N & S & Le); [|intros x Q; apply in_map_iff in Q as (g & <- & _); discriminate].
  rewrite map_map in S, Le. cbn [last] in S, Le.
  assert (T : map (fun g : pt * pt * pt => snd g) (combine ks targets) = targets).
  { revert LT. generalize targets. clear. induction ks as [|k l IH]; intros [|e es] H; cbn in H; try lia; [reflexivity|].
    cbn [combine map snd]. f_equal. apply IH. lia. }
  change (sub (map (fun g : pt * pt * pt => snd g) (combine ks targets)) new) in S.
  change (last (cv_pts c') (0, 0) = last (map (fun g : pt * pt * pt => snd g) (combine ks targets)) (last (cv_pts c) (0, 0))) in Le.
  rewrite T in S, Le. exists new, ks. split; [exact N|]. split; [exact S|]. split; [exact Le|]. auto.
Qed.

(** ** C33 *)
Lemma pairs_absolute o : forall n l, (length l <= n)%nat -> pairs (absolute o l) = option_map (map (padd o)) (pairs l).
Proof.
  induction n as [|n IH]; intros l H; [destruct l; [reflexivity|cbn in H; lia]|].
  destruct l as [|[x|x y] l]; [reflexivity| |].
  - destruct l as [|[y|y z] l]; [reflexivity| |reflexivity]. cbn [absolute pairs]. cbn [length] in H. rewrite IH by lia.
    destruct (pairs l); reflexivity.
  - cbn [absolute pairs]. cbn [length] in H. rewrite IH by lia. destruct (pairs l); reflexivity.
Qed.
Lemma places_absolute c args : places true c args = places false c (absolute (cv_end c) args).
Proof. unfold places. rewrite (pairs_absolute _ _ _ (le_n _)). destruct (pairs args); reflexivity. Qed.
Definition as_absolute (c : curve) (k : cmd) : cmd :=
  match k with
  | DoL true a => DoL false (absolute (cv_end c) a)
  | DoH true xs => DoH false (map (Rplus (fst (cv_end c))) xs)
  | DoV true ys => DoV false (map (Rplus (snd (cv_end c))) ys)
  | DoC true a => DoC false (absolute (cv_end c) a)
  | DoS true a => DoS false (absolute (cv_end c) a)
  | DoQ true a => DoQ false (absolute (cv_end c) a)
  | DoT true a => DoT false (absolute (cv_end c) a)
  | DoB true a => DoB false (absolute (cv_end c) a)
  | DoI hob true cycle ps => DoI hob false cycle (map (padd (cv_end c)) ps)
  | k => k
  end.
Theorem C33_relative : forall fuel c k, run fuel c k = run fuel c (as_absolute c k).
Proof.
  intros fuel c k.
  destruct k as [[] args|[] xs|[] ys|rx ry a0 a1 rot|[] args|[] args|[] args|[] args|[] args|hob [] cycle points]; try reflexivity; cbn [as_absolute run].
  - unfold curve_L. now rewrite places_absolute.
  - f_equal. unfold curve_H. destruct (cv_end c) as [x0 y0]. f_equal. f_equal. rewrite map_map. reflexivity.
  - f_equal. unfold curve_V. destruct (cv_end c) as [x0 y0]. f_equal. f_equal. rewrite map_map. reflexivity.
  - unfold curve_C. now rewrite places_absolute.
  - unfold curve_S. now rewrite places_absolute.
  - unfold curve_Q. now rewrite places_absolute.
  - unfold curve_T. now rewrite places_absolute.
  - unfold curve_B. now rewrite places_absolute.
  - unfold curve_I. replace (map (fun p => padd p (cv_end c)) points) with (map (padd (cv_end c)) points); [reflexivity|]. apply map_ext. intros [a b]. unfold padd. cbn. f_equal; ring.
Qed.

(** Translation. *)
Definition mv (v : pt) (x : R * pt) : R * pt := (fst x, padd v (snd x)).
Lemma refine_mv v f g tol : (forall u, g u = padd v (f u)) -> forall fuel p rest,
  refine fuel g tol (mv v p) (map (mv v) rest) = option_map (map (mv v)) (refine fuel f tol p rest).
Proof.
  intro G. induction fuel as [|n IH]; intros p rest; [destruct rest; reflexivity|].
  destruct rest as [|x rest]; [reflexivity|]. cbn [refine map].
  replace (psub (smul (/ 2) (padd (snd (mv v p)) (snd (mv v x)))) (g (/ 2 * (fst (mv v p) + fst (mv v x)))))
    with (psub (smul (/ 2) (padd (snd p) (snd x))) (f (/ 2 * (fst p + fst x)))).
  2:{ rewrite G. cbn [mv fst snd]. unfold psub, smul, padd; cbn [fst snd]. f_equal; field. }
  destruct (Rlt_dec _ _) as [H|H].
  - change (refine n g tol (mv v p) ((/ 2 * (fst (mv v p) + fst (mv v x)), g (/ 2 * (fst (mv v p) + fst (mv v x)))) :: mv v x :: map (mv v) rest))
      with (refine n g tol (mv v p) ((/ 2 * (fst p + fst x), g (/ 2 * (fst p + fst x))) :: mv v x :: map (mv v) rest)).
    rewrite G. exact (IH p ((/ 2 * (fst p + fst x), f (/ 2 * (fst p + fst x))) :: x :: rest)).
  - rewrite IH. destruct (refine n f tol x rest); reflexivity.
Qed.
Lemma bezier_mv v l u : l <> [] -> bezier (map (padd v) l) u = padd v (bezier l u).
Proof. intro N. apply bezier_map; [auto|]. intros [a b] [c d]. unfold padd, smul; cbn [fst snd]. f_equal; ring. Qed.
Lemma sample_mv v l tol uu fuel : l <> [] ->
  option_map (map snd) (sample fuel (bezier (map (padd v) l)) tol uu) = option_map (fun o => map (padd v) (map snd o)) (sample fuel (bezier l) tol uu).
Proof.
  intro N. unfold sample. destruct uu as [|u uu]; [reflexivity|]. cbn [map].
  replace (u, bezier (map (padd v) l) u) with (mv v (u, bezier l u)) by (unfold mv; cbn; now rewrite bezier_mv).
  replace (map (fun w => (w, bezier (map (padd v) l) w)) uu) with (map (mv v) (map (fun w => (w, bezier l w)) uu)).
  2:{ rewrite map_map. apply map_ext. intro w. unfold mv; cbn. now rewrite bezier_mv. }
  rewrite (refine_mv v (bezier l)) by (intro; now apply bezier_mv). destruct (refine _ _ _ _ _); [|reflexivity].
  cbn [option_map]. rewrite !map_map. reflexivity.
Qed.
Lemma last_mv v (l : list pt) : l <> [] -> last (map (padd v) l) (0, 0) = padd v (last l (0, 0)).
Proof. intro N. destruct l as [|a l]; [congruence|]. cbn [map]. rewrite !last_cons. apply last_map. Qed.
Lemma section_mv v fuel tol pts ctrl : pts <> [] ->
  section fuel tol (map (padd v) pts) (map (padd v) ctrl) = option_map (map (padd v)) (section fuel tol pts ctrl).
Proof.
  intro N. unfold section. rewrite last_mv by auto.
  pose proof (sample_mv v (last pts (0, 0) :: ctrl) tol five fuel ltac:(discriminate)) as H. cbn [map] in H.
  destruct (sample fuel (bezier (padd v _ :: _)) tol five) as [o|], (sample fuel (bezier (last pts (0, 0) :: ctrl)) tol five) as [o'|]; try discriminate; [|reflexivity].
  cbn [option_map] in *. injection H as ->. now rewrite map_app.
Qed.
Lemma section_ne fuel tol pts ctrl q : pts <> [] -> section fuel tol pts ctrl = Some q -> q <> [].
Proof. intros N E. unfold section in E. destruct (sample _ _ _ _); [|discriminate]. injection E as <-. destruct pts; [congruence|discriminate]. Qed.
Lemma cubics_mv v fuel tol gs : forall pts, pts <> [] ->
  cubics fuel tol (map (padd v) pts) (map (fun g => (padd v (fst (fst g)), padd v (snd (fst g)), padd v (snd g))) gs)
  = option_map (map (padd v)) (cubics fuel tol pts gs).
Proof.
  induction gs as [|[[a b] e] gs IH]; intros pts N; [reflexivity|]. cbn [map cubics fst snd].
  pose proof (section_mv v fuel tol pts [a; b; e] N) as H. cbn [map] in H. rewrite H.
  destruct (section fuel tol pts [a; b; e]) as [q|] eqn:S; [|reflexivity]. cbn [option_map]. apply IH. eapply section_ne; eauto.
Qed.
Lemma quads_mv v fuel tol gs : forall pts, pts <> [] ->
  quads fuel tol (map (padd v) pts) (map (fun g => (padd v (fst g), padd v (snd g))) gs) = option_map (map (padd v)) (quads fuel tol pts gs).
Proof.
  induction gs as [|[a e] gs IH]; intros pts N; [reflexivity|]. cbn [map quads fst snd].
  pose proof (section_mv v fuel tol pts [a; e] N) as H. cbn [map] in H. rewrite H.
  destruct (section fuel tol pts [a; e]) as [q|] eqn:S; [|reflexivity]. cbn [option_map]. apply IH. eapply section_ne; eauto.
Qed.
Lemma reflect_mv v p q : psub (smul 2 (padd v p)) (padd v q) = padd v (psub (smul 2 p) q).
Proof. unfold psub, smul, padd; cbn [fst snd]. f_equal; ring. Qed.
Lemma smooth_cubics_mv v fuel tol gs : forall pts lc, pts <> [] ->
  smooth_cubics fuel tol (map (padd v) pts) (padd v lc) (map (fun g => (padd v (fst g), padd v (snd g))) gs)
  = option_map (fun r => (map (padd v) (fst r), padd v (snd r))) (smooth_cubics fuel tol pts lc gs).
Proof.
  induction gs as [|[b e] gs IH]; intros pts lc N; [reflexivity|]. cbn [map smooth_cubics fst snd]. rewrite last_mv, reflect_mv by auto.
  set (k := psub _ lc). pose proof (section_mv v fuel tol pts [k; b; e] N) as H. cbn [map] in H. rewrite H.
  destruct (section fuel tol pts [k; b; e]) as [q|] eqn:S; [|reflexivity]. cbn [option_map]. apply IH. eapply section_ne; eauto.
Qed.
Lemma smooth_quads_mv v fuel tol es : forall pts lc, pts <> [] ->
  smooth_quads fuel tol (map (padd v) pts) (padd v lc) (map (padd v) es)
  = option_map (fun r => (map (padd v) (fst r), padd v (snd r))) (smooth_quads fuel tol pts lc es).
Proof.
  induction es as [|e es IH]; intros pts lc N; [reflexivity|]. cbn [map smooth_quads]. rewrite last_mv, reflect_mv by auto.
  set (k := psub _ lc). pose proof (section_mv v fuel tol pts [k; e] N) as H. cbn [map] in H. rewrite H.
  destruct (section fuel tol pts [k; e]) as [q|] eqn:S; [|reflexivity]. cbn [option_map]. apply IH. eapply section_ne; eauto.
Qed.
Lemma by3_map (g : pt -> pt) gs : forall l, by3 l = Some gs -> by3 (map g l) = Some (map (fun x => (g (fst (fst x)), g (snd (fst x)), g (snd x))) gs).
Proof.
  induction gs as [|x gs IH]; intros l H; destruct l as [|a [|b [|e r]]]; cbn in H; try discriminate; [reflexivity|..];
    destruct (by3 r) as [l'|] eqn:R; try discriminate. cbn in H. injection H as <- <-. cbn [map by3 fst snd]. now rewrite (IH r R).
Qed.
Lemma by3_map_none (g : pt -> pt) : forall n l, (length l <= n)%nat -> by3 l = None -> by3 (map g l) = None.
Proof.
  induction n as [|n IH]; intros l L H; destruct l as [|a [|b [|e r]]]; cbn [length] in L; try lia; cbn in *; try discriminate; auto.
  destruct (by3 r) eqn:R; [discriminate|]. rewrite (IH r) by (auto; lia). reflexivity.
Qed.
Lemma by2_map (g : pt -> pt) gs : forall l, by2 l = Some gs -> by2 (map g l) = Some (map (fun x => (g (fst x), g (snd x))) gs).
Proof.
  induction gs as [|x gs IH]; intros l H; destruct l as [|a [|e r]]; cbn in H; try discriminate; [reflexivity|..];
    destruct (by2 r) as [l'|] eqn:R; try discriminate. cbn in H. injection H as <- <-. cbn [map by2 fst snd]. now rewrite (IH r R).
Qed.
Lemma by2_map_none (g : pt -> pt) : forall n l, (length l <= n)%nat -> by2 l = None -> by2 (map g l) = None.
Proof.
  induction n as [|n IH]; intros l L H; destruct l as [|a [|e r]]; cbn [length] in L; try lia; cbn in *; try discriminate; auto.
  destruct (by2 r) eqn:R; [discriminate|]. rewrite (IH r) by (auto; lia). reflexivity.
Qed.
Lemma end_mv v c : cv_pts c <> [] -> cv_end (moved_curve v c) = padd v (cv_end c).
Proof. intro N. unfold cv_end, moved_curve. cbn [cv_pts]. now apply last_mv. Qed.
Lemma places_mv v c args : cv_pts c <> [] -> places true (moved_curve v c) args = option_map (map (padd v)) (places true c args).
Proof.
  intro N. unfold places. rewrite end_mv by auto. destruct (pairs args) as [ps|]; [|reflexivity]. cbn [option_map]. f_equal. rewrite map_map.
  apply map_ext. intros [a b]. unfold padd; cbn. f_equal; ring.
Qed.
(** The body of the cubic command on a list of points. *)
Definition cubic_on fuel c ps : option curve :=
  match by3 ps with
  | None | Some [] => None
  | Some gs => option_map (fun q => Curve q (cv_tol c) (Some (snd (fst (last gs ((0, 0), (0, 0), (0, 0)))))) None)
                          (cubics fuel (cv_tol c) (cv_pts c) gs)
  end.
Lemma curve_C_on fuel rel c args : curve_C fuel rel c args = match places rel c args with Some ps => cubic_on fuel c ps | None => None end.
Proof. reflexivity. Qed.
Lemma cubic_on_mv v fuel c ps : cv_pts c <> [] -> cubic_on fuel (moved_curve v c) (map (padd v) ps) = option_map (moved_curve v) (cubic_on fuel c ps).
Proof.
  intro N. unfold cubic_on. destruct (by3 ps) as [gs|] eqn:B.
  - rewrite (by3_map (padd v) _ _ B). destruct gs as [|g gs]; [reflexivity|].
    pose proof (cubics_mv v fuel (cv_tol c) (g :: gs) (cv_pts c) N) as H. cbn [map] in H. change (cv_tol (moved_curve v c)) with (cv_tol c). change (cv_pts (moved_curve v c)) with (map (padd v) (cv_pts c)). cbn [map].
    rewrite H. destruct (cubics fuel (cv_tol c) (cv_pts c) (g :: gs)) as [q|]; [|reflexivity]. cbn [option_map]. f_equal. unfold moved_curve. cbn [cv_pts cv_tol cv_c cv_q option_map].
    f_equal. f_equal. rewrite !last_cons.
    rewrite (last_map (fun x : pt * pt * pt => (padd v (fst (fst x)), padd v (snd (fst x)), padd v (snd x))) gs g). reflexivity.
  - rewrite (by3_map_none _ _ _ (le_n _) B). reflexivity.
Qed.
Lemma or_end_mv v o c : cv_pts c <> [] -> or_end (option_map (padd v) o) (moved_curve v c) = padd v (or_end o c).
Proof. intro N. destruct o; [reflexivity|]. cbn. now apply end_mv. Qed.

Theorem C33_translate : forall fuel v c k, hob_ok k -> cv_pts c <> [] -> is_relative k ->
  run fuel (moved_curve v c) k = option_map (moved_curve v) (run fuel c k).
Proof.
  intros fuel v c k Hk N Rk.
  destruct k as [rel args|rel xs|rel ys|rx ry a0 a1 rot|rel args|rel args|rel args|rel args|rel args|hob rel cycle points]; cbn [is_relative] in Rk; try subst rel; cbn [run].
  - unfold curve_L. rewrite places_mv by auto. destruct (places true c args) as [ps|]; [|reflexivity]. cbn [option_map].
    unfold moved_curve; cbn [cv_pts cv_tol cv_c cv_q option_map]. now rewrite map_app.
  - cbn [option_map]. f_equal. unfold curve_H. rewrite end_mv by auto. destruct (cv_end c) as [x0 y0]. cbn [padd fst snd].
    unfold moved_curve; cbn [cv_pts cv_tol cv_c cv_q option_map]. rewrite map_app, map_map. do 2 f_equal. apply map_ext. intro x. unfold padd; cbn. f_equal; ring.
  - cbn [option_map]. f_equal. unfold curve_V. rewrite end_mv by auto. destruct (cv_end c) as [x0 y0]. cbn [padd fst snd].
    unfold moved_curve; cbn [cv_pts cv_tol cv_c cv_q option_map]. rewrite map_app, map_map. do 2 f_equal. apply map_ext. intro x. unfold padd; cbn. f_equal; ring.
  - cbn [option_map]. f_equal. unfold curve_arc. rewrite end_mv by auto. change (cv_tol (moved_curve v c)) with (cv_tol c).
    destruct (map (on_ellipse rx ry rot) _) as [|p0 r]; [reflexivity|].
    unfold moved_curve; cbn [cv_pts cv_tol cv_c cv_q option_map]. rewrite map_app, map_map. do 2 f_equal. apply map_ext. intro x. unfold padd, psub; cbn. f_equal; ring.
  - rewrite !curve_C_on, places_mv by auto. destruct (places true c args) as [ps|]; [|reflexivity]. cbn [option_map]. now apply cubic_on_mv.
  - unfold curve_S. rewrite places_mv by auto. destruct (places true c args) as [ps|]; [|reflexivity]. cbn [option_map].
    destruct (by2 ps) as [gs|] eqn:B.
    + rewrite (by2_map (padd v) _ _ B). change (cv_tol (moved_curve v c)) with (cv_tol c). change (cv_pts (moved_curve v c)) with (map (padd v) (cv_pts c)). change (cv_c (moved_curve v c)) with (option_map (padd v) (cv_c c)).
      rewrite or_end_mv, smooth_cubics_mv by auto. destruct (smooth_cubics _ _ _ _ gs) as [[q z]|]; reflexivity.
    + rewrite (by2_map_none _ _ _ (le_n _) B). reflexivity.
  - unfold curve_Q. rewrite places_mv by auto. destruct (places true c args) as [ps|]; [|reflexivity]. cbn [option_map].
    destruct (by2 ps) as [gs|] eqn:B.
    + rewrite (by2_map (padd v) _ _ B). destruct gs as [|g gs]; [reflexivity|].
      pose proof (quads_mv v fuel (cv_tol c) (g :: gs) (cv_pts c) N) as H. cbn [map] in H. change (cv_tol (moved_curve v c)) with (cv_tol c). change (cv_pts (moved_curve v c)) with (map (padd v) (cv_pts c)). cbn [map].
      rewrite H. destruct (quads fuel (cv_tol c) (cv_pts c) (g :: gs)) as [q|]; [|reflexivity]. cbn [option_map]. f_equal.
      unfold moved_curve. cbn [cv_pts cv_tol cv_c cv_q option_map]. f_equal. f_equal. rewrite !last_cons.
      rewrite (last_map (fun x : pt * pt => (padd v (fst x), padd v (snd x))) gs g). reflexivity.
    + rewrite (by2_map_none _ _ _ (le_n _) B). reflexivity.
  - unfold curve_T. rewrite places_mv by auto. destruct (places true c args) as [es|]; [|reflexivity]. cbn [option_map].
    change (cv_tol (moved_curve v c)) with (cv_tol c). change (cv_pts (moved_curve v c)) with (map (padd v) (cv_pts c)). change (cv_q (moved_curve v c)) with (option_map (padd v) (cv_q c)).
    rewrite or_end_mv, smooth_quads_mv by auto. destruct (smooth_quads _ _ _ _ es) as [[q z]|]; reflexivity.
  - unfold curve_B. rewrite places_mv by auto. destruct (places true c args) as [ps|]; [|reflexivity]. cbn [option_map]. rewrite end_mv by auto.
    change (cv_tol (moved_curve v c)) with (cv_tol c). cbn [length]. rewrite map_length.
    pose proof (sample_mv v (cv_end c :: ps) (cv_tol c) (spread (S (length ps))) fuel ltac:(discriminate)) as H. cbn [map] in H.
    destruct (sample fuel (bezier (padd v _ :: _)) _ _) as [o|], (sample fuel (bezier (cv_end c :: ps)) _ _) as [o'|]; try discriminate; [|reflexivity].
    cbn [option_map] in *. injection H as H. unfold moved_curve; cbn [cv_pts cv_tol cv_c cv_q option_map]. now rewrite H, map_app.
  - unfold curve_I. rewrite end_mv by auto.
    set (pts := cv_end c :: map (fun p => padd p (cv_end c)) points).
    replace (padd v (cv_end c) :: map (fun p => padd p (padd v (cv_end c))) points) with (map (padd v) pts).
    2:{ unfold pts. cbn [map]. f_equal. rewrite map_map. apply map_ext. intros [a b]. unfold padd; cbn. f_equal; ring. }
    destruct Hk as [Hl He]. rewrite He by (unfold pts; cbn [length]; now rewrite map_length). destruct (hob pts) as [ks|] eqn:H; [|reflexivity]. cbn [option_map]. specialize (Hl _ _ H).
    rewrite !curve_C_on. unfold places. rewrite !hobby_pairs by (rewrite ?map_length; auto; discriminate). cbn [option_map]. rewrite <- cubic_on_mv by auto. f_equal.
    replace (tl (map (padd v) pts) ++ (if cycle then [hd (0, 0) (map (padd v) pts)] else [])) with (map (padd v) (tl pts ++ (if cycle then [hd (0, 0) pts] else [])))
      by (rewrite map_app; f_equal; destruct cycle; reflexivity).
    generalize (tl pts ++ (if cycle then [hd (0, 0) pts] else [])). clear. unfold sections_of. induction ks as [|k ks IH]; intros [|e es]; [reflexivity|reflexivity|reflexivity|].
    cbn [map combine flat_map app fst snd]. now rewrite IH.
Qed.
Lemma run_ne fuel c k c' : cv_pts c <> [] -> hob_ok k -> run fuel c k = Some c' -> cv_pts c' <> [].
Proof.
  intros N Hk E.
  assert (App : forall new, cv_pts c' = cv_pts c ++ new -> cv_pts c' <> []) by (intros new ->; destruct (cv_pts c); [congruence|discriminate]).
  destruct (coords k) as [[rel args]|] eqn:K.
  - destruct (C60_end _ _ _ _ _ _ K E) as (ps & new & _ & P & _). eauto.
  - destruct k as [rel args|rel xs|rel ys|rx ry a0 a1 rot|rel args|rel args|rel args|rel args|rel args|hob rel cycle points]; cbn [coords run] in *; try discriminate.
    + injection E as <-. unfold curve_H. destruct (cv_end c). cbn. destruct (cv_pts c); [congruence|discriminate].
    + injection E as <-. unfold curve_V. destruct (cv_end c). cbn. destruct (cv_pts c); [congruence|discriminate].
    + injection E as <-. unfold curve_arc. destruct (map _ _); [auto|]. cbn. destruct (cv_pts c); [congruence|discriminate].
    + apply C62_through in E as (new & ks & P & _); [eauto|apply Hk].
Qed.
Theorem C33_translate_all : forall fuel v ks c, Forall hob_ok ks -> cv_pts c <> [] -> Forall is_relative ks ->
  run_all fuel (moved_curve v c) ks = option_map (moved_curve v) (run_all fuel c ks).
Proof.
  intros fuel v ks; induction ks as [|k ks IH]; intros c Hk N F; [reflexivity|]. cbn [run_all].
  inversion F as [|? ? F1 F2]; subst. inversion Hk as [|? ? K1 K2]; subst. rewrite C33_translate by auto. destruct (run fuel c k) as [c'|] eqn:E; [|reflexivity]. cbn [option_map].
  apply IH; auto. eapply run_ne; eauto.
Qed.

(** ** C46 *)
Theorem C46_get_points : forall c p l, cv_pts c = p :: l -> 
  (dist2 (last l p) p < cv_tol c -> get_points c = removelast (p :: l)) /\
  (cv_tol c <= dist2 (last l p) p -> get_points c = p :: l).
Proof.
  intros c p l E. unfold get_points, cv_end. rewrite E. cbn [hd]. rewrite last_cons.
  replace (fst (psub (last l p) p) ^ 2 + snd (psub (last l p) p) ^ 2) with (dist2 (last l p) p) by (unfold dist2, dot; ring).
  destruct (Rlt_dec _ _); split; intro; try reflexivity; lra.
Qed.
(** A curve closed by its last command does not repeat its first point; one that
    ends further than the tolerance from its start is returned as is. *)
Corollary C46_closed : forall c p l, cv_pts c = p :: l ++ [p] -> 0 < cv_tol c -> get_points c = p :: l.
Proof.
  intros c p l E T. destruct (C46_get_points c p (l ++ [p]) E) as [H _]. rewrite H.
  - change (p :: l ++ [p]) with ((p :: l) ++ [p]). apply removelast_last.
  - rewrite last_app. cbn. replace (dist2 p p) with 0 by (unfold dist2, dot, psub; cbn; ring). auto.
Qed.
(** But a curve with a single point gives no points at all. *)
Theorem C46_single_refuted : forall p tolerance, tolerance <> 0 -> get_points (new_curve p tolerance) = [].
Proof.
  intros p tol T. destruct (C46_get_points (new_curve p tol) p [] eq_refl) as [H _]. rewrite H; [reflexivity|].
  cbn [last new_curve cv_tol]. replace (dist2 p p) with 0 by (unfold dist2, dot, psub; cbn; ring). pose proof (Rsqr_pos_lt tol T) as Q. unfold Rsqr in Q. lra.
Qed.

(** C and Q without arguments fail (they use a variable not yet defined), while the
    other commands accept an empty list. *)
Theorem C60_empty_refuted : forall fuel c rel,
  curve_C fuel rel c [] = None /\ curve_Q fuel rel c [] = None /\
  curve_L rel c [] <> None /\ curve_S fuel rel c [] <> None /\ curve_T fuel rel c [] <> None.
Proof. intros fuel c rel. destruct rel; repeat split; cbn; discriminate. Qed.

(** ** Non-vacuity *)
Definition demo_hob (l : list pt) : option (list (pt * pt)) := Some (map (fun p => (p, p)) (tl l)).
Example demo_hob_ok : sized false demo_hob /\ forall n, equivariant n demo_hob.
Proof.
  split; [intros l ks H; injection H as <-; rewrite map_length; destruct l; cbn; lia|].
  intros n v [|p l] _; unfold demo_hob; cbn [map tl option_map]; rewrite ?map_map; reflexivity.
Qed.
(** A curve with every kind of relative command ends, wherever it starts. *)
Definition demo_cmds : list cmd :=
  [DoL true [Num 1; Num 0]; DoH true [2]; DoV true [3]; DoArc 1 1 0 1 0; DoC true [Num 1; Num 0; Num 2; Num 1; Cpx 3 1];
   DoS true [Num 1; Num 1; Num 2; Num 0]; DoQ true [Num 1; Num 1; Num 2; Num 0]; DoT true [Num 1; Num 0]; DoB true [Num 1; Num 2; Num 3; Num 3];
   DoI demo_hob true false [(1, 1); (2, 0)]].
Example demo_well_formed c : Forall is_relative demo_cmds /\ Forall hob_ok demo_cmds /\ Forall (well_formed c) demo_cmds.
Proof.
  split; [repeat constructor|]. split; [repeat (apply Forall_cons; [first [exact I | split; apply demo_hob_ok]|]); constructor|]. pose proof (proj1 demo_hob_ok) as H.
  repeat (apply Forall_cons; [first [exact I | cbn; discriminate | exists 1%nat; split; [lia|reflexivity] | exists 1%nat; reflexivity | split; [discriminate|split; [exact H|discriminate]]]|]). constructor.
Qed.
Example demo_moves fuel : run_all fuel (moved_curve (5, 7) (new_curve (0, 0) 1)) demo_cmds
  = option_map (moved_curve (5, 7)) (run_all fuel (new_curve (0, 0) 1) demo_cmds).
Proof. apply C33_translate_all; [apply (demo_well_formed (new_curve (0, 0) 1))|discriminate|apply (demo_well_formed (new_curve (0, 0) 1))]. Qed.
Example demo_closed : get_points (Curve [(0, 0); (1, 0); (1, 1); (0, 0)] (/ 100) None None) = [(0, 0); (1, 0); (1, 1)].
Proof. apply (C46_closed _ (0, 0) [(1, 0); (1, 1)]); [reflexivity|cbn; lra]. Qed.

Print Assumptions C31_ends.
Print Assumptions C31_bernstein.
Print Assumptions C31_affine.
Print Assumptions C31_hull.
Print Assumptions C31_reverse.
Print Assumptions C32_section.
Print Assumptions C32_cubic.
Print Assumptions C32_quadratic.
Print Assumptions C32_general.
Print Assumptions C32_commands_terminate.
Print Assumptions C33_relative.
Print Assumptions C33_translate_all.
Print Assumptions C46_get_points.
Print Assumptions C46_closed.
Print Assumptions C46_single_refuted.
Print Assumptions C59_smooth_cubic.
Print Assumptions C59_smooth_quadratic.
Print Assumptions C59_memory.
Print Assumptions C60_end.
Print Assumptions C62_through.
