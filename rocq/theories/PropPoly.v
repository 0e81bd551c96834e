(** C81: PolyPath. *)

From Coq Require Import Reals Lra Lia List ZArith Bool Psatz.
From Verif Require Import Plane Curve Flex SpecFlex FlexProofs PropPath PropFlexRows PropFlexShape PropArc PropFlexEnds SpecRound PropFlexRound PropFillet Path SpecPath SpecPathArc PropPathArc Circles SpecCircles PropCircles Poly SpecPoly.
Import ListNotations.
Open Scope R_scope.

Lemma same_spec : forall p q, same p q = true <-> p = q.
Proof.
  intros [x y] [x' y']. unfold same. cbn [fst snd]. destruct (Req_EM_T x x'); [destruct (Req_EM_T y y')|]; split; intro H; try discriminate; congruence.
Qed.
Lemma same_not : forall p q, same p q = false -> p <> q.
Proof. intros p q H E. apply same_spec in E. congruence. Qed.

(** ** One side *)

Lemma joint_ok : forall bevel last p0 pp p1, joint bevel last p0 pp p1 (add_corner bevel last p0 pp p1).
Proof.
  intros bevel a b c d. unfold add_corner. set (m := psub a b). set (s := psub c d). set (vec := fst m * snd s - fst s * snd m).
  assert (VC : cross (psub b a) (psub d c) = vec) by (unfold vec, m, s, cross, psub; cbn [fst snd]; ring).
  destruct (Rlt_dec (/ 10 ^ 30) (Rabs vec)) as [L|L]; [|apply joint_none; rewrite VC; lra].
  assert (NZ : vec <> 0). { intro Z. rewrite Z, Rabs_R0 in L. assert (0 < / 10 ^ 30) by (apply Rinv_0_lt_compat; lra). lra. }
  set (p := (_ / vec, _ / vec)). assert (P1 : on_line a b p).
  { unfold on_line, cross, psub, p. cbn [fst snd]. unfold vec, m, s, psub in *. cbn [fst snd] in *. field. exact NZ. }
  assert (P2 : on_line c d p).
  { unfold on_line, cross, psub, p. cbn [fst snd]. unfold vec, m, s, psub in *. cbn [fst snd] in *. field. exact NZ. }
  assert (D0 : dot (psub p c) s = - dot (psub p c) (psub d c)) by (unfold s, dot, psub; cbn [fst snd]; ring).
  assert (D1 : dot (psub p b) m = - dot (psub p b) (psub b a)) by (unfold m, dot, psub; cbn [fst snd]; ring).
  rewrite <- VC in L. clearbody p. destruct bevel; cbn [andb].
  - destruct (Rlt_dec 0 (dot (psub p c) s)) as [G0|G0]; cbn [andb]; [|apply joint_miter; [exact L|exact P1|exact P2|intros _ [_ Z]; lra]].
    destruct (Rlt_dec (dot (psub p b) m) 0) as [G1|G1]; [apply (joint_bevel _ _ _ _ _ p); try assumption; try reflexivity; lra|apply joint_miter; [exact L|exact P1|exact P2|intros _ [Z _]; lra]].
  - apply joint_miter; [exact L|exact P1|exact P2|discriminate].
Qed.
Lemma left_length : forall p q, p <> q -> let d := sqrt ((fst q - fst p) ^ 2 + (snd q - snd p) ^ 2) in 0 < d /\ d * d = (fst q - fst p) ^ 2 + (snd q - snd p) ^ 2.
Proof.
  intros [x y] [x' y'] N. cbn [fst snd]. assert (P : 0 < (x' - x) ^ 2 + (y' - y) ^ 2).
  { destruct (Req_dec x x') as [E|E]; [destruct (Req_dec y y') as [E'|E']; [congruence|]|]; pose proof (pow2_ge_0 (x' - x)); pose proof (pow2_ge_0 (y' - y)); [assert (0 < (y' - y) ^ 2) by nra|assert (0 < (x' - x) ^ 2) by nra]; lra. }
  split; [now apply sqrt_lt_R0|apply sqrt_sqrt; lra].
Qed.
Lemma left_at : forall p q o, p <> q -> at_xy p q 0 o (padd p (smul o (left_of p q))) /\ at_xy p q (apart p q) o (padd q (smul o (left_of p q))).
Proof.
  intros p q o N. destruct (left_length p q N) as [D0 DD]. unfold at_xy, ahead, aside, apart, left_of, ahead_of, padd, smul, psub. cbn [fst snd].
  set (d := sqrt _) in *. clearbody d. set (a := fst q - fst p) in *. set (b := snd q - snd p) in *.
  replace (fst p + o * - (/ d * b) - fst p) with (- (o * b / d)) by (field; lra). replace (snd p + o * (/ d * a) - snd p) with (o * a / d) by (field; lra).
  replace (fst q + o * - (/ d * b) - fst p) with (a - o * b / d) by (unfold a; field; lra). replace (snd q + o * (/ d * a) - snd p) with (b + o * a / d) by (unfold b; field; lra).
  clearbody a b. assert (E : (a * a + b * b) / d = d) by (replace (a * a + b * b) with (d * d) by (rewrite DD; ring); field; lra).
  assert (E1 : (a * a + b * b) / (d * d) = 1) by (replace (a * a + b * b) with (d * d) by (rewrite DD; ring); field; lra).
  split; split.
  - field; lra.
  - replace ((a * (o * a / d) - b * - (o * b / d)) / d) with (o * ((a * a + b * b) / (d * d))) by (field; lra). rewrite E1. ring.
  - rewrite <- E at 4. field. lra.
  - replace ((a * (b + o * a / d) - b * (a - o * b / d)) / d) with (o * ((a * a + b * b) / (d * d))) by (field; lra). rewrite E1. ring.
Qed.
Lemma no_repeat_ok : forall l : list pt, no_repeat l = true -> forall j, (S j < length l)%nat -> nth j l (0, 0) <> nth (S j) l (0, 0).
Proof.
  induction l as [|p [|q l] IH]; intros H j J; [cbn in J; lia|cbn in J; lia|]. cbn [no_repeat] in H. apply andb_prop in H as [H1 H2]. destruct j as [|j].
  - cbn [nth]. intros <-. destruct (Req_EM_T (fst p) (fst p)); [|congruence]. destruct (Req_EM_T (snd p) (snd p)); [discriminate|congruence].
  - exact (IH H2 j ltac:(cbn in *; lia)).
Qed.

Section Run.
Variables (pts : list pt) (width distance : list R) (n : nat) (bevel : bool).
Notation grow' := (grow pts width distance n bevel).
Definition grow_all (js : list nat) (i : nat) (left : bool) (side : list pt) : list pt := fold_left (fun s j => grow' j i left s) js side.
Lemma last_app_ne : forall (a s : list pt) d, s <> [] -> last (a ++ s) d = last s d.
Proof.
  induction a as [|x a IH]; intros s d N; [reflexivity|]. rewrite <- (IH s d N). cbn [app last]. destruct (a ++ s) eqn:E; [|reflexivity].
  apply app_eq_nil in E as [_ E]. contradiction.
Qed.
Lemma grow_ne : forall j i left s, s <> [] -> grow' j i left s <> [].
Proof. intros j i left s N E. unfold grow in E. apply app_eq_nil in E as [E _]. contradiction. Qed.
Lemma grow_front : forall j i left a s, s <> [] -> grow' j i left (a ++ s) = a ++ grow' j i left s.
Proof. intros j i left a s N. unfold grow. rewrite last_app_ne by exact N. now rewrite app_assoc. Qed.
Lemma grow_all_front : forall js i left a s, s <> [] -> grow_all js i left (a ++ s) = a ++ grow_all js i left s.
Proof.
  induction js as [|j js IH]; intros i left a s N; [reflexivity|]. cbn [grow_all fold_left]. rewrite grow_front by exact N. apply IH, grow_ne, N.
Qed.
Lemma grow_all_cons : forall js i left x, exists r, grow_all js i left [x] = x :: r.
Proof.
  assert (H : forall js i left x r, exists r', grow_all js i left (x :: r) = x :: r').
  { induction js as [|j js IH]; intros i left x r; [exists r; reflexivity|]. cbn [grow_all fold_left]. unfold grow at 1. cbn [app]. apply IH. }
  intros. apply H.
Qed.
Lemma grow_all_snoc : forall js j i left s, grow_all (js ++ [j]) i left s = grow' j i left (grow_all js i left s).
Proof. intros. unfold grow_all. now rewrite fold_left_app. Qed.

(** The run along all corners is a drawn side. *)
Lemma run_corners : forall i left m, exists cs, length cs = m /\
  grow_all (seq 1 m) i left [edge_start pts width distance n 0 i left] = edge_start pts width distance n 0 i left :: concat cs /\
  forall j, (j < m)%nat -> joint bevel (last (edge_start pts width distance n 0 i left :: concat (firstn j cs)) (0, 0))
    (edge_end pts width distance n j i left) (edge_start pts width distance n (j + 1) i left) (edge_end pts width distance n (j + 1) i left) (nth j cs []).
Proof.
  intros i left. induction m as [|m (cs & L & G & J)]; [exists []; repeat split; intros; lia|].
  set (s := edge_start pts width distance n 0 i left) in *.
  set (c := add_corner bevel (last (s :: concat cs) (0, 0)) (edge_end pts width distance n m i left) (edge_start pts width distance n (m + 1) i left) (edge_end pts width distance n (m + 1) i left)).
  exists (cs ++ [c]). split; [rewrite app_length; cbn; lia|]. split.
  - rewrite seq_S, grow_all_snoc, G. unfold grow. rewrite concat_app. cbn [concat]. rewrite app_nil_r. cbn [app]. replace (1 + m - 1)%nat with m by lia. rewrite (Nat.add_comm 1 m). reflexivity.
  - intros j Hj. destruct (Nat.eq_dec j m) as [->|N].
    + rewrite firstn_app, <- L, firstn_all, Nat.sub_diag. cbn [firstn]. rewrite app_nil_r, app_nth2, Nat.sub_diag by lia. cbn [nth]. rewrite L. apply joint_ok.
    + rewrite firstn_app. replace (j - length cs)%nat with 0%nat by lia. cbn [firstn]. rewrite app_nil_r, app_nth1 by lia. apply J. lia.
Qed.
Lemma offset_off : forall j i left, side_offset width distance n j i left = off width distance n i left j.
Proof. intros j i left. unfold side_offset, off, mid, given, cyc. destruct left; field. Qed.
Lemma run_drawn : forall i left, (2 <= length pts)%nat -> no_repeat pts = true ->
  side_drawn bevel pts (off width distance n i left) (grow_all (seq 1 (length pts - 2)) i left [edge_start pts width distance n 0 i left] ++ [edge_end pts width distance n (length pts - 2) i left]).
Proof.
  intros i left L2 NR. destruct (run_corners i left (length pts - 2)) as (cs & L & G & J).
  exists (fun j => edge_start pts width distance n j i left), (fun j => edge_end pts width distance n j i left), cs. split; [|split; [exact L|split; [rewrite G; reflexivity|exact J]]].
  intros j Hj. pose proof (no_repeat_ok pts NR j ltac:(lia)) as N. unfold starts, stops, edge_start, edge_end, point. rewrite !offset_off.
  split; [exact (proj1 (left_at _ _ _ N))|exact (proj2 (left_at _ _ _ N))].
Qed.

(** ** One path, with its cuts *)

Fixpoint path_loop (mx i : nat) (js : list nat) (s : sides) : option (sides * list poly) :=
  match js with
  | [] => Some (s, [])
  | j :: js =>
      match path_step pts width distance n bevel mx j i s with
      | None => None
      | Some (s, cut) => match path_loop mx i js s with None => None | Some (s, more) => Some (s, cut ++ more) end
      end
  end.
Lemma cut_between : forall s q, cut_off s = Some q -> between_sides s q.
Proof.
  intros [r l] q H. unfold cut_off in H. unfold between_sides. set (l' := if same (hd (0, 0) r) (hd (0, 0) l) then tl l else l) in H.
  assert (L' : l' <> []) by (intro Z; rewrite Z in H; discriminate). assert (LL : last l' (0, 0) = last l (0, 0)).
  { unfold l' in *. destruct (same _ _); [|reflexivity]. destruct l as [|x [|y l]]; cbn in *; congruence. }
  assert (Q : q = r ++ rev (if same (last r (0, 0)) (last l' (0, 0)) then removelast l' else l')) by (destruct l'; [contradiction|congruence]).
  exists l'. split.
  - unfold l'. destruct (same (hd (0, 0) r) (hd (0, 0) l)) eqn:E; [right|left]; (split; [|reflexivity]); [now apply same_spec|now apply same_not].
  - rewrite LL in Q. destruct (same (last r (0, 0)) (last l (0, 0))) eqn:E; [right|left]; (split; [|exact Q]); [now apply same_spec|now apply same_not].
Qed.
Lemma finish_between : forall i r l, r <> [] -> l <> [] ->
  between_sides (r ++ [edge_end pts width distance n (length pts - 2) i false], l ++ [edge_end pts width distance n (length pts - 2) i true]) (finish pts width distance n i (r, l)).
Proof.
  intros i r l R0 L0. unfold finish, between_sides. set (e0 := edge_end _ _ _ _ _ i false). set (e1 := edge_end _ _ _ _ _ i true). set (l' := if same _ _ then tl l else l).
  assert (H0 : hd (0, 0) (r ++ [e0]) = hd (0, 0) r) by (destruct r; [contradiction|reflexivity]). assert (H1 : hd (0, 0) (l ++ [e1]) = hd (0, 0) l) by (destruct l; [contradiction|reflexivity]).
  rewrite H0, H1, !last_app_ne by discriminate. cbn [last]. exists (l' ++ [e1]). split.
  - unfold l'. destruct (same (hd (0, 0) r) (hd (0, 0) l)) eqn:E; [right|left]; (split; [first [now apply same_spec|now apply same_not]|]); [destruct l; [contradiction|reflexivity]|reflexivity].
  - rewrite removelast_last. destruct (same e0 e1) eqn:E; [right|left]; (split; [first [now apply same_spec|now apply same_not]|]).
    + apply same_spec in E. rewrite rev_app_distr, E, <- app_assoc. reflexivity.
    + reflexivity.
Qed.
Lemma loop_glue : forall mx i js r l r' l' cut, path_loop mx i js (r, l) = Some ((r', l'), cut) -> r <> [] -> l <> [] ->
  r' <> [] /\ l' <> [] /\ exists pieces, Forall2 between_sides pieces cut /\
    forall e0 e1, glue (pieces ++ [(r' ++ [e0], l' ++ [e1])]) (grow_all js i false r ++ [e0]) (grow_all js i true l ++ [e1]).
Proof.
  intros mx i. induction js as [|j js IH]; intros r l r' l' cut H R0 L0.
  - cbn [path_loop] in H. injection H as <- <- <-. split; [exact R0|]. split; [exact L0|]. exists []. split; [constructor|]. intros. apply glue_one.
  - cbn [path_loop] in H. unfold path_step in H. cbn [fst snd] in H. cbn [grow_all fold_left].
    set (a := grow' j i false r) in *. set (b := grow' j i true l) in *. assert (A0 : a <> []) by (apply grow_ne, R0). assert (B0 : b <> []) by (apply grow_ne, L0). clearbody a b.
    change (fold_left (fun s j => grow' j i false s) js a) with (grow_all js i false a). change (fold_left (fun s j => grow' j i true s) js b) with (grow_all js i true b).
    destruct (_ && _)%bool.
    + destruct (cut_off (a, b)) as [q|] eqn:C; [|discriminate]. destruct (path_loop mx i js ([last a (0, 0)], [last b (0, 0)])) as [[[r1 l1] more]|] eqn:P; [|discriminate]. injection H as -> -> <-.
      destruct (IH _ _ _ _ _ P ltac:(discriminate) ltac:(discriminate)) as (R1 & L1 & ps & F & G). split; [exact R1|]. split; [exact L1|].
      exists ((a, b) :: ps). split; [cbn [app]; constructor; [apply cut_between, C|exact F]|]. intros e0 e1. specialize (G e0 e1). cbn [app].
      set (x := last a (0, 0)) in *. set (y := last b (0, 0)) in *. assert (AX : a = removelast a ++ [x]) by exact (app_removelast_last (0, 0) A0). assert (BY : b = removelast b ++ [y]) by exact (app_removelast_last (0, 0) B0).
      rewrite AX, BY. rewrite !grow_all_front by discriminate.
      destruct (grow_all_cons js i false x) as [u U]. destruct (grow_all_cons js i true y) as [v V]. rewrite U, V in *.
      rewrite <- !app_assoc. cbn [app] in *. now apply glue_more.
    + destruct (path_loop mx i js (a, b)) as [[[r1 l1] more]|] eqn:P; [|discriminate]. injection H as -> -> <-. exact (IH _ _ _ _ _ P A0 B0).
Qed.

(** ** All paths *)

Definition pick (i : nat) (l : list (nat * poly)) : list poly := map snd (filter (fun ip => (fst ip =? i)%nat) l).
Lemma pick_app : forall i a b, pick i (a ++ b) = pick i a ++ pick i b.
Proof. intros. unfold pick. now rewrite filter_app, map_app. Qed.
Lemma pick_same : forall i qs, pick i (map (pair i) qs) = qs.
Proof. intros i qs. unfold pick. induction qs as [|q qs IH]; [reflexivity|]. cbn [map filter fst]. rewrite Nat.eqb_refl. cbn [map snd]. now f_equal. Qed.
Lemma pick_other : forall i k qs, i <> k -> pick i (map (pair k) qs) = [].
Proof. intros i k qs N. unfold pick. induction qs as [|q qs IH]; [reflexivity|]. cbn [map filter fst]. destruct (Nat.eqb_spec k i); [congruence|exact IH]. Qed.
Lemma pick_rows : forall X (f : nat -> X -> list poly) (l : list X) a i d, pick i (concat (map (fun ip => map (pair (fst ip)) (f (fst ip) (snd ip))) (combine (seq a (length l)) l))) =
  if ((a <=? i) && (i <? a + length l))%nat%bool then f i (nth (i - a) l d) else [].
Proof.
  intros X f. induction l as [|x l IH]; intros a i d.
  - cbn. destruct (_ && _)%bool eqn:E; [|reflexivity]. apply andb_prop in E as [E1 E2]. apply Nat.leb_le in E1. apply Nat.ltb_lt in E2. lia.
  - cbn [length seq combine map concat fst snd]. rewrite pick_app, (IH (S a) i d). destruct (Nat.eq_dec i a) as [->|N].
    + rewrite pick_same. destruct (Nat.leb_spec (S a) a); [lia|]. cbn [andb]. rewrite app_nil_r. destruct (Nat.leb_spec a a); [|lia]. destruct (Nat.ltb_spec a (a + S (length l))); [|lia]. cbn [andb]. now rewrite Nat.sub_diag.
    + rewrite pick_other by exact N. cbn [app]. destruct (Nat.leb_spec (S a) i), (Nat.leb_spec a i), (Nat.ltb_spec i (S a + length l)), (Nat.ltb_spec i (a + S (length l))); try lia; cbn [andb]; try reflexivity.
      replace (i - a)%nat with (S (i - S a)) by lia. reflexivity.
Qed.
Lemma rows_index : forall X (f : nat -> X -> list poly) (l : list X) a, Forall (fun ip => (a <= fst ip < a + length l)%nat) (concat (map (fun ip => map (pair (fst ip)) (f (fst ip) (snd ip))) (combine (seq a (length l)) l))).
Proof.
  intros X f. induction l as [|x l IH]; intro a; [constructor|]. cbn [length seq combine map concat fst snd]. apply Forall_app. split.
  - apply Forall_forall. intros ip Q. apply in_map_iff in Q as (q & <- & _). cbn [fst]. lia.
  - eapply Forall_impl; [|exact (IH (S a))]. intros ip Q. cbn beta in *. lia.
Qed.
Lemma step_paths : forall mx j paths paths' cut, paths_step pts width distance n bevel mx j paths = Some (paths', cut) -> length paths = n ->
  length paths' = n /\ Forall (fun ip => (fst ip < n)%nat) cut /\ forall i d, (i < n)%nat -> path_step pts width distance n bevel mx j i (nth i paths d) = Some (nth i paths' d, pick i cut).
Proof.
  intros mx j paths paths' cut H L. unfold paths_step in H. destruct (all_some _) as [rows|] eqn:E; [|discriminate]. injection H as <- <-.
  pose proof (all_some_length _ _ E) as LR. rewrite map_length, combine_length, seq_length, L, Nat.min_id in LR. split; [now rewrite map_length|]. split.
  - pose proof (rows_index _ (fun _ (sp : sides * list poly) => snd sp) rows 0) as Q. rewrite LR in Q. eapply Forall_impl; [|exact Q]. intros ip Q'. cbn beta in *. lia.
  - intros i d I. pose proof (all_some_nth _ _ i (d, []) E) as N. rewrite map_length, combine_length, seq_length, L, Nat.min_id in N. specialize (N I).
    rewrite (nth_indep _ None (path_step pts width distance n bevel mx j (fst (0%nat, d)) (snd (0%nat, d)))) in N by (rewrite map_length, combine_length, seq_length, L, Nat.min_id; exact I).
    rewrite (map_nth (fun ip => path_step pts width distance n bevel mx j (fst ip) (snd ip))) in N. rewrite combine_nth in N by (rewrite seq_length; congruence). cbn [fst snd] in N. rewrite seq_nth in N by exact I.
    cbn [Nat.add] in N. rewrite N. f_equal. change d with (fst (d, @nil poly)) at 2. rewrite map_nth. pose proof (pick_rows _ (fun _ (sp : sides * list poly) => snd sp) rows 0 i (d, [])) as PR. cbn [Nat.leb andb Nat.add] in PR. rewrite LR in PR. rewrite PR.
    destruct (Nat.ltb_spec i n); [|lia]. rewrite Nat.sub_0_r. destruct (nth i rows (d, [])); reflexivity.
Qed.
Lemma loop_paths : forall mx js paths paths' cut, paths_loop pts width distance n bevel mx js paths = Some (paths', cut) -> length paths = n ->
  length paths' = n /\ Forall (fun ip => (fst ip < n)%nat) cut /\ forall i d, (i < n)%nat -> path_loop mx i js (nth i paths d) = Some (nth i paths' d, pick i cut).
Proof.
  intros mx. induction js as [|j js IH]; intros paths paths' cut H L; cbn [paths_loop] in H.
  - injection H as <- <-. split; [exact L|]. split; [constructor|]. reflexivity.
  - destruct (paths_step _ _ _ _ _ _ _ _) as [[p1 c1]|] eqn:E; [|discriminate]. destruct (paths_loop _ _ _ _ _ _ js p1) as [[p2 c2]|] eqn:E2; [|discriminate]. injection H as <- <-.
    destruct (step_paths _ _ _ _ _ E L) as (L1 & F1 & S1). destruct (IH _ _ _ E2 L1) as (L2 & F2 & S2). split; [exact L2|]. split; [apply Forall_app; auto|].
    intros i d I. cbn [path_loop]. rewrite (S1 i d I), (S2 i d I), pick_app. reflexivity.
Qed.
Lemma pick_combine : forall i idx ps, pick i (combine idx ps) = of_path i idx ps.
Proof. reflexivity. Qed.
Lemma pick_split : forall i l, pick i l = of_path i (map fst l) (map snd l).
Proof.
  intros i l. unfold of_path, pick. f_equal. f_equal. induction l as [|[a b] l IH]; [reflexivity|]. cbn [map combine fst snd]. now f_equal.
Qed.
Lemma concat_single : forall X (f : nat * X -> poly) l, concat (map (fun ip => map (pair (fst ip)) [f ip]) l) = map (fun ip => (fst ip, f ip)) l.
Proof. intros X f. induction l as [|x l IH]; [reflexivity|]. cbn [map concat app]. now f_equal. Qed.
Lemma fst_combine : forall X (a : list nat) (b : list X), length a = length b -> map (fun ip => fst ip) (combine a b) = a.
Proof. intros X. induction a as [|x a IH]; intros [|y b] L; try discriminate; [reflexivity|]. cbn [combine map fst]. f_equal. apply IH. cbn in L. lia. Qed.
Lemma body_paths : forall mx body, paths_body pts width distance n bevel mx = Some body -> (2 <= length pts)%nat -> no_repeat pts = true ->
  Forall (fun ip => (fst ip < n)%nat) body /\ (mx = 0%nat -> map fst body = seq 0 n) /\
  forall i, (i < n)%nat -> exists pieces r l, glue pieces r l /\ Forall2 between_sides pieces (of_path i (map fst body) (map snd body)) /\
    side_drawn bevel pts (off width distance n i false) r /\ side_drawn bevel pts (off width distance n i true) l.
Proof.
  intros mx body H L2 NR. unfold paths_body in H. set (start := map _ (seq 0 n)) in H. assert (LS : length start = n) by (unfold start; now rewrite map_length, seq_length).
  destruct (paths_loop _ _ _ _ _ _ _ start) as [[paths cut]|] eqn:E; [|discriminate]. injection H as <-. destruct (loop_paths _ _ _ _ _ E LS) as (LP & F & P).
  set (tails := map _ (combine (seq 0 n) paths)).
  assert (TC : tails = concat (map (fun ip => map (pair (fst ip)) [finish pts width distance n (fst ip) (snd ip)]) (combine (seq 0 (length paths)) paths))).
  { unfold tails. rewrite LP. symmetry. apply (concat_single _ (fun ip => finish pts width distance n (fst ip) (snd ip))). }
  split; [|split].
  - apply Forall_app. split; [exact F|]. rewrite TC. eapply Forall_impl; [|exact (rows_index _ (fun i s => [finish pts width distance n i s]) paths 0)]. intros ip Q. cbn beta in *. lia.
  - intros ->. assert (C0 : cut = []).
    { clear - E. clearbody start. revert start paths cut E. generalize (seq 1 (length pts - 2)) as js. induction js as [|j js IH]; intros s ps cut E; cbn [paths_loop] in E; [congruence|].
      destruct (paths_step _ _ _ _ _ _ _ _) as [[p1 c1]|] eqn:E1; [|discriminate]. destruct (paths_loop _ _ _ _ _ _ js p1) as [[p2 c2]|] eqn:E2; [|discriminate]. injection E as <- <-.
      rewrite (IH _ _ _ E2), app_nil_r. unfold paths_step in E1. destruct (all_some _) as [rows|] eqn:A; [|discriminate]. injection E1 as <- <-.
      assert (RN : forall x, In x rows -> snd x = []).
      { intros x X. apply (all_some_in _ _ A) in X. apply in_map_iff in X as (ip & X & _). unfold path_step in X. cbn [Nat.ltb Nat.leb andb] in X. injection X as <-. reflexivity. }
      clear - RN. generalize (seq 0 n) as sq. induction rows as [|x rows IH]; intros [|k sq]; try reflexivity. cbn [combine map concat fst snd]. rewrite (RN x (or_introl eq_refl)), IH; [reflexivity|]. intros y Y. apply RN. now right. }
    rewrite C0. cbn [app]. unfold tails. rewrite map_map. cbn [fst]. apply fst_combine. now rewrite seq_length.
  - intros i I. pose (d := (([], []) : sides)). specialize (P i d I).
    assert (ES : nth i start d = ([edge_start pts width distance n 0 i false], [edge_start pts width distance n 0 i true])).
    { unfold start. rewrite (nth_indep _ d ((fun i => ([edge_start pts width distance n 0 i false], [edge_start pts width distance n 0 i true])) 0%nat)) by (rewrite map_length, seq_length; exact I).
      rewrite (map_nth (fun i => ([edge_start pts width distance n 0 i false], [edge_start pts width distance n 0 i true]))), seq_nth by exact I. reflexivity. }
    fold sides in ES.
    rewrite ES in P. destruct (nth i paths d) as [r' l'] eqn:NP. destruct (loop_glue _ _ _ _ _ _ _ _ P ltac:(discriminate) ltac:(discriminate)) as (R1 & L1 & ps & F2 & G).
    eexists (ps ++ [_]), _, _. split; [apply G|]. split; [|split; apply run_drawn; assumption].
    rewrite <- pick_split, pick_app. apply Forall2_app; [exact F2|]. rewrite TC, (pick_rows _ (fun i s => [finish pts width distance n i s]) paths 0 i d). cbn [Nat.leb andb Nat.add]. rewrite LP. destruct (Nat.ltb_spec i n); [|lia].
    rewrite Nat.sub_0_r, NP. constructor; [|constructor]. now apply finish_between.
Qed.

(** ** Sizes *)

Lemma corner_size : forall a b c d, (length (add_corner bevel a b c d) <= if bevel then 2 else 1)%nat.
Proof. intros a b c d. unfold add_corner. destruct bevel; destruct (Rlt_dec _ _); cbn [andb]; [destruct (_ && _)%bool| | |]; cbn [length]; lia. Qed.
Lemma removelast_size : forall X (l : list X), (length (removelast l) <= length l)%nat.
Proof. induction l as [|a l IH]; [reflexivity|]. cbn [removelast]. destruct l; [cbn; lia|]. cbn [length] in *. lia. Qed.
Lemma cut_size : forall r l q, cut_off (r, l) = Some q -> (length q <= length r + length l)%nat.
Proof.
  intros r l q H. unfold cut_off in H. set (l' := if same _ _ then tl l else l) in H. assert (LL : (length l' <= length l)%nat) by (unfold l'; destruct (same _ _); [destruct l; cbn; lia|lia]).
  assert (RL : (length (removelast l') <= length l')%nat). { apply removelast_size. }
  assert (Q : q = r ++ rev (if same (last r (0, 0)) (last l' (0, 0)) then removelast l' else l')) by (destruct l'; [discriminate|congruence]).
  clear H. clearbody l'. rewrite Q, app_length, rev_length. destruct (same _ _); lia.
Qed.
Lemma finish_size : forall i r l, (length (finish pts width distance n i (r, l)) <= length r + length l + 2)%nat.
Proof.
  intros i r l. unfold finish. rewrite app_length, rev_length, app_length. cbn [length]. set (l' := if same _ _ then tl l else l). assert (LL : (length l' <= length l)%nat) by (unfold l'; destruct (same _ _); [destruct l; cbn; lia|lia]). clearbody l'.
  destruct (same _ _); [|rewrite app_length; cbn [length]]; lia.
Qed.
Definition room (mx : nat) : nat := if bevel then Nat.max (mx + 1) 6 else mx.
Lemma loop_sizes : forall mx i js r l r' l' cut, path_loop mx i js (r, l) = Some ((r', l'), cut) -> (4 <= mx)%nat -> (length r + length l + 3 <= Nat.max mx 5)%nat ->
  Forall (fun q : poly => (length q <= room mx)%nat) cut /\ (length r' + length l' + 3 <= Nat.max mx 5)%nat.
Proof.
  intros mx i. induction js as [|j js IH]; intros r l r' l' cut H M L; cbn [path_loop] in H; [injection H as <- <- <-; split; [constructor|exact L]|].
  unfold path_step in H. cbn [fst snd] in H. set (a := grow' j i false r) in *. set (b := grow' j i true l) in *.
  assert (LA : (length a <= length r + if bevel then 2 else 1)%nat) by (unfold a, grow; rewrite app_length; apply Nat.add_le_mono_l, corner_size).
  assert (LB : (length b <= length l + if bevel then 2 else 1)%nat) by (unfold b, grow; rewrite app_length; apply Nat.add_le_mono_l, corner_size). clearbody a b.
  destruct (_ && _)%bool eqn:C.
  - destruct (cut_off (a, b)) as [q|] eqn:Q; [|discriminate]. destruct (path_loop mx i js _) as [[[r1 l1] more]|] eqn:P; [|discriminate]. injection H as -> -> <-.
    destruct (IH _ _ _ _ _ P M ltac:(cbn [length]; lia)) as [F G]. split; [|exact G]. constructor; [|exact F]. apply cut_size in Q. unfold room. destruct bevel; lia.
  - destruct (path_loop mx i js (a, b)) as [[[r1 l1] more]|] eqn:P; [|discriminate]. injection H as -> -> <-. apply (IH _ _ _ _ _ P M).
    destruct (Nat.ltb_spec 0 mx); [|lia]. cbn [andb] in C. apply Nat.ltb_ge in C. lia.
Qed.
Lemma body_sizes : forall mx body, paths_body pts width distance n bevel mx = Some body -> (4 <= mx)%nat -> Forall (fun ip => (length (snd ip) <= room mx)%nat) body.
Proof.
  intros mx body H M. unfold paths_body in H. set (start := map _ (seq 0 n)) in H. assert (LS : length start = n) by (unfold start; now rewrite map_length, seq_length).
  destruct (paths_loop _ _ _ _ _ _ _ start) as [[paths cut]|] eqn:E; [|discriminate]. injection H as <-. destruct (loop_paths _ _ _ _ _ E LS) as (LP & F & P). pose (d := (([], []) : sides)).
  assert (Z : forall i, (i < n)%nat -> Forall (fun q : poly => (length q <= room mx)%nat) (pick i cut) /\ (length (fst (nth i paths d)) + length (snd (nth i paths d)) + 3 <= Nat.max mx 5)%nat).
  { intros i I. specialize (P i d I). assert (SI : (length (fst (@nth sides i start d)) = 1 /\ length (snd (@nth sides i start d)) = 1)%nat).
    { assert (Q : In (@nth sides i start d) start) by (apply nth_In; fold sides in LS; assert (LS' : @length sides start = n) by exact LS; rewrite LS'; exact I). unfold start in Q at 2. apply in_map_iff in Q as (k & <- & _). split; reflexivity. }
    destruct (@nth sides i start d) as [r l]. destruct (nth i paths d) as [r' l']. cbn [fst snd] in *. apply (loop_sizes _ _ _ _ _ _ _ _ P M). lia. }
  apply Forall_app. split.
  - rewrite Forall_forall in *. intros ip Q. destruct (Z _ (F ip Q)) as [Z1 _]. rewrite Forall_forall in Z1. apply Z1. unfold pick. apply in_map. apply filter_In. split; [exact Q|apply Nat.eqb_refl].
  - apply Forall_forall. intros ip Q. apply in_map_iff in Q as ([i s] & <- & Q). cbn [fst snd]. apply (In_nth _ _ (0%nat, d)) in Q as (k & K & NK). rewrite combine_length, seq_length, LP, Nat.min_id in K.
    rewrite combine_nth in NK by (rewrite seq_length; congruence). rewrite seq_nth in NK by exact K. injection NK as <- <-. destruct (Z k K) as [_ Z2]. destruct (nth k paths d) as [r l]. cbn [fst snd] in *.
    pose proof (finish_size k r l). unfold room. destruct bevel; lia.
Qed.

(** With [max_points] zero there are no cuts and no exceptions. *)
Lemma body_defined : exists body, paths_body pts width distance n bevel 0 = Some body.
Proof.
  unfold paths_body. set (start := map _ (seq 0 n)). assert (L : exists ps cut, paths_loop pts width distance n bevel 0 (seq 1 (length pts - 2)) start = Some (ps, cut)).
  { clearbody start. revert start. generalize (seq 1 (length pts - 2)) as js. induction js as [|j js IH]; intro s; [eexists _, _; reflexivity|]. cbn [paths_loop]. unfold paths_step.
    destruct (all_some_some (map (fun ip : nat * sides => path_step pts width distance n bevel 0 j (fst ip) (snd ip)) (@combine nat sides (seq 0 n) s))) as (m & E); [intros x X; apply in_map_iff in X as (ip & <- & _); discriminate|].
    rewrite E. destruct (IH (map fst m)) as (ps & cut & E2). rewrite E2. eexists _, _. reflexivity. }
  destruct L as (ps & cut & E). rewrite E. eexists. reflexivity.
Qed.
End Run.

(** ** Round ends *)

Lemma half_disc_eq : forall c w a b, a <> b -> half_disc c w a b = Some (c :: map (fun x => padd c (on_circle w x)) (linspace a b 32)).
Proof.
  intros c w a b N. unfold half_disc, round, round_points. change (piece_count 33 199) with 1%nat. cbn [Nat.eqb Nat.ltb Nat.leb]. change (33 / 1)%nat with 33%nat.
  destruct (Req_EM_T b a) as [Z|_]; [congruence|]. cbn [seq map as_param]. unfold at_. unfold linspace at 1 2 3 4. cbn [Nat.add Nat.sub seq map nth as_param].
  change (INR 1) with 1. change (INR 0) with 0. replace (a + 0 * ((b - a) / 1)) with a by field. replace (a + 1 * ((b - a) / 1)) with b by field. unfold round_piece. destruct (Req_EM_T b a) as [Z|_]; [congruence|].
  cbn [rad_max]. destruct (Rle_dec 0 0) as [_|Z]; [|exfalso; lra]. cbn [Nat.eqb all_some option_map repeat]. change (33 - 1)%nat with 32%nat. f_equal. f_equal. apply map_ext. intro x. unfold on_ellipse_c, padd, on_circle. cbn [rad_x rad_y fst snd]. f_equal; ring.
Qed.
Lemma half_disc_ok : forall c w a b q, half_disc c w a b = Some q -> b = a + PI -> 0 <= w -> half_round c w a q.
Proof.
  intros c w a b q H -> W. pose proof PI_RGT_0. rewrite half_disc_eq in H by lra. set (A := map (fun x => padd c (on_circle w x)) (linspace a (a + PI) 32)) in H. exists A. split; [congruence|]. clear H. unfold A. clear A. split; [transitivity (length (linspace a (a + PI) 32)); [apply map_length|apply linspace_length]|].
  replace (PI / 62) with (Rabs (a + PI - a) / (2 * INR (32 - 1))). apply even_traces; [lia|exact W|]; replace (a + PI - a) with PI by ring; rewrite Rabs_pos_eq; lra.
  replace (a + PI - a) with PI by ring. rewrite Rabs_pos_eq by lra. change (32 - 1)%nat with 31%nat. replace (INR 31) with 31 by (cbn; ring). field.
Qed.
Lemma heads_atan : forall p q, p <> q -> heads p q (atan2 (snd (psub q p)) (fst (psub q p))).
Proof. exact heads_along. Qed.
Lemma heads_unit : forall p q, p <> q -> heads p q (atan2 (snd (ahead_of p q)) (fst (ahead_of p q))).
Proof.
  intros p q N. destruct (left_length p q N) as [D0 DD]. unfold ahead_of. set (d := sqrt _) in *. cbn [smul fst snd psub]. set (x := fst q - fst p) in *. set (y := snd q - snd p) in *.
  assert (U : sqrt ((/ d * x) ^ 2 + (/ d * y) ^ 2) = 1).
  { replace ((/ d * x) ^ 2 + (/ d * y) ^ 2) with ((x ^ 2 + y ^ 2) / (d * d)) by (field; lra). rewrite DD. unfold Rdiv. rewrite Rinv_r by nra. apply sqrt_1. }
  destruct (cos_atan2 (/ d * y) (/ d * x)) as [C S].
  { intro Z. injection Z as Z1 Z2. rewrite Z1, Z2 in U. replace (0 ^ 2 + 0 ^ 2) with 0 in U by ring. rewrite sqrt_0 in U. lra. }
  rewrite U in C, S. apply heads_cs; [exact N|rewrite C|rewrite S]; unfold apart, psub; cbn [fst snd]; fold x y; fold d; field; lra.
Qed.

(** ** The whole call *)

Lemma given_cyc : forall X (d : X) l j, cyc d l j = given d l j.
Proof. reflexivity. Qed.
Lemma given_nonneg : forall l j, Forall (fun w => 0 <= w) l -> 0 <= given 0 l j.
Proof.
  intros l j F. unfold given. destruct l as [|x l]; [destruct (j mod length (@nil R))%nat; cbn; lra|]. rewrite Forall_forall in F. apply F, nth_In, Nat.mod_upper_bound. discriminate.
Qed.
Lemma ahead_length : forall p q, p <> q -> psub q p = smul (apart p q) (ahead_of p q) /\ 0 < apart p q.
Proof.
  intros p q N. destruct (left_length p q N) as [D0 DD]. unfold ahead_of, apart. split; [|exact D0]. set (d := sqrt _) in *. apply pt_eq; unfold smul, psub; cbn [fst snd]; field; lra.
Qed.
Lemma at_ahead : forall p q x o, p <> q -> at_xy p q x o (padd (padd p (smul x (ahead_of p q))) (smul o (left_of p q))).
Proof.
  intros p q x o N. destruct (left_length p q N) as [D0 DD]. unfold at_xy, ahead, aside, apart, left_of, ahead_of, padd, smul, psub. cbn [fst snd].
  set (d := sqrt _) in *. clearbody d. set (a := fst q - fst p) in *. set (b := snd q - snd p) in *.
  replace (fst p + x * (/ d * a) + o * - (/ d * b) - fst p) with (x * a / d - o * b / d) by (field; lra). replace (snd p + x * (/ d * b) + o * (/ d * a) - snd p) with (x * b / d + o * a / d) by (field; lra).
  clearbody a b. assert (E1 : (a * a + b * b) / (d * d) = 1) by (replace (a * a + b * b) with (d * d) by (rewrite DD; ring); field; lra).
  split; [replace x with (x * ((a * a + b * b) / (d * d))) at 3 by (rewrite E1; ring)|replace o with (o * ((a * a + b * b) / (d * d))) at 3 by (rewrite E1; ring)]; field; lra.
Qed.
Lemma at_xy_eq : forall p q x o r, p <> q -> at_xy p q x o r -> r = padd (padd p (smul x (ahead_of p q))) (smul o (left_of p q)).
Proof.
  intros p q x o r N [A B]. destruct (at_ahead p q x o N) as [A' B']. destruct (left_length p q N) as [D0 DD]. set (s := padd (padd p _) _) in *. clearbody s.
  unfold ahead, aside, apart in *. fold (fst q - fst p) in *. set (d := sqrt _) in *. clearbody d. unfold psub in *. cbn [fst snd] in *. set (a := fst q - fst p) in *. set (b := snd q - snd p) in *. clearbody a b.
  assert (E1 : a * (fst r - fst s) + b * (snd r - snd s) = 0). { rewrite <- A in A'. apply (Rmult_eq_reg_r (/ d)); [|apply Rinv_neq_0_compat; lra]. unfold Rdiv in A'. lra. }
  assert (E2 : a * (snd r - snd s) - b * (fst r - fst s) = 0). { rewrite <- B in B'. apply (Rmult_eq_reg_r (/ d)); [|apply Rinv_neq_0_compat; lra]. unfold Rdiv in B'. lra. }
  assert (Q : 0 < a * a + b * b) by nra. set (u := fst r - fst s) in *. set (v := snd r - snd s) in *.
  assert (U : u = 0). { apply (Rmult_eq_reg_l (a * a + b * b)); [|lra]. replace ((a * a + b * b) * u) with (a * (a * u + b * v) - b * (a * v - b * u)) by ring. rewrite E1, E2. ring. }
  assert (V : v = 0). { apply (Rmult_eq_reg_l (a * a + b * b)); [|lra]. replace ((a * a + b * b) * v) with (b * (a * u + b * v) + a * (a * v - b * u)) by ring. rewrite E1, E2. ring. }
  apply pt_eq; unfold u, v in *; lra.
Qed.
Lemma ahead_flip : forall p q, p <> q -> ahead_of q p = smul (-1) (ahead_of p q).
Proof.
  intros p q N. destruct (left_length p q N) as [D0 _]. unfold ahead_of. replace ((fst p - fst q) ^ 2 + (snd p - snd q) ^ 2) with ((fst q - fst p) ^ 2 + (snd q - snd p) ^ 2) by ring. apply pt_eq; unfold smul, psub; cbn [fst snd]; ring.
Qed.
(** Moving the first point back keeps the direction. *)
Lemma ahead_back : forall p q w, p <> q -> 0 <= w -> let p' := padd p (smul w (ahead_of q p)) in p' <> q /\ ahead_of p' q = ahead_of p q.
Proof.
  intros p q w N W p'. unfold p'. rewrite (ahead_flip p q N). destruct (ahead_length p q N) as [E A0]. destruct (left_length p q N) as [D0 DD]. fold (apart p q) in *.
  set (u := ahead_of p q) in *. set (d := apart p q) in *. assert (UU : fst u * fst u + snd u * snd u = 1).
  { assert (X : fst (psub q p) = d * fst u) by (rewrite E; reflexivity). assert (Y : snd (psub q p) = d * snd u) by (rewrite E; reflexivity). unfold psub in X, Y. cbn [fst snd] in X, Y.
    apply (Rmult_eq_reg_l (d * d)); [|nra]. unfold apart in d. fold d in DD. replace (d * d * (fst u * fst u + snd u * snd u)) with ((d * fst u) ^ 2 + (d * snd u) ^ 2) by ring. rewrite <- X, <- Y, <- DD. ring. }
  assert (E' : psub q (padd p (smul w (smul (-1) u))) = smul (d + w) u).
  { transitivity (padd (psub q p) (smul w u)); [apply pt_eq; unfold psub, padd, smul; cbn [fst snd]; ring|]. rewrite E. apply pt_eq; unfold padd, smul; cbn [fst snd]; ring. }
  clearbody u d. assert (L : sqrt ((fst q - fst (padd p (smul w (smul (-1) u)))) ^ 2 + (snd q - snd (padd p (smul w (smul (-1) u)))) ^ 2) = d + w).
  { change (fst q - fst (padd p (smul w (smul (-1) u)))) with (fst (psub q (padd p (smul w (smul (-1) u))))). change (snd q - snd (padd p (smul w (smul (-1) u)))) with (snd (psub q (padd p (smul w (smul (-1) u))))). rewrite E'. cbn [smul fst snd].
    replace (((d + w) * fst u) ^ 2 + ((d + w) * snd u) ^ 2) with ((d + w) ^ 2 * (fst u * fst u + snd u * snd u)) by ring. rewrite UU, Rmult_1_r. apply sqrt_pow2. lra. }
  split.
  - intro Z. rewrite Z in E'. assert (X : smul (d + w) u = (0, 0)) by (rewrite <- E'; apply pt_eq; unfold psub; cbn [fst snd]; ring). injection X as X1 X2.
    assert (Y : (d + w) * (d + w) * (fst u * fst u + snd u * snd u) = 0) by (replace ((d + w) * (d + w) * (fst u * fst u + snd u * snd u)) with (((d + w) * fst u) ^ 2 + ((d + w) * snd u) ^ 2) by ring; rewrite X1, X2; ring). rewrite UU in Y. clear - Y A0 W. nra.
  - unfold ahead_of. rewrite L, E'. apply pt_eq; unfold smul; cbn [fst snd]; field; lra.
Qed.
Lemma moved_end : forall p q w, p <> q -> at_xy p q (apart p q + w) 0 (padd q (smul w (ahead_of p q))).
Proof.
  intros p q w N. destruct (ahead_length p q N) as [E _]. pose proof (at_ahead p q (apart p q + w) 0 N) as A.
  replace (padd q (smul w (ahead_of p q))) with (padd (padd p (smul (apart p q + w) (ahead_of p q))) (smul 0 (left_of p q))); [exact A|].
  transitivity (padd (padd p (smul (apart p q) (ahead_of p q))) (smul w (ahead_of p q))); [apply pt_eq; unfold padd, smul; cbn [fst snd]; ring|]. rewrite <- E. apply pt_eq; unfold padd, psub, smul; cbn [fst snd]; ring.
Qed.
Lemma moved_start : forall p q w, p <> q -> at_xy p q (- w) 0 (padd p (smul w (ahead_of q p))).
Proof.
  intros p q w N. rewrite (ahead_flip p q N). pose proof (at_ahead p q (- w) 0 N) as A.
  replace (padd p (smul w (smul (-1) (ahead_of p q)))) with (padd (padd p (smul (- w) (ahead_of p q))) (smul 0 (left_of p q))); [exact A|]. apply pt_eq; unfold padd, smul; cbn [fst snd]; ring.
Qed.
Lemma end_differs : forall p q w, p <> q -> 0 <= w -> p <> padd q (smul w (ahead_of p q)).
Proof.
  intros p q w N W. destruct (ahead_back q p w (not_eq_sym N) W) as [A _]. exact (not_eq_sym A).
Qed.
Lemma nth_removelast : forall (l : list pt) j, (S j < length l)%nat -> nth j (removelast l) (0, 0) = nth j l (0, 0).
Proof.
  intros l j J. assert (N : l <> []) by (intros ->; cbn in J; lia). pose proof (app_removelast_last (0, 0) N) as E. rewrite E at 2. rewrite app_nth1; [reflexivity|].
  apply (f_equal (@length pt)) in E. rewrite app_length in E. cbn [length] in E. lia.
Qed.
Lemma removelast_length : forall (l : list pt), length (removelast l) = (length l - 1)%nat.
Proof. intros [|x l]; [reflexivity|]. pose proof (app_removelast_last (l := x :: l) (0, 0) ltac:(discriminate)) as E. apply (f_equal (@length pt)) in E. rewrite app_length in E. cbn [length] in *. lia. Qed.
Lemma last_is_nth : forall (l : list pt), last l (0, 0) = nth (length l - 1) l (0, 0).
Proof. induction l as [|x [|y l] IH]; [reflexivity|reflexivity|]. change (last (x :: y :: l) (0, 0)) with (last (y :: l) (0, 0)). rewrite IH. cbn [length]. replace (S (S (length l)) - 1)%nat with (S (S (length l) - 1)) by lia. reflexivity. Qed.
Definition longer (p0 p1 : pt) (rest : list pt) (w0 : R) : list pt := padd p0 (smul w0 (ahead_of p1 p0)) :: p1 :: rest.
Definition extended (p0 p1 : pt) (rest : list pt) (width : list R) : list pt :=
  let l := longer p0 p1 rest (cyc 0 width 0) in
  let e := S (length rest) in
  removelast l ++ [padd (last l (0, 0)) (smul (cyc 0 width e) (ahead_of (nth (e - 1) l (0, 0)) (nth e l (0, 0))))].
Lemma extended_nth : forall p0 p1 rest width, let pts := p0 :: p1 :: rest in let e := S (length rest) in no_repeat pts = true -> Forall (fun w => 0 <= w) width ->
  length (extended p0 p1 rest width) = S e /\
  nth 0 (extended p0 p1 rest width) (0, 0) = padd p0 (smul (given 0 width 0) (ahead_of p1 p0)) /\
  (forall j, (0 < j < e)%nat -> nth j (extended p0 p1 rest width) (0, 0) = nth j pts (0, 0)) /\
  nth e (extended p0 p1 rest width) (0, 0) = padd (nth e pts (0, 0)) (smul (given 0 width e) (ahead_of (nth (e - 1) pts (0, 0)) (nth e pts (0, 0)))).
Proof.
  intros p0 p1 rest width pts e NR WP. set (l := longer p0 p1 rest (cyc 0 width 0)). assert (LL : length l = S e) by reflexivity.
  assert (NJ : forall j, (0 < j)%nat -> nth j l (0, 0) = nth j pts (0, 0)) by (intros [|j] J; [lia|reflexivity]).
  assert (ND : p0 <> p1) by (apply (no_repeat_ok pts NR 0); cbn; lia).
  unfold extended. fold l e. assert (RL : length (removelast l) = e) by (rewrite removelast_length, LL; lia). split; [rewrite app_length, RL; cbn [length]; lia|]. split; [|split].
  - rewrite app_nth1, nth_removelast by (rewrite ?RL, ?LL; unfold e; lia). reflexivity.
  - intros j J. rewrite app_nth1, nth_removelast by (rewrite ?RL, ?LL; lia). apply NJ. lia.
  - rewrite app_nth2, RL, Nat.sub_diag by (rewrite RL; lia). cbn [nth].
    assert (La : last l (0, 0) = nth e pts (0, 0)).
    { rewrite <- (NJ e) by (unfold e; lia). rewrite last_is_nth, LL. f_equal. }
    rewrite La, (NJ e) by (unfold e; lia). rewrite given_cyc. f_equal. f_equal. destruct rest as [|p2 rest].
    + unfold e, l, longer, pts. cbn [length Nat.sub nth]. apply ahead_back; [exact ND|apply given_nonneg, WP].
    + rewrite NJ by (unfold e; cbn [length]; lia). reflexivity.
Qed.
Lemma no_repeat_all : forall l : list pt, (forall j, (S j < length l)%nat -> nth j l (0, 0) <> nth (S j) l (0, 0)) -> no_repeat l = true.
Proof.
  induction l as [|p [|q l] IH]; intro H; [reflexivity|reflexivity|]. cbn [no_repeat]. apply andb_true_intro. split; [|apply IH; intros j J; exact (H (S j) ltac:(cbn in *; lia))].
  pose proof (H 0%nat ltac:(cbn; lia)) as N. cbn [nth] in N. destruct (Req_EM_T (fst p) (fst q)) as [E|]; [|reflexivity]. destruct (Req_EM_T (snd p) (snd q)) as [E'|]; [|reflexivity]. exfalso. apply N. destruct p, q. cbn in *. congruence.
Qed.
Lemma extended_spine : forall p0 p1 rest width, no_repeat (p0 :: p1 :: rest) = true -> Forall (fun w => 0 <= w) width ->
  spine EExtended (p0 :: p1 :: rest) width (extended p0 p1 rest width) /\ no_repeat (extended p0 p1 rest width) = true.
Proof.
  intros p0 p1 rest width NR WP. destruct (extended_nth p0 p1 rest width NR WP) as (L & N0 & NJ & NE). set (pts := p0 :: p1 :: rest) in *. set (e := S (length rest)) in *. set (x := extended p0 p1 rest width) in *.
  assert (LP : length pts = S e) by reflexivity. assert (D0 : p0 <> p1) by (apply (no_repeat_ok pts NR 0); cbn; lia).
  assert (DE : nth (e - 1) pts (0, 0) <> nth e pts (0, 0)). { pose proof (no_repeat_ok pts NR (e - 1) ltac:(rewrite LP; unfold e; lia)) as Z. replace (S (e - 1)) with e in Z by (unfold e; lia). exact Z. }
  split.
  - cbn [spine]. rewrite LP. replace (S e - 1)%nat with e by lia. split; [exact L|]. split; [exact NJ|]. split.
    + rewrite N0. apply moved_start, D0.
    + rewrite NE. apply moved_end, DE.
  - apply no_repeat_all. intros j J'. assert (J : (S j < S e)%nat) by (rewrite <- L; exact J'). clear J'. clearbody x.
    destruct (Nat.eq_dec (S j) e) as [Ej|Ej].
    + rewrite Ej, NE. replace (e - 1)%nat with j in * by lia. destruct (Nat.eq_dec j 0) as [->|J0].
      * rewrite N0. replace e with 1%nat by lia. rewrite <- Ej in *. unfold pts in *. cbn [nth] in *. set (w0 := given 0 width 0). set (w1 := given 0 width 1).
        destruct (ahead_back p0 p1 w0 D0 (given_nonneg _ _ WP)) as [B1 B2]. rewrite <- B2 at 1. apply end_differs; [exact B1|apply given_nonneg, WP].
      * rewrite NJ by lia. apply end_differs; [exact DE|apply given_nonneg, WP].
    + rewrite (NJ (S j)) by lia. destruct (Nat.eq_dec j 0) as [->|J0].
      * rewrite N0. unfold pts. cbn [nth]. apply ahead_back; [exact D0|apply given_nonneg, WP].
      * rewrite NJ by lia. apply (no_repeat_ok pts NR j). lia.
Qed.

Lemma caps_ok : forall pts width distance n caps, round_ends pts width distance n = Some caps -> (2 <= length pts)%nat -> no_repeat pts = true -> Forall (fun w => 0 <= w) width ->
  map fst caps = seq 0 n ++ seq 0 n /\
  forall i, (i < n)%nat -> start_cap pts width distance n i (nth i (map snd caps) []) /\ end_cap pts width distance n i (nth (n + i) (map snd caps) []).
Proof.
  intros pts width distance n caps H L2 NR WP. pose proof PI_RGT_0 as PP. unfold round_ends in H. set (e := (length pts - 1)%nat) in *.
  assert (D0 : point pts 0 <> point pts 1) by (apply (no_repeat_ok pts NR 0); lia).
  assert (DE : point pts (e - 1) <> point pts e). { pose proof (no_repeat_ok pts NR (e - 1) ltac:(unfold e; lia)) as Z. replace (S (e - 1)) with e in Z by (unfold e; lia). exact Z. }
  cbv zeta in H. set (v0 := psub (point pts 1) (point pts 0)) in *. set (v1 := psub (point pts e) (point pts (e - 1))) in *.
  match type of H with match all_some (map ?f _) with _ => _ end = _ => set (first := f) in * end. destruct (all_some (map first (seq 0 n))) as [a|] eqn:A; [|discriminate].
  match type of H with match all_some (map ?f _) with _ => _ end = _ => set (final := f) in * end. destruct (all_some (map final (seq 0 n))) as [b|] eqn:B; [|discriminate]. injection H as <-.
  pose proof (all_some_length _ _ A) as LA. pose proof (all_some_length _ _ B) as LB. rewrite map_length, seq_length in LA, LB.
  assert (C1 : map fst (combine (seq 0 n) a) = seq 0 n) by (apply (fst_combine poly); now rewrite seq_length). assert (C2 : map fst (combine (seq 0 n) b) = seq 0 n) by (apply (fst_combine poly); now rewrite seq_length).
  assert (S1 : forall l : list poly, length l = n -> map snd (combine (seq 0 n) l) = l).
  { clear. intros l L. subst n. generalize 0%nat as s. induction l as [|x l IH]; intro s; [reflexivity|]. cbn [length seq combine map snd]. f_equal. apply IH. }
  rewrite !map_app, C1, C2, !S1 by assumption. split; [reflexivity|]. intros i I. rewrite app_nth1 by (rewrite LA; exact I). rewrite app_nth2 by (rewrite LA; lia). rewrite LA. replace (n + i - n)%nat with i by lia.
  pose proof (all_some_nth _ _ i [] A) as NA. pose proof (all_some_nth _ _ i [] B) as NB. rewrite map_length, seq_length in NA, NB. specialize (NA I). specialize (NB I).
  rewrite (nth_indep _ None (first 0%nat)) in NA by (rewrite map_length, seq_length; exact I). rewrite (nth_indep _ None (final 0%nat)) in NB by (rewrite map_length, seq_length; exact I).
  rewrite map_nth, seq_nth in NA, NB by exact I. cbn [Nat.add] in NA, NB. unfold first in NA. unfold final in NB.
  assert (M : forall j, INR i * cyc 0 distance j - / 2 * (INR n - 1) * cyc 0 distance j = mid distance n i j) by (intro j; unfold mid; rewrite given_cyc; field). rewrite M in NA, NB.
  split.
  - eexists _, (atan2 (snd v0) (fst v0)). split; [apply (left_at (point pts 0) (point pts 1)); exact D0|]. split; [apply heads_atan; exact D0|]. eapply half_disc_ok; [exact NA|reflexivity|apply given_nonneg, WP].
  - unfold end_cap. fold e. cbv zeta. eexists _, (atan2 (snd v1) (fst v1)). split; [apply (left_at (point pts (e - 1)) (point pts e)); exact DE|]. split; [apply heads_atan; exact DE|]. eapply half_disc_ok; [exact NB|reflexivity|apply given_nonneg, WP].
Qed.
Lemma caps_defined : forall pts width distance n, exists caps, round_ends pts width distance n = Some caps.
Proof.
  intros. pose proof PI_RGT_0. assert (Q : forall (f : nat -> option poly) l, (forall i, f i <> None) -> all_some (map f l) <> None).
  { intros f l N Z. destruct (all_some_some (map f l)) as [a E]; [|congruence]. intros x X. apply in_map_iff in X as (i & <- & _). apply N. }
  unfold round_ends. cbv zeta.
  destruct (all_some _) as [a|] eqn:A; [|exfalso; revert A; apply Q; intro i; rewrite half_disc_eq by lra; discriminate].
  destruct (all_some (map _ _)) as [b|] eqn:B in |- *; [|exfalso; revert B; apply Q; intro i; rewrite half_disc_eq by lra; discriminate].
  eexists. reflexivity.
Qed.

Definition named_end (e : ends_arg) : Prop := e = EFlush \/ e = ERound \/ e = EExtended.
(** The call, except for single paths of two points: what the polygons are, which path
    and layer each belongs to, and how large they are. *)
Theorem C81_paths : forall pts width n distance (bevel : bool) ends mx layer datatype polys las dts,
  poly_path pts width n distance (if bevel then CBevel else CMiter) ends mx layer datatype = Some (polys, las, dts) ->
  named_end ends -> length pts <> 2%nat \/ n <> 1%nat -> Forall (fun w => 0 <= w) width ->
  exists pts' caps body idx, polys = caps ++ body /\ spine ends pts width pts' /\
    (ends <> ERound -> caps = []) /\
    (ends = ERound -> length caps = (n + n)%nat /\ forall i, (i < n)%nat -> start_cap pts width distance n i (nth i caps []) /\ end_cap pts width distance n i (nth (n + i) caps [])) /\
    length idx = length body /\ Forall (fun i => (i < n)%nat) idx /\ (mx = 0%nat -> idx = seq 0 n) /\
    (forall i, (i < n)%nat -> exists pieces r l, glue pieces r l /\ Forall2 between_sides pieces (of_path i idx body) /\
       side_drawn bevel pts' (off width distance n i false) r /\ side_drawn bevel pts' (off width distance n i true) l) /\
    (forall q, In q body -> (4 <= mx)%nat -> (length q <= if bevel then Nat.max (mx + 1) 6 else mx)%nat) /\
    let all := (match ends with ERound => seq 0 n ++ seq 0 n | _ => [] end) ++ idx in
    las = map (given 0%Z layer) all /\ dts = map (given 0%Z datatype) all.
Proof.
  intros pts width n distance bevel ends mx layer datatype polys las dts H NE NT WP. unfold poly_path in H.
  destruct pts as [|p0 [|p1 rest]]; try discriminate. destruct width as [|w0 ws]; try discriminate. destruct distance as [|d0 ds]; try discriminate. destruct layer as [|la0 las0]; try discriminate. destruct datatype as [|dt0 dts0]; try discriminate.
  set (pts := p0 :: p1 :: rest) in *. set (width := w0 :: ws) in *. set (distance := d0 :: ds) in *. set (layer := la0 :: las0) in *. set (datatype := dt0 :: dts0) in *.
  destruct (no_repeat pts) eqn:NR; [|discriminate]. cbn [negb] in H.
  destruct ((length pts =? 2)%nat && (n =? 1)%nat)%bool eqn:TW. { apply andb_prop in TW as [T1 T2]. apply Nat.eqb_eq in T1, T2. exfalso. destruct NT; contradiction. }
  assert (CO : corners_of (if bevel then CBevel else CMiter) = Some bevel) by (destruct bevel; reflexivity). rewrite CO in H. assert (EO : ends_of ends = Some ends) by (destruct NE as [->|[->| ->]]; reflexivity). rewrite EO in H.
  change (ahead_of p1 p0) with (ahead_of p1 p0) in H. cbv zeta in H.
  match type of H with (if negb (no_repeat ?x) then _ else _) = _ => set (pts' := x) in * end.
  assert (SP : spine ends pts width pts' /\ (2 <= length pts')%nat /\ (ends <> EExtended -> pts' = pts)).
  { destruct NE as [->|[->| ->]]; [split; [reflexivity|split; [cbn; lia|reflexivity]]|split; [reflexivity|split; [cbn; lia|reflexivity]]|].
    assert (W0 : cyc 0 width 0 = w0) by (unfold cyc; rewrite Nat.mod_0_l by discriminate; reflexivity).
    assert (X : pts' = extended p0 p1 rest width) by (unfold extended, longer; rewrite W0; reflexivity). rewrite X. destruct (extended_spine p0 p1 rest width NR WP) as [S1 S2]. split; [exact S1|]. destruct (extended_nth p0 p1 rest width NR WP) as [L _]. split; [rewrite L; lia|intro Z; contradiction]. }
  clearbody pts'. destruct SP as (SP & L2 & SE). destruct (no_repeat pts') eqn:NR'; [|discriminate]. cbn [negb] in H.
  destruct (match ends with ERound => round_ends pts' width distance n | _ => Some [] end) as [caps|] eqn:EC; [|discriminate].
  destruct (paths_body pts' width distance n bevel mx) as [body|] eqn:EB; [|discriminate].
  assert (HP : polys = map snd (caps ++ body)) by congruence. assert (HL : las = map (fun ip => cyc 0%Z layer (fst ip)) (caps ++ body)) by congruence. assert (HD : dts = map (fun ip => cyc 0%Z datatype (fst ip)) (caps ++ body)) by congruence. clear H.
  destruct (body_paths _ _ _ _ _ _ _ EB L2 NR') as (F & M0 & P).
  exists pts', (map snd caps), (map snd body), (map fst body). split; [rewrite HP; apply map_app|]. split; [exact SP|].
  assert (RC : ends = ERound -> map fst caps = seq 0 n ++ seq 0 n /\ forall i, (i < n)%nat -> start_cap pts width distance n i (nth i (map snd caps) []) /\ end_cap pts width distance n i (nth (n + i) (map snd caps) [])).
  { intro Z. rewrite Z in *. assert (pts' = pts) by (apply SE; discriminate). subst pts'. exact (caps_ok _ _ _ _ _ EC L2 NR WP). }
  assert (NC : ends <> ERound -> caps = []) by (intro Z; destruct NE as [->|[->| ->]]; congruence).
  split; [intro Z; rewrite (NC Z); reflexivity|]. split.
  { intro Z. destruct (RC Z) as [C1 C2]. split; [|exact C2]. apply (f_equal (@length nat)) in C1. rewrite map_length, app_length, seq_length in C1. now rewrite map_length. }
  split; [now rewrite !map_length|]. split. { rewrite Forall_forall in *. intros k K. apply in_map_iff in K as (ip & <- & K). exact (F ip K). }
  split; [exact M0|]. split; [exact P|]. split.
  { intros q Q M. apply in_map_iff in Q as (ip & <- & Q). pose proof (body_sizes _ _ _ _ _ _ _ EB M) as Z. rewrite Forall_forall in Z. exact (Z ip Q). }
  assert (AL : map fst (caps ++ body) = (match ends with ERound => seq 0 n ++ seq 0 n | _ => [] end) ++ map fst body).
  { rewrite map_app. f_equal. destruct NE as [Z|[Z|Z]]; rewrite Z in *; [rewrite NC by discriminate; reflexivity|apply RC; reflexivity|rewrite NC by discriminate; reflexivity]. }
  cbv zeta. rewrite <- AL, !map_map. split; [exact HL|exact HD].
Qed.
Print Assumptions C81_paths.

(** Single paths of two points. *)
Theorem C81_straight : forall p q width distance corners ends mx layer datatype polys las dts,
  poly_path [p; q] width 1 distance corners ends mx layer datatype = Some (polys, las, dts) -> named_end ends -> Forall (fun w => 0 <= w) width ->
  exists p' q' caps b, polys = caps ++ [b] /\ spine ends [p; q] width [p'; q'] /\ straight p' q' (given 0 width 0) (given 0 width 1) b /\
    (ends <> ERound -> caps = []) /\
    (ends = ERound -> exists x y, caps = [x; y] /\ start_cap [p; q] width distance 1 0 x /\ end_cap [p; q] width distance 1 0 y) /\
    las = map (fun _ => given 0%Z layer 0) polys /\ dts = map (fun _ => given 0%Z datatype 0) polys.
Proof.
  intros p q width distance corners ends mx layer datatype polys las dts H NE WP. unfold poly_path in H.
  destruct width as [|w0 ws]; try discriminate. destruct distance as [|d0 ds]; try discriminate. destruct layer as [|la0 las0]; try discriminate. destruct datatype as [|dt0 dts0]; try discriminate.
  set (width := w0 :: ws) in *. set (distance := d0 :: ds) in *. set (layer := la0 :: las0) in *. set (datatype := dt0 :: dts0) in *.
  destruct (no_repeat [p; q]) eqn:NR; [|discriminate]. cbn [negb length Nat.eqb andb] in H. assert (N : p <> q) by (apply (no_repeat_ok [p; q] NR 0); cbn; lia).
  assert (G0 : forall X (d x : X) l, given d (x :: l) 0 = x) by (intros; unfold given; rewrite Nat.mod_0_l by discriminate; reflexivity).
  assert (W0 : given 0 width 0 = w0) by apply G0. rewrite W0, given_cyc in *. set (w1 := given 0 width 1) in *. assert (P0 : 0 <= w0) by (rewrite <- W0; apply given_nonneg, WP). assert (P1 : 0 <= w1) by (apply given_nonneg, WP).
  assert (LA : given 0%Z layer 0 = la0) by apply G0. assert (DT : given 0%Z datatype 0 = dt0) by apply G0. rewrite LA, DT.
  pose proof PI_RGT_0 as PP. set (v := ahead_of p q) in *.
  (* the polygon of the section, for the spine from a to b *)
  assert (ST : forall a b, a <> b -> ahead_of a b = v -> straight a b w0 w1
    (let u := (- snd v, fst v) in if Req_EM_T w0 0 then [a; psub b (smul w1 u); padd b (smul w1 u)] else if Req_EM_T w1 0 then [padd a (smul w0 u); psub a (smul w0 u); b]
      else [padd a (smul w0 u); psub a (smul w0 u); psub b (smul w1 u); padd b (smul w1 u)])).
  { intros a b AB EV. cbv zeta. assert (EU : left_of a b = (- snd v, fst v)) by (unfold left_of; rewrite EV; reflexivity). rewrite <- EU.
    assert (MS : forall x y, psub x (smul y (left_of a b)) = padd x (smul (- y) (left_of a b))) by (intros; apply pt_eq; unfold psub, padd, smul; cbn [fst snd]; ring). rewrite !MS.
    exists (padd a (smul w0 (left_of a b))), (padd a (smul (- w0) (left_of a b))), (padd b (smul (- w1) (left_of a b))), (padd b (smul w1 (left_of a b))).
    split; [apply left_at, AB|]. split; [apply left_at, AB|]. split; [apply left_at, AB|]. split; [apply left_at, AB|].
    destruct (Req_EM_T w0 0) as [Z|Z]; [right; left; split; [exact Z|reflexivity]|]. destruct (Req_EM_T w1 0) as [Z1|Z1]; [right; right|left]; split; try exact Z; split; try exact Z1; reflexivity. }
  unfold two_points in H. fold v in H. set (a := atan2 (snd v) (fst v) + PI / 2) in *.
  destruct NE as [->|[->| ->]].
  - exists p, q, []. cbn [app map] in *. eexists. injection H as <- <- <-. split; [reflexivity|]. split; [reflexivity|]. split; [exact (ST p q N eq_refl)|]. split; [reflexivity|]. split; [discriminate|]. split; reflexivity.
  - destruct (half_disc p w0 a (a + PI)) as [x|] eqn:X; [|discriminate]. destruct (half_disc q w1 (a - PI) a) as [y|] eqn:Y; [|discriminate]. cbn [app map] in H.
    exists p, q, [x; y]. eexists. injection H as <- <- <-. split; [reflexivity|]. split; [reflexivity|]. split; [exact (ST p q N eq_refl)|]. split; [intro Z; contradiction|]. split; [|split; reflexivity].
    intros _. exists x, y. split; [reflexivity|]. assert (M0 : forall j, mid distance 1 0 j = 0) by (intro j; unfold mid; cbn [INR]; field). split.
    + exists p, (atan2 (snd v) (fst v)). cbn [nth]. rewrite M0, W0. split; [|split; [exact (heads_unit p q N)|exact (half_disc_ok _ _ _ _ _ X eq_refl P0)]].
      pose proof (proj1 (left_at p q 0 N)) as Z. replace (padd p (smul 0 (left_of p q))) with p in Z by (apply pt_eq; unfold padd, smul; cbn [fst snd]; ring). exact Z.
    + cbn [length]. unfold end_cap. cbn [length Nat.sub nth]. exists q, (atan2 (snd v) (fst v)). rewrite M0. split; [|split; [exact (heads_unit p q N)|]].
      * pose proof (proj2 (left_at p q 0 N)) as Z. replace (padd q (smul 0 (left_of p q))) with q in Z by (apply pt_eq; unfold padd, smul; cbn [fst snd]; ring). exact Z.
      * fold w1. replace (atan2 (snd v) (fst v) - PI / 2) with (a - PI) by (unfold a; field). exact (half_disc_ok _ _ _ _ _ Y ltac:(ring) P1).
  - cbn [app map] in H. exists (psub p (smul w0 v)), (padd q (smul w1 v)), []. cbn [app]. eexists. injection H as <- <- <-. split; [reflexivity|].
    assert (EP : psub p (smul w0 v) = padd p (smul w0 (ahead_of q p))) by (rewrite (ahead_flip p q N); fold v; apply pt_eq; unfold psub, padd, smul; cbn [fst snd]; ring).
    split; [|split; [|split; [reflexivity|split; [discriminate|split; reflexivity]]]].
    + cbn [spine length Nat.sub nth]. split; [reflexivity|]. split; [intros j J; lia|]. rewrite W0. fold w1. split; [rewrite EP; apply moved_start, N|unfold v; apply moved_end, N].
    + destruct (ahead_back p q w0 N P0) as [B1 B2]. rewrite <- EP in B1, B2. set (p' := psub p (smul w0 v)) in *. clearbody p'. fold v in B2.
      assert (N2 : p' <> padd q (smul w1 v)) by (rewrite <- B2; apply end_differs; assumption). apply ST; [exact N2|].
      destruct (ahead_back q p' w1 (not_eq_sym B1) P1) as [_ B4]. rewrite B2 in B4. fold v in B4. rewrite (ahead_flip _ _ (not_eq_sym N2)), B4, (ahead_flip _ _ B1), B2. fold v. apply pt_eq; unfold smul; cbn [fst snd]; ring.
Qed.
Print Assumptions C81_straight.

(** Numbers for corners and ends mean the names; anything else raises. *)
Theorem C81_names : forall pts width n distance corners ends mx layer datatype, length pts <> 2%nat \/ n <> 1%nat ->
  let call c e := poly_path pts width n distance c e mx layer datatype in
  call (CNumber 0) ends = call CMiter ends /\ call (CNumber 1) ends = call CBevel ends /\
  call corners (ENumber 0) = call corners EFlush /\ call corners (ENumber 1) = call corners ERound /\ call corners (ENumber 2) = call corners EExtended /\
  call COther ends = None /\ call corners EOther = None /\ (forall k, (2 <= k)%nat -> call (CNumber k) ends = None) /\ (forall k, (3 <= k)%nat -> call corners (ENumber k) = None).
Proof.
  intros pts width n distance corners ends mx layer datatype NT call. unfold call, poly_path. destruct pts as [|p0 [|p1 rest]]; try (repeat split; reflexivity).
  destruct width as [|w0 ws]; try (repeat split; reflexivity). destruct distance as [|d0 ds]; try (repeat split; reflexivity). destruct layer as [|la0 las0]; try (repeat split; reflexivity). destruct datatype as [|dt0 dts0]; try (repeat split; reflexivity).
  destruct (no_repeat (p0 :: p1 :: rest)); [|repeat split; reflexivity]. cbn [negb].
  assert (TW : ((length (p0 :: p1 :: rest) =? 2)%nat && (n =? 1)%nat)%bool = false).
  { destruct (Nat.eqb_spec (length (p0 :: p1 :: rest)) 2); [|reflexivity]. destruct (Nat.eqb_spec n 1); [|reflexivity]. destruct NT; contradiction. }
  rewrite TW. split; [reflexivity|]. split; [reflexivity|]. split; [reflexivity|]. split; [reflexivity|]. split; [reflexivity|]. split; [reflexivity|].
  split; [destruct (corners_of corners); reflexivity|]. split.
  - intros [|[|k]] K; try lia. reflexivity.
  - intros [|[|[|k]]] K; try lia. destruct (corners_of corners); reflexivity.
Qed.
Print Assumptions C81_names.

(** Without a limit on the points the call never fails, if the points that follow each
    other differ. *)
Theorem C81_defined : forall pts width n distance (bevel : bool) ends layer datatype,
  (2 <= length pts)%nat -> (forall j, (S j < length pts)%nat -> nth j pts (0, 0) <> nth (S j) pts (0, 0)) -> named_end ends -> Forall (fun w => 0 <= w) width ->
  width <> [] -> distance <> [] -> layer <> [] -> datatype <> [] ->
  poly_path pts width n distance (if bevel then CBevel else CMiter) ends 0 layer datatype <> None.
Proof.
  intros pts width n distance bevel ends layer datatype L2 ND NE WP N1 N2 N3 N4. unfold poly_path.
  destruct pts as [|p0 [|p1 rest]]; try (cbn in L2; lia). destruct width as [|w0 ws]; try contradiction. destruct distance as [|d0 ds]; try contradiction. destruct layer as [|la0 las0]; try contradiction. destruct datatype as [|dt0 dts0]; try contradiction.
  pose proof (no_repeat_all _ ND) as NR. set (pts := p0 :: p1 :: rest) in *. set (width := w0 :: ws) in *. rewrite NR. cbn [negb]. destruct (_ && _)%bool.
  - unfold two_points. pose proof PI_RGT_0. set (a := atan2 _ _ + PI / 2). destruct NE as [->|[->| ->]]; [discriminate| |discriminate]. rewrite !half_disc_eq by lra. discriminate.
  - assert (CO : corners_of (if bevel then CBevel else CMiter) = Some bevel) by (destruct bevel; reflexivity). rewrite CO. assert (EO : ends_of ends = Some ends) by (destruct NE as [->|[->| ->]]; reflexivity). rewrite EO. cbv zeta.
    match goal with |- (if negb (no_repeat ?x) then _ else _) <> _ => set (pts' := x) in * end.
    assert (NR' : no_repeat pts' = true).
    { destruct NE as [->|[->| ->]]; [exact NR|exact NR|]. assert (W0 : cyc 0 width 0 = w0) by (unfold cyc; rewrite Nat.mod_0_l by discriminate; reflexivity).
      assert (X : pts' = extended p0 p1 rest width) by (unfold extended, longer; rewrite W0; reflexivity). rewrite X. apply extended_spine; assumption. }
    rewrite NR'. cbn [negb]. clearbody pts'. destruct (caps_defined pts' width (d0 :: ds) n) as [caps EC]. destruct (body_defined pts' width (d0 :: ds) n bevel) as [body EB].
    destruct NE as [->|[->| ->]]; rewrite ?EC, EB; discriminate.
Qed.
Print Assumptions C81_defined.

(** ** Parallel sides *)

Lemma line_aside : forall p q a b x o, p <> q -> a <> b -> aside p q a = o -> aside p q b = o -> on_line a b x -> aside p q x = o.
Proof.
  intros p q a b x o N AB A B X. destruct (left_length p q N) as [D0 DD]. unfold aside, apart in *. unfold on_line, cross, psub in *. cbn [fst snd] in *. set (d := sqrt _) in *. clearbody d.
  assert (A' : (fst q - fst p) * (snd a - snd p) - (snd q - snd p) * (fst a - fst p) = o * d) by (rewrite <- A; field; lra).
  assert (B' : (fst q - fst p) * (snd b - snd p) - (snd q - snd p) * (fst b - fst p) = o * d) by (rewrite <- B; field; lra).
  set (ux := fst q - fst p) in *. set (uy := snd q - snd p) in *. set (vx := fst b - fst a) in *. set (vy := snd b - snd a) in *.
  assert (UV : vx * uy - vy * ux = 0) by (unfold vx, vy; lra).
  assert (V0 : 0 < vx * vx + vy * vy).
  { destruct (Req_dec vx 0) as [Z|Z]; [destruct (Req_dec vy 0) as [Z'|Z']|]; [exfalso; apply AB; apply pt_eq; unfold vx, vy in *; lra| |]; nra. }
  set (tx := fst x - fst a) in *. set (ty := snd x - snd a) in *.
  assert (T : ux * ty - uy * tx = 0).
  { apply (Rmult_eq_reg_r (vx * vx + vy * vy)); [|lra]. replace ((ux * ty - uy * tx) * (vx * vx + vy * vy)) with ((ux * vx + uy * vy) * (vx * ty - tx * vy) - (vx * uy - vy * ux) * (vx * tx + vy * ty)) by ring. rewrite X, UV. ring. }
  replace (ux * (snd x - snd p) - uy * (fst x - fst p)) with (o * d); [field; lra|]. rewrite <- A'. unfold tx, ty in T. lra.
Qed.
Lemma singles : forall cs : list (list pt), (forall c, In c cs -> (length c <= 1)%nat) -> length (concat cs) = length cs -> exists xs, cs = map (fun x => [x]) xs.
Proof.
  assert (B : forall cs : list (list pt), (forall c, In c cs -> (length c <= 1)%nat) -> (length (concat cs) <= length cs)%nat).
  { induction cs as [|c cs IH]; intro H; [cbn; lia|]. cbn [concat length]. rewrite app_length. pose proof (H c (or_introl eq_refl)). specialize (IH (fun x X => H x (or_intror X))). lia. }
  induction cs as [|c cs IH]; intros H L; [exists []; reflexivity|]. cbn [concat length] in L. rewrite app_length in L. pose proof (H c (or_introl eq_refl)) as Hc. pose proof (B cs (fun x X => H x (or_intror X))) as Bc.
  destruct (IH (fun x X => H x (or_intror X)) ltac:(lia)) as [xs ->]. destruct c as [|x [|y c]]; cbn [length] in *; [lia| |lia]. exists (x :: xs). reflexivity.
Qed.
Lemma concat_singles : forall xs : list pt, concat (map (fun x => [x]) xs) = xs.
Proof. induction xs as [|x xs IH]; [reflexivity|]. cbn [map concat app]. now rewrite IH. Qed.
Lemma last_firstn : forall (xs : list pt) s j, (j <= length xs)%nat -> last (s :: firstn j xs) (0, 0) = nth j (s :: xs) (0, 0).
Proof.
  intros xs s j J. rewrite last_is_nth. cbn [length]. rewrite firstn_length, Nat.min_l by exact J. replace (S j - 1)%nat with j by lia. destruct j as [|j]; [reflexivity|]. cbn [nth]. revert j J. induction xs as [|x xs IH]; intros j J; [cbn in J; lia|].
  cbn [firstn]. destruct j as [|j]; [reflexivity|]. cbn [nth]. apply IH. cbn in J. lia.
Qed.
(** A mitered side with a constant offset, if no corner is left out, is at that distance
    from each section. *)
Theorem C81_parallel : forall pts o side, side_drawn false pts (fun _ => o) side -> (2 <= length pts)%nat ->
  (forall j, (S j < length pts)%nat -> nth j pts (0, 0) <> nth (S j) pts (0, 0)) -> length side = length pts ->
  forall j, (S j < length pts)%nat -> aside (nth j pts (0, 0)) (nth (S j) pts (0, 0)) (nth j side (0, 0)) = o /\ aside (nth j pts (0, 0)) (nth (S j) pts (0, 0)) (nth (S j) side (0, 0)) = o.
Proof.
  intros pts o side (St & En & cs & SE & LC & -> & JO) L2 ND LS. set (m := (length pts - 2)%nat) in *.
  assert (LL : length (concat cs) = length cs). { cbn [length] in LS. rewrite app_length in LS. cbn [length] in LS. lia. }
  destruct (singles cs) as [xs EX]; [|exact LL|].
  { intros c C. apply (In_nth _ _ []) in C as (k & K & <-). rewrite LC in K. destruct (JO k K) as [| |]; cbn [length]; try discriminate; lia. }
  assert (LX : length xs = m) by (rewrite EX, map_length in LC; exact LC).
  assert (JX : forall j, (j < m)%nat -> joint false (nth j (St 0%nat :: xs) (0, 0)) (En j) (St (j + 1)%nat) (En (j + 1)%nat) [nth j xs (0, 0)]).
  { intros j J. specialize (JO j J). rewrite EX, firstn_map, concat_singles, last_firstn in JO by lia.
    replace (nth j (map (fun x => [x]) xs) []) with [nth j xs (0, 0)] in JO; [exact JO|]. rewrite (nth_indep _ [] ((fun x => [x]) (0, 0))) by (rewrite map_length; lia). now rewrite (map_nth (fun x : pt => [x])). }
  rewrite EX, concat_singles. clear JO EX LL LS cs LC.
  assert (SN : forall j, (j <= m)%nat -> St j <> En j).
  { intros j J Z. destruct (SE j J) as [[A _] [B _]]. rewrite Z in A. rewrite A in B. pose proof (ND j ltac:(unfold m in *; lia)) as N. destruct (left_length _ _ N) as [D0 _]. unfold apart in B. lra. }
  assert (CA : forall j, (j <= m)%nat -> aside (nth j pts (0, 0)) (nth (S j) pts (0, 0)) (nth j (St 0%nat :: xs) (0, 0)) = o).
  { intros [|j] J; [exact (proj2 (proj1 (SE 0%nat J)))|]. cbn [nth]. pose proof (JX j ltac:(lia)) as Q. rewrite Nat.add_1_r in Q. inversion Q as [x C O1 O2 _ EQ| |]; try discriminate. 
    apply (line_aside _ _ (St (S j)) (En (S j))); [apply ND; unfold m in *; lia|apply SN, J|exact (proj2 (proj1 (SE _ J)))|exact (proj2 (proj2 (SE _ J)))|exact O2]. }
  intros j J. assert (JM : (j <= m)%nat) by (unfold m; lia). split.
  - destruct j as [|j]; [exact (CA 0%nat JM)|]. specialize (CA (S j) JM). cbn [nth] in *. rewrite app_nth1 by lia. exact CA.
  - cbn [nth]. destruct (Nat.eq_dec j m) as [E|E].
    + rewrite app_nth2 by lia. rewrite E, LX, Nat.sub_diag. cbn [nth]. exact (proj2 (proj2 (SE m (le_n m)))).
    + rewrite app_nth1 by lia. pose proof (JX j ltac:(lia)) as Q. inversion Q as [x C O1 O2 _ EQ| |]; try discriminate.
      apply (line_aside _ _ (nth j (St 0%nat :: xs) (0, 0)) (En j)); [apply ND; lia| |apply CA, JM|exact (proj2 (proj2 (SE j JM)))|exact O1].
      intro Z. rewrite Z in C. replace (cross (psub (En j) (En j)) (psub (En (j + 1)%nat) (St (j + 1)%nat))) with 0 in C by (unfold cross, psub; cbn [fst snd]; ring). rewrite Rabs_R0 in C.
      assert (0 < / 10 ^ 30) by (apply Rinv_0_lt_compat; lra). lra.
Qed.
Print Assumptions C81_parallel.
(** So are the sides of each path in a call with one width and one distance. *)
Theorem C81_miter : forall pts w n d layer datatype polys las dts, poly_path pts [w] n [d] CMiter EFlush 0 layer datatype = Some (polys, las, dts) ->
  length pts <> 2%nat \/ n <> 1%nat -> 0 <= w -> length polys = n /\
  forall i, (i < n)%nat -> exists r l, between_sides (r, l) (nth i polys []) /\
    forall side o, (side, o) = (r, mid [d] n i 0 - w) \/ (side, o) = (l, mid [d] n i 0 + w) ->
      starts pts (fun _ => o) 0 (hd (0, 0) side) /\ stops pts (fun _ => o) (length pts - 2) (last side (0, 0)) /\
      (length side = length pts -> forall j, (S j < length pts)%nat ->
         aside (nth j pts (0, 0)) (nth (S j) pts (0, 0)) (nth j side (0, 0)) = o /\ aside (nth j pts (0, 0)) (nth (S j) pts (0, 0)) (nth (S j) side (0, 0)) = o).
Proof.
  intros pts w n d layer datatype polys las dts H NT W0.
  assert (H0 : (2 <= length pts)%nat /\ no_repeat pts = true). { unfold poly_path in H. destruct pts as [|p0 [|p1 rest]]; try discriminate. split; [cbn; lia|]. destruct layer; [discriminate|]. destruct datatype; [discriminate|]. destruct (no_repeat _); [reflexivity|discriminate]. }
  destruct H0 as [L2 NR]. destruct (C81_paths pts [w] n [d] false EFlush 0 layer datatype polys las dts H (or_introl eq_refl) NT ltac:(constructor; [exact W0|constructor])) as (pts' & caps & body & idx & EP & SP & CN & _ & LI & _ & I0 & P & _).
  cbn [spine] in SP. rewrite SP in *. clear SP pts'. rewrite (CN ltac:(discriminate)) in EP. cbn [app] in EP. rewrite EP. clear CN EP caps. rewrite (I0 eq_refl) in *. rewrite seq_length in LI. split; [congruence|]. intros i I. destruct (P i I) as (pieces & r & l & G & F & DR & DL).
  assert (OP : of_path i (seq 0 n) body = [nth i body []]).
  { unfold of_path. rewrite LI. clear - I LI. rewrite LI in I. clear LI n. assert (Q : forall (b : list poly) a, (i < length b)%nat -> map snd (filter (fun ip => (fst ip =? a + i)%nat) (combine (seq a (length b)) b)) = [nth i b []]).
    { clear. induction i as [|i IH]; intros [|x b] a I; cbn [length] in I; try lia; cbn [length seq combine filter fst].
      - rewrite Nat.add_0_r, Nat.eqb_refl. cbn [map snd nth]. f_equal. assert (Z : forall (c : list poly) k, (a < k)%nat -> filter (fun ip => (fst ip =? a)%nat) (combine (seq k (length c)) c) = []).
        { induction c as [|y c IHc]; intros k K; [reflexivity|]. cbn [length seq combine filter fst]. destruct (Nat.eqb_spec k a); [lia|]. apply IHc. lia. }
        rewrite Z by lia. reflexivity.
      - destruct (Nat.eqb_spec a (a + S i)); [lia|]. cbn [nth]. rewrite <- (IH b (S a)) by lia. replace (a + S i)%nat with (S a + i)%nat by lia. reflexivity. }
    exact (Q body 0%nat I). }
  clear LI. rewrite OP in F. inversion F as [|s q ps qs B F2]; subst. inversion F2; subst. assert (SR : s = (r, l)). { inversion G as [|? ? ? ? ? ? ? G2]; [reflexivity|subst; inversion G2]. } rewrite SR in B. exists r, l. split; [exact B|].
  assert (OC : forall left j, off [w] [d] n i left j = if left then mid [d] n i 0 + w else mid [d] n i 0 - w) by (intros left j; unfold off, mid, given; cbn [length]; rewrite Nat.mod_1_r; cbn [Nat.modulo Nat.divmod snd Nat.sub nth]; destruct left; ring).
  assert (DC : forall left side, side_drawn false pts (off [w] [d] n i left) side -> side_drawn false pts (fun _ => if left then mid [d] n i 0 + w else mid [d] n i 0 - w) side).
  { intros left side (St & En & cs & SE & R). exists St, En, cs. split; [|exact R]. intros j J. specialize (SE j J). unfold starts, stops in *. rewrite !OC in SE. exact SE. }
  assert (FIN : forall side o, side_drawn false pts (fun _ => o) side -> starts pts (fun _ => o) 0 (hd (0, 0) side) /\ stops pts (fun _ => o) (length pts - 2) (last side (0, 0)) /\
      (length side = length pts -> forall j, (S j < length pts)%nat ->
         aside (nth j pts (0, 0)) (nth (S j) pts (0, 0)) (nth j side (0, 0)) = o /\ aside (nth j pts (0, 0)) (nth (S j) pts (0, 0)) (nth (S j) side (0, 0)) = o)).
  { intros side o D. split; [|split; [|intros LS j J; exact (C81_parallel pts o side D L2 (no_repeat_ok pts NR) LS j J)]]; destruct D as (St & En & cs & SE & _ & -> & _).
    - exact (proj1 (SE 0%nat ltac:(lia))).
    - rewrite app_comm_cons, last_last. exact (proj2 (SE _ (le_n _))). }
  intros side o [E|E]; injection E as -> ->; apply FIN; [exact (DC false _ DR)|exact (DC true _ DL)].
Qed.
Print Assumptions C81_miter.

(** ** Findings and cases *)

Lemma left_east : forall x y z, x < z -> left_of (x, y) (z, y) = (0, 1) /\ ahead_of (x, y) (z, y) = (1, 0).
Proof.
  intros x y z L. unfold left_of, ahead_of, smul, psub. cbn [fst snd]. replace ((z - x) ^ 2 + (y - y) ^ 2) with ((z - x) ^ 2) by ring. rewrite sqrt_pow2 by lra. split; f_equal; field; lra.
Qed.
Lemma left_west : forall x y z, z < x -> left_of (x, y) (z, y) = (0, -1).
Proof.
  intros x y z L. unfold left_of, ahead_of, smul, psub. cbn [fst snd]. replace ((z - x) ^ 2 + (y - y) ^ 2) with ((x - z) ^ 2) by ring. rewrite sqrt_pow2 by lra. f_equal; field; lra.
Qed.
Lemma left_north : forall x y z, y < z -> left_of (x, y) (x, z) = (-1, 0).
Proof.
  intros x y z L. unfold left_of, ahead_of, smul, psub. cbn [fst snd]. replace ((x - x) ^ 2 + (z - y) ^ 2) with ((z - y) ^ 2) by ring. rewrite sqrt_pow2 by lra. f_equal; field; lra.
Qed.
Lemma tiny : 0 < / 10 ^ 30 < 1.
Proof. split; [apply Rinv_0_lt_compat; lra|]. rewrite <- Rinv_1. apply Rinv_lt_contravar; lra. Qed.
Definition ell : list pt := [(0, 0); (10, 0); (10, 10)].
Ltac pts_eq := repeat (first [apply f_equal2 | reflexivity | field | lra]).
Lemma ell_ok : no_repeat ell = true.
Proof. unfold ell. cbn [no_repeat fst snd]. repeat (destruct (Req_EM_T _ _); [try (exfalso; lra)|]; cbn [andb]); try reflexivity; exfalso; lra. Qed.
Lemma ell_edges : forall left : bool, let s := if left then 1 else -1 in
  edge_start ell [1] [0] 1 0 0 left = (0, s) /\ edge_end ell [1] [0] 1 0 0 left = (10, s) /\ edge_start ell [1] [0] 1 1 0 left = (10 - s, 0) /\ edge_end ell [1] [0] 1 1 0 left = (10 - s, 10).
Proof.
  intros left s. unfold edge_start, edge_end, point, ell. cbn [nth]. rewrite (proj1 (left_east 0 0 10 ltac:(lra))), (left_north 10 0 10 ltac:(lra)).
  unfold side_offset, cyc. cbn [length Nat.modulo Nat.divmod snd Nat.sub nth]. change (INR 0) with 0. change (INR 1) with 1. unfold s, padd, smul. cbn [fst snd]. destruct left; repeat split; f_equal; field.
Qed.
Lemma same_no : forall p q, p <> q -> same p q = false.
Proof. intros p q N. destruct (same p q) eqn:E; [|reflexivity]. apply same_spec in E. contradiction. Qed.
Lemma body_three : forall pts width distance bevel mx, length pts = 3%nat -> paths_body pts width distance 1 bevel mx =
  match path_step pts width distance 1 bevel mx 1 0 ([edge_start pts width distance 1 0 0 false], [edge_start pts width distance 1 0 0 true]) with
  | None => None
  | Some (s, cut) => Some (map (pair 0%nat) cut ++ [(0%nat, finish pts width distance 1 0 s)])
  end.
Proof.
  intros pts width distance bevel mx L. unfold paths_body. rewrite L. change (3 - 2)%nat with 1%nat. cbn [seq map paths_loop]. unfold paths_step. cbn [seq combine map fst snd all_some].
  destruct (path_step _ _ _ _ _ _ _ _ _) as [[s cut]|]; [|reflexivity]. cbn [option_map map fst snd combine concat app]. now rewrite !app_nil_r.
Qed.
Lemma ell_bevel : paths_body ell [1] [0] 1 true 4 =
  Some [(0%nat, [(0, -1); (10, -1); (11, 0); (9, 1); (0, 1)]); (0%nat, [(11, 0); (11, 10); (9, 10); (9, 1)])].
Proof.
  pose proof tiny as TI. destruct (ell_edges false) as (R0 & R1 & R2 & R3). destruct (ell_edges true) as (L0 & L1 & L2 & L3).
  rewrite body_three by reflexivity. unfold path_step. cbn [fst snd].
  assert (GR : grow ell [1] [0] 1 true 1 0 false [edge_start ell [1] [0] 1 0 0 false] = [(0, -1); (10, -1); (11, 0)]).
  { unfold grow. cbn [Nat.sub last]. rewrite R0, R1, R2, R3. unfold add_corner, psub, dot. cbn [fst snd]. destruct (Rlt_dec _ _) as [_|Z]; [|exfalso; apply Z; replace ((0 - 10) * (0 - 10) - (10 - -1 - (10 - -1)) * (-1 - -1)) with 100 by ring; rewrite Rabs_pos_eq; lra].
    destruct (Rlt_dec _ _) as [_|Z]; [|exfalso; apply Z; field_simplify; lra]. destruct (Rlt_dec _ _) as [_|Z]; [|exfalso; apply Z; field_simplify; lra]. cbn [andb app]. f_equal. f_equal. f_equal. f_equal; ring. }
  assert (GL : grow ell [1] [0] 1 true 1 0 true [edge_start ell [1] [0] 1 0 0 true] = [(0, 1); (9, 1)]).
  { unfold grow. cbn [Nat.sub last]. rewrite L0, L1, L2, L3. unfold add_corner, psub, dot. cbn [fst snd]. destruct (Rlt_dec _ _) as [_|Z]; [|exfalso; apply Z; replace ((0 - 10) * (0 - 10) - (10 - 1 - (10 - 1)) * (1 - 1)) with 100 by ring; rewrite Rabs_pos_eq; lra].
    destruct (Rlt_dec _ _) as [Z|_]; [exfalso; field_simplify in Z; lra|]. cbn [andb app]. f_equal. f_equal. f_equal; field. }
  rewrite GR, GL. cbn [length Nat.add]. change ((0 <? 4) && (4 <? 8))%nat%bool with true. cbv iota. unfold cut_off. cbn [hd last tl]. rewrite !same_no by (intro Z; injection Z; intros; lra). cbn [removelast rev app map].
  unfold finish. change (length ell - 2)%nat with 1%nat. rewrite R3, L3. cbn [hd tl]. rewrite !same_no by (intro Z; injection Z; intros; lra). cbn [app rev].
  replace (10 - -1) with 11 by ring. replace (10 - 1) with 9 by ring. reflexivity.
Qed.
(** The limit on the points is not kept with bevels: max_points is 4 and there is a
    polygon with five vertices. *)
Theorem C81_bevel_points_refuted : exists polys las dts, poly_path ell [1] 1 [0] CBevel EFlush 4 [0%Z] [0%Z] = Some (polys, las, dts) /\ exists q, In q polys /\ length q = 5%nat.
Proof.
  unfold poly_path. fold ell. change [(0, 0); (10, 0); (10, 10)] with ell. cbn [ell]. change [(0, 0); (10, 0); (10, 10)] with ell. rewrite ell_ok. cbn [negb length ell Nat.eqb andb corners_of ends_of]. change [(0, 0); (10, 0); (10, 10)] with ell. rewrite ell_ok. cbn [negb]. rewrite ell_bevel.
  eexists _, _, _. split; [reflexivity|]. eexists. split; [left; reflexivity|]. reflexivity.
Qed.
Print Assumptions C81_bevel_points_refuted.
Lemma two_call : forall p q w n corners ends mx, p <> q -> n = 1%nat -> poly_path [p; q] [w] n [0] corners ends mx [0%Z] [0%Z] = two_points p q w w ends 0 0.
Proof.
  intros p q w n corners ends mx N ->. unfold poly_path. assert (NR : no_repeat [p; q] = true) by (apply no_repeat_all; intros [|j] J; [exact N|cbn in J; lia]). rewrite NR. reflexivity.
Qed.
Lemma east_differ : (0, 0) <> (10, 0) :> pt.
Proof. intro Z. injection Z. intros. lra. Qed.
(** Nor is it kept by the round ends, with 33 vertices for any limit. *)
Theorem C81_round_points_refuted : forall mx, exists polys las dts, poly_path [(0, 0); (10, 0)] [1] 1 [0] CMiter ERound mx [0%Z] [0%Z] = Some (polys, las, dts) /\ exists q, In q polys /\ length q = 33%nat.
Proof.
  intro mx. pose proof PI_RGT_0. rewrite two_call by (try exact east_differ; reflexivity). unfold two_points. set (a := atan2 _ _ + PI / 2). rewrite !half_disc_eq by lra. eexists _, _, _. split; [reflexivity|]. eexists. split; [left; reflexivity|].
  reflexivity.
Qed.
Print Assumptions C81_round_points_refuted.
(** The numbers for the ends, and names that do not exist, are taken for flush ends in
    a single path of two points. *)
Theorem C81_end_names_refuted : let call := poly_path [(0, 0); (10, 0)] [1] 1 [0] in
  (forall mx, call CMiter (ENumber 2) mx [0%Z] [0%Z] = call CMiter EFlush mx [0%Z] [0%Z]) /\ (forall mx, call COther EOther mx [0%Z] [0%Z] = call CMiter EFlush mx [0%Z] [0%Z]) /\
  call CMiter EFlush 0%nat [0%Z] [0%Z] <> call CMiter EExtended 0%nat [0%Z] [0%Z] /\ call CMiter EFlush 0%nat [0%Z] [0%Z] <> None.
Proof.
  cbv zeta. split; [intro mx; rewrite !two_call by (try exact east_differ; reflexivity); reflexivity|]. split; [intro mx; rewrite !two_call by (try exact east_differ; reflexivity); reflexivity|].
  rewrite !two_call by (try exact east_differ; reflexivity). unfold two_points. rewrite (proj2 (left_east 0 0 10 ltac:(lra))). cbn [app map]. destruct (Req_EM_T 1 0); [exfalso; lra|]. split; [|discriminate]. intro Z. injection Z. unfold psub, padd, smul. cbn [fst snd]. intros. lra.
Qed.
Print Assumptions C81_end_names_refuted.

(** A path that turns back on itself loses what lies beyond its last point: the spine
    goes to 10, the polygon to 5, with its sides crossed. *)
Definition back : list pt := [(0, 0); (10, 0); (5, 0)].
Lemma back_ok : no_repeat back = true.
Proof. apply no_repeat_all. intros [|[|j]] J; cbn in J; [| |lia]; cbn [nth]; intro Z; injection Z; intros; lra. Qed.
Lemma back_edges : forall left : bool, let s := if left then 1 else -1 in
  edge_start back [1] [0] 1 0 0 left = (0, s) /\ edge_end back [1] [0] 1 0 0 left = (10, s) /\ edge_start back [1] [0] 1 1 0 left = (10, - s) /\ edge_end back [1] [0] 1 1 0 left = (5, - s).
Proof.
  intros left s. unfold edge_start, edge_end, point, back. cbn [nth]. rewrite (proj1 (left_east 0 0 10 ltac:(lra))), (left_west 10 0 5 ltac:(lra)).
  unfold side_offset, cyc. cbn [length Nat.modulo Nat.divmod snd Nat.sub nth]. change (INR 0) with 0. change (INR 1) with 1. unfold s, padd, smul. cbn [fst snd]. destruct left; repeat split; f_equal; field.
Qed.
Lemma three_call : forall a b c w (bevel : bool) mx body, no_repeat [a; b; c] = true -> paths_body [a; b; c] [w] [0] 1 bevel mx = Some body ->
  poly_path [a; b; c] [w] 1 [0] (if bevel then CBevel else CMiter) EFlush mx [0%Z] [0%Z] = Some (map snd body, map (fun ip => cyc 0%Z [0%Z] (fst ip)) body, map (fun ip => cyc 0%Z [0%Z] (fst ip)) body).
Proof. intros a b c w bevel mx body NR E. unfold poly_path. rewrite NR. cbn [negb length Nat.eqb andb]. assert (CO : corners_of (if bevel then CBevel else CMiter) = Some bevel) by (destruct bevel; reflexivity). rewrite CO. cbn [ends_of]. rewrite NR. cbn [negb]. rewrite E. reflexivity. Qed.
Theorem C81_back_refuted : poly_path back [1] 1 [0] CMiter EFlush 0 [0%Z] [0%Z] = Some ([[(0, -1); (5, 1); (5, -1); (0, 1)]], [0%Z], [0%Z]).
Proof.
  pose proof tiny as TI. destruct (back_edges false) as (R0 & R1 & R2 & R3). destruct (back_edges true) as (L0 & L1 & L2 & L3).
  assert (B : paths_body back [1] [0] 1 false 0 = Some [(0%nat, [(0, -1); (5, 1); (5, -1); (0, 1)])]).
  { rewrite body_three by reflexivity. unfold path_step. cbn [fst snd].
    assert (GR : grow back [1] [0] 1 false 1 0 false [edge_start back [1] [0] 1 0 0 false] = [(0, -1)]).
    { unfold grow. cbn [Nat.sub last]. rewrite R0, R1, R2, R3. unfold add_corner, psub. cbn [fst snd]. destruct (Rlt_dec _ _) as [Z|_]; [|reflexivity]. exfalso. replace ((0 - 10) * (- -1 - - -1) - (10 - 5) * (-1 - -1)) with 0 in Z by ring. rewrite Rabs_R0 in Z. lra. }
    assert (GL : grow back [1] [0] 1 false 1 0 true [edge_start back [1] [0] 1 0 0 true] = [(0, 1)]).
    { unfold grow. cbn [Nat.sub last]. rewrite L0, L1, L2, L3. unfold add_corner, psub. cbn [fst snd]. destruct (Rlt_dec _ _) as [Z|_]; [|reflexivity]. exfalso. replace ((0 - 10) * (- (1) - - (1)) - (10 - 5) * (1 - 1)) with 0 in Z by ring. rewrite Rabs_R0 in Z. lra. }
    rewrite GR, GL. cbn [length Nat.add]. change ((0 <? 0) && (0 <? 5))%nat%bool with false. cbv iota. unfold finish. change (length back - 2)%nat with 1%nat. rewrite R3, L3. cbn [hd tl map app]. rewrite !same_no by (intro Z; injection Z; intros; lra). cbn [app rev].
    replace (- -1) with 1 by ring. reflexivity. }
  exact (three_call _ _ _ 1 false 0 _ back_ok B).
Qed.
Print Assumptions C81_back_refuted.

(** A straight path of width zero with max_points 4 raises. *)
Definition line3 : list pt := [(0, 0); (10, 0); (20, 0)].
Theorem C81_defined_refuted : poly_path line3 [0] 1 [0] CMiter EFlush 4 [0%Z] [0%Z] = None.
Proof.
  pose proof tiny as TI. assert (NR : no_repeat line3 = true) by (apply no_repeat_all; intros [|[|j]] J; cbn in J; [| |lia]; cbn [nth line3]; intro Z; injection Z; intros; lra).
  assert (ED : forall left, edge_start line3 [0] [0] 1 0 0 left = (0, 0) /\ edge_end line3 [0] [0] 1 0 0 left = (10, 0) /\ edge_start line3 [0] [0] 1 1 0 left = (10, 0) /\ edge_end line3 [0] [0] 1 1 0 left = (20, 0)).
  { intro left. unfold edge_start, edge_end, point, line3. cbn [nth]. rewrite (proj1 (left_east 0 0 10 ltac:(lra))), (proj1 (left_east 10 0 20 ltac:(lra))).
    unfold side_offset, cyc. cbn [length Nat.modulo Nat.divmod snd Nat.sub nth]. change (INR 0) with 0. change (INR 1) with 1. unfold padd, smul. cbn [fst snd]. destruct left; repeat split; f_equal; field. }
  assert (B : paths_body line3 [0] [0] 1 false 4 = None).
  { rewrite body_three by reflexivity. unfold path_step. cbn [fst snd].
    assert (G : forall left, grow line3 [0] [0] 1 false 1 0 left [edge_start line3 [0] [0] 1 0 0 left] = [(0, 0)]).
    { intro left. destruct (ED left) as (R0 & R1 & R2 & R3). unfold grow. cbn [Nat.sub last]. rewrite R0, R1, R2, R3. unfold add_corner, psub. cbn [fst snd]. destruct (Rlt_dec _ _) as [Z|_]; [|reflexivity]. exfalso. replace ((0 - 10) * (0 - 0) - (10 - 20) * (0 - 0)) with 0 in Z by ring. rewrite Rabs_R0 in Z. lra. }
    rewrite !G. cbn [length Nat.add]. change ((0 <? 4) && (4 <? 5))%nat%bool with true. cbv iota. unfold cut_off. cbn [hd tl]. assert (SM : same (0, 0) (0, 0) = true) by (apply same_spec; reflexivity). rewrite SM. reflexivity. }
  unfold poly_path, line3. fold line3. rewrite NR. cbn [negb length Nat.eqb andb corners_of ends_of line3]. fold line3. rewrite NR. cbn [negb]. rewrite B. reflexivity.
Qed.
Print Assumptions C81_defined_refuted.

(** ** Cases *)

Lemma ell_distinct : forall j, (S j < length ell)%nat -> nth j ell (0, 0) <> nth (S j) ell (0, 0).
Proof. exact (no_repeat_ok ell ell_ok). Qed.
(** Two paths with round ends and different widths. *)
Example C81_paths_case : exists polys las dts, poly_path ell [1; 2; 1] 2 [6] CMiter ERound 0 [1%Z; 2%Z] [3%Z] = Some (polys, las, dts) /\ las = [1; 2; 1; 2; 1; 2]%Z /\ dts = [3; 3; 3; 3; 3; 3]%Z.
Proof.
  assert (WP : Forall (fun w => 0 <= w) [1; 2; 1]) by (repeat constructor; lra).
  destruct (poly_path ell [1; 2; 1] 2 [6] CMiter ERound 0 [1%Z; 2%Z] [3%Z]) as [[[polys las] dts]|] eqn:E.
  - exists polys, las, dts. split; [reflexivity|]. destruct (C81_paths ell [1; 2; 1] 2 [6] false ERound 0 [1%Z; 2%Z] [3%Z] polys las dts E ltac:(right; left; reflexivity) ltac:(left; discriminate) WP) as (pts' & caps & body & idx & _ & _ & _ & _ & _ & _ & I0 & _ & _ & A & B).
    rewrite (I0 eq_refl) in A, B. split; [exact A|exact B].
  - exfalso. revert E. apply (C81_defined ell [1; 2; 1] 2 [6] false ERound [1%Z; 2%Z] [3%Z]); try discriminate; [cbn; lia|exact ell_distinct|right; left; reflexivity|exact WP].
Qed.
Example C81_straight_case : exists polys las dts, poly_path [(0, 0); (10, 0)] [1] 1 [0] CMiter EExtended 0 [0%Z] [0%Z] = Some (polys, las, dts) /\ polys = [[(-1, 1); (-1, -1); (11, -1); (11, 1)]].
Proof.
  rewrite two_call by (try exact east_differ; reflexivity). unfold two_points. rewrite (proj2 (left_east 0 0 10 ltac:(lra))). cbn [app map]. destruct (Req_EM_T 1 0); [exfalso; lra|]. eexists _, _, _. split; [reflexivity|].
  unfold psub, padd, smul. cbn [fst snd]. repeat f_equal; ring.
Qed.
Lemma ell_miter : poly_path ell [1] 1 [0] CMiter EFlush 0 [0%Z] [0%Z] = Some ([[(0, -1); (11, -1); (11, 10); (9, 10); (9, 1); (0, 1)]], [0%Z], [0%Z]).
Proof.
  pose proof tiny as TI. destruct (ell_edges false) as (R0 & R1 & R2 & R3). destruct (ell_edges true) as (L0 & L1 & L2 & L3).
  assert (B : paths_body ell [1] [0] 1 false 0 = Some [(0%nat, [(0, -1); (11, -1); (11, 10); (9, 10); (9, 1); (0, 1)])]).
  { rewrite body_three by reflexivity. unfold path_step. cbn [fst snd].
    assert (GR : grow ell [1] [0] 1 false 1 0 false [edge_start ell [1] [0] 1 0 0 false] = [(0, -1); (11, -1)]).
    { unfold grow. cbn [Nat.sub last]. rewrite R0, R1, R2, R3. unfold add_corner, psub, dot. cbn [fst snd andb]. destruct (Rlt_dec _ _) as [_|Z]; [|exfalso; apply Z; replace ((0 - 10) * (0 - 10) - (10 - -1 - (10 - -1)) * (-1 - -1)) with 100 by ring; rewrite Rabs_pos_eq; lra].
      cbn [app]. f_equal. f_equal. f_equal; field. }
    assert (GL : grow ell [1] [0] 1 false 1 0 true [edge_start ell [1] [0] 1 0 0 true] = [(0, 1); (9, 1)]).
    { unfold grow. cbn [Nat.sub last]. rewrite L0, L1, L2, L3. unfold add_corner, psub, dot. cbn [fst snd andb]. destruct (Rlt_dec _ _) as [_|Z]; [|exfalso; apply Z; replace ((0 - 10) * (0 - 10) - (10 - 1 - (10 - 1)) * (1 - 1)) with 100 by ring; rewrite Rabs_pos_eq; lra].
      cbn [app]. f_equal. f_equal. f_equal; field. }
    rewrite GR, GL. cbn [length Nat.add]. change ((0 <? 0) && (0 <? 7))%nat%bool with false. cbv iota. unfold finish. change (length ell - 2)%nat with 1%nat. rewrite R3, L3. cbn [hd tl map app]. rewrite !same_no by (intro Z; injection Z; intros; lra). cbn [app rev].
    replace (10 - -1) with 11 by ring. replace (10 - 1) with 9 by ring. reflexivity. }
  exact (three_call _ _ _ 1 false 0 _ ell_ok B).
Qed.
(** No corner is left out there, and the sides are at the distance 1. *)
Example C81_miter_case : exists r l, between_sides (r, l) [(0, -1); (11, -1); (11, 10); (9, 10); (9, 1); (0, 1)] /\ length r = length ell /\ length l = length ell.
Proof.
  exists [(0, -1); (11, -1); (11, 10)], [(0, 1); (9, 1); (9, 10)]. split; [|split; reflexivity]. exists [(0, 1); (9, 1); (9, 10)]. split; left; (split; [cbn; intro Z; injection Z; intros; lra|reflexivity]).
Qed.
