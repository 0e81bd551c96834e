(** C44: text; C43: labels in SVG. *)

From Coq Require Import Reals Lra Lia List ZArith Bool Psatz.
From Verif Require Import Plane SpecPlane Font Text SpecText.
Import ListNotations.
Open Scope Z_scope.

(** ** C43 *)
Lemma data_other : forall c r, c <> 38 -> c <> 60 -> c <> 62 -> character_data (c :: r) = option_map (cons c) (character_data r).
Proof.
  intros c r A B D. cbn [character_data]. 
  repeat match goal with
  | |- context [match ?x with _ => _ end] => is_var x; destruct x; try reflexivity; try lia
  end.
Qed.
(** Parsing the text written gives the text of the label back, so there is no raw '<' or
    '>' and every '&' begins an entity. *)
Theorem C43_text : forall text, character_data (svg_text text) = Some text.
Proof.
  induction text as [|c text IH]; [reflexivity|]. unfold svg_text in *. cbn [flat_map]. unfold svg_char at 1.
  destruct (c =? 38) eqn:A; [apply Z.eqb_eq in A as ->; cbn [app]|apply Z.eqb_neq in A; destruct (c =? 60) eqn:B; [apply Z.eqb_eq in B as ->; cbn [app]|apply Z.eqb_neq in B; destruct (c =? 62) eqn:D; [apply Z.eqb_eq in D as ->; cbn [app]|apply Z.eqb_neq in D; cbn [app]]]].
  - cbn [character_data]. now rewrite IH.
  - cbn [character_data]. now rewrite IH.
  - cbn [character_data]. now rewrite IH.
  - rewrite data_other by assumption. now rewrite IH.
Qed.
Theorem C43_clean : forall text, ~ In 60 (svg_text text) /\ ~ In 62 (svg_text text).
Proof.
  intros text. assert (H : forall x, x = 60 \/ x = 62 -> ~ In x (svg_text text)); [|split; apply H; auto].
  intros x X I. unfold svg_text in I. apply in_flat_map in I as (c & _ & I). unfold svg_char in I.
  destruct (c =? 38) eqn:A; [cbn in I; lia|]. destruct (c =? 60) eqn:B; [cbn in I; lia|]. destruct (c =? 62) eqn:D; [cbn in I; lia|]. cbn in I. lia.
Qed.
Print Assumptions C43_text.
Print Assumptions C43_clean.
(** "a<b&c" *)
Example C43_case : svg_text [97; 60; 98; 38; 99] = [97; 38; 108; 116; 59; 98; 38; 97; 109; 112; 59; 99].
Proof. reflexivity. Qed.

(** ** C44 *)
(** Tab stops. *)
Theorem C44_tab : forall c, 0 <= c -> c < next_stop c <= c + 4 /\ next_stop c mod 4 = 3.
Proof.
  intros c C. unfold next_stop. pose proof (Z.div_mod (c + 1) 4 ltac:(lia)) as D. pose proof (Z.mod_pos_bound (c + 1) 4 ltac:(lia)) as M. split; [lia|].
  rewrite Z.add_comm, Z.mul_comm, Z.mod_add by lia. reflexivity.
Qed.
Lemma tab_right c : 0 <= c -> 8 * c + 32 - (8 * c + 8) mod 32 = 8 * next_stop c.
Proof.
  intros C. unfold next_stop. replace (8 * c + 8) with (8 * (c + 1)) by ring. change 32 with (8 * 4) at 2. rewrite Zmult_mod_distr_l.
  pose proof (Z.div_mod (c + 1) 4 ltac:(lia)) as D. lia.
Qed.
Lemma tab_down c : 0 <= c -> - (11 * c) - 11 - (- (11 * c) - 22) mod 44 = - (11 * next_stop c).
Proof.
  intros C. unfold next_stop. replace (- (11 * c) - 22) with (11 * (- c - 2)) by ring. change 44 with (11 * 4) at 1. rewrite Zmult_mod_distr_l.
  pose proof (Z.div_mod (c + 1) 4 ltac:(lia)) as D. pose proof (Z.mod_pos_bound (c + 1) 4 ltac:(lia)) as M.
  assert (E : (- c - 2) mod 4 = 3 - (c + 1) mod 4).
  { symmetry. apply (Z.mod_unique_pos (- c - 2) 4 (- ((c + 1) / 4) - 1)); lia. }
  lia.
Qed.
Lemma tab_down' c : 0 <= c -> - 11 * c - 11 - (- 11 * c - 22) mod 44 = - 11 * next_stop c.
Proof. intros C. pose proof (tab_down c C). replace (-11 * c) with (- (11 * c)) by ring. lia. Qed.
(** What the characters of the text, the first at the line and column [lc], draw. *)
Fixpoint drawn (lc : Z * Z) (text : list Z) : list (list (Z * Z) * (Z * Z)) :=
  match text with
  | [] => []
  | c :: r => (if prints c then match lookup c with Some g => map (fun q => (q, lc)) g | None => [] end else []) ++ drawn (step lc c) r
  end.
(** The same by number: each character that prints, in order, with its polygons. *)
Definition by_number (text : list Z) : list (list (Z * Z) * (Z * Z)) :=
  flat_map (fun i => let c := nth i text 0 in
     if prints c then match lookup c with Some g => map (fun q => (q, where_is text i)) g | None => [] end else []) (seq 0 (length text)).
Lemma drawn_by_number : forall text lc, drawn lc text =
  flat_map (fun i => let c := nth i text 0 in
     if prints c then match lookup c with Some g => map (fun q => (q, fold_left step (firstn i text) lc)) g | None => [] end else []) (seq 0 (length text)).
Proof.
  induction text as [|c text IH]; intros lc; [reflexivity|]. cbn [drawn length seq flat_map nth firstn fold_left]. f_equal.
  rewrite IH. rewrite <- seq_shift. rewrite flat_map_concat_map, flat_map_concat_map, map_map. f_equal.
Qed.
Definition put (size ca sa : R) (position : pt) (p : pt) : pt := (fst position + fst p * ca - snd p * sa, snd position + fst p * sa + snd p * ca)%R.
Lemma letters_drawn : forall size ca sa position hor text l c, 0 <= c ->
  letters size ca sa position hor (if hor then 8 * c else 8 * l) (if hor then - 11 * l else - 11 * c) text =
  map (fun ql => map (fun g => put size ca sa position (upright hor size (snd ql) g)) (fst ql)) (drawn (l, c) text).
Proof.
  intros size ca sa position hor. induction text as [|ch text IH]; intros l c C; [reflexivity|]. cbn [letters drawn]. unfold prints.
  destruct (ch =? 10) eqn:N; [|destruct (ch =? 9) eqn:T]; cbn [negb andb app]; unfold step; rewrite ?N, ?T.
  - specialize (IH (l + 1) 0 ltac:(lia)). destruct hor; rewrite <- IH; f_equal; ring.
  - specialize (IH l (next_stop c) ltac:(destruct (C44_tab c C); lia)). destruct hor.
    + rewrite tab_right by exact C. exact IH.
    + rewrite tab_down' by exact C. exact IH.
  - rewrite map_app. f_equal.
    + destruct (lookup ch) as [g|]; [|reflexivity]. rewrite map_map. apply map_ext. intros q. cbn [fst snd]. apply map_ext. intros v. unfold vertex, put, upright.
      destruct hor; cbn [fst snd]; replace (-11 * l + snd v) with (snd v - 11 * l) by ring; replace (-11 * c + snd v) with (snd v - 11 * c) by ring; reflexivity.
    + specialize (IH l (c + 1) ltac:(lia)). destruct hor; rewrite <- IH; f_equal; ring.
Qed.
(** The polygons of a text: those of its characters, in their order; every vertex at its
    place in the upright text, rotated about the position and moved there. *)
Theorem C44_layout : forall text size position horizontal angle,
  text_polygons text size position horizontal angle =
  map (fun ql => map (fun g => padd (rotate_pt angle (0, 0)%R (upright horizontal size (snd ql) g)) position) (fst ql)) (by_number text).
Proof.
  intros text size position hor angle. unfold text_polygons, by_number.
  assert (E : exists ca sa, (if Req_EM_T angle 0 then (1, 0) else (cos angle, sin angle))%R = (ca, sa) /\ ca = cos angle /\ sa = sin angle).
  { destruct (Req_EM_T angle 0) as [->|]; eexists; eexists; (split; [reflexivity|]); [rewrite cos_0, sin_0|]; split; reflexivity. }
  destruct E as (ca & sa & -> & -> & ->).
  pose proof (letters_drawn size (cos angle) (sin angle) position hor text 0 0 ltac:(lia)) as L. replace (if hor then 8 * 0 else 8 * 0) with 0 in L by (destruct hor; reflexivity).
  replace (if hor then -11 * 0 else -11 * 0) with 0 in L by (destruct hor; reflexivity). rewrite L, drawn_by_number. unfold where_is.
  apply map_ext. intros [q lc]. apply map_ext. intros g. unfold put, padd, rotate_pt, rot_cs, psub, padd. cbn [fst snd]. f_equal; ring.
Qed.
(** So a text at an angle is the upright text rotated about its position. *)
Theorem C44_rotation : forall text size position horizontal angle,
  text_polygons text size position horizontal angle = map (map (rotate_pt angle position)) (text_polygons text size position horizontal 0).
Proof.
  intros. rewrite !C44_layout, map_map. apply map_ext. intros ql. rewrite map_map. apply map_ext. intros g.
  unfold rotate_pt, rot_cs, padd, psub. cbn [fst snd]. rewrite cos_0, sin_0. f_equal; ring.
Qed.

(** ** Characters do not touch *)
Definition glyph_ok (g : list (list (Z * Z))) : bool := forallb (forallb (fun v => (0 <=? fst v) && (fst v <=? 5) && (0 <=? snd v) && (snd v <=? 9))) g.
Lemma font_box : forallb (fun e => glyph_ok (snd e)) font = true.
Proof. vm_compute. reflexivity. Qed.
(** Every glyph fits in its box: 5/9 of the size wide and as high as the size. *)
Theorem C44_box : forall c g q v, lookup c = Some g -> In q g -> In v q -> 0 <= fst v <= 5 /\ 0 <= snd v <= 9.
Proof.
  intros c g q v L Q V. unfold lookup in L. destruct (find _ font) as [e|] eqn:F; [|discriminate]. injection L as <-. apply find_some in F as [I _].
  pose proof font_box as B. rewrite forallb_forall in B. specialize (B e I). unfold glyph_ok in B. rewrite forallb_forall in B. specialize (B q Q). rewrite forallb_forall in B. specialize (B v V).
  rewrite !andb_true_iff, !Z.leb_le in B. lia.
Qed.
(** The printable characters of ASCII, except the space, are in the font. *)
Theorem C44_ascii : forall c, 33 <= c <= 126 <-> exists g, lookup c = Some g.
Proof.
  intros c. split.
  - intros H. assert (A : forallb (fun i => match lookup (33 + Z.of_nat i) with Some _ => true | None => false end) (seq 0 94) = true) by (vm_compute; reflexivity).
    rewrite forallb_forall in A. specialize (A (Z.to_nat (c - 33)) ltac:(apply in_seq; lia)). replace (33 + Z.of_nat (Z.to_nat (c - 33))) with c in A by lia.
    destruct (lookup c) as [g|]; [now exists g|discriminate].
  - intros [g L]. unfold lookup in L. destruct (find _ font) as [e|] eqn:F; [|discriminate]. apply find_some in F as [I E]. apply Z.eqb_eq in E. subst c.
    assert (A : forallb (fun e => (33 <=? fst e) && (fst e <=? 126)) font = true) by (vm_compute; reflexivity). rewrite forallb_forall in A. specialize (A e I). lia.
Qed.
Definition later (a b : Z * Z) : Prop := fst a < fst b \/ (fst a = fst b /\ snd a < snd b).
Lemma step_later lc ch : 0 <= snd lc -> later lc (step lc ch) /\ 0 <= snd (step lc ch).
Proof.
  destruct lc as [l c]. cbn [snd]. intros C. unfold step, later. destruct (ch =? 10); [cbn; lia|]. destruct (ch =? 9); [destruct (C44_tab c C); cbn; lia|cbn; lia].
Qed.
Lemma steps_later : forall text lc, 0 <= snd lc -> 0 <= snd (fold_left step text lc) /\ (text <> [] -> later lc (fold_left step text lc)).
Proof.
  induction text as [|ch text IH]; intros lc C; [split; [exact C|congruence]|]. cbn [fold_left]. destruct (step_later lc ch C) as [L C']. destruct (IH _ C') as [D E]. split; [exact D|]. intros _.
  destruct text as [|c text]; [exact L|]. specialize (E ltac:(discriminate)). unfold later in *. lia.
Qed.
(** In reading order: on the same line each character is in a later column, and lines
    only increase. *)
Theorem C44_order : forall text i j, (i < j)%nat -> (j <= length text)%nat ->
  let a := where_is text i in let b := where_is text j in fst a < fst b \/ (fst a = fst b /\ snd a < snd b).
Proof.
  intros text i j I J. unfold where_is. replace (firstn j text) with (firstn i text ++ skipn i (firstn j text)).
  2: { rewrite <- (firstn_skipn i (firstn j text)) at 2. f_equal. rewrite firstn_firstn. f_equal. lia. }
  rewrite fold_left_app. destruct (steps_later (firstn i text) (0, 0) ltac:(cbn; lia)) as [C _].
  destruct (steps_later (skipn i (firstn j text)) (fold_left step (firstn i text) (0, 0)) C) as [_ L]. apply L.
  intros E. apply (f_equal (@length Z)) in E. rewrite skipn_length, firstn_length in E. cbn in E. lia.
Qed.
(** The columns and lines are counted from 0. *)
Lemma where_nonneg text i : 0 <= snd (where_is text i).
Proof. unfold where_is. apply (steps_later (firstn i text) (0, 0)). cbn. lia. Qed.
(** Different characters are at least 2/9 of the size apart, at any angle. *)
Theorem C44_apart : forall text size position horizontal angle i j gi gj q r v w, (0 < size)%R -> (i < length text)%nat -> (j < length text)%nat -> i <> j ->
  lookup (nth i text 0) = Some gi -> lookup (nth j text 0) = Some gj -> In q gi -> In r gj -> In v q -> In w r ->
  let at_ k g := padd (rotate_pt angle (0, 0)%R (upright horizontal size (where_is text k) g)) position in
  (2 / 9 * size <= sqrt (dist2 (at_ i v) (at_ j w)))%R.
Proof.
  intros text size position hor angle i j gi gj q r v w S I J N Li Lj Q R V W at_.
  destruct (C44_box _ _ _ _ Li Q V) as [Vx Vy]. destruct (C44_box _ _ _ _ Lj R W) as [Wx Wy].
  assert (A : Z.abs (fst (where_is text i) - fst (where_is text j)) >= 1 \/ Z.abs (snd (where_is text i) - snd (where_is text j)) >= 1).
  { destruct (Nat.lt_ge_cases i j) as [L|L]; [pose proof (C44_order text i j L ltac:(lia)) as O|pose proof (C44_order text j i ltac:(lia) ltac:(lia)) as O]; cbv zeta in O; lia. }
  unfold at_. destruct (where_is text i) as [l c], (where_is text j) as [l' c']. cbn [fst snd] in A.
  set (dx := if hor then 8 * c + fst v - (8 * c' + fst w) else 8 * l + fst v - (8 * l' + fst w)).
  set (dy := if hor then snd v - 11 * l - (snd w - 11 * l') else snd v - 11 * c - (snd w - 11 * c')).
  assert (D : 4 <= dx * dx + dy * dy).
  { assert (Z.abs dx >= 2 \/ Z.abs dy >= 2) by (unfold dx, dy; destruct hor; lia). nia. }
  assert (E : dist2 (padd (rotate_pt angle (0, 0)%R (upright hor size (l, c) v)) position) (padd (rotate_pt angle (0, 0)%R (upright hor size (l', c') w)) position)
     = (size / 9 * (size / 9) * IZR (dx * dx + dy * dy))%R).
  { pose proof (sin2_cos2 angle) as P. unfold Rsqr in P. rewrite plus_IZR, !mult_IZR. unfold dist2, dot, psub, padd, rotate_pt, rot_cs, psub, padd, upright, dx, dy.
    destruct hor; cbn [fst snd]; rewrite !minus_IZR, !plus_IZR || rewrite !plus_IZR, !minus_IZR; rewrite ?minus_IZR, ?plus_IZR, ?mult_IZR;
    match goal with |- _ = (_ * (?X * ?X + ?Y * ?Y))%R => transitivity ((sin angle * sin angle + cos angle * cos angle) * (size / 9 * (size / 9) * (X * X + Y * Y)))%R; [ring|rewrite P; ring] end. }
  rewrite E. rewrite <- (sqrt_square (2 / 9 * size)) by lra. apply sqrt_le_1_alt. apply IZR_le in D. replace (2 / 9 * size * (2 / 9 * size))%R with (size / 9 * (size / 9) * 4)%R by field.
  apply Rmult_le_compat_l; [nra|exact D].
Qed.

(** ** Glyphs *)
Fixpoint stepsb (p : Z * Z) (q : list (Z * Z)) : bool :=
  match q with [] => true | a :: r => (Z.abs (fst a - fst p) + Z.abs (snd a - snd p) =? 1) && stepsb a r end.
Lemma stepsb_spec : forall q p, stepsb p q = true -> steps p q.
Proof. induction q as [|a q IH]; intros p H; [exact I|]. cbn in *. apply andb_prop in H as [A B]. apply Z.eqb_eq in A. split; [exact A|now apply IH]. Qed.
Definition cells : list (Z * Z) := list_prod (map Z.of_nat (seq 0 5)) (map Z.of_nat (seq 0 9)).
Definition zsum (l : list Z) : Z := fold_right Z.add 0 l.
Definition inkb (g : list (list (Z * Z))) : bool :=
  forallb (fun q => stepsb (last q (0, 0)) q) g &&
  forallb (fun xy => forallb (fun q => let w := winding (fst xy) (snd xy) q in (w =? 0) || (w =? 1)) g && (zsum (map (winding (fst xy) (snd xy)) g) <=? 1)) cells.
Lemma font_ink : forallb (fun e => inkb (snd e)) font = true.
Proof. vm_compute. reflexivity. Qed.
(** The polygons of a glyph follow the unit squares; none winds around a square more than
    once, or clockwise, and no square is in two of them. *)
Theorem C44_glyph : forall c g, lookup c = Some g ->
  (forall q, In q g -> steps (last q (0, 0)) q) /\
  forall x y, 0 <= x < 5 -> 0 <= y < 9 ->
    (forall q, In q g -> winding x y q = 0 \/ winding x y q = 1) /\
    fold_right Z.add 0 (map (winding x y) g) <= 1.
Proof.
  intros c g L. unfold lookup in L. destruct (find _ font) as [e|] eqn:F; [|discriminate]. injection L as <-. apply find_some in F as [I _].
  pose proof font_ink as B. rewrite forallb_forall in B. specialize (B e I). unfold inkb in B. apply andb_prop in B as [A B]. rewrite forallb_forall in A, B. split.
  - intros q Q. apply stepsb_spec. now apply A.
  - intros x y X Y. assert (C : In (x, y) cells).
    { unfold cells. apply in_prod; apply in_map_iff; [exists (Z.to_nat x)|exists (Z.to_nat y)]; (split; [lia|apply in_seq; lia]). }
    specialize (B _ C). cbn [fst snd] in B. apply andb_prop in B as [B1 B2]. rewrite forallb_forall in B1. split.
    + intros q Q. specialize (B1 q Q). cbv zeta in B1. apply orb_prop in B1 as [B1|B1]; apply Z.eqb_eq in B1; auto.
    + apply Z.leb_le in B2. exact B2.
Qed.
Print Assumptions C44_tab.
Print Assumptions C44_layout.
Print Assumptions C44_rotation.
Print Assumptions C44_box.
Print Assumptions C44_ascii.
Print Assumptions C44_order.
Print Assumptions C44_apart.
Print Assumptions C44_glyph.
(** "a\tb\nc" *)
Example C44_case : map (where_is [97; 9; 98; 10; 99]) (seq 0 5) = [(0, 0); (0, 1); (0, 3); (0, 4); (1, 0)].
Proof. reflexivity. Qed.
