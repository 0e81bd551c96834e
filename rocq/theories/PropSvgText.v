(** C86: the text of SVG files. *)

From Coq Require Import Reals Lra Lia List ZArith NArith Bool String Ascii.
From Verif Require Import Graph SpecGraph GraphProofs Plane Hier SpecHier HierProofs HierQuery HierBox HierFlat Cache CacheProofs
  PropHier PropQuery Text SpecText PropText Svg SpecSvg PropBox PropSvg SvgText SpecXml XmlFacts.
Import ListNotations.
Open Scope Z_scope.

(** ** Pieces *)
Lemma split_stop c a r : ~ In c a -> split c (a ++ c :: r) = a :: split c r.
Proof.
  induction a as [|x a IH]; intro N; cbn; [now rewrite Z.eqb_refl|].
  destruct (Z.eqb_spec x c) as [->|_]; [exfalso; apply N; now left|]. rewrite IH; [reflexivity|]. intro; apply N; now right.
Qed.
Lemma split_one c a : ~ In c a -> split c a = [a].
Proof.
  induction a as [|x a IH]; intro N; [reflexivity|]. cbn.
  destruct (Z.eqb_spec x c) as [->|_]; [exfalso; apply N; now left|]. rewrite IH; [reflexivity|]. intro; apply N; now right.
Qed.
Lemma words_join ws : Forall (fun w => w <> [] /\ ~ In 32 w) ws -> words (join (lit " ") ws) = ws.
Proof.
  induction 1 as [|w ws (W & N) _ IH]; [reflexivity|]. unfold words in *. cbn [join].
  destruct ws as [|w' ws].
  - rewrite split_one by exact N. destruct w; [congruence|reflexivity].
  - change (lit " " ++ join (lit " ") (w' :: ws)) with (32 :: join (lit " ") (w' :: ws)).
    rewrite split_stop by exact N. cbn [filter]. rewrite IH. destruct w; [congruence|reflexivity].
Qed.
Lemma figures_not c l : Forall (fun x => figure x = true) l -> figure c = false -> ~ In c l.
Proof. intros F C I. eapply Forall_forall in F; [|exact I]. congruence. Qed.
Lemma figures_safe l : Forall (fun x => figure x = true) l -> all_safe l.
Proof. apply Forall_impl. exact figure_safe. Qed.
Lemma safe_app a b : all_safe a -> all_safe b -> all_safe (a ++ b).
Proof. intros. apply Forall_app; auto. Qed.
Lemma safe_join l : Forall all_safe l -> all_safe (join (lit " ") l).
Proof.
  induction 1 as [|w ws W _ IH]; [constructor|]. cbn [join]. destruct ws; [exact W|].
  apply safe_app; [exact W|]. apply safe_app; [repeat constructor|exact IH].
Qed.
Ltac safe := repeat (first [apply safe_app | apply figures_safe; apply dec_figures | assumption | (repeat constructor; fail)]).

(** ** Classes *)
Lemma shape_class k : read_class (spec_class k) = Some (Shape k).
Proof.
  destruct k as (l, d). unfold spec_class. cbn [fst snd]. change (lit "l" ++ dec l ++ lit "d" ++ dec d) with (108 :: dec l ++ 100 :: dec d).
  unfold read_class. rewrite span_stop; [|apply Forall_impl with (2 := proj1 (dec_figures l)); intros c; unfold figure; lia|reflexivity].
  rewrite !read_dec. reflexivity.
Qed.
Lemma dec_not_none z : name_eqb (dec z) (of_lit "None") = false.
Proof.
  apply name_eqb_neq. intro E. pose proof (proj1 (dec_figures z)) as F. rewrite E in F. inversion F. discriminate.
Qed.
Lemma font_class k : read_class (text_class k) = Some (Font k).
Proof.
  destruct k as (l, [t|]); unfold text_class; cbn [fst snd].
  - change (lit "l" ++ dec l ++ lit "t" ++ dec t) with (108 :: dec l ++ 116 :: dec t).
    unfold read_class. rewrite span_stop; [|apply Forall_impl with (2 := proj1 (dec_figures l)); intros c; unfold figure; lia|reflexivity].
    rewrite !read_dec. cbn [Z.eqb Pos.eqb]. now rewrite dec_not_none.
  - change (lit "l" ++ dec l ++ lit "t" ++ lit "None") with (108 :: dec l ++ 116 :: lit "None").
    unfold read_class. rewrite span_stop; [|apply Forall_impl with (2 := proj1 (dec_figures l)); intros c; unfold figure; lia|reflexivity].
    rewrite !read_dec. reflexivity.
Qed.
Lemma shape_class_safe k : all_safe (spec_class k).
Proof. unfold spec_class. safe. Qed.
Lemma font_class_safe k : all_safe (text_class k).
Proof. unfold text_class. destruct (snd k); safe. Qed.

(** ** Numbers *)
Section Numbers.
Variable fmt : R -> str.
Variable num : chars -> option R.
Variable rnd : R -> R.
Hypothesis fmt_ok : forall x, numeral (fmt x).
Hypothesis num_fmt : forall x, num (fmt x) = Some (rnd x).
Hypothesis num_1 : num (of_lit "1") = Some 1%R.
Hypothesis num_m1 : num (of_lit "-1") = Some (-1)%R.

Lemma fmt_not c x : figure c = false -> ~ In c (fmt x).
Proof. apply figures_not. apply fmt_ok. Qed.
Lemma fmt_safe x : all_safe (fmt x).
Proof. apply figures_safe, fmt_ok. Qed.
Hint Resolve fmt_safe : core.
Lemma pt_back p : read_pt num (pt_text fmt p) = Some (said_pt rnd p).
Proof.
  unfold read_pt, pt_text. cbn [join]. change (fmt (fst p) ++ lit "," ++ fmt (snd p)) with (fmt (fst p) ++ 44 :: fmt (snd p)).
  rewrite split_stop, split_one by (apply fmt_not; reflexivity). cbn [map]. now rewrite !num_fmt.
Qed.
Lemma pt_word p : pt_text fmt p <> [] /\ ~ In 32 (pt_text fmt p).
Proof.
  unfold pt_text. cbn [join]. split.
  - destruct (fmt_ok (fst p)) as (N & _). destruct (fmt (fst p)); [congruence|discriminate].
  - intro I. apply in_app_iff in I as [I|[I|I]]; [|discriminate I|]; (eapply fmt_not; [|exact I]); reflexivity.
Qed.
Lemma pt_safe p : all_safe (pt_text fmt p).
Proof. unfold pt_text. cbn [join]. safe; auto. Qed.
Lemma all_map {X Y Z} (f : Y -> option Z) (g : X -> Y) (k : X -> Z) l : (forall x, In x l -> f (g x) = Some (k x)) ->
  all f (map g l) = Some (map k l).
Proof.
  induction l as [|x l IH]; intro H; [reflexivity|]. cbn. rewrite (H x), IH; [reflexivity|intros; apply H; now right|now left].
Qed.
Lemma pts_back pts : all (read_pt num) (words (join (lit " ") (map (pt_text fmt) pts))) = Some (map (said_pt rnd) pts).
Proof.
  rewrite words_join; [apply all_map; intros; apply pt_back|]. apply Forall_forall. intros w I.
  apply in_map_iff in I as (p & <- & _). apply pt_word.
Qed.

(** The only scale by two numbers is (1, -1). *)
Definition regular (ts : list tf) : Prop := Forall (fun t => match t with ScaleXY x y => x = 1%R /\ y = (-1)%R | _ => True end) ts.
Definition tf_name (t : tf) : string :=
  match t with Translate _ _ => "translate" | Rotate _ => "rotate" | ScaleXY _ _ | ScaleBy _ => "scale" end.
Definition tf_args (t : tf) : list str :=
  match t with Translate x y => [fmt x; fmt y] | Rotate d => [fmt d] | ScaleXY _ _ => [lit "1"; lit "-1"] | ScaleBy k => [fmt k] end.
Lemma tf_parts t : tf_text fmt t = lit (tf_name t) ++ 40 :: join (lit " ") (tf_args t) ++ [41].
Proof. destruct t; cbn [tf_text tf_name tf_args join]; rewrite <- ?app_assoc; reflexivity. Qed.
Lemma tf_back t : regular [t] -> read_tf num (lit (tf_name t)) (join (lit " ") (tf_args t)) = Some (said_tf rnd t).
Proof.
  intro G. unfold read_tf. rewrite words_join.
  - destruct t as [x y|d|x y|k]; cbn [tf_args map tf_name]; rewrite ?num_fmt; try reflexivity.
    apply Forall_inv in G. cbn in G. destruct G as (-> & ->). change (lit "1") with (of_lit "1"). change (lit "-1") with (of_lit "-1").
    rewrite num_1, num_m1. reflexivity.
  - assert (F : forall x, fmt x <> [] /\ ~ In 32 (fmt x)) by (intro x; split; [apply fmt_ok|apply fmt_not; reflexivity]).
    destruct t; repeat constructor; try apply F; try discriminate; cbn; intuition discriminate.
Qed.
Lemma args_closed t : ~ In 41 (join (lit " ") (tf_args t)).
Proof.
  destruct t; cbn [tf_args join]; try (apply fmt_not; reflexivity).
  - intro I. apply in_app_iff in I as [I|[I|I]]; [|discriminate I|]; (eapply fmt_not; [|exact I]); reflexivity.
  - cbn. intuition discriminate.
Qed.
Lemma tfs_step f l l' : skip l = l' -> l' <> [] ->
  read_tfs num (S f) l =
          match until 40 l' with
          | (name, _ :: r) =>
              match until 41 r with
              | (args, _ :: r1) =>
                  match read_tf num name args, read_tfs num f r1 with Some t, Some ts => Some (t :: ts) | _, _ => None end
              | _ => None
              end
          | _ => None
          end.
Proof. intros E N. cbn [read_tfs]. rewrite E. destruct l'; [congruence|reflexivity]. Qed.
Lemma tfs_back : forall ts f w, regular ts -> Forall (fun x => blank x = true) w -> (List.length (w ++ tfs_text fmt ts) < f)%nat ->
  read_tfs num f (w ++ tfs_text fmt ts) = Some (map (said_tf rnd) ts).
Proof.
  induction ts as [|t ts IH]; intros f w G W L; (destruct f as [|f]; [lia|]).
  - unfold tfs_text in *. cbn [map join] in *. rewrite app_nil_r in *. cbn [read_tfs]. unfold skip. now rewrite span_all.
  - inversion G as [|? ? G1 G2]; subst.
    assert (E : tfs_text fmt (t :: ts) = lit (tf_name t) ++ 40 :: join (lit " ") (tf_args t) ++ 41 :: (match ts with [] => [] | _ => [32] end ++ tfs_text fmt ts)).
    { unfold tfs_text. cbn [map join]. rewrite tf_parts. destruct ts as [|t' ts]; cbn [map].
      - flat.
      - rewrite <- app_assoc. cbn [Datatypes.app]. rewrite <- app_assoc. reflexivity. }
    rewrite E in *.
    assert (S : exists c r, lit (tf_name t) = c :: r /\ blank c = false /\ ~ In 40 (lit (tf_name t))).
    { destruct t; cbn; (eexists; eexists; split; [reflexivity|]); split; try reflexivity; intuition discriminate. }
    destruct S as (c & r & Ec & Bc & Nc).
    assert (Sk : skip (w ++ lit (tf_name t) ++ 40 :: join (lit " ") (tf_args t) ++ 41 :: (match ts with [] => [] | _ => [32] end ++ tfs_text fmt ts))
               = lit (tf_name t) ++ 40 :: join (lit " ") (tf_args t) ++ 41 :: (match ts with [] => [] | _ => [32] end ++ tfs_text fmt ts)).
    { rewrite Ec. now apply (skip_stop w c). }
    rewrite (tfs_step _ _ _ Sk) by (rewrite Ec; discriminate). rewrite until_stop by exact Nc.
    rewrite until_stop by apply args_closed. rewrite tf_back by (constructor; [exact G1|constructor]).
    rewrite IH; [reflexivity|exact G2|destruct ts; repeat constructor|].
    rewrite app_length in L. rewrite app_length in L. cbn [List.length] in L. rewrite app_length in L. cbn [List.length] in L. lia.
Qed.
Lemma transform_back ts : regular ts -> transform num (tfs_text fmt ts) = Some (map (said_tf rnd) ts).
Proof. intro G. unfold transform. apply (tfs_back ts _ []); [exact G|constructor|cbn; lia]. Qed.
Lemma tfs_safe ts : all_safe (tfs_text fmt ts).
Proof.
  unfold tfs_text. apply safe_join. apply Forall_forall. intros x I. apply in_map_iff in I as (t & <- & _).
  destruct t; cbn [tf_text]; safe; auto.
Qed.

(** ** Elements *)
Ltac tag := eexists; eexists; split; [reflexivity|]; split; [reflexivity|repeat constructor].
Ltac more := apply attrs_more; [discriminate|repeat constructor|tag| |reflexivity|].
Ltac away := eexists; eexists; split; reflexivity.

Definition data_xml (d : str) : list xml := match d with [] => [] | _ => [Data d] end.
Lemma reads_text d : data_ok d = true -> ~ In 60 d -> Reads d (data_xml d).
Proof. intros O N. destruct d; [exact reads_nil|]. now apply reads_data. Qed.
Definition node_xml (n : node) : list xml :=
  match n with
  | NPoly k pts => [Elem (lit "polygon") [(lit "class", spec_class k); (lit "points", join (lit " ") (map (pt_text fmt) pts))] []; Data nl]
  | NText k ha va t data =>
      [Elem (lit "text") [(lit "class", text_class k); (lit "text-anchor", ha_text ha); (lit "dominant-baseline", va_text va);
                          (lit "transform", tfs_text fmt t)] (data_xml data); Data nl]
  | NUse t n => [Elem (lit "use") [(lit "transform", tfs_text fmt t); (lit "xlink:href", 35 :: n)] []; Data nl]
  end.
Definition node_ok (n : node) : Prop :=
  match n with
  | NPoly _ _ => True
  | NText _ _ _ t data => regular t /\ data_ok data = true /\ ~ In 60 data
  | NUse t n => regular t /\ all_safe n
  end.
Lemma ha_safe a : all_safe (ha_text a). Proof. destruct a; repeat constructor. Qed.
Lemma va_safe a : all_safe (va_text a). Proof. destruct a; repeat constructor. Qed.
Lemma node_reads n : node_ok n -> Reads (node_text fmt n) (node_xml n) /\ starts (node_text fmt n).
Proof.
  intro O. split; [|right; destruct n; eexists; reflexivity].
  destruct n as [k pts|k ha va t data|t n]; cbn [node_ok] in O.
  - assert (E : node_text fmt (NPoly k pts) =
      (60 :: lit "polygon" ++ [32] ++ lit "class" ++ 61 :: 34 :: spec_class k ++ 34 ::
        [32] ++ lit "points" ++ 61 :: 34 :: join (lit " ") (map (pt_text fmt) pts) ++ 34 :: [47; 62]) ++ nl).
    { unfold node_text. flat. }
    rewrite E. apply (reads1_app _ [_] _ [_]); [|exact reads_nl]. apply reads_empty; [tag|away|].
    more; [apply shape_class_safe|]. more; [|exact attrs_slash].
    apply safe_join. apply Forall_forall. intros x I. apply in_map_iff in I as (p & <- & _). apply pt_safe.
  - destruct O as (G & D & N).
    assert (E : node_text fmt (NText k ha va t data) =
      (60 :: lit "text" ++ ([32] ++ lit "class" ++ 61 :: 34 :: text_class k ++ 34 ::
        [32] ++ lit "text-anchor" ++ 61 :: 34 :: ha_text ha ++ 34 :: [32] ++ lit "dominant-baseline" ++ 61 :: 34 :: va_text va ++ 34 ::
        [32] ++ lit "transform" ++ 61 :: 34 :: tfs_text fmt t ++ 34 :: [62]) ++ data ++ 60 :: 47 :: lit "text" ++ [62]) ++ nl).
    { unfold node_text. flat. }
    rewrite E. apply (reads1_app _ [_] _ [_]); [|exact reads_nl]. apply reads_full; [tag|away| |now apply reads_text].
    more; [apply font_class_safe|]. more; [apply ha_safe|]. more; [apply va_safe|]. more; [apply tfs_safe|exact attrs_close].
  - destruct O as (G & N).
    assert (E : node_text fmt (NUse t n) =
      (60 :: lit "use" ++ [32] ++ lit "transform" ++ 61 :: 34 :: tfs_text fmt t ++ 34 ::
        [32] ++ lit "xlink:href" ++ 61 :: 34 :: (35 :: n) ++ 34 :: [47; 62]) ++ nl).
    { unfold node_text. flat. }
    rewrite E. apply (reads1_app _ [_] _ [_]); [|exact reads_nl]. apply reads_empty; [tag|away|].
    more; [apply tfs_safe|]. more; [|exact attrs_slash]. constructor; [reflexivity|exact N].
Qed.
Definition first_elem (x : list xml) : element := match x with Elem t a c :: _ => (t, a, c) | _ => ([], [], []) end.
Lemma node_elems l : elements (flat_map node_xml l) = Some (map (fun n => first_elem (node_xml n)) l).
Proof. induction l as [|n l IH]; [reflexivity|]. destruct n; cbn [flat_map node_xml Datatypes.app elements forallb blank nl]; cbn; rewrite IH; reflexivity. Qed.
Lemma node_back n : node_ok n -> read_node num (first_elem (node_xml n)) = Some (said_node rnd n).
Proof.
  intro O. destruct n as [k pts|k ha va t data|t n]; cbn [node_ok] in O.
  - change (match obind (Some (spec_class k)) read_class, obind (Some (join (lit " ") (map (pt_text fmt) pts))) (fun p => all (read_pt num) (words p)), @nil xml with
    | Some (Shape k), Some pts, [] => Some (NPoly k pts) | _, _, _ => None end = Some (said_node rnd (NPoly k pts))).
    cbn [obind]. now rewrite shape_class, pts_back.
  - destruct O as (G & _).
    change (match obind (Some (text_class k)) read_class, obind (Some (ha_text ha)) read_ha,
          obind (Some (va_text va)) read_va, obind (Some (tfs_text fmt t)) (transform num) with
    | Some (Font k), Some ha, Some va, Some t =>
        match data_xml data with
        | [] => Some (NText k ha va t [])
        | [Data d] => Some (NText k ha va t d)
        | _ => None
        end
    | _, _, _, _ => None end = Some (said_node rnd (NText k ha va t data))).
    cbn [obind]. rewrite font_class, transform_back by exact G.
    assert (A : read_ha (ha_text ha) = Some ha) by (destruct ha; reflexivity).
    assert (B : read_va (va_text va) = Some va) by (destruct va; reflexivity).
    rewrite A, B. destruct data; reflexivity.
  - destruct O as (G & _).
    change (match obind (Some (tfs_text fmt t)) (transform num), Some (35 :: n), @nil xml with
    | Some t, Some (35 :: n), [] => Some (NUse t n) | _, _, _ => None end = Some (said_node rnd (NUse t n))).
    cbn [obind]. now rewrite transform_back by exact G.
Qed.

(** ** Groups *)
Definition group_ok (g : group) : Prop := all_safe (grp_id g) /\ regular (grp_tf g) /\ Forall node_ok (grp_nodes g).
Definition group_xml (g : group) : list xml :=
  [Elem (lit "g") ((lit "id", grp_id g) :: match grp_tf g with [] => [] | t => [(lit "transform", tfs_text fmt t)] end)
     (Data nl :: flat_map node_xml (grp_nodes g)); Data nl].
Lemma group_reads g : group_ok g -> Reads (group_text fmt g) (group_xml g) /\ starts (group_text fmt g).
Proof.
  intros (I & G & N). split; [|right; eexists; reflexivity].
  set (B := match grp_tf g with [] => [32; 62] | t => [32] ++ lit "transform" ++ 61 :: 34 :: tfs_text fmt t ++ 34 :: [62] end).
  assert (E : group_text fmt g = (60 :: lit "g" ++ ([32] ++ lit "id" ++ 61 :: 34 :: grp_id g ++ 34 :: B)
     ++ (nl ++ flat_map (node_text fmt) (grp_nodes g)) ++ 60 :: 47 :: lit "g" ++ [62]) ++ nl).
  { unfold group_text, B. destruct (grp_tf g) as [|t ts]; flat. }
  rewrite E. apply (reads1_app _ [_] _ [_]); [|exact reads_nl]. apply reads_full; [tag|away| |].
  - unfold B. destruct (grp_tf g) as [|t ts]; (apply attrs_more; [discriminate|repeat constructor|tag|exact I|reflexivity|]);
      [exact attrs_blank_close|]. more; [apply tfs_safe|exact attrs_close].
  - destruct (reads_flat (node_text fmt) node_xml (grp_nodes g)) as (F1 & F2).
    + intros n Hn. apply node_reads. eapply Forall_forall in N; eauto.
    + apply (reads_app _ [_]); [exact reads_nl|exact F1|exact F2].
Qed.
Lemma group_elems l : elements (flat_map group_xml l) = Some (map (fun n => first_elem (group_xml n)) l).
Proof. induction l as [|n l IH]; [reflexivity|]. cbn [flat_map group_xml Datatypes.app elements]. change (forallb blank nl) with true. cbv iota. rewrite IH. reflexivity. Qed.
Lemma group_back g : group_ok g -> read_group num (first_elem (group_xml g)) = Some (said_group rnd g).
Proof.
  intros (I & G & N). unfold group_xml, first_elem, read_group.
  change (is (lit "g") "g") with true.
  assert (A : obind (elements (Data nl :: flat_map node_xml (grp_nodes g))) (all (read_node num)) = Some (map (said_node rnd) (grp_nodes g))).
  { cbn [elements]. change (forallb blank nl) with true. cbv iota. rewrite node_elems. cbn [obind]. apply all_map.
    intros n Hn. apply node_back. eapply Forall_forall in N; eauto. }
  rewrite A. unfold said_group. destruct (grp_tf g) as [|t ts]; [reflexivity|].
  change (match transform num (tfs_text fmt (t :: ts)) with Some t => Some (Group (grp_id g) t (map (said_node rnd) (grp_nodes g))) | None => None end
     = Some (Group (grp_id g) (map (said_tf rnd) (t :: ts)) (map (said_node rnd) (grp_nodes g)))).
  now rewrite transform_back by exact G.
Qed.

(** ** Styles *)
Lemma skip_app w l : Forall (fun x => blank x = true) w -> skip (w ++ l) = skip l.
Proof.
  intro W. unfold skip. induction W as [|x w X _ IH]; [reflexivity|]. cbn [Datatypes.app span]. rewrite X.
  destruct (span blank (w ++ l)). exact IH.
Qed.
Lemma trim_app w l : Forall (fun x => blank x = true) w -> trim (w ++ l) = trim l.
Proof. intro W. unfold trim. now rewrite skip_app. Qed.
Lemma trim_ends c l d : blank c = false -> blank d = false -> trim (c :: l ++ [d]) = c :: l ++ [d].
Proof.
  intros C D. unfold trim. rewrite skip_none by exact C. cbn [rev]. rewrite rev_app_distr. cbn [rev Datatypes.app].
  rewrite skip_none by exact D. cbn [rev]. now rewrite rev_app_distr, rev_involutive.
Qed.
Definition class_char (c : Z) : bool := figure c || ((97 <=? c) && (c <=? 122)) || (c =? 78).
Lemma class_blank c : class_char c = true -> blank c = false.
Proof. unfold class_char, figure, blank. lia. Qed.
Lemma trim_class l : Forall (fun c => class_char c = true) l -> trim (l ++ [32]) = l.
Proof.
  intro F. unfold trim. destruct l as [|c l]; [reflexivity|]. inversion F as [|? ? C F']; subst.
  cbn [Datatypes.app]. rewrite skip_none by now apply class_blank. change (c :: l ++ [32]) with ((c :: l) ++ [32]).
  rewrite rev_app_distr. cbn [rev Datatypes.app]. change (skip (32 :: ?x)) with (skip ([32] ++ x)).
  rewrite skip_app by repeat constructor. rewrite <- (rev_involutive (c :: l)). f_equal. cbn [rev].
  assert (G : Forall (fun c => class_char c = true) (rev l ++ [c])).
  { apply Forall_app; split; [now apply Forall_rev|auto]. }
  destruct (rev l ++ [c]) as [|x y] eqn:E; [destruct (rev l); discriminate|]. inversion G; subst.
  apply skip_none. now apply class_blank.
Qed.
Lemma shape_chars k : Forall (fun c => class_char c = true) (spec_class k).
Proof.
  assert (D : forall z, Forall (fun c => class_char c = true) (dec z)).
  { intro z. apply Forall_impl with (2 := proj1 (dec_figures z)). intros c H. unfold class_char. now rewrite H. }
  unfold spec_class. repeat (apply Forall_app; split); auto; repeat constructor.
Qed.
Lemma font_chars k : Forall (fun c => class_char c = true) (text_class k).
Proof.
  assert (D : forall z, Forall (fun c => class_char c = true) (dec z)).
  { intro z. apply Forall_impl with (2 := proj1 (dec_figures z)). intros c H. unfold class_char. now rewrite H. }
  unfold text_class. repeat (apply Forall_app; split); auto; try (repeat constructor; fail). destruct (snd k); [auto|repeat constructor].
Qed.

(** A rule: a class and its style. *)
Definition decl_text (kv : str * str) : str := fst kv ++ lit ": " ++ snd kv ++ lit ";".
Definition rules_text (rs : list (str * css)) : str := flat_map (fun r => rule_text (fst r) (snd r)) rs.
Lemma css_not c l : Forall (fun c => css_char c = true) l -> css_char c = false -> ~ In c l.
Proof. intros F C I. eapply Forall_forall in F; [|exact I]. cbn in F. congruence. Qed.
Lemma blank_not c w : Forall (fun x => blank x = true) w -> blank c = false -> ~ In c w.
Proof. intros F C I. eapply Forall_forall in F; [|exact I]. cbn in F. congruence. Qed.
Lemma decls_back : forall v w, css_ok v -> Forall (fun x => blank x = true) w ->
  all declaration_of (filter (fun p => negb (forallb blank p)) (split 59 (w ++ join (lit " ") (map decl_text v)))) = Some v.
Proof.
  induction v as [|(k, x) v IH]; intros w O W.
  - cbn [map join]. rewrite app_nil_r, split_one by now apply blank_not. cbn [filter].
    rewrite (proj2 (forallb_forall blank w)); [reflexivity|]. intros c I. eapply Forall_forall in W; eauto.
  - inversion O as [|? ? (Ck & Cx & N & Tk & Tx) O']; subst. cbn [fst snd] in *.
    assert (E : w ++ join (lit " ") (map decl_text ((k, x) :: v)) =
      ((w ++ k) ++ 58 :: 32 :: x) ++ 59 :: (match v with [] => [] | _ => [32] end ++ join (lit " ") (map decl_text v))).
    { cbn [map join]. change (decl_text (k, x)) with (k ++ lit ": " ++ x ++ lit ";"). destruct v; cbn [map]; flat. }
    rewrite E, split_stop.
    + cbn [filter].
      assert (B : forallb blank ((w ++ k) ++ 58 :: 32 :: x) = false).
      { rewrite forallb_app. cbn. apply andb_false_r. }
      rewrite B. cbn [negb all]. unfold declaration_of at 1.
      rewrite until_stop by (intro I; apply in_app_iff in I as [I|I]; [revert I; now apply blank_not|contradiction]).
      rewrite IH; [|exact O'|destruct v; repeat constructor].
      rewrite trim_app by exact W. change (32 :: x) with ([32] ++ x). rewrite trim_app by repeat constructor. now rewrite Tk, Tx.
    + intro I. apply in_app_iff in I as [I|[I|[I|I]]]; [apply in_app_iff in I as [I|I]| | |]; try discriminate I.
      * revert I. now apply blank_not.
      * revert I. now apply css_not.
      * revert I. now apply css_not.
Qed.
Lemma decls_closed v : css_ok v -> ~ In 125 (join (lit " ") (map decl_text v)).
Proof.
  induction 1 as [|(k, x) v (Ck & Cx & _) _ IH]; [intros []|].
  assert (D : ~ In 125 (decl_text (k, x))).
  { unfold decl_text. cbn [fst snd] in *. intro I.
    apply in_app_iff in I as [I|I]; [revert I; now apply css_not|]. apply in_app_iff in I as [I|I]; [cbn in I; intuition discriminate|].
    apply in_app_iff in I as [I|I]; [revert I; now apply css_not|cbn in I; intuition discriminate]. }
  cbn [map join]. destruct v; cbn [map] in *; [exact D|]. intro I. apply in_app_iff in I as [I|[I|I]]; [auto|discriminate I|auto].
Qed.
Lemma rules_step f l l' : skip l = 46 :: l' ->
  read_rules (S f) l =
          match until 123 l' with
          | (sel, _ :: r1) =>
              match until 125 r1 with
              | (body, _ :: r2) =>
                  match all declaration_of (filter (fun p => negb (forallb blank p)) (split 59 body)), read_rules f r2 with
                  | Some ds, Some more => Some ((trim sel, ds) :: more)
                  | _, _ => None
                  end
              | _ => None
              end
          | _ => None
          end.
Proof. intro E. cbn [read_rules]. now rewrite E. Qed.
Definition rule_ok (r : str * css) : Prop := Forall (fun c => class_char c = true) (fst r) /\ css_ok (snd r).
Lemma rules_back : forall rs f w, Forall rule_ok rs -> Forall (fun x => blank x = true) w ->
  (List.length (w ++ rules_text rs) < f)%nat -> read_rules f (w ++ rules_text rs) = Some rs.
Proof.
  induction rs as [|(cls, v) rs IH]; intros f w O W L; (destruct f as [|f]; [lia|]).
  - cbn [rules_text flat_map]. rewrite app_nil_r. cbn [read_rules]. unfold skip. now rewrite span_all.
  - inversion O as [|? ? (C & V) O']; subst. cbn [fst snd] in *.
    assert (E : w ++ rules_text ((cls, v) :: rs) = w ++ 46 :: (cls ++ [32]) ++ 123 :: join (lit " ") (map decl_text v) ++ 125 :: nl ++ rules_text rs).
    { unfold rules_text. cbn [flat_map]. unfold rule_text. cbn [fst snd]. fold decl_text. flat. }
    rewrite E in *. erewrite rules_step by (apply skip_stop; [exact W|reflexivity]).
    rewrite until_stop.
    2:{ intro I. apply in_app_iff in I as [I|[I|[]]]; [|discriminate I]. eapply Forall_forall in C; [|exact I]. discriminate C. }
    rewrite until_stop by now apply decls_closed.
    pose proof (decls_back v [] V (Forall_nil _)) as D. cbn [Datatypes.app] in D. rewrite D, IH; [|exact O'|repeat constructor|].
    + now rewrite trim_class.
    + unfold nl in *. lens L.
Qed.

Lemma dec_css z : Forall (fun c => css_char c = true) (dec z).
Proof. apply Forall_impl with (2 := proj1 (dec_figures z)). intros c. unfold figure, css_char, legal. lia. Qed.
Lemma rgb_css l d : Forall (fun c => css_char c = true) (rgb l d).
Proof.
  unfold rgb. destruct (colour l d) as ((r, g), b). repeat (apply Forall_app; split); try apply dec_css; repeat constructor.
Qed.
Lemma rgb_trim l d : trim (rgb l d) = rgb l d.
Proof.
  unfold rgb. destruct (colour l d) as ((r, g), b).
  assert (E : forall x y z, lit "rgb(" ++ x ++ lit ", " ++ y ++ lit ", " ++ z ++ lit ")" =
      114 :: (lit "gb(" ++ x ++ lit ", " ++ y ++ lit ", " ++ z) ++ [41]).
  { intros x y z. flat. }
  rewrite E. now apply trim_ends.
Qed.
Ltac entry := split; [|split; [|split; [|split]]]; cbn [fst snd];
  [repeat constructor|first [apply rgb_css|repeat constructor]|cbn; intuition discriminate|reflexivity|first [apply rgb_trim|reflexivity]].
Lemma shape_css k : css_ok (shape_style k).
Proof. unfold css_ok, shape_style. cbv zeta. repeat (apply Forall_cons; [entry|]). apply Forall_nil. Qed.
Lemma font_css k v : font_style k = Some v -> css_ok v.
Proof. unfold font_style. destruct (snd k); [|discriminate]. intro E; injection E as <-. unfold css_ok. repeat (apply Forall_cons; [entry|]). apply Forall_nil. Qed.

Definition plain_char (c : Z) : bool := legal c && negb (c =? 38) && negb (c =? 60) && negb (c =? 62).
Lemma plain_data l : Forall (fun c => plain_char c = true) l -> data_ok l = true /\ ~ In 60 l.
Proof.
  intro F. split.
  - unfold data_ok. assert (E : character_data l = Some l).
    { induction F as [|c l C _ IH]; [reflexivity|]. unfold plain_char in C.
      rewrite data_other by (intros ->; rewrite ?andb_false_r in C; discriminate). now rewrite IH. }
    rewrite E, andb_true_r. apply forallb_forall. intros c I. eapply Forall_forall in F; [|exact I]. unfold plain_char in F.
    destruct (legal c); [reflexivity|discriminate].
  - intro I. eapply Forall_forall in F; [|exact I]. discriminate F.
Qed.
Lemma css_plain l : Forall (fun c => css_char c = true) l -> Forall (fun c => plain_char c = true) l.
Proof. apply Forall_impl. intro c. unfold css_char, plain_char. destruct (legal c); [cbn [andb]; lia|discriminate]. Qed.
Lemma class_plain l : Forall (fun c => class_char c = true) l -> Forall (fun c => plain_char c = true) l.
Proof. apply Forall_impl. intro c. unfold class_char, figure, plain_char, legal. lia. Qed.
Lemma rules_plain rs : Forall rule_ok rs -> Forall (fun c => plain_char c = true) (rules_text rs).
Proof.
  induction 1 as [|(cls, v) rs (C & V) _ IH]; [constructor|]. unfold rules_text. cbn [flat_map fst snd] in *. apply Forall_app; split; [|exact IH].
  unfold rule_text. fold decl_text.
  assert (D : Forall (fun c => plain_char c = true) (join (lit " ") (map decl_text v))).
  { clear -V. induction V as [|(k, x) v (Ck & Cx & _) _ IH]; [constructor|]. cbn [map join fst snd] in *.
    assert (D : Forall (fun c => plain_char c = true) (decl_text (k, x))).
    { unfold decl_text. cbn [fst snd]. repeat (apply Forall_app; split); try now apply css_plain. all: repeat constructor. }
    destruct v; cbn [map] in *; [exact D|]. apply Forall_app; split; [exact D|]. apply Forall_app; split; [repeat constructor|exact IH]. }
  repeat (apply Forall_app; split); auto; try (repeat constructor; fail). now apply class_plain.
Qed.

(** ** The file *)
Definition style_ok (v : option css) : Prop := match v with Some w => css_ok w | None => True end.
Definition doc_ok (d : doc css str) : Prop :=
  Forall (fun r => style_ok (snd r)) (doc_rules d) /\ Forall (fun r => style_ok (snd r)) (doc_fonts d) /\
  Forall group_ok (doc_defs d) /\ match doc_back d with Some b => all_safe (snd b) | None => True end.
Definition font_default (k : Z * option Z) : css := match font_style k with Some v => v | None => [] end.
Definition shape_entry (r : spec * option css) : str * css :=
  (spec_class (fst r), match snd r with Some v => v | None => shape_style (fst r) end).
Definition font_entry (r : (Z * option Z) * option css) : str * css :=
  (text_class (fst r), match snd r with Some v => v | None => font_default (fst r) end).
Lemma fonts_text l fonts : each font_rule l = Some fonts -> Forall (fun r => style_ok (snd r)) l ->
  List.concat fonts = rules_text (map font_entry l) /\ Forall rule_ok (map font_entry l).
Proof.
  revert fonts; induction l as [|(k, v) l IH]; cbn [each]; intros fonts E O; [injection E as <-; split; [reflexivity|constructor]|].
  destruct (font_rule (k, v)) as [t|] eqn:F; [|discriminate]. destruct (each font_rule l) as [ts|] eqn:G; [|discriminate].
  injection E as <-. inversion O as [|? ? O1 O2]; subst. destruct (IH ts eq_refl O2) as (I1 & I2).
  unfold font_rule in F. cbn [fst snd] in *. cbn [map List.concat]. unfold rules_text. cbn [flat_map].
  fold (rules_text (map font_entry l)). unfold font_entry at 1 2 4, font_default. cbn [fst snd].
  destruct v as [v|].
  - injection F as <-. split; [now rewrite I1|]. constructor; [split; [apply font_chars|exact O1]|exact I2].
  - destruct (font_style k) as [v|] eqn:S; [|discriminate]. injection F as <-. split; [now rewrite I1|].
    constructor; [split; [apply font_chars|now apply (font_css k)]|exact I2].
Qed.
Lemma shapes_text l : Forall (fun r => style_ok (snd r)) l ->
  flat_map shape_rule l = rules_text (map shape_entry l) /\ Forall rule_ok (map shape_entry l).
Proof.
  induction 1 as [|(k, v) l O _ (I1 & I2)]; [split; [reflexivity|constructor]|]. cbn [flat_map map snd] in *. rewrite I1. split; [reflexivity|].
  constructor; [split; [apply shape_chars|]|exact I2]. cbn. destruct v; [exact O|apply shape_css].
Qed.

(** The pieces of the file. *)
Definition type_attrs : str := [32] ++ lit "type" ++ 61 :: 34 :: lit "text/css" ++ 34 :: [62].
Definition style_elem (rs : list (str * css)) : str :=
  60 :: lit "style" ++ type_attrs ++ (nl ++ rules_text rs) ++ 60 :: 47 :: lit "style" ++ [62].
Definition root_attrs (v : R * R * R * R) : str :=
  let '(x, y, w, h) := v in
  [32] ++ lit "xmlns" ++ 61 :: 34 :: lit "http://www.w3.org/2000/svg" ++ 34 ::
  [32] ++ lit "xmlns:xlink" ++ 61 :: 34 :: lit "http://www.w3.org/1999/xlink" ++ 34 ::
  [10; 32; 32; 32; 32; 32] ++ lit "width" ++ 61 :: 34 :: fmt w ++ 34 :: [32] ++ lit "height" ++ 61 :: 34 :: fmt h ++ 34 ::
  [32] ++ lit "viewBox" ++ 61 :: 34 :: join (lit " ") [fmt x; fmt y; fmt w; fmt h] ++ 34 :: [62].
Definition root_list (v : R * R * R * R) : list (chars * chars) :=
  let '(x, y, w, h) := v in
  [(lit "xmlns", lit "http://www.w3.org/2000/svg"); (lit "xmlns:xlink", lit "http://www.w3.org/1999/xlink");
   (lit "width", fmt w); (lit "height", fmt h); (lit "viewBox", join (lit " ") [fmt x; fmt y; fmt w; fmt h])].
Definition defs_text (rs : list (str * css)) (d : doc css str) : str :=
  nl ++ style_elem rs ++ nl ++ flat_map (group_text fmt) (doc_defs d).
Definition back_part (d : doc css str) : str := match doc_back d with Some b => back_text fmt b | None => [] end.
Definition before_top (rs : list (str * css)) (d : doc css str) : str :=
  nl ++ (60 :: lit "defs" ++ [62] ++ defs_text rs d ++ 60 :: 47 :: lit "defs" ++ [62]) ++ nl ++ back_part d.
Definition entries (d : doc css str) : list (str * css) := map shape_entry (doc_rules d) ++ map font_entry (doc_fonts d).
Lemma some_eq {X} (a b : X) : Some a = Some b -> a = b. Proof. congruence. Qed.
Lemma file_text d s : svg_file fmt d = Some s ->
  Forall (fun r => style_ok (snd r)) (doc_rules d) -> Forall (fun r => style_ok (snd r)) (doc_fonts d) ->
  s = declaration ++ nl ++ 60 :: lit "svg" ++ root_attrs (doc_view d) ++
        (before_top (entries d) d ++ group_text fmt (doc_top d)) ++ 60 :: 47 :: lit "svg" ++ [62].
Proof.
  unfold svg_file. intros E Or Of. destruct (each font_rule (doc_fonts d)) as [fonts|] eqn:F; [|discriminate]. apply some_eq in E. subst s.
  rewrite (proj1 (fonts_text _ _ F Of)), (proj1 (shapes_text _ Or)).
  assert (R2 : rules_text (entries d) = rules_text (map shape_entry (doc_rules d)) ++ rules_text (map font_entry (doc_fonts d))) by apply flat_map_app.
  unfold before_top, defs_text, style_elem. rewrite R2. unfold back_part. unfold type_attrs, head_text, root_attrs, join.
  destruct (doc_view d) as (((x, y), w), h).
  generalize (rules_text (map shape_entry (doc_rules d))) (rules_text (map font_entry (doc_fonts d))) (flat_map (group_text fmt) (doc_defs d))
    (group_text fmt (doc_top d)) (fmt x) (fmt y) (fmt w) (fmt h).
  intros r1 r2 ds tp fx fy fw fh. destruct (doc_back d) as [b|]; [generalize (back_text fmt b); intro bk|]; flat.
Qed.

Definition style_xml (rs : list (str * css)) : xml := Elem (lit "style") [(lit "type", lit "text/css")] [Data (nl ++ rules_text rs)].
Definition back_xml (d : doc css str) : list xml :=
  match doc_back d with
  | Some (x, y, w, h, c) =>
      [Elem (lit "rect") [(lit "x", fmt x); (lit "y", fmt y); (lit "width", fmt w); (lit "height", fmt h); (lit "fill", c);
                          (lit "stroke", lit "none")] []; Data nl]
  | None => []
  end.
Definition defs_xml (rs : list (str * css)) (d : doc css str) : xml :=
  Elem (lit "defs") [] (Data nl :: style_xml rs :: Data nl :: flat_map group_xml (doc_defs d)).
Lemma starts_elem r : starts (60 :: r). Proof. right. eauto. Qed.
Lemma style_reads rs : Forall rule_ok rs -> Reads1 (style_elem rs) [style_xml rs].
Proof.
  intro O. unfold style_elem, type_attrs. apply reads_full; [tag|away|more; [repeat constructor|exact attrs_close]|].
  destruct (plain_data (nl ++ rules_text rs)) as (D & N).
  - constructor; [reflexivity|now apply rules_plain].
  - now apply reads_data.
Qed.
Lemma back_reads d : doc_ok d -> Reads (back_part d) (back_xml d) /\ starts (back_part d).
Proof.
  intros (_ & _ & _ & B). unfold back_part, back_xml. destruct (doc_back d) as [((((x, y), w), h), c)|]; [|split; [exact reads_nil|now left]].
  split; [|apply starts_elem]. cbn [snd] in B.
  assert (E : back_text fmt (x, y, w, h, c) = (60 :: lit "rect" ++ [32] ++ lit "x" ++ 61 :: 34 :: fmt x ++ 34 ::
     [32] ++ lit "y" ++ 61 :: 34 :: fmt y ++ 34 :: [32] ++ lit "width" ++ 61 :: 34 :: fmt w ++ 34 ::
     [32] ++ lit "height" ++ 61 :: 34 :: fmt h ++ 34 :: [32] ++ lit "fill" ++ 61 :: 34 :: c ++ 34 ::
     [32] ++ lit "stroke" ++ 61 :: 34 :: lit "none" ++ 34 :: [47; 62]) ++ nl).
  { unfold back_text. flat. }
  rewrite E. apply (reads1_app _ [_] _ [_]); [|exact reads_nl]. apply reads_empty; [tag|away|].
  do 4 (more; [apply fmt_safe|]). more; [exact B|]. more; [repeat constructor|exact attrs_slash].
Qed.
Lemma before_reads rs d : Forall rule_ok rs -> doc_ok d -> Reads (before_top rs d) (Data nl :: defs_xml rs d :: Data nl :: back_xml d).
Proof.
  intros O D. destruct (back_reads d D) as (B1 & B2). destruct D as (_ & _ & G & _).
  destruct (reads_flat (group_text fmt) group_xml (doc_defs d)) as (F1 & F2).
  { intros g Hg. apply group_reads. eapply Forall_forall in G; eauto. }
  unfold before_top. apply (reads_app _ [_]); [exact reads_nl| |apply starts_elem].
  apply (reads1_app _ [_]).
  - unfold defs_xml. apply (reads_full (lit "defs") [62]); [tag|away|exact attrs_close|].
    unfold defs_text. apply (reads_app _ [_]); [exact reads_nl| |apply starts_elem].
    apply (reads1_app _ [_]); [now apply style_reads|]. apply (reads_app _ [_]); [exact reads_nl|exact F1|exact F2].
  - apply (reads_app _ [_]); [exact reads_nl|exact B1|exact B2].
Qed.
Lemma root_reads v : Attrs (root_attrs v) (root_list v) false.
Proof.
  destruct v as (((x, y), w), h). unfold root_attrs, root_list.
  more; [repeat constructor|]. more; [repeat constructor|]. more; [apply fmt_safe|]. more; [apply fmt_safe|]. more; [|exact attrs_close].
  apply safe_join. repeat constructor; apply fmt_safe.
Qed.
Lemma root_apart v : apart (root_attrs v).
Proof. destruct v as (((x, y), w), h). away. Qed.
Lemma xml_start t : read_xml (declaration ++ t) =
  match contents (List.length t) t with Some (x, []) => match elements x with Some [e] => Some e | _ => None end | _ => None end.
Proof.
  unfold read_xml.
  assert (E : firstn (List.length declaration) (declaration ++ t) = declaration) by (rewrite firstn_app, Nat.sub_diag, firstn_all; apply app_nil_r).
  rewrite E, name_eqb_refl'. assert (E2 : skipn (List.length declaration) (declaration ++ t) = t) by (rewrite skipn_app, Nat.sub_diag, skipn_all; reflexivity).
  now rewrite E2.
Qed.
Lemma doc_entries d s : svg_file fmt d = Some s -> doc_ok d -> Forall rule_ok (entries d).
Proof.
  unfold svg_file. intros E (Or & Of & _). destruct (each font_rule (doc_fonts d)) as [fonts|] eqn:F; [|discriminate].
  apply Forall_app; split; [exact (proj2 (shapes_text _ Or))|exact (proj2 (fonts_text _ _ F Of))].
Qed.
Lemma file_xml d s : svg_file fmt d = Some s -> doc_ok d -> group_ok (doc_top d) ->
  read_xml s = Some (lit "svg", root_list (doc_view d),
    Data nl :: defs_xml (entries d) d :: Data nl :: back_xml d ++ group_xml (doc_top d)).
Proof.
  intros E D T. pose proof (doc_entries d s E D) as Re. pose proof D as (Or & Of & _). rewrite (file_text d s E Or Of), xml_start.
  match goal with |- context [contents _ ?t] => set (text := t) end.
  assert (Rd : Reads text [Data nl; Elem (lit "svg") (root_list (doc_view d))
     ((Data nl :: defs_xml (entries d) d :: Data nl :: back_xml d) ++ group_xml (doc_top d))]).
  { unfold text. apply (reads_app _ [_] _ [_]); [exact reads_nl| |apply starts_elem]. apply reads1.
    apply reads_full; [tag|apply root_apart|apply root_reads|]. destruct (group_reads (doc_top d) T) as (T1 & T2).
    apply reads_app; [now apply before_reads|exact T1|exact T2]. }
  pose proof (Rd (List.length text) [] (Some ([], []))) as H. rewrite app_nil_r in H. rewrite H; [reflexivity|now left|lia|].
  intros [|g] _; reflexivity.
Qed.

Lemma all_app {X Y} (f : X -> option Y) a b x y : all f a = Some x -> all f b = Some y -> all f (a ++ b) = Some (x ++ y).
Proof.
  revert x; induction a as [|c a IH]; cbn; intros x A B; [injection A as <-; exact B|].
  destruct (f c); [|discriminate]. destruct (all f a) as [z|]; [|discriminate]. injection A as <-. now rewrite (IH z eq_refl B).
Qed.
Lemma style_back d : Forall rule_ok (entries d) ->
  read_style (lit "style", [(lit "type", lit "text/css")], [Data (nl ++ rules_text (entries d))]) =
    Some (map (fun r => (fst r, snd (shape_entry r))) (doc_rules d), map (fun r => (fst r, snd (font_entry r))) (doc_fonts d)).
Proof.
  intro O. unfold read_style. change (is (lit "style") "style") with true. cbv iota.
  rewrite (rules_back (entries d)); [|exact O|repeat constructor|lia]. cbn [obind].
  unfold entries. rewrite (all_app _ _ _ (map (fun r => (Shape (fst r), snd (shape_entry r))) (doc_rules d))
     (map (fun r => (Font (fst r), snd (font_entry r))) (doc_fonts d))).
  - f_equal. f_equal; rewrite flat_map_app.
    + rewrite (flat_map_concat_map _ (map (fun r => (Font (fst r), _)) _)), map_map, <- flat_map_concat_map.
      assert (Z : forall l : list ((Z * option Z) * option css), flat_map (fun x => match Font (fst x) with Shape k => [(k, snd (font_entry x))] | Font _ => [] end) l = []).
      { induction l; [reflexivity|assumption]. }
      etransitivity; [apply f_equal2; [reflexivity|exact (Z _)]|]. rewrite app_nil_r.
      induction (doc_rules d) as [|r l IH]; [reflexivity|]. cbn. now f_equal.
    + assert (Z : forall l : list (spec * option css), flat_map (fun r : class * css => match fst r with Font k => [(k, snd r)] | Shape _ => [] end)
           (map (fun r => (Shape (fst r), snd (shape_entry r))) l) = []).
      { induction l; [reflexivity|assumption]. }
      rewrite Z. cbn [Datatypes.app]. induction (doc_fonts d) as [|r l IH]; [reflexivity|]. cbn. now f_equal.
  - apply all_map. intros r _. unfold shape_entry. cbn [fst snd]. now rewrite shape_class.
  - apply all_map. intros r _. unfold font_entry. cbn [fst snd]. now rewrite font_class.
Qed.
Lemma elements_app a b x y : elements a = Some x -> elements b = Some y -> elements (a ++ b) = Some (x ++ y).
Proof.
  revert x; induction a as [|c a IH]; cbn; intros x A B; [injection A as <-; exact B|].
  destruct c as [t al i|dd].
  - destruct (elements a) as [z|]; [|discriminate]. injection A as <-. rewrite (IH z eq_refl B). reflexivity.
  - destruct (forallb blank dd); [|discriminate]. now apply IH.
Qed.
Lemma file_back d s : svg_file fmt d = Some s -> doc_ok d -> group_ok (doc_top d) ->
  read_svg num s = Some (said rnd shape_style font_default d).
Proof.
  intros E D T. unfold read_svg. rewrite (file_xml d s E D T). pose proof (doc_entries d s E D) as Re. pose proof D as (_ & _ & G & _).
  destruct (doc_view d) as (((x, y), w), h) eqn:V.
  change (is (lit "svg") "svg") with true.
  change (attr "viewBox" (root_list (x, y, w, h))) with (Some (join (lit " ") [fmt x; fmt y; fmt w; fmt h])).
  change (read_num num "width" (root_list (x, y, w, h))) with (num (fmt w)).
  change (read_num num "height" (root_list (x, y, w, h))) with (num (fmt h)).
  cbn [option_map]. rewrite words_join by (repeat constructor; first [apply fmt_ok|apply fmt_not; reflexivity]).
  cbn [map]. rewrite !num_fmt.
  assert (Eb : exists bl, elements (back_xml d) = Some bl /\
     match bl with [] => doc_back d = None | [b] => exists b0, doc_back d = Some b0 /\ read_back num b = Some (said_box rnd (fst b0), snd b0) | _ => False end).
  { unfold back_xml. destruct (doc_back d) as [((((bx, by_), bw), bh), bc)|]; [|exists []; split; reflexivity].
    eexists; split; [reflexivity|]. eexists; split; [reflexivity|].
    change (match num (fmt bx), num (fmt by_), num (fmt bw), num (fmt bh), Some bc with
      | Some x, Some y, Some w, Some h, Some c => Some (x, y, w, h, c) | _, _, _, _, _ => None end = Some ((rnd bx, rnd by_, rnd bw, rnd bh), bc)).
    now rewrite !num_fmt. }
  destruct Eb as (bl & Eb & Bl).
  assert (Ei : elements (Data nl :: defs_xml (entries d) d :: Data nl :: back_xml d ++ group_xml (doc_top d)) =
     Some ((lit "defs", [], Data nl :: style_xml (entries d) :: Data nl :: flat_map group_xml (doc_defs d)) :: bl ++ [first_elem (group_xml (doc_top d))])).
  { cbn [elements]. change (forallb blank nl) with true. cbv iota. unfold defs_xml.
    rewrite (elements_app (back_xml d) (group_xml (doc_top d)) bl [first_elem (group_xml (doc_top d))] Eb); reflexivity. }
  rewrite Ei. destruct (Req_EM_T (rnd w) (rnd w)); [|congruence]. destruct (Req_EM_T (rnd h) (rnd h)); [|congruence].
  change (is (lit "defs") "defs") with true.
  assert (Ed : elements (Data nl :: style_xml (entries d) :: Data nl :: flat_map group_xml (doc_defs d)) =
     Some ((lit "style", [(lit "type", lit "text/css")], [Data (nl ++ rules_text (entries d))]) :: map (fun n => first_elem (group_xml n)) (doc_defs d))).
  { cbn [elements style_xml]. change (forallb blank nl) with true. cbv iota. rewrite group_elems. reflexivity. }
  rewrite Ed, style_back by exact Re.
  rewrite (all_map (read_group num) (fun n => first_elem (group_xml n)) (said_group rnd)) by
    (intros g Hg; apply group_back; eapply Forall_forall in G; eauto).
  unfold said. rewrite V. cbn [said_box].
  destruct bl as [|b [|]]; [| |destruct Bl]; cbn [Datatypes.app].
  - rewrite group_back by exact T. rewrite Bl. cbn [option_map]. rewrite !map_map. reflexivity.
  - destruct Bl as (b0 & Bl & Rb). rewrite Rb, group_back by exact T. rewrite Bl. cbn [option_map]. rewrite !map_map. reflexivity.
Qed.

Lemma file_fails d s : svg_file fmt d = Some s -> doc_ok d -> ~ In 34 (grp_id (doc_top d)) -> value (grp_id (doc_top d)) = None ->
  read_xml s = None.
Proof.
  intros E D N Va. pose proof (doc_entries d s E D) as Re. pose proof D as (Or & Of & _). rewrite (file_text d s E Or Of), xml_start.
  assert (K : forall X : option (list xml * chars), X = None -> match X with Some (x, []) => match elements x with Some [e] => Some e | _ => None end | _ => None end = None)
    by now intros ? ->.
  apply K. clear K.
  change None with (after [Data nl] None). apply reads_nl; [apply starts_elem|lia|]. intros g Lg.
  eapply fails_inside; [tag|apply root_apart|apply root_reads| |exact Lg]. clear g Lg. intros g Lg.
  set (rest := 60 :: 47 :: lit "svg" ++ [62]). rewrite <- app_assoc in *.
  change None with (after (Data nl :: defs_xml (entries d) d :: Data nl :: back_xml d) None).
  apply before_reads; [exact Re|exact D|apply starts_app; [apply starts_elem|apply starts_elem]|exact Lg|]. clear g Lg. intros g _.
  set (B := (match grp_tf (doc_top d) with [] => [32; 62] | t => [32] ++ lit "transform" ++ 61 :: 34 :: tfs_text fmt t ++ 34 :: [62] end)).
  assert (Eq : group_text fmt (doc_top d) ++ rest = 60 :: lit "g" ++ ([32] ++ lit "id" ++ 61 :: 34 :: grp_id (doc_top d) ++ 34 ::
     (B ++ (nl ++ flat_map (node_text fmt) (grp_nodes (doc_top d))) ++ 60 :: 47 :: lit "g" ++ [62] ++ nl ++ rest))).
  { unfold group_text, B. generalize rest. intro r. destruct (grp_tf (doc_top d)) as [|t ts]; flat. }
  rewrite Eq. apply fails_attrs; [tag|away|]. apply fails_value; [discriminate|repeat constructor|tag|exact N|exact Va].
Qed.
Lemma file_some d : (exists s, svg_file fmt d = Some s) <-> forall k, In (k, None) (doc_fonts d) -> snd k <> None.
Proof.
  unfold svg_file. assert (Q : each font_rule (doc_fonts d) <> None <-> forall k, In (k, None) (doc_fonts d) -> snd k <> None).
  { induction (doc_fonts d) as [|(k, v) l IH]; cbn [each]; [split; [intros _ k []|discriminate]|]. split.
    - intros H k' [E|I].
      + injection E as <- ->. intro Ek. unfold font_rule, font_style in H. cbn [fst snd] in H. rewrite Ek in H. now apply H.
      + apply IH; [|exact I]. destruct (font_rule (k, v)); [|congruence]. destruct (each font_rule l); [discriminate|congruence].
    - intros H. assert (F : font_rule (k, v) <> None).
      { unfold font_rule, font_style. cbn [fst snd]. destruct v; [discriminate|]. destruct (snd k) eqn:Ek; [discriminate|].
        exfalso. apply (H k); [now left|exact Ek]. }
      destruct (font_rule (k, v)); [|congruence]. assert (G : each font_rule l <> None) by (apply IH; intros; apply H; now right).
      destruct (each font_rule l); [discriminate|congruence]. }
  rewrite <- Q. destruct (each font_rule (doc_fonts d)); split.
  - discriminate.
  - intros _. eexists. reflexivity.
  - intros (s & E). discriminate E.
  - congruence.
Qed.
End Numbers.

(** ** The drawings of write_svg *)
Section Write.
Context {P : Type} (ops : pathops P) (anchor : lbl -> Z) (scale : R) (style : spec -> option css) (fontstyle : Z * option Z -> option css)
  (background : option str) (pad : padding)
  (any_specs : list spec -> list spec) (any_texts : list (Z * option Z) -> list (Z * option Z))
  (any_cells : list nat -> list nat).
Notation heap := (heap place (stuff P)).
Notation write := (write_svg ops anchor scale style fontstyle background pad any_specs any_texts any_cells).

Lemma plain_safe n : all_safe n -> all_safe (plain n).
Proof.
  intro S. unfold plain. apply Forall_forall. intros x I. apply in_map_iff in I as (y & <- & I).
  destruct (y =? 35); [reflexivity|]. eapply Forall_forall in S; eauto.
Qed.
Lemma svg_text_legal t : Forall (fun x => legal x = true) t -> Forall (fun x => legal x = true) (svg_text t).
Proof.
  induction 1 as [|c t C _ IH]; [constructor|]. unfold svg_text. cbn [flat_map]. apply Forall_app; split; [|exact IH].
  unfold svg_char. destruct (c =? 38); [repeat constructor|]. destruct (c =? 60); [repeat constructor|].
  destruct (c =? 62); [repeat constructor|]. auto.
Qed.
Lemma regular_app a b : regular a -> regular b -> regular (a ++ b).
Proof. intros; apply Forall_app; auto. Qed.
Lemma regular_rot a : regular (rot_tf a). Proof. destruct a; repeat constructor. Qed.
Lemma regular_refl a : regular (refl_tf a). Proof. destruct a; repeat constructor. Qed.
Lemma regular_mag a : regular (mag_tf a). Proof. destruct a; repeat constructor. Qed.
Ltac reg := repeat (first [apply regular_app | apply regular_rot | apply regular_refl | apply regular_mag | (repeat constructor; fail)]).
Lemma nodes_ok (h : heap) c t g : cell_svg ops anchor scale h c t = Some g ->
  (forall r, In r (crefs h c) -> all_safe (tname h (rtarget h r))) ->
  (forall l, In l (s_labels (stuff_of h c)) -> Forall (fun x => legal x = true) (l_text l)) -> Forall node_ok (grp_nodes g).
Proof.
  unfold cell_svg. intros E Hr Hl. destruct (each _ _) as [ls|] eqn:El; [|discriminate]. destruct (collect _ _) as [us|] eqn:Eu; [|discriminate].
  apply some_eq in E. subst g. cbn [grp_nodes]. apply Forall_forall. intros n I.
  apply in_app_iff in I as [I|I]; [|apply in_app_iff in I as [I|I]; [|apply in_app_iff in I as [I|I]]].
  - apply in_flat_map in I as (ps & _ & I). apply in_map_iff in I as (g & <- & _). exact Logic.I.
  - apply in_flat_map in I as (q & _ & I). apply in_flat_map in I as (kv & _ & I). apply in_map_iff in I as (z & <- & _). exact Logic.I.
  - apply (proj1 (PropSvg.each_in ops anchor _ _ _ El n)) in I as (l & Il & E). unfold label_svg in E. destruct (aligned (anchor l)) as [(ha, va)|]; [|discriminate].
    apply some_eq in E. subst n. cbn [node_ok]. split; [reg|].
    split; [|apply C43_clean]. unfold data_ok. rewrite C43_text, andb_true_r. apply forallb_forall.
    intros x Ix. pose proof (svg_text_legal _ (Hl l Il)) as F. eapply Forall_forall in F; eauto.
  - apply (proj1 (collect_in _ _ _ Eu n)) in I as (r & us0 & Ir & E & I). unfold use_svg in E.
    destruct (p_org (place_of h r)) as [o|]; [|discriminate]. apply some_eq in E. subst us0.
    pose proof (plain_safe _ (Hr r Ir)) as S. destruct (p_arr (place_of h r)) as [((cols, rows), sp)|].
    + apply in_flat_map in I as (i & _ & I). apply in_map_iff in I as (j & <- & _). cbn [node_ok]. split; [|exact S].
      apply Forall_cons; [exact Logic.I|]. reg.
    + destruct I as [<-|[]]. cbn [node_ok]. split; [|exact S]. apply Forall_cons; [exact Logic.I|]. reg.
Qed.

(** The user's styles and the background need no escapes either. *)
Definition user_ok : Prop :=
  (forall k v, style k = Some v -> css_ok v) /\ (forall k v, fontstyle k = Some v -> css_ok v) /\
  match background with Some b => all_safe b | None => True end.
Lemma written (h : heap) c h1 d : visits any_cells -> acyclic h c -> names_safe h c -> hrefs_safe h c -> texts_legal h c -> user_ok ->
  write h c = Some (h1, Some d) ->
  doc_ok d /\ grp_id (doc_top d) = plain (cname h c) /\ regular (grp_tf (doc_top d)) /\ Forall node_ok (grp_nodes (doc_top d)).
Proof.
  intros Vi Ac Ns Hs Tl (U1 & U2 & U3) W.
  destruct (write_parts ops anchor scale style fontstyle background pad any_specs any_texts any_cells h c h1 d W) as (b & ld & lt & ds & defs & top & _ & K & _ & _ & Ds & Defs & Top & ->).
  pose proof (keeps_sym _ _ K) as K'.
  assert (Nd : forall x t g, under h c x -> cell_svg ops anchor scale h1 x t = Some g -> Forall node_ok (grp_nodes g)).
  { intros x t g Ux E. apply (nodes_ok h1 x t g E).
    - intros r Hr. destruct K as (K1 & K2 & _). assert (Er : rtarget h1 r = rtarget h r) by (unfold rtarget; now rewrite K2).
      assert (Ir : In r (crefs h x)) by (destruct (K1 x) as (_ & Q & _); now rewrite <- Q).
      destruct (rtarget h1 r) as [e|n] eqn:T; cbn [tname].
      + destruct (K1 e) as (Q & _). rewrite Q. apply Ns. symmetry in Er.
        assert (De : direct h x e) by (exists r; split; [exact Ir|exact Er]).
        destruct Ux as [->|R]; [now apply reach_one|]. eapply reach_trans; [exact R|now apply reach_one].
      + apply (Hs x r n Ux Ir). now symmetry.
    - intros l Il. destruct K as (K1 & _). destruct (K1 x) as (_ & _ & _ & _ & Q). rewrite Q in Il. exact (Tl x l Ux Il). }
  destruct (cell_svg_id ops anchor scale h1 c _ _ Top) as (Ti & Tt & _). destruct K as (K1 & K2 & K3 & K4).
  cbn [doc_top]. split; [|split; [|split]].
  - unfold doc_ok. cbn [doc_rules doc_fonts doc_defs doc_back]. split; [|split; [|split]].
    + apply Forall_forall. intros x I. apply in_map_iff in I as (k & <- & _). cbn. destruct (style k) eqn:E; [eapply U1; eauto|exact Logic.I].
    + apply Forall_forall. intros x I. apply in_map_iff in I as (k & <- & _). cbn. destruct (fontstyle k) eqn:E; [eapply U2; eauto|exact Logic.I].
    + apply Forall_forall. intros g I. apply (proj1 (PropSvg.each_in ops anchor _ _ _ Defs g)) in I as (x & Ix & E).
      apply (proj1 (Vi _ _)) in Ix. apply (proj1 (deps_fuel_reach _ _ _ _ Ds x)) in Ix.
      assert (R : reach h c x) by (eapply same_geom_reach; [apply keeps_geom, K'|exact Ix]).
      destruct (cell_svg_id ops anchor scale h1 x _ _ E) as (Gi & Gt & _).
      split; [|split].
      * rewrite Gi. apply plain_safe. destruct (K1 x) as (Q & _). rewrite Q. now apply Ns.
      * rewrite Gt. constructor.
      * apply (Nd x [] g); [now right|exact E].
    + destruct background; cbn; auto.
  - rewrite Ti. destruct (K1 c) as (Q & _). now rewrite Q.
  - rewrite Tt. repeat constructor.
  - apply (Nd c [ScaleXY 1 (-1)] top); [now left|exact Top].
Qed.

(** [fmt] writes digits, points and signs; [num] reads them, and the number read is [rnd] of the one
    written. *)
Section Theorems.
Variable fmt : R -> str.
Variable num : chars -> option R.
Variable rnd : R -> R.
Hypothesis fmt_ok : forall x, numeral (fmt x).
Hypothesis num_fmt : forall x, num (fmt x) = Some (rnd x).
Hypothesis num_1 : num (of_lit "1") = Some 1%R.
Hypothesis num_m1 : num (of_lit "-1") = Some (-1)%R.

(** The file is XML, and it says what the drawing is, with its numbers as they are formatted and its
    styles as given or, otherwise, the default ones. *)
Theorem C86_file : forall (h : heap) c h1 d s, visits any_cells -> acyclic h c ->
  names_safe h c -> all_safe (cname h c) -> hrefs_safe h c -> texts_legal h c -> user_ok ->
  write h c = Some (h1, Some d) -> svg_file fmt d = Some s ->
  read_svg num s = Some (said rnd shape_style font_default d).
Proof.
  intros h c h1 d s Vi Ac Ns Cs Hs Tl U W E. destruct (written h c h1 d Vi Ac Ns Hs Tl U W) as (D & I & T & N).
  apply (file_back fmt num rnd); auto. split; [rewrite I; now apply plain_safe|auto].
Qed.
(** If formatting keeps the numbers of the cells, the file shows the layout. *)
Theorem C86_drawn : forall (h : heap) c h1 d s L, visits any_cells -> defined_at h c ->
  names_safe h c -> all_safe (cname h c) -> hrefs_safe h c -> texts_legal h c -> user_ok ->
  scale <> 0%R -> ids_differ h c -> names_outside h c -> origins_given h c -> anchors_given anchor h c -> expansion h c L ->
  write h c = Some (h1, Some d) -> svg_file fmt d = Some s ->
  (forall g, In g (doc_top d :: doc_defs d) -> said_group rnd g = g) ->
  exists d' m, read_svg num s = Some d' /\ all_marks ops anchor scale h L m /\
    forall m', picture d' m' <-> m' = map (moved (screen scale)) m.
Proof.
  intros h c h1 d s L Vi Df Ns Cs Hs Tl U S Id No Og An X W E Kp. pose proof Df as (_ & _ & Ac).
  exists (said rnd shape_style font_default d).
  destruct (C82_drawing ops anchor scale style fontstyle background pad any_specs any_texts any_cells h c h1 d L S Df Vi Id No Og An X W) as (m & M & Pm).
  exists m. split; [now apply (C86_file h c h1)|]. split; [exact M|]. intro m'. rewrite <- Pm. unfold picture, said. cbn [doc_defs doc_top].
  rewrite (Kp (doc_top d) (or_introl eq_refl)). rewrite (map_ext_in (said_group rnd) (fun g => g)), map_id; [reflexivity|].
  intros g I. apply Kp. now right.
Qed.
(** The file is written unless a label has no texttype and no style of its own. *)
Theorem C86_written : forall (h : heap) c h1 d, visits any_texts -> write h c = Some (h1, Some d) -> defined_at h c ->
  ((exists s, svg_file fmt d = Some s) <->
   forall e l, under h c e -> In l (s_labels (stuff_of h e)) -> fontstyle (l_layer l, l_tt l) = None -> l_tt l <> None).
Proof.
  intros h c h1 d Vt W Df. rewrite file_some.
  destruct (write_parts ops anchor scale style fontstyle background pad any_specs any_texts any_cells h c h1 d W)
    as (b & ld & lt & ds & defs & top & _ & K & _ & Lt & _ & _ & _ & ->). cbn [doc_fonts].
  destruct (C58_svg_classes ops h1 c (keeps_defined h h1 c K Df)) as (ld' & lt' & _ & Lt' & _ & Ht).
  replace lt' with lt in Ht by congruence.
  split.
  - intros H e l Ue Il Fs. apply (H (l_layer l, l_tt l)). apply in_map_iff. exists (l_layer l, l_tt l). split; [now rewrite Fs|].
    apply (proj2 (Vt _ _)). apply Ht. exists e, l. split; [eapply keeps_under; eauto|].
    destruct K as (K1 & _). destruct (K1 e) as (_ & _ & _ & _ & Q). rewrite Q. auto.
  - intros H k I. apply in_map_iff in I as (k' & E & I). injection E as -> E. apply (proj1 (Vt _ _)) in I. apply Ht in I as (e & l & Ue & Il & Ek).
    subst k. cbn [snd]. apply (H e l); [eapply keeps_under; [apply keeps_sym, K|exact Ue]| |exact E].
    destruct K as (K1 & _). destruct (K1 e) as (_ & _ & _ & _ & Q). now rewrite Q in Il.
Qed.
(** Names are not escaped: the file is not XML if the name of the cell cannot be the value of an
    attribute, for instance if it has a less-than sign or an ampersand alone. *)
Theorem C86_name_refuted : forall (h : heap) c h1 d s, visits any_cells -> acyclic h c ->
  names_safe h c -> hrefs_safe h c -> texts_legal h c -> user_ok ->
  write h c = Some (h1, Some d) -> svg_file fmt d = Some s ->
  ~ In 34 (cname h c) -> value (plain (cname h c)) = None -> read_xml s = None.
Proof.
  intros h c h1 d s Vi Ac Ns Hs Tl U W E Q Va. destruct (written h c h1 d Vi Ac Ns Hs Tl U W) as (D & I & T & N).
  apply (file_fails fmt fmt_ok d); auto; rewrite I; [|exact Va]. intro J. apply in_map_iff in J as (x & Ex & J).
  destruct (Z.eqb_spec x 35); [discriminate|]. now subst x.
Qed.
End Theorems.
End Write.

(** ** Default styles: the colour of the layer and the type, half transparent for shapes. *)
Lemma dec_trim z : trim (dec z) = dec z.
Proof.
  assert (F : Forall (fun c => class_char c = true) (dec z)).
  { apply Forall_impl with (2 := proj1 (dec_figures z)). intros c H. unfold class_char. now rewrite H. }
  destruct (dec_figures z) as (_ & N). destruct (dec z) as [|c l]; [congruence|]. inversion F as [|? ? C F']; subst.
  destruct l as [|x l _] using rev_ind.
  - unfold trim. rewrite skip_none by now apply class_blank. cbn [rev Datatypes.app]. rewrite skip_none by now apply class_blank. reflexivity.
  - apply Forall_app in F' as (_ & X). inversion X; subst. apply trim_ends; now apply class_blank.
Qed.
Lemma rgb_back l d : read_rgb (rgb l d) = Some (colour l d).
Proof.
  unfold rgb. destruct (colour l d) as ((r, g), b). unfold read_rgb.
  assert (E : lit "rgb(" ++ dec r ++ lit ", " ++ dec g ++ lit ", " ++ dec b ++ lit ")" =
     lit "rgb" ++ 40 :: (dec r ++ 44 :: ([32] ++ dec g) ++ 44 :: [32] ++ dec b) ++ [41]).
  { flat. }
  assert (N : forall z c, figure c = false -> ~ In c (dec z)).
  { intros z c. apply figures_not. apply dec_figures. }
  rewrite E, until_stop by (cbn; intuition discriminate). change (is (lit "rgb") "rgb") with true. cbv iota.
  rewrite until_stop.
  2:{ intro I. apply in_app_iff in I as [I|I]; [revert I; now apply N|]. destruct I as [I|I]; [discriminate I|].
      apply in_app_iff in I as [I|I]; [apply in_app_iff in I as [[I|[]]|I]; [discriminate I|revert I; now apply N]|].
      destruct I as [I|I]; [discriminate I|]. apply in_app_iff in I as [[I|[]]|I]; [discriminate I|revert I; now apply N]. }
  rewrite split_stop by now apply N.
  rewrite split_stop by (intro I; apply in_app_iff in I as [[I|[]]|I]; [discriminate I|revert I; now apply N]).
  rewrite split_one by (intro I; apply in_app_iff in I as [[I|[]]|I]; [discriminate I|revert I; now apply N]).
  cbn [map]. rewrite !(trim_app [32]) by repeat constructor. now rewrite !dec_trim, !read_dec.
Qed.
Theorem C86_defaults : forall k, exists c, read_rgb c = Some (colour (fst k) (snd k)) /\
  shape_style k = [(of_lit "stroke", c); (of_lit "fill", c); (of_lit "fill-opacity", of_lit "0.5")] /\
  font_default (fst k, Some (snd k)) = [(of_lit "stroke", of_lit "none"); (of_lit "fill", c)].
Proof. intro k. exists (rgb (fst k) (snd k)). split; [apply rgb_back|split; reflexivity]. Qed.

(** ** Cases *)

(** Numbers written without their fractions. *)
Definition whole_fmt (x : R) : str := dec (Int_part x).
Definition whole_num (l : chars) : option R := option_map IZR (read_int l).
Definition whole (x : R) : R := IZR (Int_part x).
Example whole_ok : (forall x, numeral (whole_fmt x)) /\ (forall x, whole_num (whole_fmt x) = Some (whole x)) /\
  whole_num (of_lit "1") = Some 1%R /\ whole_num (of_lit "-1") = Some (-1)%R.
Proof.
  split; [|split; [|split; reflexivity]].
  - intro x. destruct (dec_figures (Int_part x)). now split.
  - intro x. unfold whole_num, whole_fmt. now rewrite read_dec.
Qed.
Definition text_write (h : heap place (stuff (list (spec * list poly)))) (c : nat) :=
  write_svg toy (fun _ => 5%Z) 10 (fun _ => Some [(lit "fill", lit "red")]) (fun _ => None) (Some (lit "white")) (Percent 5)
    (fun l => l) (fun l => l) (fun l => l) h c.
Lemma text_user : user_ok (fun _ => Some [(lit "fill", lit "red")]) (fun _ => None) (Some (lit "white")).
Proof.
  split; [|split; [discriminate|repeat constructor]]. intros k v E. injection E as <-. constructor; [|constructor].
  cbn [fst snd]. repeat split; try (repeat constructor; fail). cbn. intuition discriminate.
Qed.
Lemma pic_under : forall d, under pic 1 d -> d = 1%nat \/ d = 0%nat.
Proof.
  assert (E : get_dependencies pic 1 true = Some [0%nat]) by reflexivity.
  intros d H. destruct (found_under pic 1 _ E d H) as [->|[<-|[]]]; auto.
Qed.
Lemma whole_at x n : x = IZR n -> whole x = x.
Proof.
  intros ->. unfold whole. f_equal. destruct (base_Int_part (IZR n)) as (A & B). apply le_IZR in A.
  assert (C : (n - 1 < Int_part (IZR n))%Z); [|lia]. apply lt_IZR. rewrite minus_IZR. Lra.lra.
Qed.
Definition pic_a : group := Group [65] []
  [NPoly (1, 0) (map (smul 10) tri);
   NText (3, Some 4) Middle Central [ScaleXY 1 (-1); Translate (10 * 5) (- 10 * 6); Rotate (- 45)]%R (svg_text [60])].
Definition pic_b : group := Group [66] [ScaleXY 1 (-1)]
  (flat_map (fun i => map (fun j => NUse [Translate (10 * 10) (10 * 0); ScaleXY 1 (-1);
     Translate (10 * 100 * INR i) (10 * 50 * INR j); ScaleBy 2]%R [65]) (seq 0 3)) (seq 0 2)).
Lemma pic_doc : exists h1 v ru ba, text_write pic 1 = Some (h1, Some (Doc v ru [((3, Some 4), None)] [pic_a] ba pic_b)).
Proof. do 4 eexists. reflexivity. Qed.
Ltac round := first [apply (whole_at _ 0); cbn; lra | apply (whole_at _ 2); cbn; lra | apply (whole_at _ 30); cbn; lra | apply (whole_at _ 40); cbn; lra
  | apply (whole_at _ 50); cbn; lra | apply (whole_at _ (-60)); cbn; lra | apply (whole_at _ (-45)); cbn; lra | apply (whole_at _ 100); cbn; lra
  | apply (whole_at _ 500); cbn; lra | apply (whole_at _ 1000); cbn; lra].
Lemma pic_whole g : In g [pic_b; pic_a] -> said_group whole g = g.
Proof.
  intros [<-|[<-|[]]].
  - assert (U : forall x y k, whole x = x -> whole y = y -> whole k = k ->
      said_node whole (NUse [Translate (10 * 10) (10 * 0); ScaleXY 1 (-1); Translate x y; ScaleBy k]%R [65]) =
        NUse [Translate (10 * 10) (10 * 0); ScaleXY 1 (-1); Translate x y; ScaleBy k]%R [65]).
    { intros x y k X Y K. cbn [said_node map said_tf]. rewrite X, Y, K.
      assert (A : whole (10 * 10) = (10 * 10)%R) by round. assert (B : whole (10 * 0) = (10 * 0)%R) by round. now rewrite A, B. }
    unfold said_group, pic_b. cbn [grp_id grp_tf grp_nodes]. f_equal. cbn [seq flat_map map Datatypes.app]. rewrite !U by round. reflexivity.
  - unfold said_group, pic_a. cbn [grp_id grp_tf grp_nodes map said_node said_tf tri]. f_equal. f_equal; [|f_equal].
    + f_equal. unfold said_pt, smul. cbn [fst snd].
      assert (A : whole (10 * 0) = (10 * 0)%R) by round. assert (B : whole (10 * 3) = (10 * 3)%R) by round.
      assert (C : whole (10 * 4) = (10 * 4)%R) by round. now rewrite A, B, C.
    + assert (A : whole (10 * 5) = (10 * 5)%R) by round. assert (B : whole (- 10 * 6) = (- 10 * 6)%R) by round.
      assert (C : whole (- 45) = (- 45)%R) by round. now rewrite A, B, C.
Qed.
Example C86_case : names_safe pic 1 /\ all_safe (cname pic 1) /\ hrefs_safe pic 1 /\ texts_legal pic 1 /\
  exists h1 d s, text_write pic 1 = Some (h1, Some d) /\ svg_file whole_fmt d = Some s /\
    forall g, In g (doc_top d :: doc_defs d) -> said_group whole g = g.
Proof.
  split. { intros d R. destruct (pic_under d (or_intror R)) as [->| ->]; repeat constructor. }
  split; [repeat constructor|].
  split. { intros d r n U I T. destruct (pic_under d U) as [->| ->]; [|destruct I]. destruct I as [<-|[]]. discriminate. }
  split. { intros d l U I. destruct (pic_under d U) as [->| ->]; [destruct I|]. destruct I as [<-|[]]. repeat constructor. }
  destruct pic_doc as (h1 & v & ru & ba & W). eexists; eexists; eexists. split; [exact W|]. clear W. split; [reflexivity|]. exact pic_whole.
Qed.
(** Two names: "a<b" and "R&D". *)
Example C86_name_case : value (plain (lit "a<b")) = None /\ value (plain (lit "R&D")) = None /\
  let h := Cache.put (new_cell nothing (lit "R&D")) 0 (EPoly (PSet [GPoly tri 1 0] false)) in
  names_safe h 0 /\ hrefs_safe h 0 /\ texts_legal h 0 /\ ~ In 34 (cname h 0) /\
  exists h1 d s, text_write h 0 = Some (h1, Some d) /\ svg_file whole_fmt d = Some s.
Proof.
  split; [reflexivity|]. split; [reflexivity|]. cbv zeta.
  match goal with |- names_safe ?h _ /\ _ => set (hp := h) end.
  assert (E : get_dependencies hp 0 true = Some []) by reflexivity.
  assert (U : forall d, under hp 0 d -> d = 0%nat) by (intros d H; destruct (found_under hp 0 _ E d H) as [->|[]]; reflexivity).
  split. { intros d R. apply (proj2 (deps_fuel_reach _ _ _ _ E d)) in R. destruct R. }
  split. { intros d r n H I. rewrite (U d H) in I. destruct I. }
  split. { intros d l H I. rewrite (U d H) in I. destruct I. }
  split; [cbn; intuition discriminate|].
  eexists; eexists; eexists; split; [reflexivity|reflexivity].
Qed.

(** After flatten(single_datatype=7), which makes the texttypes None, write_svg raises. *)
Theorem C86_texttype_refuted : exists h1 h2 d, flatten toy pic (S (h_ncell pic)) 0 None (Some 7) None = Some h1 /\
  text_write h1 0 = Some (h2, Some d) /\ forall fmt, svg_file fmt d = None.
Proof. eexists; eexists; eexists. split; [reflexivity|]. split; [reflexivity|]. intro fmt. reflexivity. Qed.

Print Assumptions C86_file.
Print Assumptions C86_drawn.
Print Assumptions C86_written.
Print Assumptions C86_defaults.
Print Assumptions C86_name_refuted.
Print Assumptions C86_texttype_refuted.
