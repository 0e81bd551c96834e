(** Facts about the XML reader of SpecXml.v. *)

From Coq Require Import Reals Lia List ZArith NArith Bool String Ascii Decimal DecimalString DecimalPos DecimalZ.
From Verif Require Import Graph Plane Hier SpecText Svg SvgText SpecXml PropText.
Import ListNotations.
Open Scope Z_scope.
Notation len := List.length.

(** ** Strings *)
Ltac flat := repeat (first [rewrite <- app_assoc | progress cbn [Datatypes.app]]); reflexivity.
Ltac lens H := repeat (first [rewrite app_length in H | progress cbn [List.length Datatypes.app] in H]); rewrite ?app_length; cbn [List.length]; lia.
Lemma span_stop p a c r : Forall (fun x => p x = true) a -> p c = false -> span p (a ++ c :: r) = (a, c :: r).
Proof. intros A C. induction A as [|x a X _ IH]; cbn; [now rewrite C|]. now rewrite X, IH. Qed.
Lemma span_all p a : Forall (fun x => p x = true) a -> span p a = (a, []).
Proof. intros A. induction A as [|x a X _ IH]; cbn; [reflexivity|]. now rewrite X, IH. Qed.
Lemma until_stop c a r : ~ In c a -> until c (a ++ c :: r) = (a, c :: r).
Proof.
  intro N. apply span_stop; [|now rewrite Z.eqb_refl]. apply Forall_forall. intros x I.
  destruct (Z.eqb_spec x c) as [->|_]; [contradiction|reflexivity].
Qed.
Lemma until_all c a : ~ In c a -> until c a = (a, []).
Proof.
  intro N. apply span_all. apply Forall_forall. intros x I.
  destruct (Z.eqb_spec x c) as [->|_]; [contradiction|reflexivity].
Qed.
Lemma skip_stop w c r : Forall (fun x => blank x = true) w -> blank c = false -> skip (w ++ c :: r) = c :: r.
Proof. intros W C. unfold skip. now rewrite span_stop. Qed.
Lemma skip_none c r : blank c = false -> skip (c :: r) = c :: r.
Proof. intros C. exact (skip_stop [] c r (Forall_nil _) C). Qed.
Lemma name_eqb_refl' n : name_eqb n n = true. Proof. apply name_eqb_refl. Qed.

(** ** Attributes *)
Definition tag_ok (n : chars) : Prop := exists c t, n = c :: t /\ letter c = true /\ Forall (fun x => name_char x = true) t.
Lemma letter_name c : letter c = true -> name_char c = true.
Proof. intro L. unfold name_char. now rewrite L. Qed.
Lemma letter_blank c : letter c = true -> blank c = false.
Proof. unfold letter, blank. intro L. lia. Qed.
Lemma read_name_stop n c r : tag_ok n -> name_char c = false -> read_name (n ++ c :: r) = Some (n, c :: r).
Proof.
  intros (a & t & -> & L & F) C. unfold read_name. rewrite span_stop; [now rewrite L| |exact C].
  constructor; [now apply letter_name|exact F].
Qed.
Lemma value_other c r : c <> 38 -> c <> 60 ->
  value (c :: r) = if legal c then option_map (cons (if blank c then 32 else c)) (value r) else None.
Proof.
  intros A B. cbn [value].
  repeat match goal with
  | |- context [match ?x with _ => _ end] => is_var x; destruct x; try reflexivity; try lia
  end.
Qed.
Lemma value_safe l : all_safe l -> value l = Some l.
Proof.
  induction 1 as [|c l S _ IH]; [reflexivity|]. unfold safe in S.
  rewrite value_other by (intros ->; rewrite ?andb_false_r in S; discriminate).
  destruct (legal c) eqn:L; [|discriminate]. rewrite IH. cbn. unfold blank.
  destruct (c =? 9) eqn:E1; [rewrite ?andb_false_r in S; discriminate|]. destruct (c =? 10) eqn:E2; [rewrite ?andb_false_r in S; discriminate|].
  rewrite !orb_false_r. destruct (c =? 32) eqn:E3; [apply Z.eqb_eq in E3; now subst|reflexivity].
Qed.
Lemma safe_quote l : all_safe l -> ~ In 34 l.
Proof. intros F I. eapply Forall_forall in F; [|exact I]. discriminate F. Qed.

Definition Attrs (A : chars) (al : list (chars * chars)) (e : bool) : Prop :=
  forall g rest, (len (A ++ rest) <= g)%nat -> read_attrs g (A ++ rest) = Some (al, e, rest).
Lemma attrs_close : Attrs [62] [] false.
Proof. intros [|g] rest H; cbn in H; [lia|]. reflexivity. Qed.
Lemma attrs_blank_close : Attrs [32; 62] [] false.
Proof. intros [|g] rest H; cbn in H; [lia|]. reflexivity. Qed.
Lemma attrs_slash : Attrs [47; 62] [] true.
Proof. intros [|g] rest H; cbn in H; [lia|]. reflexivity. Qed.
Lemma read_attrs_step f l c t : skip l = c :: t -> letter c = true ->
  read_attrs (S f) l =
    match l with
    | [] => None
    | b :: _ =>
        if negb (blank b) then None
        else match read_name (c :: t) with
             | Some (n, 61 :: q :: r) =>
                 if (q =? 34) || (q =? 39) then
                   match until q r with
                   | (v, _ :: r1) =>
                       match value v, read_attrs f r1 with
                       | Some w, Some (al, e, r2) =>
                           if existsb (name_eqb n) (map fst al) then None else Some ((n, w) :: al, e, r2)
                       | _, _ => None
                       end
                   | (_, []) => None
                   end
                 else None
             | _ => None
             end
    end.
Proof.
  intros S L. cbn [read_attrs]. rewrite S. 
  destruct c as [|p|p]; try reflexivity. do 6 (destruct p as [p|p|]; try reflexivity; try discriminate L).
Qed.
Lemma attrs_more w n v A al e : w <> [] -> Forall (fun x => blank x = true) w -> tag_ok n -> all_safe v ->
  existsb (name_eqb n) (map fst al) = false -> Attrs A al e -> Attrs (w ++ n ++ 61 :: 34 :: v ++ 34 :: A) ((n, v) :: al) e.
Proof.
  intros W B N V X HA g rest Hg. destruct g as [|g]; [destruct w; [congruence|cbn in Hg; lia]|].
  assert (E : (w ++ n ++ 61 :: 34 :: v ++ 34 :: A) ++ rest = w ++ n ++ 61 :: 34 :: v ++ 34 :: A ++ rest).
  { flat. }
  rewrite E in *. clear E. pose proof N as (c & t & En & L & F).
  rewrite (read_attrs_step g _ c (t ++ 61 :: 34 :: v ++ 34 :: A ++ rest)); [|subst n; apply (skip_stop w c); auto; now apply letter_blank|exact L].
  destruct w as [|b w]; [congruence|]. cbn [Datatypes.app]. inversion B as [|? ? Bb _]; subst b. rewrite Bb. cbn [negb].
  change (c :: t ++ 61 :: 34 :: v ++ 34 :: A ++ rest) with ((c :: t) ++ 61 :: 34 :: v ++ 34 :: A ++ rest). rewrite <- En.
  rewrite read_name_stop by (auto; reflexivity). cbn [Z.eqb Pos.eqb orb].
  rewrite until_stop by now apply safe_quote. rewrite value_safe by exact V. rewrite HA; [exact (f_equal (fun b : bool => if b then None else Some ((n, v) :: al, e, rest)) X)|].
  lens Hg.
Qed.

(** ** Contents *)
Definition starts (l : chars) : Prop := l = [] \/ exists r, l = 60 :: r.
(** [t] is read as [x], whatever follows it, or if the end or a tag follows it. *)
Definition after (x : list xml) (k : option (list xml * chars)) : option (list xml * chars) :=
  match k with Some (more, e) => Some (x ++ more, e) | None => None end.
Lemma after_nil k : after [] k = k. Proof. destruct k as [(m & e)|]; reflexivity. Qed.
Lemma after_app x y k : after x (after y k) = after (x ++ y) k.
Proof. destruct k as [(m & e)|]; cbn; [now rewrite app_assoc|reflexivity]. Qed.
Definition Reads1 (t : chars) (x : list xml) : Prop := forall f rest k, (len (t ++ rest) <= f)%nat ->
  (forall g, (len rest <= g)%nat -> contents g rest = k) -> contents f (t ++ rest) = after x k.
Definition Reads (t : chars) (x : list xml) : Prop := forall f rest k, starts rest -> (len (t ++ rest) <= f)%nat ->
  (forall g, (len rest <= g)%nat -> contents g rest = k) -> contents f (t ++ rest) = after x k.
Lemma reads1 t x : Reads1 t x -> Reads t x. Proof. intros H f rest k _. apply H. Qed.
Lemma reads_nil : Reads [] [].
Proof. intros f rest k _ L H. rewrite after_nil. cbn in *. auto. Qed.
Lemma reads1_app a x b y : Reads1 a x -> Reads b y -> Reads (a ++ b) (x ++ y).
Proof.
  intros A B f rest k S L H. rewrite <- !app_assoc in *. rewrite <- after_app. apply A; [exact L|].
  intros g Hg. apply B; auto.
Qed.
Lemma starts_app a b : starts a -> starts b -> starts (a ++ b).
Proof. intros [->|(r & ->)] B; [exact B|]. right. exists (r ++ b). reflexivity. Qed.
Lemma reads_app a x b y : Reads a x -> Reads b y -> starts b -> Reads (a ++ b) (x ++ y).
Proof.
  intros A B SB f rest k S L H. rewrite <- !app_assoc in *. rewrite <- after_app. apply A; [now apply starts_app|exact L|].
  intros g Hg. apply B; auto.
Qed.
Lemma reads_flat {X} (f : X -> chars) (g : X -> list xml) l :
  (forall x, In x l -> Reads (f x) (g x) /\ starts (f x)) -> Reads (flat_map f l) (flat_map g l) /\ starts (flat_map f l).
Proof.
  induction l as [|x l IH]; intro H; [split; [exact reads_nil|now left]|]. cbn [flat_map].
  destruct (H x (or_introl eq_refl)) as (H1 & H2). destruct IH as (H3 & H4); [intros; apply H; now right|].
  split; [now apply reads_app|now apply starts_app].
Qed.

Lemma contents_data f c l : c <> 60 -> contents (S f) (c :: l) =
  let (d, r) := until 60 (c :: l) in
  if data_ok d then match contents f r with Some (more, e) => Some (Data d :: more, e) | None => None end else None.
Proof.
  intro C. cbn [contents]. destruct c as [|p|p]; try reflexivity. do 6 (destruct p as [p|p|]; try reflexivity; try lia).
Qed.
Lemma reads_data d : d <> [] -> data_ok d = true -> ~ In 60 d -> Reads d [Data d].
Proof.
  intros D O N f rest k S L H. destruct d as [|c d]; [congruence|]. destruct f as [|f]; [cbn in L; lia|].
  cbn [Datatypes.app]. rewrite contents_data by (intros ->; apply N; now left).
  change (c :: d ++ rest) with ((c :: d) ++ rest).
  assert (E : until 60 ((c :: d) ++ rest) = (c :: d, rest)).
  { destruct S as [->|(r & ->)]; [rewrite app_nil_r; now apply until_all|now apply until_stop]. }
  rewrite E, O, H; [reflexivity|]. cbn in L. rewrite app_length in L. lia.
Qed.
Lemma contents_open f c l : letter c = true -> contents (S f) (60 :: c :: l) =
          match read_name (c :: l) with
          | None => None
          | Some (tag, r1) =>
              match read_attrs (len r1) r1 with
              | None => None
              | Some (al, true, r2) =>
                  match contents f r2 with Some (more, e) => Some (Elem tag al [] :: more, e) | None => None end
              | Some (al, false, r2) =>
                  match contents f r2 with
                  | Some (inner, 60 :: 47 :: r3) =>
                      match read_name r3 with
                      | Some (tag', r4) =>
                          match name_eqb tag tag', skip r4 with
                          | true, 62 :: r5 =>
                              match contents f r5 with Some (more, e) => Some (Elem tag al inner :: more, e) | None => None end
                          | _, _ => None
                          end
                      | None => None
                      end
                  | _ => None
                  end
              end
          end.
Proof.
  intro C. cbn [contents].
  destruct c as [|p|p]; try reflexivity. do 6 (destruct p as [p|p|]; try reflexivity; try discriminate C).
Qed.
(** [A] begins where the tag's name ends. *)
Definition apart (A : chars) : Prop := exists c r, A = c :: r /\ name_char c = false.
Lemma reads_empty tag A al : tag_ok tag -> apart A -> Attrs A al true -> Reads1 (60 :: tag ++ A) [Elem tag al []].
Proof.
  intros T (c & r & -> & C) HA f rest k L H. destruct f as [|f]; [cbn in L; lia|].
  pose proof T as (b & t & E & Lb & _). cbn [Datatypes.app] in *. rewrite <- app_assoc in *.
  assert (Eq : tag ++ (c :: r) ++ rest = b :: t ++ (c :: r) ++ rest) by (subst; reflexivity).
  rewrite Eq, contents_open by exact Lb. rewrite <- Eq. cbn [Datatypes.app]. rewrite read_name_stop by auto.
  change (c :: r ++ rest) with ((c :: r) ++ rest). rewrite HA by lia. rewrite H; [reflexivity|].
  lens L.
Qed.
Lemma closing f r : contents f (60 :: 47 :: r) = Some ([], 60 :: 47 :: r).
Proof. destruct f; reflexivity. Qed.
Lemma reads_full tag A al inner x : tag_ok tag -> apart A -> Attrs A al false -> Reads inner x ->
  Reads1 (60 :: tag ++ A ++ inner ++ 60 :: 47 :: tag ++ [62]) [Elem tag al x].
Proof.
  intros T (c & r & -> & C) HA HI f rest k L H. destruct f as [|f]; [cbn in L; lia|].
  pose proof T as (b & t & E & Lb & _).
  assert (Eq : (60 :: tag ++ (c :: r) ++ inner ++ 60 :: 47 :: tag ++ [62]) ++ rest
             = 60 :: tag ++ (c :: r) ++ inner ++ 60 :: 47 :: tag ++ 62 :: rest).
  { flat. }
  rewrite Eq in *. clear Eq.
  assert (Eq : tag ++ (c :: r) ++ inner ++ 60 :: 47 :: tag ++ 62 :: rest = b :: t ++ (c :: r) ++ inner ++ 60 :: 47 :: tag ++ 62 :: rest) by (subst; reflexivity).
  assert (Ls : (len (inner ++ 60%Z :: 47%Z :: tag ++ 62%Z :: rest) <= f)%nat /\ (len rest <= f)%nat).
  { split; repeat (first [rewrite app_length | progress cbn [List.length]]); lens L. }
  rewrite Eq, contents_open by exact Lb. rewrite <- Eq. cbn [Datatypes.app]. rewrite read_name_stop by auto.
  change (c :: r ++ inner ++ 60 :: 47 :: tag ++ 62 :: rest) with ((c :: r) ++ inner ++ 60 :: 47 :: tag ++ 62 :: rest).
  rewrite HA by lia.
  rewrite (HI f (60 :: 47 :: tag ++ 62 :: rest) (Some ([], 60 :: 47 :: tag ++ 62 :: rest))); [|right; eauto|exact (proj1 Ls)|intros; apply closing].
  cbn [after]. rewrite read_name_stop by (auto; reflexivity). rewrite name_eqb_refl', skip_none by reflexivity.
  rewrite H by exact (proj2 Ls). now rewrite app_nil_r.
Qed.
(** Nothing can be read if the attributes or the contents of an element cannot. *)
Lemma fails_inside tag A al rest : tag_ok tag -> apart A -> Attrs A al false ->
  (forall g, (len rest <= g)%nat -> contents g rest = None) ->
  forall f, (len (60%Z :: tag ++ A ++ rest) <= f)%nat -> contents f (60 :: tag ++ A ++ rest) = None.
Proof.
  intros T (c & r & -> & C) HA H f L. pose proof T as (b & t & E & Lb & _).
  assert (Eq : tag ++ (c :: r) ++ rest = b :: t ++ (c :: r) ++ rest) by (subst; reflexivity).
  destruct f as [|f]; [cbn in L; lia|].
  rewrite Eq, contents_open by exact Lb. rewrite <- Eq. cbn [Datatypes.app]. rewrite read_name_stop by auto.
  change (c :: r ++ rest) with ((c :: r) ++ rest). rewrite HA by lia. rewrite H; [reflexivity|]. lens L.
Qed.
Lemma fails_attrs tag A : tag_ok tag -> apart A -> (forall g, read_attrs g A = None) ->
  forall f, contents f (60 :: tag ++ A) = None.
Proof.
  intros T (c & r & -> & C) HA f. pose proof T as (b & t & E & Lb & _).
  assert (Eq : tag ++ (c :: r) = b :: t ++ (c :: r)) by (subst; reflexivity).
  rewrite Eq. destruct f as [|f].
  - cbn [contents]. destruct b as [|p|p]; try reflexivity. do 6 (destruct p as [p|p|]; try reflexivity; try discriminate Lb).
  - rewrite contents_open by exact Lb. rewrite <- Eq, read_name_stop by auto. now rewrite HA.
Qed.
Lemma fails_value w n v A : w <> [] -> Forall (fun x => blank x = true) w -> tag_ok n -> ~ In 34 v -> value v = None ->
  forall g, read_attrs g (w ++ n ++ 61 :: 34 :: v ++ 34 :: A) = None.
Proof.
  intros W B N V X g. destruct g as [|g]; [reflexivity|]. pose proof N as (c & t & En & L & F).
  erewrite read_attrs_step; [|rewrite En; cbn [Datatypes.app]; apply skip_stop; [exact B|now apply letter_blank]|exact L].
  destruct w as [|b w]; [congruence|]. cbn [Datatypes.app]. inversion B as [|? ? Bb _]; subst. rewrite Bb. cbn [negb].
  change (c :: t ++ 61 :: 34 :: v ++ 34 :: A) with ((c :: t) ++ 61 :: 34 :: v ++ 34 :: A).
  rewrite read_name_stop by (auto; reflexivity). cbn [Z.eqb Pos.eqb orb]. rewrite until_stop by exact V. now rewrite X.
Qed.
Lemma value_lt v : In 60 v -> value v = None.
Proof.
  intro I. remember (List.length v) as n eqn:E. assert (L : (List.length v <= n)%nat) by lia. clear E.
  revert v I L. induction n as [|n IH]; intros v I L; [destruct v; [destruct I|cbn in L; lia]|].
  destruct v as [|c v]; [destruct I|].
  destruct (Z.eq_dec c 60) as [->|C]; [reflexivity|]. destruct I as [I|I]; [congruence|]. cbn in L.
  destruct (Z.eq_dec c 38) as [->|D].
  2:{ rewrite value_other by auto. rewrite IH by (auto; lia). now destruct (legal c). }
  assert (Q : forall k r, In 60 (k ++ r) -> ~ In 60 k -> (List.length (k ++ r) <= n)%nat -> value r = None).
  { intros k r Hi Nk Lk. apply IH; [apply in_app_iff in Hi; tauto|rewrite app_length in Lk; lia]. }
  cbn [value].
  repeat match goal with
  | |- None = None => reflexivity
  | |- context [match ?x with _ => _ end] => is_var x; destruct x; try reflexivity
  end.
  all: match goal with
  | |- option_map _ (value ?r) = None =>
      let H := fresh in assert (H : value r = None); [|now rewrite H]
  end.
  all: match goal with
  | I : In 60 (?a :: ?b :: ?c :: ?d :: ?e :: ?r) |- value ?r = None => apply (Q [a; b; c; d; e])
  | I : In 60 (?a :: ?b :: ?c :: ?d :: ?r) |- value ?r = None => apply (Q [a; b; c; d])
  | I : In 60 (?a :: ?b :: ?c :: ?r) |- value ?r = None => apply (Q [a; b; c])
  end; [exact I|cbn; intuition discriminate|cbn in *; lia].
Qed.
Lemma reads_nl : Reads nl [Data nl].
Proof. apply reads_data; [discriminate|reflexivity|intros [H|[]]; discriminate]. Qed.

(** ** Integers *)
Lemma lit_back s : string_of_list_ascii (map (fun c => ascii_of_N (Z.to_N c)) (lit s)) = s.
Proof.
  unfold lit. rewrite map_map. rewrite (map_ext _ (fun a => a)) by (intro a; now rewrite N2Z.id, ascii_N_embedding).
  rewrite map_id. apply string_of_list_ascii_of_string.
Qed.
Lemma read_dec z : read_int (dec z) = Some z.
Proof.
  unfold read_int, dec. rewrite lit_back, NilZero.isi; [cbn; now rewrite DecimalZ.of_to| |].
  - destruct z as [|p|p]; cbn; try discriminate. intro E. injection E as E. now apply (Unsigned.to_uint_nonnil p).
  - destruct z as [|p|p]; cbn; try discriminate. intro E. injection E as E. now apply (Unsigned.to_uint_nonnil p).
Qed.
Lemma lit_uint d : Forall (fun c => figure c = true) (lit (NilEmpty.string_of_uint d)).
Proof. induction d; constructor; try reflexivity; exact IHd. Qed.
Lemma dec_figures z : Forall (fun c => figure c = true) (dec z) /\ dec z <> [].
Proof.
  assert (U : forall u, Forall (fun c => figure c = true) (lit (NilZero.string_of_uint u)) /\ lit (NilZero.string_of_uint u) <> []).
  { intro u. destruct u; try (split; [apply (lit_uint (_ u))|discriminate]).
    split; [repeat constructor|discriminate]. }
  unfold dec, NilZero.string_of_int. destruct (Z.to_int z) as [u|u]; [apply U|].
  destruct (U u) as (F & N). split; [|discriminate]. constructor; [reflexivity|exact F].
Qed.
Lemma figure_safe c : figure c = true -> safe c = true.
Proof. unfold figure, safe, legal. lia. Qed.
