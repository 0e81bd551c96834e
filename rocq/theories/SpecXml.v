(** A reader of XML and of the SVG drawings that write_svg makes.

    The reader follows XML 1.0 (W3C, fifth edition), sections 2.1 to 3.1 and 4.6.  It is stricter than the
    standard: no comments, CDATA sections, processing instructions other than the first one, doctypes,
    numeric references, '>' in character data, spaces around '=', or carriage returns. *)

From Coq Require Import Reals List ZArith NArith Bool String Ascii DecimalString.
From Verif Require Import Graph SpecGraph Plane Hier SpecHier SpecText Svg.
Import ListNotations.
Open Scope Z_scope.

(** Strings are lists of character codes. *)
Notation chars := (list Z).
Definition of_lit (s : string) : chars := map (fun a => Z.of_N (N_of_ascii a)) (list_ascii_of_string s).

Fixpoint span (p : Z -> bool) (l : chars) : chars * chars :=
  match l with
  | [] => ([], [])
  | x :: r => if p x then let (a, b) := span p r in (x :: a, b) else ([], l)
  end.
(** The pieces between the characters [c]. *)
Fixpoint split (c : Z) (l : chars) : list chars :=
  match l with
  | [] => [[]]
  | x :: r => if x =? c then [] :: split c r
              else match split c r with p :: ps => (x :: p) :: ps | [] => [[x]] end
  end.
Definition blank (c : Z) : bool := (c =? 32) || (c =? 9) || (c =? 10).
Definition skip (l : chars) : chars := snd (span blank l).
Definition trim (l : chars) : chars := rev (skip (rev (skip l))).
Definition words (l : chars) : list chars := filter (fun w => match w with [] => false | _ => true end) (split 32 l).
Definition until (c : Z) : chars -> chars * chars := span (fun x => negb (x =? c)).
Fixpoint all {X Y : Type} (f : X -> option Y) (l : list X) : option (list Y) :=
  match l with
  | [] => Some []
  | x :: r => match f x, all f r with Some a, Some b => Some (a :: b) | _, _ => None end
  end.

(** ** XML *)

(** Characters (production 2), except the carriage return. *)
Definition legal (c : Z) : bool :=
  (c =? 9) || (c =? 10) || ((32 <=? c) && (c <=? 0xD7FF)) || ((0xE000 <=? c) && (c <=? 0xFFFD))
  || ((0x10000 <=? c) && (c <=? 0x10FFFF)).
(** Names (4, 4a, 5), those within ASCII. *)
Definition letter (c : Z) : bool := ((65 <=? c) && (c <=? 90)) || ((97 <=? c) && (c <=? 122)) || (c =? 95) || (c =? 58).
Definition name_char (c : Z) : bool := letter c || ((48 <=? c) && (c <=? 57)) || (c =? 45) || (c =? 46).
Definition read_name (l : chars) : option (chars * chars) :=
  let (n, r) := span name_char l in
  match n with [] => None | c :: _ => if letter c then Some (n, r) else None end.

(** An element with its attributes and contents; character data as it is written, with its references. *)
Inductive xml := Elem (tag : chars) (attrs : list (chars * chars)) (contents : list xml) | Data (d : chars).

(** Attribute values (10, 3.3.3): no '<'; '&' begins a reference; blanks become spaces. *)
Fixpoint value (l : chars) : option chars :=
  match l with
  | [] => Some []
  | 38 :: 97 :: 109 :: 112 :: 59 :: r => option_map (cons 38) (value r)
  | 38 :: 108 :: 116 :: 59 :: r => option_map (cons 60) (value r)
  | 38 :: 103 :: 116 :: 59 :: r => option_map (cons 62) (value r)
  | 38 :: 113 :: 117 :: 111 :: 116 :: 59 :: r => option_map (cons 34) (value r)
  | 38 :: 97 :: 112 :: 111 :: 115 :: 59 :: r => option_map (cons 39) (value r)
  | 38 :: _ | 60 :: _ => None
  | c :: r => if legal c then option_map (cons (if blank c then 32 else c)) (value r) else None
  end.
(** Attributes (41) and the end of a start tag (40, 44): true for "/>".  No name twice. *)
Fixpoint read_attrs (fuel : nat) (l : chars) : option (list (chars * chars) * bool * chars) :=
  match fuel with
  | O => None
  | S f =>
      match skip l with
      | 62 :: r => Some ([], false, r)
      | 47 :: 62 :: r => Some ([], true, r)
      | l' =>
          match l with
          | [] => None
          | c :: _ =>
              if negb (blank c) then None
              else match read_name l' with
                   | Some (n, 61 :: q :: r) =>
                       if (q =? 34) || (q =? 39) then
                         match until q r with
                         | (v, _ :: r1) =>
                             match value v, read_attrs f r1 with
                             | Some w, Some (al, e, r2) =>
                                 if existsb (name_eqb n) (map fst al) then None else Some ((n, w) :: al, e, r2)
                             | _, _ => None
                             end
                         | (_, []) => None
                         end
                       else None
                   | _ => None
                   end
          end
      end
  end.
(** Character data (14) with references to the predefined entities (4.6) *)
Definition data_ok (d : chars) : bool :=
  forallb legal d && match character_data d with Some _ => true | None => false end.
(** Contents (43) up to an end tag (42) or the end. *)
Fixpoint contents (fuel : nat) (l : chars) : option (list xml * chars) :=
  match l with
  | [] => Some ([], [])
  | 60 :: 47 :: _ => Some ([], l)
  | 60 :: r =>
      match fuel with
      | O => None
      | S f =>
          match read_name r with
          | None => None
          | Some (tag, r1) =>
              match read_attrs (List.length r1) r1 with
              | None => None
              | Some (al, true, r2) =>
                  match contents f r2 with Some (more, e) => Some (Elem tag al [] :: more, e) | None => None end
              | Some (al, false, r2) =>
                  match contents f r2 with
                  | Some (inner, 60 :: 47 :: r3) =>
                      match read_name r3 with
                      | Some (tag', r4) =>
                          match name_eqb tag tag', skip r4 with
                          | true, 62 :: r5 =>
                              match contents f r5 with Some (more, e) => Some (Elem tag al inner :: more, e) | None => None end
                          | _, _ => None
                          end
                      | None => None
                      end
                  | _ => None
                  end
              end
          end
      end
  | _ =>
      match fuel with
      | O => None
      | S f =>
          let (d, r) := until 60 l in
          if data_ok d then match contents f r with Some (more, e) => Some (Data d :: more, e) | None => None end
          else None
      end
  end.
(** Elements alone: the character data between them must be blank. *)
Definition element := (chars * list (chars * chars) * list xml)%type.
Fixpoint elements (l : list xml) : option (list element) :=
  match l with
  | [] => Some []
  | Elem t a c :: r => option_map (cons (t, a, c)) (elements r)
  | Data d :: r => if forallb blank d then elements r else None
  end.
(** A document (1, 22): the declaration, then one element. *)
Definition declaration : chars := of_lit "<?xml version=""1.0"" encoding=""UTF-8""?>".
Definition read_xml (l : chars) : option element :=
  if name_eqb (firstn (List.length declaration) l) declaration then
    let l := skipn (List.length declaration) l in
    match contents (List.length l) l with
    | Some (x, []) => match elements x with Some [e] => Some e | _ => None end
    | _ => None
    end
  else None.

(** ** CSS: rules with one class each *)
Definition declaration_of (p : chars) : option (chars * chars) :=
  match until 58 p with (k, _ :: v) => Some (trim k, trim v) | _ => None end.
Fixpoint read_rules (fuel : nat) (l : chars) : option (list (chars * list (chars * chars))) :=
  match fuel with
  | O => None
  | S f =>
      match skip l with
      | [] => Some []
      | 46 :: r =>
          match until 123 r with
          | (sel, _ :: r1) =>
              match until 125 r1 with
              | (body, _ :: r2) =>
                  match all declaration_of (filter (fun p => negb (forallb blank p)) (split 59 body)), read_rules f r2 with
                  | Some ds, Some more => Some ((trim sel, ds) :: more)
                  | _, _ => None
                  end
              | _ => None
              end
          | _ => None
          end
      | _ => None
      end
  end.

(** ** Drawings *)

Definition read_int (l : chars) : option Z :=
  option_map Z.of_int (NilZero.int_of_string (string_of_list_ascii (map (fun c => ascii_of_N (Z.to_N c)) l))).
(** A class: the layer and the datatype, or the layer and the texttype. *)
Inductive class := Shape (k : spec) | Font (k : Z * option Z).
Definition read_class (l : chars) : option class :=
  match l with
  | 108 :: r =>
      match span (fun c => negb (c =? 100) && negb (c =? 116)) r with
      | (a, c :: b) =>
          match read_int a with
          | None => None
          | Some n =>
              if c =? 100 then option_map (fun m => Shape (n, m)) (read_int b)
              else if name_eqb b (of_lit "None") then Some (Font (n, None))
              else option_map (fun m => Font (n, Some m)) (read_int b)
          end
      | _ => None
      end
  | _ => None
  end.
Definition attr (n : string) (al : list (chars * chars)) : option chars :=
  option_map snd (find (fun kv => name_eqb (fst kv) (of_lit n)) al).
Definition is (c : chars) (s : string) : bool := name_eqb c (of_lit s).

Section Read.
(** How numerals are read. *)
Variable num : chars -> option R.

Definition read_pt (l : chars) : option pt :=
  match map num (split 44 l) with [Some x; Some y] => Some (x, y) | _ => None end.
Definition read_tf (name args : chars) : option tf :=
  match map num (words args) with
  | [Some a] => if is name "rotate" then Some (Rotate a) else if is name "scale" then Some (ScaleBy a) else None
  | [Some a; Some b] => if is name "translate" then Some (Translate a b) else if is name "scale" then Some (ScaleXY a b) else None
  | _ => None
  end.
Fixpoint read_tfs (fuel : nat) (l : chars) : option (list tf) :=
  match fuel with
  | O => None
  | S f =>
      match skip l with
      | [] => Some []
      | l' =>
          match until 40 l' with
          | (name, _ :: r) =>
              match until 41 r with
              | (args, _ :: r1) =>
                  match read_tf name args, read_tfs f r1 with Some t, Some ts => Some (t :: ts) | _, _ => None end
              | _ => None
              end
          | _ => None
          end
      end
  end.
Definition transform (l : chars) : option (list tf) := read_tfs (S (List.length l)) l.
Definition read_ha (l : chars) : option halign :=
  if is l "start" then Some Start else if is l "middle" then Some Middle else if is l "end" then Some End_ else None.
Definition read_va (l : chars) : option valign :=
  if is l "text-before-edge" then Some BeforeEdge else if is l "central" then Some Central
  else if is l "text-after-edge" then Some AfterEdge else None.
Definition obind {X Y : Type} (x : option X) (f : X -> option Y) : option Y := match x with Some a => f a | None => None end.
Definition read_node (e : element) : option node :=
  let '(tag, al, inner) := e in
  if is tag "polygon" then
    match obind (attr "class" al) read_class, obind (attr "points" al) (fun p => all read_pt (words p)), inner with
    | Some (Shape k), Some pts, [] => Some (NPoly k pts)
    | _, _, _ => None
    end
  else if is tag "text" then
    match obind (attr "class" al) read_class, obind (attr "text-anchor" al) read_ha,
          obind (attr "dominant-baseline" al) read_va, obind (attr "transform" al) transform with
    | Some (Font k), Some ha, Some va, Some t =>
        match inner with
        | [] => Some (NText k ha va t [])
        | [Data d] => Some (NText k ha va t d)
        | _ => None
        end
    | _, _, _, _ => None
    end
  else if is tag "use" then
    match obind (attr "transform" al) transform, attr "xlink:href" al, inner with
    | Some t, Some (35 :: n), [] => Some (NUse t n)
    | _, _, _ => None
    end
  else None.
Definition read_group (e : element) : option group :=
  let '(tag, al, inner) := e in
  match is tag "g", attr "id" al, match attr "transform" al with Some t => transform t | None => Some [] end,
        obind (elements inner) (all read_node) with
  | true, Some n, Some t, Some ns => Some (Group n t ns)
  | _, _, _, _ => None
  end.
(** The contents of a style element: the rules for shapes and those for texts. *)
Definition read_style (e : element) : option (list (spec * list (chars * chars)) * list ((Z * option Z) * list (chars * chars))) :=
  match e with
  | (tag, _, [Data d]) =>
      if is tag "style" then
        match obind (read_rules (S (List.length d)) d)
                (all (fun r => option_map (fun c => (c, snd r)) (read_class (fst r)))) with
        | Some rs => Some (flat_map (fun r => match fst r with Shape k => [(k, snd r)] | Font _ => [] end) rs,
                           flat_map (fun r => match fst r with Font k => [(k, snd r)] | Shape _ => [] end) rs)
        | None => None
        end
      else None
  | _ => None
  end.
Definition read_num (n : string) (al : list (chars * chars)) : option R := obind (attr n al) num.
Definition read_back (e : element) : option (R * R * R * R * chars) :=
  let '(tag, al, inner) := e in
  match is tag "rect", read_num "x" al, read_num "y" al, read_num "width" al, read_num "height" al, attr "fill" al with
  | true, Some x, Some y, Some w, Some h, Some c => Some (x, y, w, h, c)
  | _, _, _, _, _, _ => None
  end.
(** The drawing in a file: [svg] with [viewBox], [width] and [height]; the definitions, which begin with the
    styles; perhaps a rectangle; a group. *)
Definition read_svg (l : chars) : option (doc (list (chars * chars)) chars) :=
  match read_xml l with
  | Some (tag, al, inner) =>
      match is tag "svg", option_map (fun v => map num (words v)) (attr "viewBox" al), read_num "width" al, read_num "height" al,
            elements inner with
      | true, Some [Some x; Some y; Some w; Some h], Some w', Some h', Some ((dtag, _, dinner) :: rest) =>
          if Req_EM_T w w' then if Req_EM_T h h' then
          match is dtag "defs", elements dinner with
          | true, Some (st :: gs) =>
              match read_style st, all read_group gs,
                    match rest with
                    | [g] => option_map (pair None) (read_group g)
                    | [b; g] => match read_back b, read_group g with Some b, Some g => Some (Some b, g) | _, _ => None end
                    | _ => None
                    end with
              | Some (rules, fonts), Some defs, Some (back, top) =>
                  Some (Doc (x, y, w, h) (map (fun r => (fst r, Some (snd r))) rules)
                            (map (fun r => (fst r, Some (snd r))) fonts) defs back top)
              | _, _, _ => None
              end
          | _, _ => None
          end
          else None else None
      | _, _, _, _, _ => None
      end
  | None => None
  end.
End Read.

(** A colour: "rgb(r, g, b)". *)
Definition read_rgb (l : chars) : option (Z * Z * Z) :=
  match until 40 l with
  | (f, _ :: r) =>
      if is f "rgb" then
        match until 41 r with
        | (args, [_]) => match map (fun a => read_int (trim a)) (split 44 args) with
                         | [Some r; Some g; Some b] => Some (r, g, b)
                         | _ => None
                         end
        | _ => None
        end
      else None
  | _ => None
  end.

(** ** What the file says

    Characters that stand for themselves in an attribute: not a double quote, an ampersand,
    a less-than sign, a tab or a line feed. *)
Definition safe (c : Z) : bool := legal c && negb (c =? 9) && negb (c =? 10) && negb (c =? 34) && negb (c =? 38) && negb (c =? 60).
Definition all_safe (l : chars) : Prop := Forall (fun c => safe c = true) l.
(** Digits, a point and a sign. *)
Definition figure (c : Z) : bool := ((48 <=? c) && (c <=? 57)) || (c =? 45) || (c =? 46).
Definition numeral (l : chars) : Prop := l <> [] /\ Forall (fun c => figure c = true) l.
(** CSS entries that can be written as they are: no '&', '<', '>', ';', '}', no ':' in the key, no blanks
    at the ends. *)
Definition css_char (c : Z) : bool :=
  legal c && negb (c =? 38) && negb (c =? 60) && negb (c =? 62) && negb (c =? 59) && negb (c =? 125).
Definition css_ok (v : list (chars * chars)) : Prop :=
  Forall (fun kv => Forall (fun c => css_char c = true) (fst kv) /\ Forall (fun c => css_char c = true) (snd kv) /\
    ~ In 58 (fst kv) /\ trim (fst kv) = fst kv /\ trim (snd kv) = snd kv) v.

(** The drawing with its numbers changed by [f] (what formatting does to them) and with all styles
    explicit, those not given by the user being [shapes] and [fonts]. *)
Section Said.
Variable f : R -> R.
Definition said_pt (p : pt) : pt := (f (fst p), f (snd p)).
Definition said_tf (t : tf) : tf :=
  match t with
  | Translate x y => Translate (f x) (f y)
  | Rotate d => Rotate (f d)
  | ScaleXY x y => ScaleXY x y
  | ScaleBy k => ScaleBy (f k)
  end.
Definition said_node (n : node) : node :=
  match n with
  | NPoly k pts => NPoly k (map said_pt pts)
  | NText k ha va t data => NText k ha va (map said_tf t) data
  | NUse t n => NUse (map said_tf t) n
  end.
Definition said_group (g : group) : group := Group (grp_id g) (map said_tf (grp_tf g)) (map said_node (grp_nodes g)).
Definition said_box (v : R * R * R * R) : R * R * R * R := let '(x, y, w, h) := v in (f x, f y, f w, f h).
Definition said {V B : Type} (shapes : spec -> V) (fonts : Z * option Z -> V) (d : doc V B) : doc V B :=
  Doc (said_box (doc_view d))
      (map (fun r => (fst r, Some match snd r with Some v => v | None => shapes (fst r) end)) (doc_rules d))
      (map (fun r => (fst r, Some match snd r with Some v => v | None => fonts (fst r) end)) (doc_fonts d))
      (map said_group (doc_defs d)) (option_map (fun b => (said_box (fst b), snd b)) (doc_back d)) (said_group (doc_top d)).
End Said.

(** Names of cells and of references that need no escapes in attributes, and texts of characters that XML
    allows. *)
Section Plain.
Context {P : Type}.
Notation heap := (heap place (stuff P)).
Definition names_safe (h : heap) (c : nat) : Prop := forall d, reach h c d -> all_safe (cname h d).
Definition hrefs_safe (h : heap) (c : nat) : Prop := forall d r n, under h c d -> In r (crefs h d) ->
  rtarget h r = ToName n -> all_safe n.
Definition texts_legal (h : heap) (c : nat) : Prop := forall d l, under h c d -> In l (s_labels (stuff_of h d)) ->
  Forall (fun x => legal x = true) (l_text l).
End Plain.
