(** Byte strings and the parts of Python's [struct] module used by gdspy.

    A byte string is a list of integers in [0,256).  [struct.pack] with a
    big-endian format is the concatenation of its fields; a value outside the
    range of its field makes the whole call raise [struct.error], modelled as
    [None].  Modelled: the format characters H, h, l, L that appear in
    gdspy/gdsiiformat.py, label.py, library.py, polygon.py, path.py. *)

From Coq Require Import List ZArith Lia Bool.
From Coq Require Import ZifyBool ZifyNat.
Import ListNotations.
Open Scope Z_scope.

Ltac Zify.zify_post_hook ::= Z.div_mod_to_equations.

Definition bytes := list Z.

Definition is_byte (b : Z) : Prop := 0 <= b < 256.
Definition is_byteb (b : Z) : bool := (0 <=? b) && (b <? 256).
Definition all_bytes (bs : bytes) : Prop := Forall is_byte bs.

Definition zlen {A} (l : list A) : Z := Z.of_nat (length l).

(** ** Option helpers: an exception anywhere aborts the whole operation. *)

Definition obind {A B} (x : option A) (f : A -> option B) : option B :=
  match x with Some a => f a | None => None end.

(** [outfile.write(a); outfile.write(b)] *)
Definition oapp (a b : option bytes) : option bytes :=
  match a, b with Some x, Some y => Some (x ++ y) | _, _ => None end.

Infix "+++" := oapp (right associativity, at level 60).

(** Sequential writes for the elements of a list. *)
Fixpoint oconcat (l : list (option bytes)) : option bytes :=
  match l with
  | [] => Some []
  | x :: r => x +++ oconcat r
  end.

Fixpoint omap {A B} (f : A -> option B) (l : list A) : option (list B) :=
  match l with
  | [] => Some []
  | x :: r => match f x, omap f r with
              | Some y, Some ys => Some (y :: ys)
              | _, _ => None
              end
  end.

(** ** struct.pack fields (big-endian) *)

(** [struct.pack(">H", v)] *)
Definition be16 (v : Z) : bytes := [v / 256; v mod 256].
(** [struct.pack(">L", v)] *)
Definition be32 (v : Z) : bytes :=
  [v / 16777216; (v / 65536) mod 256; (v / 256) mod 256; v mod 256].

Definition pack_H (v : Z) : option bytes :=
  if (0 <=? v) && (v <? 65536) then Some (be16 v) else None.
Definition pack_h (v : Z) : option bytes :=
  if (-32768 <=? v) && (v <? 32768) then Some (be16 (v mod 65536)) else None.
Definition pack_L (v : Z) : option bytes :=
  if (0 <=? v) && (v <? 4294967296) then Some (be32 v) else None.
Definition pack_l (v : Z) : option bytes :=
  if (-2147483648 <=? v) && (v <? 2147483648)
  then Some (be32 (v mod 4294967296)) else None.

Inductive field := FH (v : Z) | Fh (v : Z) | FL (v : Z) | Fl (v : Z).

Definition pack_field (f : field) : option bytes :=
  match f with
  | FH v => pack_H v | Fh v => pack_h v | FL v => pack_L v | Fl v => pack_l v
  end.

(** [struct.pack(fmt, ...)] *)
Definition pack (fs : list field) : option bytes := oconcat (map pack_field fs).

(** ** struct.unpack *)

Definition un16 (a b : Z) : Z := a * 256 + b.
Definition sgn16 (v : Z) : Z := if v <? 32768 then v else v - 65536.
Definition un32 (a b c d : Z) : Z := ((a * 256 + b) * 256 + c) * 256 + d.
Definition sgn32 (v : Z) : Z := if v <? 2147483648 then v else v - 4294967296.

(** [struct.unpack(">nH", data)] / [">nh"] / [">nl"]; wrong lengths raise. *)
Fixpoint unpack_H (bs : bytes) : option (list Z) :=
  match bs with
  | [] => Some []
  | a :: b :: r => match unpack_H r with Some l => Some (un16 a b :: l) | None => None end
  | _ => None
  end.
Definition unpack_h (bs : bytes) : option (list Z) :=
  match unpack_H bs with Some l => Some (map sgn16 l) | None => None end.
Fixpoint unpack_L (bs : bytes) : option (list Z) :=
  match bs with
  | [] => Some []
  | a :: b :: c :: d :: r =>
      match unpack_L r with Some l => Some (un32 a b c d :: l) | None => None end
  | _ => None
  end.
Definition unpack_l (bs : bytes) : option (list Z) :=
  match unpack_L bs with Some l => Some (map sgn32 l) | None => None end.

(** [s.encode("ascii")] for a string given by its code points. *)
Definition is_ascii (c : Z) : bool := (0 <=? c) && (c <? 128).
Definition encode_ascii (s : list Z) : option bytes :=
  if forallb is_ascii s then Some s else None.
(** [bytes.decode("ascii")] *)
Definition decode_ascii (b : bytes) : option (list Z) :=
  if forallb is_ascii b then Some b else None.

(** [if len(s) % 2 != 0: s = s + "\0"] *)
Definition pad (s : list Z) : list Z := if Z.odd (zlen s) then s ++ [0] else s.

(** ** Basic facts *)

Lemma zlen_app : forall A (a b : list A), zlen (a ++ b) = zlen a + zlen b.
Proof. intros. unfold zlen. rewrite app_length. lia. Qed.

Lemma zlen_cons : forall A (a : A) b, zlen (a :: b) = 1 + zlen b.
Proof. intros. unfold zlen. cbn [length]. lia. Qed.

Lemma zlen_nonneg : forall A (a : list A), 0 <= zlen a.
Proof. intros. unfold zlen. lia. Qed.

Lemma zlen_nil : forall A, zlen (@nil A) = 0.
Proof. reflexivity. Qed.

Lemma zlen_map : forall A B (f : A -> B) l, zlen (map f l) = zlen l.
Proof. intros. unfold zlen. rewrite map_length. reflexivity. Qed.

Lemma oapp_Some : forall a b x, a +++ b = Some x ->
  exists y z, a = Some y /\ b = Some z /\ x = y ++ z.
Proof.
  intros [a|] [b|] x H; cbn in H; try discriminate. inversion H. eauto.
Qed.

Lemma pack_H_Some : forall v b, pack_H v = Some b -> 0 <= v < 65536 /\ b = be16 v.
Proof.
  unfold pack_H. intros v b H.
  destruct ((0 <=? v) && (v <? 65536)) eqn:E; inversion H. split; [lia | reflexivity].
Qed.

Lemma pack_h_Some : forall v b, pack_h v = Some b ->
  -32768 <= v < 32768 /\ b = be16 (v mod 65536).
Proof.
  unfold pack_h. intros v b H.
  destruct ((-32768 <=? v) && (v <? 32768)) eqn:E; inversion H. split; [lia | reflexivity].
Qed.

Lemma pack_L_Some : forall v b, pack_L v = Some b -> 0 <= v < 4294967296 /\ b = be32 v.
Proof.
  unfold pack_L. intros v b H.
  destruct ((0 <=? v) && (v <? 4294967296)) eqn:E; inversion H. split; [lia | reflexivity].
Qed.

Lemma pack_l_Some : forall v b, pack_l v = Some b ->
  -2147483648 <= v < 2147483648 /\ b = be32 (v mod 4294967296).
Proof.
  unfold pack_l. intros v b H.
  destruct ((-2147483648 <=? v) && (v <? 2147483648)) eqn:E; inversion H. split; [lia | reflexivity].
Qed.

Lemma be16_bytes : forall v, 0 <= v < 65536 -> all_bytes (be16 v).
Proof. intros. unfold be16. repeat constructor; unfold is_byte; lia. Qed.

Lemma be32_bytes : forall v, 0 <= v < 4294967296 -> all_bytes (be32 v).
Proof. intros. unfold be32. repeat constructor; unfold is_byte; lia. Qed.

Lemma un16_be16 : forall v, un16 (v / 256) (v mod 256) = v.
Proof. intros. unfold un16. lia. Qed.

Lemma un32_be32 : forall v, 0 <= v ->
  un32 (v / 16777216) ((v / 65536) mod 256) ((v / 256) mod 256) (v mod 256) = v.
Proof. intros. unfold un32. lia. Qed.

Lemma sgn16_mod : forall v, -32768 <= v < 32768 -> sgn16 (v mod 65536) = v.
Proof. intros. unfold sgn16. destruct (_ <? _) eqn:E; lia. Qed.

Lemma sgn32_mod : forall v, -2147483648 <= v < 2147483648 -> sgn32 (v mod 4294967296) = v.
Proof. intros. unfold sgn32. destruct (_ <? _) eqn:E; lia. Qed.

Lemma un16_range : forall a b, is_byte a -> is_byte b -> 0 <= un16 a b < 65536.
Proof. unfold is_byte, un16. intros. lia. Qed.

Lemma be16_un16 : forall a b, is_byte a -> is_byte b -> be16 (un16 a b) = [a; b].
Proof.
  unfold is_byte, un16, be16. intros a b Ha Hb.
  f_equal; [lia | f_equal; lia].
Qed.

Lemma pad_even : forall s, Z.even (zlen (pad s)) = true.
Proof.
  intros. unfold pad. destruct (Z.odd (zlen s)) eqn:E.
  - rewrite zlen_app, zlen_cons, zlen_nil. rewrite Z.even_add.
    rewrite <- Z.negb_odd, E. reflexivity.
  - rewrite <- Z.negb_odd, E. reflexivity.
Qed.

Lemma encode_ascii_Some : forall s b, encode_ascii s = Some b ->
  b = s /\ Forall (fun c => 0 <= c < 128) s.
Proof.
  unfold encode_ascii. intros s b H. destruct (forallb is_ascii s) eqn:E; inversion H; subst b.
  split; [reflexivity|]. apply Forall_forall. intros x Hx.
  rewrite forallb_forall in E. specialize (E _ Hx). unfold is_ascii in E. lia.
Qed.

Lemma ascii_bytes : forall s, Forall (fun c => 0 <= c < 128) s -> all_bytes s.
Proof. intros. eapply Forall_impl; [|exact H]. unfold is_byte. intros; lia. Qed.

Lemma forallb_ascii : forall s, Forall (fun c => 0 <= c < 128) s -> forallb is_ascii s = true.
Proof.
  intros s H. apply forallb_forall. rewrite Forall_forall in H. intros x Hx.
  specialize (H _ Hx). unfold is_ascii. lia.
Qed.

(** Packing and unpacking lists of integers. *)

Lemma unpack_H_be16 : forall vs, unpack_H (flat_map be16 vs) = Some vs.
Proof.
  induction vs as [|v vs IH]; [reflexivity|].
  cbn [flat_map be16 app unpack_H]. rewrite IH, un16_be16. reflexivity.
Qed.

Lemma unpack_h_be16 : forall vs, Forall (fun v => -32768 <= v < 32768) vs ->
  unpack_h (flat_map (fun v => be16 (v mod 65536)) vs) = Some vs.
Proof.
  intros vs H. unfold unpack_h.
  replace (flat_map (fun v => be16 (v mod 65536)) vs)
    with (flat_map be16 (map (fun v => v mod 65536) vs)).
  - rewrite unpack_H_be16. f_equal. rewrite map_map.
    rewrite <- (map_id vs) at 2. apply map_ext_in. intros a Ha.
    rewrite Forall_forall in H. apply sgn16_mod. auto.
  - clear H. induction vs; [reflexivity|]. cbn [map flat_map]. rewrite IHvs. reflexivity.
Qed.

Lemma unpack_L_be32 : forall vs, Forall (fun v => 0 <= v) vs ->
  unpack_L (flat_map be32 vs) = Some vs.
Proof.
  induction vs as [|v vs IH]; intros H; [reflexivity|].
  inversion H; subst.
  cbn [flat_map be32 app unpack_L]. rewrite IH by assumption.
  rewrite un32_be32 by assumption. reflexivity.
Qed.

Lemma unpack_l_be32 : forall vs, Forall (fun v => -2147483648 <= v < 2147483648) vs ->
  unpack_l (flat_map (fun v => be32 (v mod 4294967296)) vs) = Some vs.
Proof.
  intros vs H. unfold unpack_l.
  replace (flat_map (fun v => be32 (v mod 4294967296)) vs)
    with (flat_map be32 (map (fun v => v mod 4294967296) vs)).
  - rewrite unpack_L_be32.
    + f_equal. rewrite map_map.
      rewrite <- (map_id vs) at 2. apply map_ext_in. intros a Ha.
      rewrite Forall_forall in H. apply sgn32_mod. auto.
    + apply Forall_forall. intros x Hx. apply in_map_iff in Hx.
      destruct Hx as (y & <- & _). apply Z.mod_pos_bound. lia.
  - clear H. induction vs; [reflexivity|]. cbn [map flat_map]. rewrite IHvs. reflexivity.
Qed.

Lemma zlen_flat_be32 : forall vs, zlen (flat_map (fun v => be32 (v mod 4294967296)) vs) = 4 * zlen vs.
Proof.
  induction vs; [reflexivity|]. cbn [flat_map]. rewrite zlen_app, IHvs, zlen_cons.
  unfold be32. rewrite !zlen_cons, zlen_nil. lia.
Qed.

Lemma zlen_flat_be16 : forall vs, zlen (flat_map (fun v => be16 (v mod 65536)) vs) = 2 * zlen vs.
Proof.
  induction vs; [reflexivity|]. cbn [flat_map]. rewrite zlen_app, IHvs, zlen_cons.
  unfold be16. rewrite !zlen_cons, zlen_nil. lia.
Qed.

Lemma all_bytes_app : forall a b, all_bytes (a ++ b) <-> all_bytes a /\ all_bytes b.
Proof. intros. apply Forall_app. Qed.

Lemma all_bytes_flat_be32 : forall vs,
  all_bytes (flat_map (fun v => be32 (v mod 4294967296)) vs).
Proof.
  induction vs; [constructor|]. cbn [flat_map]. apply all_bytes_app. split; [|assumption].
  apply be32_bytes. apply Z.mod_pos_bound. lia.
Qed.

Lemma all_bytes_flat_be16 : forall vs,
  all_bytes (flat_map (fun v => be16 (v mod 65536)) vs).
Proof.
  induction vs; [constructor|]. cbn [flat_map]. apply all_bytes_app. split; [|assumption].
  apply be16_bytes. apply Z.mod_pos_bound. lia.
Qed.
