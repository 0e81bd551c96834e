(** Lemmas on winding numbers of outlines with real vertices. *)

From Coq Require Import Reals Lra Lia List ZArith Bool Permutation.
From Verif Require Import Plane SpecEngine LinkHoles SpecLink SpecOffset PropEngine PropLink.
Import ListNotations.
Open Scope R_scope.

Ltac decs := repeat match goal with |- context [Rle_dec ?a ?b] => destruct (Rle_dec a b)
                            | |- context [Rlt_dec ?a ?b] => destruct (Rlt_dec a b) end.

(** An edge as the difference of two heights, seen from the left of its line. *)
Definition above (q p : pt) : Z := if Rlt_dec (snd q) (snd p) then 1%Z else 0%Z.
Lemma passes_up q a b : snd a <= snd q < snd b -> rpasses q (a, b) = if Rlt_dec 0 (rside (a, b) q) then 1%Z else 0%Z.
Proof. intro H. unfold rpasses. cbn [fst snd]. decs; try lra; reflexivity. Qed.
Lemma passes_down q a b : snd b <= snd q < snd a -> rpasses q (a, b) = if Rlt_dec (rside (a, b) q) 0 then (-1)%Z else 0%Z.
Proof. intro H. unfold rpasses. cbn [fst snd]. decs; try lra; reflexivity. Qed.
Lemma passes_flat q a b : above q a = above q b -> rpasses q (a, b) = 0%Z.
Proof. unfold above, rpasses. cbn [fst snd]. decs; try lra; intros; try reflexivity; try discriminate. Qed.
Lemma rside_rev a b q : rside (b, a) q = - rside (a, b) q.
Proof. unfold rside. cbn [fst snd]. ring. Qed.
Lemma passes_rev q a b : rpasses q (b, a) = (- rpasses q (a, b))%Z.
Proof.
  unfold rpasses. rewrite rside_rev. cbn [fst snd]. decs; try lra; reflexivity.
Qed.
Lemma passes_same q a : rpasses q (a, a) = 0%Z.
Proof. apply passes_flat. reflexivity. Qed.
(** Every crossing on the left, or on the right. *)
Lemma passes_left q a b : (snd a <= snd q < snd b -> rside (a, b) q <= 0) -> (snd b <= snd q < snd a -> 0 <= rside (a, b) q) ->
  rpasses q (a, b) = 0%Z.
Proof.
  intros U D. unfold rpasses. cbn [fst snd]. decs; try reflexivity.
  - exfalso. specialize (U (conj r r0)). lra.
  - exfalso. assert (snd b <= snd q < snd a) as K by lra. specialize (D K). lra.
Qed.
Lemma passes_right q a b : (snd a <= snd q < snd b -> 0 < rside (a, b) q) -> (snd b <= snd q < snd a -> rside (a, b) q < 0) ->
  rpasses q (a, b) = (above q b - above q a)%Z.
Proof.
  intros U D. unfold rpasses, above. cbn [fst snd]. decs; try reflexivity; lra.
Qed.

(** Sums *)
Lemma sum_edges_fst : forall (A : Type) (f : A -> Z) l, sum_over (fun e => f (fst e)) (edges l) = sum_over f l.
Proof.
  intros A f [|p r]; [reflexivity|]. unfold edges.
  assert (G : forall (l m : list A), (length l <= length m)%nat -> sum_over (fun e : A * A => f (fst e)) (combine l m) = sum_over f l).
  { induction l as [|x l IH]; intros [|y m] L; try reflexivity; [cbn in L; lia|]. cbn [combine]. rewrite !sum_cons. cbn [fst]. rewrite IH; [reflexivity|cbn in L; lia]. }
  apply G. rewrite app_length. cbn [length]. lia.
Qed.
Lemma sum_edges_snd : forall (A : Type) (f : A -> Z) l, sum_over (fun e => f (snd e)) (edges l) = sum_over f l.
Proof.
  intros A f [|p r]; [reflexivity|]. unfold edges.
  assert (G : forall (l m : list A), (length m <= length l)%nat -> sum_over (fun e : A * A => f (snd e)) (combine l m) = sum_over f m).
  { induction l as [|x l IH]; intros [|y m] L; try reflexivity; [cbn in L; lia|]. cbn [combine]. rewrite !sum_cons. cbn [snd]. rewrite IH; [reflexivity|cbn in L; lia]. }
  rewrite G by (rewrite app_length; cbn [length]; lia). rewrite sum_app, !sum_cons. cbn. lia.
Qed.
Lemma sum_ext_in : forall (A : Type) (f g : A -> Z) l, (forall x, In x l -> f x = g x) -> sum_over f l = sum_over g l.
Proof. intros A f g l. induction l as [|x l IH]; intro H; [reflexivity|]. rewrite !sum_cons, (H x), IH; [reflexivity| |now left]. intros y I. apply H. now right. Qed.
Lemma sum_plus : forall (A : Type) (f g : A -> Z) l, sum_over (fun x => f x + g x)%Z l = (sum_over f l + sum_over g l)%Z.
Proof. intros A f g l. induction l as [|x l IH]; [reflexivity|]. rewrite !sum_cons, IH. lia. Qed.
Lemma sum_opp : forall (A : Type) (f : A -> Z) l, sum_over (fun x => - f x)%Z l = (- sum_over f l)%Z.
Proof. intros A f l. induction l as [|x l IH]; [reflexivity|]. rewrite !sum_cons, IH. lia. Qed.
Lemma sum_zero : forall (A : Type) (f : A -> Z) l, (forall x, In x l -> f x = 0%Z) -> sum_over f l = 0%Z.
Proof. intros A f l. induction l as [|x l IH]; intro H; [reflexivity|]. rewrite sum_cons, (H x), IH; [reflexivity| |now left]. intros y I. apply H. now right. Qed.
Lemma sum_nonneg : forall (A : Type) (f : A -> Z) l, (forall x, In x l -> 0 <= f x)%Z -> (0 <= sum_over f l)%Z.
Proof. intros A f l. induction l as [|x l IH]; intro H; [cbn; lia|]. rewrite sum_cons. assert (0 <= f x)%Z by (apply H; now left). assert (0 <= sum_over f l)%Z by (apply IH; intros y I; apply H; now right). lia. Qed.
Lemma sum_one : forall (A : Type) (f : A -> Z) l x, In x l -> (forall x, In x l -> 0 <= f x)%Z -> (f x <= sum_over f l)%Z.
Proof.
  intros A f l. induction l as [|y l IH]; intros x I H; [destruct I|]. rewrite sum_cons.
  assert (0 <= sum_over f l)%Z by (apply sum_nonneg; intros z K; apply H; now right). assert (0 <= f y)%Z by (apply H; now left).
  destruct I as [->|I]; [lia|]. assert (f x <= sum_over f l)%Z by (apply IH; [exact I|intros z K; apply H; now right]). lia.
Qed.
Lemma sum_some : forall (A : Type) (f : A -> Z) l, sum_over f l <> 0%Z -> exists x, In x l /\ f x <> 0%Z.
Proof.
  intros A f l H. induction l as [|y l IH]; [now destruct H|]. rewrite sum_cons in H.
  destruct (Z.eq_dec (f y) 0) as [E|E]; [|exists y; split; [now left|exact E]].
  destruct IH as (x & I & Hx); [lia|]. exists x. split; [now right|exact Hx].
Qed.

(** An outline in an open half plane next to [q] does not go around [q]. *)
Lemma half_side : forall q a b x y, 0 < a * (fst x - fst q) + b * (snd x - snd q) -> 0 < a * (fst y - fst q) + b * (snd y - snd q) ->
  (snd x <= snd q < snd y -> 0 < a * rside (x, y) q) /\ (snd y <= snd q < snd x -> a * rside (x, y) q < 0).
Proof.
  intros q a b x y Kx Ky. unfold rside. cbn [fst snd].
  set (A := a * (fst x - fst q) + b * (snd x - snd q)) in *. set (B := a * (fst y - fst q) + b * (snd y - snd q)) in *.
  assert (E : a * ((fst y - fst x) * (snd q - snd x) - (snd y - snd x) * (fst q - fst x)) = A * (snd y - snd q) + B * (snd q - snd x)).
  { unfold A, B. ring. }
  rewrite E. clearbody A B. split; intro L; nra.
Qed.
Lemma half_plane : forall q a b l, (forall p, In p l -> 0 < a * (fst p - fst q) + b * (snd p - snd q)) -> around q l = 0%Z.
Proof.
  intros q a b l H. unfold around.
  assert (K : forall e, In e (edges l) -> 0 < a * (fst (fst e) - fst q) + b * (snd (fst e) - snd q) /\ 0 < a * (fst (snd e) - fst q) + b * (snd (snd e) - snd q)).
  { intros [x y] I. cbn [fst snd]. destruct l as [|p r]; [destruct I|]. unfold edges in I. split; apply H.
    - now apply in_combine_l in I.
    - apply in_combine_r in I. apply in_app_iff in I. destruct I as [I|[<-|[]]]; [now right|now left]. }
  destruct (Rlt_dec 0 a) as [A|A].
  - rewrite (sum_ext_in _ _ (fun e => above q (snd e) + - above q (fst e))%Z).
    + rewrite sum_plus, (sum_edges_snd _ (above q)), (sum_edges_fst _ (fun p => - above q p)%Z), sum_opp. lia.
    + intros [x y] I. destruct (K _ I) as [Kx Ky]. cbn [fst snd] in *. destruct (half_side q a b x y Kx Ky) as [U D].
      rewrite passes_right; [lia| |]; intro L; [specialize (U L)|specialize (D L)]; nra.
  - apply sum_zero. intros [x y] I. destruct (K _ I) as [Kx Ky]. cbn [fst snd] in *. destruct (half_side q a b x y Kx Ky) as [U D].
    apply passes_left; intro L; [specialize (U L)|specialize (D L)]; nra.
Qed.

(** ** Chains *)

(** The edges of an outline from a first to a last vertex. *)
Fixpoint open (q : pt) (l : list pt) : Z :=
  match l with
  | a :: (b :: _) as r => (rpasses q (a, b) + open q r)%Z
  | _ => 0%Z
  end.
Lemma open_cons q a b r : open q (a :: b :: r) = (rpasses q (a, b) + open q (b :: r))%Z.
Proof. reflexivity. Qed.
Lemma open_app : forall q l m d, l <> [] -> m <> [] -> open q (l ++ m) = (open q l + rpasses q (last l d, hd d m) + open q m)%Z.
Proof.
  intros q l m d. induction l as [|a l IH]; intros L M; [now destruct L|]. destruct l as [|b l].
  - destruct m as [|c m]; [now destruct M|]. cbn [app last hd]. rewrite open_cons. reflexivity.
  - change ((a :: b :: l) ++ m) with (a :: b :: (l ++ m)). rewrite !open_cons. change (b :: l ++ m) with ((b :: l) ++ m).
    rewrite IH; [|discriminate|exact M]. change (last (a :: b :: l) d) with (last (b :: l) d). lia.
Qed.
Lemma edges_combine : forall q r (p z : pt), sum_over (rpasses q) (combine (p :: r) (r ++ [z])) = open q ((p :: r) ++ [z]).
Proof.
  intros q r. induction r as [|x r IH]; intros p z.
  - cbn [combine app]. rewrite sum_cons. cbn. reflexivity.
  - change ((x :: r) ++ [z]) with (x :: (r ++ [z])). change (combine (p :: x :: r) (x :: r ++ [z])) with ((p, x) :: combine (x :: r) (r ++ [z])).
    rewrite sum_cons, IH. reflexivity.
Qed.
Lemma around_open : forall q p r, around q (p :: r) = open q ((p :: r) ++ [p]).
Proof. intros q p r. unfold around, edges. apply edges_combine. Qed.
Lemma around_hd : forall q l d, l <> [] -> around q l = (open q l + rpasses q (last l d, hd d l))%Z.
Proof.
  intros q [|p r] d H; [now destruct H|]. rewrite around_open, (open_app q (p :: r) [p] d) by discriminate. cbn [hd open]. lia.
Qed.

(** The edges of a list of pieces. *)
Lemma around_concat : forall q d (ls : list (list pt)), Forall (fun l => l <> []) ls ->
  around q (concat ls) = (sum_over (open q) ls + sum_over (fun e => rpasses q (last (fst e) d, hd d (snd e))) (edges ls))%Z.
Proof.
  intros q d ls F. destruct ls as [|l ls]; [reflexivity|].
  assert (G : forall ms m z, m <> [] -> Forall (fun l => l <> []) ms -> z <> [] ->
            (open q (m ++ concat ms) + rpasses q (last (m ++ concat ms) d, hd d z))%Z =
            (sum_over (open q) (m :: ms) + sum_over (fun e => rpasses q (last (fst e) d, hd d (snd e))) (combine (m :: ms) (ms ++ [z])))%Z).
  { induction ms as [|x ms IH]; intros m z M Fm Z.
    - cbn [concat combine app]. rewrite app_nil_r, !sum_cons. cbn [fst snd sum_over fold_right]. unfold sum_over; cbn [fold_right]. lia.
    - inversion Fm; subst. change (concat (x :: ms)) with (x ++ concat ms). change ((x :: ms) ++ [z]) with (x :: (ms ++ [z])).
      change (combine (m :: x :: ms) (x :: ms ++ [z])) with ((m, x) :: combine (x :: ms) (ms ++ [z])).
      assert (N : x ++ concat ms <> []) by (destruct x; [now destruct H1|discriminate]).
      rewrite (open_app q m (x ++ concat ms) d M N). rewrite !sum_cons. specialize (IH x z H1 H2 Z). rewrite sum_cons in IH. cbn [fst snd].
      assert (E1 : hd d (x ++ concat ms) = hd d x) by (destruct x; [now destruct H1|reflexivity]).
      assert (E2 : last (m ++ x ++ concat ms) d = last (x ++ concat ms) d).
      { clear - N. revert N. generalize (x ++ concat ms). intros y N. induction m as [|a m IH]; [reflexivity|].
        cbn [app]. destruct (m ++ y) eqn:K; [destruct m; [now destruct N|discriminate]|]. exact IH. }
      rewrite E1, E2. lia. }
  inversion F; subst.
  assert (N : concat (l :: ls) <> []) by (cbn [concat]; destruct l; [now destruct H1|discriminate]).
  rewrite (around_hd q _ d N).
  assert (E1 : hd d (concat (l :: ls)) = hd d l) by (cbn [concat]; destruct l; [now destruct H1|reflexivity]).
  rewrite E1. change (concat (l :: ls)) with (l ++ concat ls). rewrite (G ls l l H1 H2 H1). reflexivity.
Qed.

(** ** Triangles, fans and strips *)
Lemma around3 q a b c : around q [a; b; c] = (rpasses q (a, b) + rpasses q (b, c) + rpasses q (c, a))%Z.
Proof. unfold around, edges. cbn [app combine]. rewrite !sum_cons. unfold sum_over. cbn [fold_right]. lia. Qed.
Lemma around4 q a b c d : around q [a; b; c; d] = (rpasses q (a, b) + rpasses q (b, c) + rpasses q (c, d) + rpasses q (d, a))%Z.
Proof. unfold around, edges. cbn [app combine]. rewrite !sum_cons. unfold sum_over. cbn [fold_right]. lia. Qed.
Lemma split_quad q a b c d : around q [a; b; c; d] = (around q [a; b; d] + around q [b; c; d])%Z.
Proof. rewrite around4, !around3. rewrite (passes_rev q b d). lia. Qed.
Lemma around3_rev q a b c : around q [a; c; b] = (- around q [a; b; c])%Z.
Proof. rewrite !around3. rewrite (passes_rev q a c), (passes_rev q b c), (passes_rev q a b). lia. Qed.

(** The triangles between a point and the edges of a chain. *)
Fixpoint fan (v : pt) (l : list pt) : list (list pt) :=
  match l with
  | a :: (b :: _) as r => [v; a; b] :: fan v r
  | _ => []
  end.
Lemma fan_sum : forall q v l d, l <> [] ->
  sum_over (around q) (fan v l) = (open q l + rpasses q (v, hd d l) - rpasses q (v, last l d))%Z.
Proof.
  intros q v l d. induction l as [|a l IH]; intro L; [now destruct L|]. destruct l as [|b l].
  - cbn. lia.
  - change (fan v (a :: b :: l)) with ([v; a; b] :: fan v (b :: l)). rewrite sum_cons, IH, around3, open_cons by discriminate.
    cbn [hd]. change (last (a :: b :: l) d) with (last (b :: l) d). rewrite (passes_rev q v b). lia.
Qed.
(** An outline taken apart: chains [P] given for each vertex [v] of another outline. *)
Lemma apart_sum : forall q d (bs : list (pt * list pt)), Forall (fun b => snd b <> []) bs ->
  around q (concat (map snd bs)) =
  (around q (map fst bs) + sum_over (fun b => sum_over (around q) (fan (fst b) (snd b))) bs +
   sum_over (fun e => around q [fst (fst e); last (snd (fst e)) d; hd d (snd (snd e)); fst (snd e)]) (edges bs))%Z.
Proof.
  intros q d bs F.
  assert (EM : forall (A B : Type) (f : A -> B) l, edges (map f l) = map (fun e => (f (fst e), f (snd e))) (edges l)).
  { clear. intros A B f [|p r]; [reflexivity|]. unfold edges. cbn [map].
    change (f p :: map f r) with (map f (p :: r)). replace (map f r ++ [f p]) with (map f (r ++ [p])) by (rewrite map_app; reflexivity).
    generalize (p :: r) (r ++ [p]). clear. induction l as [|x l IH]; intros [|y m]; try reflexivity. cbn [map combine fst snd]. now rewrite IH. }
  assert (SM : forall (A B : Type) (f : A -> B) (g : B -> Z) l, sum_over g (map f l) = sum_over (fun x => g (f x)) l).
  { clear. intros A B f g l. induction l as [|x l IH]; [reflexivity|]. cbn [map]. now rewrite !sum_cons, IH. }
  rewrite (around_concat q d).
  2:{ apply Forall_forall. intros l I. apply in_map_iff in I. destruct I as (b & <- & I). now apply (proj1 (Forall_forall _ _) F). }
  change (around q (map fst bs)) with (sum_over (rpasses q) (edges (map fst bs))). rewrite !EM, !SM. cbn [fst snd].
  rewrite (sum_ext_in _ (fun e => around q [fst (fst e); last (snd (fst e)) d; hd d (snd (snd e)); fst (snd e)])
    (fun e => (rpasses q (fst (fst e), last (snd (fst e)) d) + rpasses q (last (snd (fst e)) d, hd d (snd (snd e))))
              + (- rpasses q (fst (snd e), hd d (snd (snd e))) + - rpasses q (fst (fst e), fst (snd e))))%Z).
  2:{ intros e _. rewrite around4. rewrite (passes_rev q (fst (snd e)) (hd d (snd (snd e)))), (passes_rev q (fst (fst e)) (fst (snd e))). lia. }
  rewrite !sum_plus, !sum_opp.
  rewrite (sum_edges_fst _ (fun b => rpasses q (fst b, last (snd b) d)) bs).
  rewrite (sum_edges_snd _ (fun b => rpasses q (fst b, hd d (snd b))) bs).
  rewrite (sum_ext_in _ (fun b => sum_over (around q) (fan (fst b) (snd b)))
    (fun b => open q (snd b) + rpasses q (fst b, hd d (snd b)) + - rpasses q (fst b, last (snd b) d))%Z).
  2:{ intros b I. rewrite (fan_sum q (fst b) (snd b) d); [lia|]. now apply (proj1 (Forall_forall _ _) F). }
  rewrite !sum_plus, sum_opp. lia.
Qed.

(** Convex combinations *)
Definition in_triangle (a b c q : pt) : Prop :=
  exists x y z, 0 <= x /\ 0 <= y /\ 0 <= z /\ x + y + z = 1 /\
    fst q = x * fst a + y * fst b + z * fst c /\ snd q = x * snd a + y * snd b + z * snd c.
Definition cross3 (a b c : pt) : R := (fst b - fst a) * (snd c - snd a) - (snd b - snd a) * (fst c - fst a).
Lemma sides_total a b c q : rside (a, b) q + rside (b, c) q + rside (c, a) q = cross3 a b c.
Proof. unfold rside, cross3. cbn [fst snd]. ring. Qed.
Lemma up_count q a b : 0 <= rside (a, b) q -> rpasses q (a, b) = 0%Z \/ rpasses q (a, b) = 1%Z /\ snd a <= snd q < snd b /\ 0 < rside (a, b) q.
Proof. intro H. unfold rpasses. cbn [fst snd]. decs; try lra; auto; right; repeat split; lra. Qed.
(** On the left of all sides, the number is zero or one. *)
Lemma triangle_inner q a b c : 0 <= rside (a, b) q -> 0 <= rside (b, c) q -> 0 <= rside (c, a) q -> (0 <= around q [a; b; c] <= 1)%Z.
Proof.
  intros A B C. rewrite around3.
  destruct (up_count q a b A) as [->|(-> & Ha & _)]; destruct (up_count q b c B) as [->|(-> & Hb & _)];
    destruct (up_count q c a C) as [->|(-> & Hc & _)]; try lia; lra.
Qed.
Lemma triangle_outer q a b c : 0 < cross3 a b c -> rside (a, b) q < 0 \/ rside (b, c) q < 0 \/ rside (c, a) q < 0 -> around q [a; b; c] = 0%Z.
Proof.
  intros P [H|[H|H]].
  - apply (half_plane q (- (snd b - snd a)) (fst b - fst a)). unfold rside, cross3 in *. cbn [fst snd In] in *.
    intros p [<-|[<-|[<-|[]]]]; nra.
  - apply (half_plane q (- (snd c - snd b)) (fst c - fst b)). unfold rside, cross3 in *. cbn [fst snd In] in *.
    intros p [<-|[<-|[<-|[]]]]; nra.
  - apply (half_plane q (- (snd a - snd c)) (fst a - fst c)). unfold rside, cross3 in *. cbn [fst snd In] in *.
    intros p [<-|[<-|[<-|[]]]]; nra.
Qed.
(** Points in a row. *)
Lemma triangle_flat q a b c : cross3 a b c = 0 -> around q [a; b; c] = 0%Z.
Proof.
  intro E. rewrite around3.
  (* the side of each edge is that of the whole line, with the height of the edge as a factor *)
  assert (K : forall x y z : pt, cross3 x y z = 0 -> snd x <> snd y ->
             exists m s, rside (x, y) q = (snd y - snd x) * m /\ (fst z - fst x) = s * (snd z - snd x) /\ (fst y - fst x) = s * (snd y - snd x) /\ m = s * (snd q - snd x) - (fst q - fst x)).
  { clear. intros x y z E N. unfold cross3, rside in *. cbn [fst snd] in *.
    exists ((fst y - fst x) / (snd y - snd x) * (snd q - snd x) - (fst q - fst x)), ((fst y - fst x) / (snd y - snd x)).
    assert (snd y - snd x <> 0) by lra. repeat split; try field; try lra.
    field_simplify_eq; lra. }
  assert (L : exists m, rside (a, b) q = (snd b - snd a) * m /\ rside (b, c) q = (snd c - snd b) * m /\ rside (c, a) q = (snd a - snd c) * m
            \/ snd a = snd b /\ snd b = snd c).
  { destruct (Req_dec (snd a) (snd b)) as [Eab|Nab].
    - destruct (Req_dec (snd b) (snd c)) as [Ebc|Nbc]; [exists 0; right; split; assumption|].
      destruct (K b c a) as (m & s & H1 & H2 & H3 & ->); [unfold cross3 in *; lra|exact Nbc|].
      eexists. left. unfold rside in *. cbn [fst snd] in *. split; [|split; [exact H1|]].
      + replace (fst b) with (fst a - s * (snd a - snd b)) by lra. rewrite Eab. ring.
      + replace (fst a) with (fst b + s * (snd a - snd b)) by lra. replace (fst c) with (fst b + s * (snd c - snd b)) by lra. rewrite Eab. ring.
    - destruct (K a b c E Nab) as (m & s & H1 & H2 & H3 & ->).
      eexists. left. split; [exact H1|]. unfold rside in *. cbn [fst snd] in *.
      replace (fst b) with (fst a + s * (snd b - snd a)) by lra. replace (fst c) with (fst a + s * (snd c - snd a)) by lra. split; ring. }
  destruct L as (m & [(H1 & H2 & H3)|[H1 H2]]).
  - unfold rpasses. rewrite H1, H2, H3. cbn [fst snd].
    decs; try lia; exfalso; try lra; nra.
  - unfold rpasses. cbn [fst snd]. rewrite H1, H2. decs; try lia; lra.
Qed.
Lemma triangle_count q a b c : 0 <= cross3 a b c -> (0 <= around q [a; b; c] <= 1)%Z.
Proof.
  intro P. destruct (Req_dec (cross3 a b c) 0) as [E|E]; [rewrite triangle_flat by exact E; lia|].
  destruct (Rlt_dec (rside (a, b) q) 0) as [H|H]; [rewrite triangle_outer; [lia|lra|now left]|].
  destruct (Rlt_dec (rside (b, c) q) 0) as [G|G]; [rewrite triangle_outer; [lia|lra|right; now left]|].
  destruct (Rlt_dec (rside (c, a) q) 0) as [F|F]; [rewrite triangle_outer; [lia|lra|right; now right]|].
  apply triangle_inner; lra.
Qed.
Lemma triangle_in q a b c : 0 <= cross3 a b c -> around q [a; b; c] <> 0%Z -> in_triangle a b c q.
Proof.
  intros P N. destruct (Req_dec (cross3 a b c) 0) as [E|E]; [now rewrite triangle_flat in N|].
  assert (P' : 0 < cross3 a b c) by lra.
  assert (H : 0 <= rside (a, b) q) by (apply Rnot_lt_le; intro H; apply N, triangle_outer; [exact P'|now left]).
  assert (G : 0 <= rside (b, c) q) by (apply Rnot_lt_le; intro G; apply N, triangle_outer; [exact P'|right; now left]).
  assert (F : 0 <= rside (c, a) q) by (apply Rnot_lt_le; intro F; apply N, triangle_outer; [exact P'|right; now right]).
  exists (rside (b, c) q / cross3 a b c), (rside (c, a) q / cross3 a b c), (rside (a, b) q / cross3 a b c).
  assert (I : 0 < / cross3 a b c) by now apply Rinv_0_lt_compat.
  unfold Rdiv. repeat split; try (apply Rmult_le_pos; lra).
  - rewrite <- !Rmult_plus_distr_r. replace (rside (b, c) q + rside (c, a) q + rside (a, b) q) with (cross3 a b c) by (rewrite <- (sides_total a b c q); ring). field. exact E.
  - apply Rmult_eq_reg_l with (cross3 a b c); [|exact E]. field_simplify_eq; [|exact E]. unfold cross3, rside. cbn [fst snd]. ring.
  - apply Rmult_eq_reg_l with (cross3 a b c); [|exact E]. field_simplify_eq; [|exact E]. unfold cross3, rside. cbn [fst snd]. ring.
Qed.

(** On the left of four sides. *)
Lemma quad_in q a b c d : 0 < rside (a, b) q -> 0 < rside (b, c) q -> 0 < rside (c, d) q -> 0 < rside (d, a) q ->
  (1 <= around q [a; b; c; d])%Z.
Proof.
  intros A B C D. rewrite around4.
  assert (UP : forall x y, 0 < rside (x, y) q -> (rpasses q (x, y) = 1 \/ rpasses q (x, y) = 0)%Z /\ (rpasses q (x, y) = 0%Z -> snd x <= snd q -> snd y <= snd q)).
  { clear. intros x y H. unfold rpasses. cbn [fst snd]. decs; try lra; split; auto; intros; try discriminate; lra. }
  destruct (UP _ _ A) as [Ka La]. destruct (UP _ _ B) as [Kb Lb]. destruct (UP _ _ C) as [Kc Lc]. destruct (UP _ _ D) as [Kd Ld]. clear UP.
  destruct Ka as [Ka|Ka]; [lia|]. destruct Kb as [Kb|Kb]; [lia|]. destruct Kc as [Kc|Kc]; [lia|]. destruct Kd as [Kd|Kd]; [lia|].
  specialize (La Ka). specialize (Lb Kb). specialize (Lc Kc). specialize (Ld Kd). exfalso. clear Ka Kb Kc Kd.
  assert (X : forall x y, rside (x, y) q = (fst x - fst q) * (snd y - snd q) - (fst y - fst q) * (snd x - snd q)) by (intros; unfold rside; cbn [fst snd]; ring).
  rewrite X in A, B, C, D. clear X.
  set (ax := fst a - fst q) in *. set (bx := fst b - fst q) in *. set (cx := fst c - fst q) in *. set (dx := fst d - fst q) in *.
  assert (La' : snd a - snd q <= 0 -> snd b - snd q <= 0) by (intro; assert (snd b <= snd q) by (apply La; lra); lra).
  assert (Lb' : snd b - snd q <= 0 -> snd c - snd q <= 0) by (intro; assert (snd c <= snd q) by (apply Lb; lra); lra).
  assert (Lc' : snd c - snd q <= 0 -> snd d - snd q <= 0) by (intro; assert (snd d <= snd q) by (apply Lc; lra); lra).
  assert (Ld' : snd d - snd q <= 0 -> snd a - snd q <= 0) by (intro; assert (snd a <= snd q) by (apply Ld; lra); lra).
  clear La Lb Lc Ld.
  set (ay := snd a - snd q) in *. set (by_ := snd b - snd q) in *. set (cy := snd c - snd q) in *. set (dy := snd d - snd q) in *.
  clearbody ax ay bx by_ cx cy dx dy. clear a b c d q.
  assert (E1 : (ax * cy - cx * ay) * by_ = (ax * by_ - bx * ay) * cy + (bx * cy - cx * by_) * ay) by ring.
  assert (E2 : (ax * dy - dx * ay) * cy = (ax * cy - cx * ay) * dy + (cx * dy - dx * cy) * ay) by ring.
  set (s1 := ax * by_ - bx * ay) in *. set (s2 := bx * cy - cx * by_) in *. set (s3 := cx * dy - dx * cy) in *.
  set (s4 := ax * cy - cx * ay) in *. assert (E3 : dx * ay - ax * dy = - (ax * dy - dx * ay)) by ring. rewrite E3 in D. set (s5 := ax * dy - dx * ay) in *.
  destruct (Rle_dec ay 0) as [H|H].
  - assert (by_ <= 0) by auto. assert (cy <= 0) by auto. assert (dy <= 0) by auto.
    assert (by_ < 0). { destruct (Req_dec by_ 0) as [Z|Z]; [|lra]. exfalso. unfold s1, s2 in A, B. rewrite Z in A, B. clear - A B H0 H1 H2 H. destruct (Rle_dec bx 0); nra. }
    assert (cy < 0). { destruct (Req_dec cy 0) as [Z|Z]; [|lra]. exfalso. unfold s2, s3 in B, C. rewrite Z in B, C. clear - B C H0 H1 H2 H. destruct (Rle_dec cx 0); nra. }
    assert (ay < 0). { destruct (Req_dec ay 0) as [Z|Z]; [|lra]. exfalso. unfold s1, s5 in A, D. rewrite Z in A, D. clear - A D H0 H1 H2 H. destruct (Rle_dec ax 0); nra. }
    clearbody s1 s2 s3 s4 s5.
    assert (s4 > 0) by nra. nra.
  - assert (0 < dy) by (apply Rnot_le_lt; intro; now auto). assert (0 < cy) by (apply Rnot_le_lt; intro; now auto). assert (0 < by_) by (apply Rnot_le_lt; intro; now auto).
    clearbody s1 s2 s3 s4 s5. assert (s4 > 0) by nra. nra.
Qed.

(** ** Moving vertices *)
Lemma nearest_on : forall a b q : pt, exists t, 0 <= t <= 1 /\
  let c := mid a b t in
  dist2 q c <= (fst a - fst q) * (fst c - fst q) + (snd a - snd q) * (snd c - snd q) /\
  dist2 q c <= (fst b - fst q) * (fst c - fst q) + (snd b - snd q) * (snd c - snd q).
Proof.
  intros a b q. unfold mid, dist2. cbn [fst snd].
  set (dx := fst b - fst a). set (dy := snd b - snd a). set (wx := fst q - fst a). set (wy := snd q - snd a).
  assert (Eb1 : fst b = fst a + dx) by (unfold dx; ring). assert (Eb2 : snd b = snd a + dy) by (unfold dy; ring).
  assert (Eq1 : fst q = fst a + wx) by (unfold wx; ring). assert (Eq2 : snd q = snd a + wy) by (unfold wy; ring).
  rewrite Eb1, Eb2, Eq1, Eq2. clearbody dx dy wx wy.
  destruct (Rle_dec (wx * dx + wy * dy) 0) as [H|H].
  - exists 0. split; [lra|]. split; nra.
  - destruct (Rle_dec (dx * dx + dy * dy) (wx * dx + wy * dy)) as [G|G].
    + exists 1. split; [lra|]. split; nra.
    + assert (P : 0 < dx * dx + dy * dy) by lra.
      exists ((wx * dx + wy * dy) / (dx * dx + dy * dy)). split.
      * split; [apply Rmult_le_pos; [lra|left; now apply Rinv_0_lt_compat]|]. apply Rmult_le_reg_r with (dx * dx + dy * dy); [exact P|].
        unfold Rdiv. rewrite Rmult_assoc, Rinv_l by lra. lra.
      * set (t := (wx * dx + wy * dy) / (dx * dx + dy * dy)).
        assert (T : t * (dx * dx + dy * dy) = wx * dx + wy * dy) by (unfold t; field; lra). clearbody t.
        assert (Z : (t * dx - wx) * dx + (t * dy - wy) * dy = 0) by lra.
        split; nra.
Qed.
Lemma moved_quad : forall k q a b a' b', 0 <= k -> (forall t, 0 <= t <= 1 -> k < dist2 q (mid a b t)) -> dist2 a' a <= k -> dist2 b' b <= k ->
  around q [a; a'; b'; b] = 0%Z.
Proof.
  intros k q a b a' b' K H A B. destruct (nearest_on a b q) as (t & T & Ha & Hb). specialize (H t T).
  set (c := mid a b t) in *. clearbody c. clear T t.
  assert (E : dist2 q c = (fst c - fst q) * (fst c - fst q) + (snd c - snd q) * (snd c - snd q)) by (unfold dist2; ring).
  rewrite E in *. clear E. unfold dist2 in A, B.
  apply (half_plane q (fst c - fst q) (snd c - snd q)).
  set (wx := fst c - fst q) in *. set (wy := snd c - snd q) in *. clearbody wx wy.
  assert (G : forall p p' : pt, wx * wx + wy * wy <= (fst p - fst q) * wx + (snd p - snd q) * wy ->
     (fst p' - fst p) * (fst p' - fst p) + (snd p' - snd p) * (snd p' - snd p) <= k -> 0 < wx * (fst p' - fst q) + wy * (snd p' - snd q)).
  { clear - K H. intros p p' P P'. set (ux := fst p' - fst p) in *. set (uy := snd p' - snd p) in *.
    replace (fst p' - fst q) with (ux + (fst p - fst q)) by (unfold ux; ring). replace (snd p' - snd q) with (uy + (snd p - snd q)) by (unfold uy; ring).
    clearbody ux uy. set (w2 := wx * wx + wy * wy) in *. set (s := ux * wx + uy * wy).
    assert (CS : s * s <= (ux * ux + uy * uy) * w2). { unfold s, w2. assert (0 <= (ux * wy - uy * wx) * (ux * wy - uy * wx)) by apply Rle_0_sqr. nra. }
    assert (S : - w2 < s). { apply Rnot_le_lt. intro N. assert (w2 * w2 <= s * s) by nra. nra. }
    unfold s in S. nra. }
  assert (Z : 0 <= k) by exact K.
  intros p [<-|[<-|[<-|[<-|[]]]]].
  - apply (G a a); [exact Ha|]. nra.
  - now apply (G a a').
  - now apply (G b b').
  - apply (G b b); [exact Hb|]. nra.
Qed.
Lemma moved_around : forall k q l l', 0 <= k -> Forall2 (fun p p' => dist2 p' p <= k) l l' -> away k q l -> around q l' = around q l.
Proof.
  intros k q l l' K F A.
  set (bs := combine l (map (fun p => [p]) l')).
  assert (L : length l = length l') by (clear - F; induction F; cbn; congruence).
  assert (E1 : map fst bs = l). { unfold bs. clear - L. revert l' L. induction l as [|x l IH]; intros [|y l'] L; try reflexivity; [discriminate|]. cbn in *. rewrite IH by lia. reflexivity. }
  assert (E2 : concat (map snd bs) = l'). { unfold bs. clear - L. revert l' L. induction l as [|x l IH]; intros [|y l'] L; try reflexivity; [discriminate|]. cbn in *. rewrite IH by lia. reflexivity. }
  assert (B : forall b, In b bs -> exists p', snd b = [p'] /\ dist2 p' (fst b) <= k).
  { unfold bs. clear - F. induction F as [|x y l l' H F IH]; [intros b []|]. cbn [combine map]. intros b [<-|I]; [|now apply IH]. exists y. split; [reflexivity|exact H]. }
  assert (EM : edges l = map (fun e => (fst (fst e), fst (snd e))) (edges bs)).
  { rewrite <- E1. clear. destruct bs as [|p r]; [reflexivity|]. unfold edges. cbn [map].
    change (fst p :: map fst r) with (map fst (p :: r)). replace (map fst r ++ [fst p]) with (map fst (r ++ [p])) by (rewrite map_app; reflexivity).
    generalize (p :: r) (r ++ [p]). clear. induction l as [|x l IH]; intros [|y m]; try reflexivity. cbn [map combine fst snd]. now rewrite IH. }
  assert (EI : forall e, In e (edges bs) -> In (fst e) bs /\ In (snd e) bs).
  { intros [x y] I. cbn [fst snd]. destruct bs as [|p r]; [destruct I|]. unfold edges in I. split.
    - now apply in_combine_l in I.
    - apply in_combine_r in I. apply in_app_iff in I. destruct I as [I|[<-|[]]]; [now right|now left]. }
  pose proof (apart_sum q (0, 0) bs) as S. rewrite E1, E2 in S. rewrite S.
  - rewrite (sum_zero _ _ bs), (sum_zero _ _ (edges bs)); [lia| |].
    + intros e I. destruct (EI e I) as [I1 I2]. destruct (B _ I1) as (a' & -> & Ha). destruct (B _ I2) as (b' & -> & Hb). cbn [last hd].
      apply (moved_quad k); [exact K| |exact Ha|exact Hb].
      intros t T. apply (A (fst (fst e), fst (snd e)) t); [|exact T]. rewrite EM. apply in_map_iff. now exists e.
    + intros b I. destruct (B b I) as (p' & -> & _). reflexivity.
  - apply Forall_forall. intros b I. destruct (B b I) as (p' & -> & _). discriminate.
Qed.
