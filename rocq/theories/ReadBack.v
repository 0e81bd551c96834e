(** Running the reader on the records of written objects. *)

From Coq Require Import List ZArith Lia Bool.
From Coq Require Import ZifyBool ZifyNat.
From Verif Require Import Bytes Real8 Records Writer Reader Stream SpecFormat RoundTrip.
Import ListNotations.
Open Scope Z_scope.

Section Go.
Variable o : ropts.
Variable names0 : list str.

Notation steps := (steps o names0).
Notation step := (step o names0).

Lemma steps_app : forall a b s, steps s (a ++ b) = obind (steps s a) (fun s' => steps s' b).
Proof.
  induction a as [|r a IH]; intros b s; [reflexivity|].
  cbn [app Reader.steps]. destruct (step s r); [apply IH|reflexivity].
Qed.

Lemma steps_cons : forall r rs s s', step s r = Some s' -> steps s (r :: rs) = steps s' rs.
Proof. intros r rs s s' H. cbn [Reader.steps]. rewrite H. reflexivity. Qed.

(** *** One lemma per record type *)
Lemma step_layer : forall s v, step s (0x0D, DInts [v]) =
  Some (with_kw s (kw_set_layer (s_kw s) (get_or_self (o_layers o) v))).
Proof. reflexivity. Qed.
Lemma step_dt : forall s v, step s (0x0E, DInts [v]) =
  Some (with_kw s (kw_set_dt (s_kw s) (get_or_self (o_dts o) v))).
Proof. reflexivity. Qed.
Lemma step_tt : forall s v, step s (0x16, DInts [v]) =
  Some (with_kw s (kw_set_tt (s_kw s) (get_or_self (o_tts o) v))).
Proof. reflexivity. Qed.
Lemma step_xy : forall s l, step s (0x10, DInts l) =
  Some (with_kw s (kw_set_xy (s_kw s) (match k_xy (s_kw s) with Some l0 => l0 ++ l | None => l end))).
Proof. reflexivity. Qed.
Lemma step_width : forall s v, step s (0x0F, DInts [v]) =
  Some (with_kw s (kw_set_width (s_kw s) (Z.abs v) (if v <? 0 then Some false else k_wt (s_kw s)))).
Proof. reflexivity. Qed.

(** *** XY records *)

Lemma steps_xys_acc : forall cs s l0, k_xy (s_kw s) = Some l0 ->
  steps s (map xy_rec cs) = Some (with_kw s (kw_set_xy (s_kw s) (l0 ++ coords (concat cs)))).
Proof.
  induction cs as [|c cs IH]; intros s l0 H.
  - cbn. rewrite app_nil_r. destruct s as [k ? ? ? ? ? ? ?]; cbn in *. destruct k; cbn in *.
    subst. reflexivity.
  - cbn [map]. unfold xy_rec at 1. rewrite (steps_cons _ _ _ _ (step_xy s _)). rewrite H.
    erewrite IH; [|reflexivity]. cbn [concat]. rewrite coords_app, app_assoc. reflexivity.
Qed.

Lemma steps_xys : forall cs s, k_xy (s_kw s) = None -> cs <> [] ->
  steps s (map xy_rec cs) = Some (with_kw s (kw_set_xy (s_kw s) (coords (concat cs)))).
Proof.
  intros [|c cs] s H Hne; [contradiction|].
  cbn [map]. unfold xy_rec at 1. rewrite (steps_cons _ _ _ _ (step_xy s _)). rewrite H.
  erewrite steps_xys_acc; [|reflexivity]. cbn [concat]. rewrite coords_app. reflexivity.
Qed.

Lemma concat_chunks : forall A n, (0 < n)%nat -> forall f (l : list A), (length l <= f)%nat ->
  concat (chunks_fuel f n l) = l.
Proof.
  intros A n Hn. induction f as [|f IH]; intros l Hl.
  - destruct l; [reflexivity | cbn in Hl; lia].
  - destruct l as [|x l]; [reflexivity|]. cbn [chunks_fuel concat].
    rewrite IH; [apply firstn_skipn|].
    rewrite skipn_length. cbn [length] in *. lia.
Qed.

Lemma chunks_nonempty : forall A n (l : list A), l <> [] -> chunks n l <> [].
Proof. intros A n [|x l] H; [contradiction|]. discriminate. Qed.

Lemma pairs_coords : forall pts, pairs (coords pts) = Some pts.
Proof.
  induction pts as [|[x y] pts IH]; [reflexivity|].
  change (coords ((x, y) :: pts)) with (x :: y :: coords pts).
  cbn [pairs]. rewrite IH. reflexivity.
Qed.

Lemma drop_last_point : forall pts p,
  firstn (length (coords (pts ++ [p])) - 2) (coords (pts ++ [p])) = coords pts.
Proof.
  intros. rewrite coords_app, app_length. change (length (coords [p])) with 2%nat.
  replace (length (coords pts) + 2 - 2)%nat with (length (coords pts)) by lia.
  rewrite firstn_app, Nat.sub_diag, firstn_all. cbn. apply app_nil_r.
Qed.

(** *** Properties *)

Lemma dict_set_fresh : forall ps a v, ~ In a (map fst ps) -> dict_set ps a v = ps ++ [(a, v)].
Proof.
  induction ps as [|[b w] ps IH]; intros a v H; [reflexivity|].
  cbn [dict_set map fst In] in *. destruct (a =? b) eqn:E; [exfalso; apply H; left; lia|].
  rewrite IH by tauto. reflexivity.
Qed.

Lemma steps_props : forall ps k c cells op acc a ln un,
  NoDup (map fst (acc ++ ps)) ->
  Forall (fun av => fst av < 32768 /\ exists v, snd av = Some v /\ text_ok v) ps ->
  exists a', steps (RState k c cells op acc a ln un) (props_recs ps) =
             Some (RState k c cells op (acc ++ ps) a' ln un).
Proof.
  induction ps as [|[b w] ps IH]; intros k c cells op acc a ln un Hnd Hok.
  - exists a. rewrite app_nil_r. reflexivity.
  - inversion Hok as [|? ? (_ & v & Hv & _) Hok']; subst. cbn [snd] in Hv. subst w.
    unfold props_recs. cbn [flat_map]. unfold prop_recs at 1. cbn [fst snd app].
    erewrite steps_cons; [|reflexivity].
    erewrite steps_cons; [|reflexivity].
    cbn [s_kw s_create s_cells s_open s_props s_attr s_libname s_units].
    rewrite dict_set_fresh.
    + rewrite map_app in Hnd. cbn [map fst] in Hnd.
      destruct (IH k c cells op (acc ++ [(b, Some v)]) b ln un) as [a' Ha'].
      * rewrite <- app_assoc. cbn [app]. rewrite map_app. exact Hnd.
      * assumption.
      * exists a'. rewrite <- app_assoc in Ha'. exact Ha'.
    + rewrite map_app in Hnd. cbn [map fst] in Hnd. apply NoDup_remove_2 in Hnd.
      intros Hin. apply Hnd. apply in_or_app. left. exact Hin.
Qed.

(** *** Elements *)

(** The state between two elements of the current cell. *)
Definition ready (cur : cell) (rest : list cell) (ln : option ostr) (un : option (dy * dy))
           (s : rstate) : Prop :=
  exists a, s = RState kw_empty None (cur :: rest) true [] a ln un.

(** The records [ds] turn the current cell [cur] into [f cur]. *)
Definition adds (ds : list record) (f : cell -> cell) : Prop :=
  forall cur rest ln un s, ready cur rest ln un s ->
  exists s', steps s ds = Some s' /\ ready (f cur) rest ln un s'.

Lemma adds_nil : adds [] (fun c => c).
Proof. intros cur rest ln un s H. exists s. split; [reflexivity|assumption]. Qed.

Lemma adds_app : forall a b f g, adds a f -> adds b g -> adds (a ++ b) (fun c => g (f c)).
Proof.
  intros a b f g Ha Hb cur rest ln un s Hs.
  destruct (Ha _ _ _ _ _ Hs) as (s1 & E1 & R1). destruct (Hb _ _ _ _ _ R1) as (s2 & E2 & R2).
  exists s2. split; [|assumption]. rewrite steps_app, E1. exact E2.
Qed.

Lemma adds_ext : forall ds f g, (forall c, f c = g c) -> adds ds f -> adds ds g.
Proof.
  intros ds f g H Ha cur rest ln un s Hs. destruct (Ha _ _ _ _ _ Hs) as (s1 & E1 & R1).
  exists s1. split; [assumption|]. rewrite <- H. assumption.
Qed.

(** Appending elements of each kind. *)
Definition app_polys (l : list polyset) (c : cell) : cell :=
  Cell (c_name c) (c_polys c ++ l) (c_paths c) (c_labels c) (c_refs c).
Definition app_paths (l : list pathel) (c : cell) : cell :=
  Cell (c_name c) (c_polys c) (c_paths c ++ l) (c_labels c) (c_refs c).
Definition app_labels (l : list label) (c : cell) : cell :=
  Cell (c_name c) (c_polys c) (c_paths c) (c_labels c ++ l) (c_refs c).
Definition app_refs (l : list refel) (c : cell) : cell :=
  Cell (c_name c) (c_polys c) (c_paths c) (c_labels c) (c_refs c ++ l).

Lemma adds_flat : forall A B (recs : A -> list record) (els : A -> list B) (ap : list B -> cell -> cell),
  (forall c, ap [] c = c) -> (forall x y c, ap y (ap x c) = ap (x ++ y) c) ->
  forall l, Forall (fun x => adds (recs x) (ap (els x))) l ->
  adds (flat_map recs l) (ap (flat_map els l)).
Proof.
  intros A B recs els ap H0 H1. induction 1 as [|x l Hx _ IH].
  - eapply adds_ext; [|apply adds_nil]. intros c. symmetry. apply H0.
  - cbn [flat_map]. eapply adds_ext; [|apply adds_app; [exact Hx|exact IH]].
    intros c. apply H1.
Qed.

Lemma app_polys_nil : forall c, app_polys [] c = c.
Proof. intros []. unfold app_polys. cbn. rewrite app_nil_r. reflexivity. Qed.
Lemma app_polys_app : forall x y c, app_polys y (app_polys x c) = app_polys (x ++ y) c.
Proof. intros x y []. unfold app_polys. cbn. rewrite app_assoc. reflexivity. Qed.
Lemma app_paths_nil : forall c, app_paths [] c = c.
Proof. intros []. unfold app_paths. cbn. rewrite app_nil_r. reflexivity. Qed.
Lemma app_paths_app : forall x y c, app_paths y (app_paths x c) = app_paths (x ++ y) c.
Proof. intros x y []. unfold app_paths. cbn. rewrite app_assoc. reflexivity. Qed.
Lemma app_labels_nil : forall c, app_labels [] c = c.
Proof. intros []. unfold app_labels. cbn. rewrite app_nil_r. reflexivity. Qed.
Lemma app_labels_app : forall x y c, app_labels y (app_labels x c) = app_labels (x ++ y) c.
Proof. intros x y []. unfold app_labels. cbn. rewrite app_assoc. reflexivity. Qed.
Lemma app_refs_nil : forall c, app_refs [] c = c.
Proof. intros []. unfold app_refs. cbn. rewrite app_nil_r. reflexivity. Qed.
Lemma app_refs_app : forall x y c, app_refs y (app_refs x c) = app_refs (x ++ y) c.
Proof. intros x y []. unfold app_refs. cbn. rewrite app_assoc. reflexivity. Qed.

(** Common tail: properties and ENDEL. *)
Lemma steps_tail : forall ps k c cur rest a ln un e,
  props_ok ps -> create c k = Some e ->
  exists s', steps (RState k (Some c) (cur :: rest) true [] a ln un) (props_recs ps ++ [(0x11, DNone)])
             = Some s' /\ ready (add_new cur e ps) rest ln un s'.
Proof.
  intros ps k c cur rest a ln un e [Hnd Hok] Hc.
  destruct (steps_props ps k (Some c) (cur :: rest) true [] a ln un Hnd Hok) as [a' Ha'].
  exists (RState kw_empty None (add_new cur e ps :: rest) true [] a' ln un). split.
  - rewrite steps_app. unfold ostr in *. rewrite Ha'. cbn [obind app]. cbn [Reader.steps]. unfold Reader.step. cbn -[create add_new]. rewrite Hc. reflexivity.
  - exists a'. reflexivity.
Qed.

Lemma poly_adds : forall ps p, props_ok ps -> pg_pts p <> [] ->
  adds (poly_recs ps p) (app_polys [out_poly o ps p]).
Proof.
  intros ps p Hps Hne cur rest ln un s (a & ->).
  unfold poly_recs. rewrite steps_app.
  change (steps (RState kw_empty None (cur :: rest) true [] a ln un)
           [(8, DNone); (13, DInts [pg_layer p]); (14, DInts [pg_dt p])])
    with (Some (RState (kw_set_dt (kw_set_layer kw_empty (get_or_self (o_layers o) (pg_layer p)))
                                  (get_or_self (o_dts o) (pg_dt p)))
                       (Some CPolygon) (cur :: rest) true [] a ln un)).
  cbn [obind].
  set (k := kw_set_dt _ _).
  destruct (pg_pts p) as [|first l] eqn:E; [contradiction|]. rewrite <- E in *.
  assert (K : steps (RState k (Some CPolygon) (cur :: rest) true [] a ln un) (poly_xy_recs p)
              = Some (RState (kw_set_xy k (coords (pg_pts p ++ [first])))
                             (Some CPolygon) (cur :: rest) true [] a ln un)).
  { unfold poly_xy_recs. rewrite E, <- E. destruct (8190 <? zlen (pg_pts p)).
    - rewrite steps_xys; [|reflexivity|apply chunks_nonempty; destruct (pg_pts p); discriminate].
      unfold chunks. rewrite concat_chunks by lia. reflexivity.
    - rewrite (steps_xys [pg_pts p ++ [first]]); [|reflexivity|discriminate].
      cbn [concat]. rewrite app_nil_r. reflexivity. }
  rewrite steps_app, K. cbn [obind].
  destruct (steps_tail ps (kw_set_xy k (coords (pg_pts p ++ [first]))) CPolygon cur rest a ln un
              (NPoly (Poly (pg_pts p) (get_or_self (o_layers o) (pg_layer p)) (get_or_self (o_dts o) (pg_dt p)))))
    as (s' & Hs & Hr); [assumption| |].
  - cbn [create]. unfold create_polygon. subst k. cbn -[coords firstn].
    rewrite drop_last_point, pairs_coords. reflexivity.
  - exists s'. split; [exact Hs|exact Hr].
Qed.

Lemma flat_singleton : forall A B (f : A -> B) l, flat_map (fun x => [f x]) l = map f l.
Proof. intros. induction l as [|x l IH]; [reflexivity|]. cbn [flat_map map app]. rewrite IH. reflexivity. Qed.

Lemma polyset_adds : forall s, props_ok (ps_props s) ->
  Forall (fun p => pg_pts p <> []) (ps_polys s) ->
  adds (flat_map (poly_recs (ps_props s)) (ps_polys s)) (app_polys (out_polyset o s)).
Proof.
  intros s Hps Hf. unfold out_polyset.
  replace (map (out_poly o (ps_props s)) (ps_polys s))
    with (flat_map (fun p => [out_poly o (ps_props s) p]) (ps_polys s)).
  - apply adds_flat; [apply app_polys_nil|apply app_polys_app|].
    eapply Forall_impl; [|exact Hf]. intros p Hp. apply poly_adds; assumption.
  - apply flat_singleton.
Qed.

Lemma path1_adds : forall wt ps p, props_ok ps -> path1_ok p ->
  adds (path1_recs wt ps p) (app_paths [out_path1 o wt ps p]).
Proof.
  intros wt ps p Hps [Hne Hw] cur rest ln un s (a & ->).
  unfold path1_recs. rewrite steps_app.
  set (w := (if wt then 1 else -1) * pt_width p).
  change (steps (RState kw_empty None (cur :: rest) true [] a ln un)
           [(9, DNone); (13, DInts [pt_layer p]); (14, DInts [pt_dt p]);
            (33, DInts [pathtype (pt_end p)]); (15, DInts [w])])
    with (Some (RState (kw_set_width
                         (kw_set_ends (kw_set_dt (kw_set_layer kw_empty (get_or_self (o_layers o) (pt_layer p)))
                                  (get_or_self (o_dts o) (pt_dt p))) (read_pathtype (pathtype (pt_end p))))
                         (Z.abs w) (if w <? 0 then Some false else None))
                       (Some CPath) (cur :: rest) true [] a ln un)).
  cbn [obind].
  set (k := kw_set_width _ _ _).
  set (k1 := match pt_end p with
             | ETuple b e => kw_set_endx (kw_set_bgn k b) e
             | _ => k end).
  rewrite steps_app.
  replace (steps (RState k (Some CPath) (cur :: rest) true [] a ln un) (ext_recs (pt_end p)))
    with (Some (RState k1 (Some CPath) (cur :: rest) true [] a ln un))
    by (subst k1; destruct (pt_end p); reflexivity).
  cbn [obind].
  assert (K : steps (RState k1 (Some CPath) (cur :: rest) true [] a ln un) (path_xy_recs p)
              = Some (RState (kw_set_xy k1 (coords (pt_pts p)))
                             (Some CPath) (cur :: rest) true [] a ln un)).
  { assert (Hk : k_xy k1 = None) by (subst k1; destruct (pt_end p); reflexivity).
    unfold path_xy_recs. destruct (8191 <? zlen (pt_pts p)).
    - rewrite steps_xys; [|exact Hk|apply chunks_nonempty; assumption].
      unfold chunks. rewrite concat_chunks by lia. reflexivity.
    - rewrite (steps_xys [pt_pts p]); [|exact Hk|discriminate].
      cbn [concat]. rewrite app_nil_r. reflexivity. }
  rewrite steps_app, K. cbn [obind].
  destruct (steps_tail ps (kw_set_xy k1 (coords (pt_pts p))) CPath cur rest a ln un
              (NPath (Path1 (pt_pts p) (pt_width p) (out_end (pt_end p))
                       (get_or_self (o_layers o) (pt_layer p)) (get_or_self (o_dts o) (pt_dt p)))
                     (wt || (pt_width p =? 0))))
    as (s' & Hs & Hr); [assumption| |].
  - assert (Ew : Z.abs w = pt_width p) by (subst w; destruct wt; lia).
    assert (Et : dflt true (if w <? 0 then Some false else None) = (wt || (pt_width p =? 0))).
    { subst w. destruct wt; cbn [orb].
      - replace (1 * pt_width p <? 0) with false by lia. reflexivity.
      - destruct (-1 * pt_width p <? 0) eqn:E1; cbn [dflt]; lia. }
    cbn [create]. unfold create_path. subst k1 k.
    destruct (pt_end p); cbn -[coords Z.ltb]; rewrite pairs_coords, Ew; rewrite Et; reflexivity.
  - exists s'. split; [exact Hs|exact Hr].
Qed.

Definition pathel_recs (p : pathel) : list record :=
  match p with
  | PGds g => flat_map (path1_recs (gp_wt g) (gp_props g)) (gp_paths g)
  | PPoly s => flat_map (poly_recs (ps_props s)) (ps_polys s)
  end.

Lemma app_paths_polys : forall x y c, app_paths y (app_polys x c) = app_polys x (app_paths y c).
Proof. reflexivity. Qed.

Lemma pathel_adds : forall p, pathel_ok p ->
  match p with PGds _ => True | PPoly s => Forall (fun p => pg_pts p <> []) (ps_polys s) end ->
  adds (pathel_recs p) (fun c => app_paths (out_paths o p) (app_polys (out_path_polys o p) c)).
Proof.
  intros [g|s] Hok Hn; cbn [pathel_recs out_paths out_path_polys pathel_ok] in *.
  - destruct Hok as [Hf Hps].
    apply (adds_ext _ (app_paths (map (out_path1 o (gp_wt g) (gp_props g)) (gp_paths g)))).
    { intros c. rewrite app_polys_nil. reflexivity. }
    replace (map (out_path1 o (gp_wt g) (gp_props g)) (gp_paths g))
      with (flat_map (fun p => [out_path1 o (gp_wt g) (gp_props g) p]) (gp_paths g)).
    + apply adds_flat; [apply app_paths_nil|apply app_paths_app|].
      eapply Forall_impl; [|exact Hf]. intros p Hp. apply path1_adds; assumption.
    + apply flat_singleton.
  - apply (adds_ext _ (app_polys (out_polyset o s))).
    { intros c. rewrite app_paths_nil. reflexivity. }
    apply polyset_adds; assumption.
Qed.

Section WithLog2.
Variable log2f : dy -> dy.
Notation rt := (real_rt log2f).

Lemma land_refl : forall b : bool, (0 <? Z.land (if b then 0x8000 else 0) 0x8000) = b.
Proof. intros []; reflexivity. Qed.

(** Effect of STRANS, MAG and ANGLE on the keyword arguments. *)
Lemma steps_strans : forall t k c cells op ps a ln un,
  k_refl k = None -> k_mag k = None -> k_rot k = None ->
  exists k', steps (RState k c cells op ps a ln un) (strans_recs log2f t)
             = Some (RState k' c cells op ps a ln un) /\
    k' = KW (k_layer k) (k_dt k) (k_tt k) (k_xy k) (k_width k) (k_wt k) (k_ref k) (k_cols k) (k_rows k)
            (k_refl k') (option_map rt (st_mag t)) (option_map rt (st_rot t))
            (k_text k) (k_anchor k) (k_ends k) (k_bgn k) (k_endx k) /\
    dflt false (k_refl k') = st_refl t.
Proof.
  intros t k c cells op ps a ln un H1 H2 H3. unfold strans_recs.
  destruct k; cbn in H1, H2, H3; subst.
  destruct t as [[r|] [m|] f]; destruct f; cbn [st_rot st_mag st_refl];
    (eexists; split; [reflexivity|split; reflexivity]).
Qed.

Lemma read_anchor_ok : forall a, anchor_ok a -> read_anchor a = a.
Proof.
  intros a H. unfold anchor_ok in H. cbn [In] in H.
  repeat (destruct H as [<-|H]; [reflexivity|]). contradiction.
Qed.

Lemma label_adds : forall l, label_ok l ->
  adds (label_recs log2f l) (app_labels [out_label o rt l]).
Proof.
  intros l (Ha & (t & Ht & Htok) & Hps) cur rest ln un s (a & ->).
  unfold label_recs. rewrite Ht, steps_app.
  change (steps (RState kw_empty None (cur :: rest) true [] a ln un)
           [(12, DNone); (13, DInts [lb_layer l]); (22, DInts [lb_texttype l]); (23, DInts [lb_anchor l])])
    with (Some (RState (kw_set_anchor
                         (kw_set_tt (kw_set_layer kw_empty (get_or_self (o_layers o) (lb_layer l)))
                                  (get_or_self (o_tts o) (lb_texttype l))) (read_anchor (lb_anchor l)))
                       (Some CLabel) (cur :: rest) true [] a ln un)).
  cbn [obind]. rewrite read_anchor_ok by assumption.
  set (k := kw_set_anchor _ _).
  destruct (steps_strans (lb_tr l) k (Some CLabel) (cur :: rest) true [] a ln un) as (k' & E & Hk & Hf);
    try reflexivity.
  rewrite steps_app, E. cbn [obind]. rewrite steps_app.
  change (steps (RState k' (Some CLabel) (cur :: rest) true [] a ln un)
           [(16, DInts [fst (lb_pos l); snd (lb_pos l)]); (25, DStr t)])
    with (Some (RState (kw_set_text
             (kw_set_xy k' (match k_xy k' with Some l0 => l0 ++ [fst (lb_pos l); snd (lb_pos l)]
                                          | None => [fst (lb_pos l); snd (lb_pos l)] end))
             (Some t)) (Some CLabel) (cur :: rest) true [] a ln un)).
  cbn [obind].
  set (k2 := kw_set_text _ _).
  destruct (steps_tail (lb_props l) k2 CLabel cur rest a ln un
    (NLabel (Label (get_or_self (o_layers o) (lb_layer l)) (get_or_self (o_tts o) (lb_texttype l))
        (lb_anchor l) (out_tr rt (lb_tr l)) (lb_pos l) (Some t) []))) as (s' & Hs & Hr); [assumption| |].
  - cbn [create]. unfold create_label. subst k2. rewrite Hk. subst k. cbn.
    unfold out_tr. rewrite Hf. destruct (lb_pos l). reflexivity.
  - exists s'. split; [exact Hs|]. cbn [add_new lb_layer lb_texttype lb_anchor lb_tr lb_pos lb_text] in Hr.
    unfold app_labels, out_label. rewrite Ht. exact Hr.
Qed.

(** Reference as it is before ENDLIB: the target is still a name. *)
Definition pending_ref (r : refel) : refel :=
  match r with
  | RS s => RS (SRef (TName (renamed o (target_name (sr_target s)))) (out_tr rt (sr_tr s)) (sr_org s) (sr_props s))
  | RA a => RA (ARef (TName (renamed o (target_name (ar_target a)))) (out_tr rt (ar_tr a)) (ar_cols a) (ar_rows a)
                     (ar_xy a) (ar_props a))
  end.

Lemma refel_adds : forall r, refel_ok r ->
  adds (refel_recs log2f r) (app_refs [pending_ref r]).
Proof.
  intros [r|r] (Hn & Hps) cur rest ln un s (a & ->); cbn [refel_recs pending_ref].
  - unfold sref_recs. rewrite steps_app.
    change (steps (RState kw_empty None (cur :: rest) true [] a ln un)
             [(10, DNone); (18, DStr (target_name (sr_target r)))])
      with (Some (RState (kw_set_ref kw_empty (renamed o (target_name (sr_target r))))
                         (Some CReference) (cur :: rest) true [] a ln un)).
    cbn [obind]. set (k := kw_set_ref _ _).
    destruct (steps_strans (sr_tr r) k (Some CReference) (cur :: rest) true [] a ln un) as (k' & E & Hk & Hf);
      try reflexivity.
    rewrite steps_app, E. cbn [obind]. rewrite steps_app.
    change (steps (RState k' (Some CReference) (cur :: rest) true [] a ln un)
             [(16, DInts [fst (sr_org r); snd (sr_org r)])])
      with (Some (RState
               (kw_set_xy k' (match k_xy k' with Some l0 => l0 ++ [fst (sr_org r); snd (sr_org r)]
                                            | None => [fst (sr_org r); snd (sr_org r)] end))
               (Some CReference) (cur :: rest) true [] a ln un)).
    cbn [obind]. set (k2 := kw_set_xy _ _).
    destruct (steps_tail (sr_props r) k2 CReference cur rest a ln un
      (NRef (RS (SRef (TName (renamed o (target_name (sr_target r)))) (out_tr rt (sr_tr r)) (sr_org r) []))))
      as (s' & Hs & Hr); [assumption| |].
    + cbn [create]. unfold create_reference. subst k2. rewrite Hk. subst k. cbn.
      unfold out_tr. rewrite Hf. destruct (sr_org r). reflexivity.
    + exists s'. split; [exact Hs|exact Hr].
  - unfold aref_recs. rewrite steps_app.
    change (steps (RState kw_empty None (cur :: rest) true [] a ln un)
             [(11, DNone); (18, DStr (target_name (ar_target r)))])
      with (Some (RState (kw_set_ref kw_empty (renamed o (target_name (ar_target r))))
                         (Some CArray) (cur :: rest) true [] a ln un)).
    cbn [obind]. set (k := kw_set_ref _ _).
    destruct (steps_strans (ar_tr r) k (Some CArray) (cur :: rest) true [] a ln un) as (k' & E & Hk & Hf);
      try reflexivity.
    rewrite steps_app, E. cbn [obind]. rewrite steps_app.
    destruct (ar_xy r) as [[[x1 y1] [x2 y2]] [x3 y3]] eqn:Exy.
    change (steps (RState k' (Some CArray) (cur :: rest) true [] a ln un)
             [(19, DInts [ar_cols r; ar_rows r]); (16, DInts [x1; y1; x2; y2; x3; y3])])
      with (Some (RState
               (kw_set_xy (kw_set_colrow k' (ar_cols r) (ar_rows r))
                  (match k_xy k' with Some l0 => l0 ++ [x1; y1; x2; y2; x3; y3]
                                            | None => [x1; y1; x2; y2; x3; y3] end))
               (Some CArray) (cur :: rest) true [] a ln un)).
    cbn [obind]. set (k2 := kw_set_xy _ _).
    destruct (steps_tail (ar_props r) k2 CArray cur rest a ln un
      (NRef (RA (ARef (TName (renamed o (target_name (ar_target r)))) (out_tr rt (ar_tr r))
                      (ar_cols r) (ar_rows r) (ar_xy r) []))))
      as (s' & Hs & Hr); [assumption| |].
    + cbn [create]. unfold create_array. subst k2. rewrite Hk. subst k. cbn.
      unfold out_tr. rewrite Hf, Exy. reflexivity.
    + exists s'. split; [exact Hs|]. rewrite Exy in Hr. exact Hr.
Qed.

(** *** Cells *)

Definition elems_recs (c : cell) : list record :=
  flat_map (fun s => flat_map (poly_recs (ps_props s)) (ps_polys s)) (c_polys c)
  ++ flat_map pathel_recs (c_paths c)
  ++ flat_map (label_recs log2f) (c_labels c)
  ++ flat_map (refel_recs log2f) (c_refs c).

Definition cell_recs (ts : tstamp) (c : cell) : list record :=
  [(0x05, DInts (ts_ints ts)); (0x06, DStr (c_name c))] ++ elems_recs c ++ [(0x07, DNone)].

(** Polygons have at least one vertex (otherwise writing raises). *)
Definition polys_nonempty (c : cell) : Prop :=
  Forall (fun s => Forall (fun p => pg_pts p <> []) (ps_polys s)) (c_polys c) /\
  Forall (fun p => match p with PGds _ => True
                   | PPoly s => Forall (fun p => pg_pts p <> []) (ps_polys s) end) (c_paths c).

Definition pending_cell (c : cell) : cell :=
  Cell (renamed o (c_name c))
       (flat_map (out_polyset o) (c_polys c) ++ flat_map (out_path_polys o) (c_paths c))
       (flat_map (out_paths o) (c_paths c))
       (map (out_label o rt) (c_labels c))
       (map pending_ref (c_refs c)).

Lemma elems_adds : forall c, cell_ok c -> polys_nonempty c ->
  adds (elems_recs c) (fun c0 =>
    app_refs (map pending_ref (c_refs c))
      (app_labels (map (out_label o rt) (c_labels c))
        (app_paths (flat_map (out_paths o) (c_paths c))
          (app_polys (flat_map (out_polyset o) (c_polys c) ++ flat_map (out_path_polys o) (c_paths c)) c0)))).
Proof.
  intros c (Hn & Hp & Hpa & Hl & Hr) (Np & Npa). unfold elems_recs.
  assert (A1 : adds (flat_map (fun s => flat_map (poly_recs (ps_props s)) (ps_polys s)) (c_polys c))
                    (app_polys (flat_map (out_polyset o) (c_polys c)))).
  { apply adds_flat; [apply app_polys_nil|apply app_polys_app|].
    rewrite Forall_forall in *. intros s Hs. apply polyset_adds; auto. }
  assert (A2 : adds (flat_map pathel_recs (c_paths c))
                    (fun c0 => app_paths (flat_map (out_paths o) (c_paths c))
                                 (app_polys (flat_map (out_path_polys o) (c_paths c)) c0))).
  { clear - Hpa Npa. induction (c_paths c) as [|p l IH].
    - eapply adds_ext; [|apply adds_nil]. intros. cbn [flat_map].
      rewrite app_polys_nil, app_paths_nil. reflexivity.
    - inversion Hpa; subst. inversion Npa; subst. cbn [flat_map].
      eapply adds_ext; [|apply adds_app; [apply pathel_adds; assumption|apply IH; assumption]].
      intros c0. cbv beta. rewrite <- app_paths_polys, app_paths_app, app_polys_app. reflexivity. }
  assert (A3 : adds (flat_map (label_recs log2f) (c_labels c))
                    (app_labels (map (out_label o rt) (c_labels c)))).
  { rewrite <- flat_singleton. apply adds_flat; [apply app_labels_nil|apply app_labels_app|].
    eapply Forall_impl; [|exact Hl]. intros l. apply label_adds. }
  assert (A4 : adds (flat_map (refel_recs log2f) (c_refs c))
                    (app_refs (map pending_ref (c_refs c)))).
  { rewrite <- flat_singleton. apply adds_flat; [apply app_refs_nil|apply app_refs_app|].
    eapply Forall_impl; [|exact Hr]. intros l. apply refel_adds. }
  eapply adds_ext; [|apply adds_app; [exact A1|apply adds_app; [exact A2|apply adds_app; [exact A3|exact A4]]]].
  intros c0. cbv beta. rewrite <- app_polys_app. reflexivity.
Qed.

Lemma cell_steps : forall ts c cells a ln un,
  cell_ok c -> polys_nonempty c ->
  ~ In (renamed o (c_name c)) (names0 ++ map c_name cells) ->
  exists a', steps (RState kw_empty None cells false [] a ln un) (cell_recs ts c)
   = Some (RState kw_empty None (pending_cell c :: cells) false [] a' ln un).
Proof.
  intros ts c cells a ln un Hok Hne Hin. unfold cell_recs.
  assert (Hm : mem_str (renamed o (c_name c)) names0 || mem_str (renamed o (c_name c)) (map c_name cells) = false).
  { unfold mem_str. rewrite <- existsb_app. apply not_true_iff_false. intros H. apply existsb_exists in H.
    destruct H as (x & Hx & He). unfold str_eqb in He. destruct (list_eq_dec _ _ _); [|discriminate].
    subst. contradiction. }
  rewrite steps_app.
  replace (steps (RState kw_empty None cells false [] a ln un)
             [(5, DInts (ts_ints ts)); (6, DStr (c_name c))])
    with (Some (RState kw_empty None (Cell (renamed o (c_name c)) [] [] [] [] :: cells) true [] a ln un)).
  2:{ erewrite steps_cons; [|reflexivity]. cbn [Reader.steps]. unfold Reader.step.
      cbn -[mem_str]. change (match o_rename o (c_name c) with Some n => n | None => o_template o (c_name c) end)
        with (renamed o (c_name c)). rewrite Hm. reflexivity. }
  cbn [obind]. rewrite steps_app.
  destruct (elems_adds c Hok Hne (Cell (renamed o (c_name c)) [] [] [] []) cells ln un
              (RState kw_empty None (Cell (renamed o (c_name c)) [] [] [] [] :: cells) true [] a ln un))
    as (s' & E & (a' & ->)); [exists a; reflexivity|].
  rewrite E. cbn [obind]. exists a'. reflexivity.
Qed.

Lemma cells_steps : forall ts cs cells a ln un,
  Forall cell_ok cs -> Forall polys_nonempty cs ->
  NoDup (map (fun c => renamed o (c_name c)) cs) ->
  (forall c, In c cs -> ~ In (renamed o (c_name c)) (names0 ++ map c_name cells)) ->
  exists a', steps (RState kw_empty None cells false [] a ln un) (flat_map (cell_recs ts) cs)
   = Some (RState kw_empty None (rev (map pending_cell cs) ++ cells) false [] a' ln un).
Proof.
  intros ts. induction cs as [|c cs IH]; intros cells a ln un Hok Hne Hnd Hin.
  - exists a. reflexivity.
  - inversion Hok; subst. inversion Hne; subst. cbn [map] in Hnd. inversion Hnd as [|? ? Hnot Hnd']; subst.
    cbn [flat_map]. rewrite steps_app.
    destruct (cell_steps ts c cells a ln un) as [a1 E1]; try assumption.
    { apply Hin. left. reflexivity. }
    rewrite E1. cbn [obind].
    destruct (IH (pending_cell c :: cells) a1 ln un) as [a2 E2]; try assumption.
    { intros d Hd Hi. cbn [map pending_cell c_name] in Hi. rewrite in_app_iff in Hi. cbn [In] in Hi.
      destruct Hi as [Hi|[Hi|Hi]].
      - apply (Hin d); [right; assumption|]. apply in_or_app. left. assumption.
      - apply Hnot. rewrite Hi. apply in_map_iff. exists d. split; [reflexivity|assumption].
      - apply (Hin d); [right; assumption|]. apply in_or_app. right. assumption. }
    exists a2. rewrite E2. cbn [map rev]. rewrite <- app_assoc. reflexivity.
Qed.

(** A cell whose (new) name is taken stops the reading. *)
Lemma cell_steps_dup : forall ts c cells a ln un,
  In (renamed o (c_name c)) (names0 ++ map c_name cells) ->
  steps (RState kw_empty None cells false [] a ln un) (cell_recs ts c) = None.
Proof.
  intros ts c cells a ln un Hin. unfold cell_recs.
  assert (Hm : mem_str (renamed o (c_name c)) names0 || mem_str (renamed o (c_name c)) (map c_name cells) = true).
  { unfold mem_str. rewrite <- existsb_app. apply existsb_exists. eexists. split; [exact Hin|].
    unfold str_eqb. destruct (list_eq_dec _ _ _); congruence. }
  rewrite steps_app.
  replace (steps (RState kw_empty None cells false [] a ln un)
             [(5, DInts (ts_ints ts)); (6, DStr (c_name c))])
    with (@None rstate); [reflexivity|].
  erewrite steps_cons; [|reflexivity]. cbn [Reader.steps]. unfold Reader.step.
  cbn -[mem_str]. change (match o_rename o (c_name c) with Some n => n | None => o_template o (c_name c) end)
    with (renamed o (c_name c)). rewrite Hm. reflexivity.
Qed.

Lemma cells_steps_dup : forall ts cs cells a ln un,
  Forall cell_ok cs -> Forall polys_nonempty cs ->
  ~ (NoDup (map (fun c => renamed o (c_name c)) cs) /\
     forall c, In c cs -> ~ In (renamed o (c_name c)) (names0 ++ map c_name cells)) ->
  steps (RState kw_empty None cells false [] a ln un) (flat_map (cell_recs ts) cs) = None.
Proof.
  intros ts. induction cs as [|c cs IH]; intros cells a ln un Hok Hne Hbad.
  - exfalso. apply Hbad. split; [constructor|]. intros c [].
  - inversion Hok; subst. inversion Hne; subst. cbn [flat_map]. rewrite steps_app.
    destruct (in_dec (list_eq_dec Z.eq_dec) (renamed o (c_name c)) (names0 ++ map c_name cells)) as [Hi|Hi].
    + rewrite cell_steps_dup by assumption. reflexivity.
    + destruct (cell_steps ts c cells a ln un) as [a1 E1]; try assumption.
      rewrite E1. cbn [obind]. apply IH; try assumption. intros [Hnd Hfr]. apply Hbad.
      assert (Hx : forall d, In d cs -> ~ In (renamed o (c_name d)) (names0 ++ map c_name cells) /\
                                        renamed o (c_name d) <> renamed o (c_name c)).
      { intros d Hd. specialize (Hfr d Hd). cbn [map pending_cell c_name] in Hfr.
        rewrite in_app_iff in Hfr |- *. cbn [In] in Hfr. split; [tauto|]. intros E. apply Hfr. right; left.
        symmetry. exact E. }
      split.
      * cbn [map]. constructor; [|assumption]. intros Hm. apply in_map_iff in Hm.
        destruct Hm as (d & E & Hd). apply (Hx d Hd). exact E.
      * intros d [->|Hd]; [exact Hi|]. apply Hx. exact Hd.
Qed.

(** *** Decoding of whole cells and libraries *)

Lemma oconcat_in : forall A (f : A -> option bytes) l b, oconcat (map f l) = Some b ->
  forall x, In x l -> exists b', f x = Some b'.
Proof.
  induction l as [|y l IH]; intros b H x Hx; [contradiction|].
  cbn [map oconcat] in H. apply oapp_Some in H. destruct H as (y1 & z & Hy & Hz & ->).
  destruct Hx as [->|Hx]; [eauto|]. eapply IH; eassumption.
Qed.

Lemma polyset_decodes : forall s b, polyset_to_gds s = Some b -> props_ok (ps_props s) ->
  decodes (polyset_raws s) (flat_map (poly_recs (ps_props s)) (ps_polys s)) /\
  Forall (fun p => pg_pts p <> []) (ps_polys s).
Proof.
  intros s b H Hps. unfold polyset_to_gds in H. unfold polyset_raws.
  pose proof (oconcat_in _ _ _ _ H) as Hin. split.
  - apply decodes_flat. apply Forall_forall. intros p Hp. destruct (Hin p Hp) as [b' Hb'].
    eapply poly_decodes; eassumption.
  - apply Forall_forall. intros p Hp. destruct (Hin p Hp) as [b' Hb'].
    eapply poly_decodes; eassumption.
Qed.

Lemma pathel_decodes : forall p b, pathel_to_gds p = Some b -> pathel_ok p ->
  decodes (pathel_raws p) (pathel_recs p) /\
  match p with PGds _ => True | PPoly s => Forall (fun p => pg_pts p <> []) (ps_polys s) end.
Proof.
  intros [g|s] b H Hok; cbn [pathel_to_gds pathel_raws pathel_recs pathel_ok] in *.
  - destruct Hok as [Hf Hps]. unfold gpath_to_gds in H. unfold gpath_raws. split; [|exact I].
    pose proof (oconcat_in _ _ _ _ H) as Hin.
    apply decodes_flat. apply Forall_forall. intros p Hp. destruct (Hin p Hp) as [b' Hb'].
    rewrite Forall_forall in Hf. destruct (Hf p Hp).
    eapply path1_decodes; eassumption.
  - eapply polyset_decodes; eassumption.
Qed.

Lemma cell_decodes : forall ts c b, cell_to_gds log2f ts c = Some b -> cell_ok c ->
  decodes (cell_raws log2f ts c) (cell_recs ts c) /\ polys_nonempty c.
Proof.
  intros ts c b H (Hn & Hp & Hpa & Hl & Hr). unfold cell_to_gds in H.
  unfold cell_raws, cell_recs, elems_raws, elems_recs. cbv zeta in H.
  apply oapp_Some in H. destruct H as (b1 & z & H1 & H & ->).
  apply oapp_Some in H. destruct H as (b2 & z1 & H2 & H & ->).
  apply oapp_Some in H. destruct H as (b3 & z2 & H3 & H & ->).
  apply oapp_Some in H. destruct H as (b4 & z3 & H4 & H & ->).
  apply oapp_Some in H. destruct H as (b5 & z4 & H5 & H & ->).
  apply oapp_Some in H. destruct H as (b6 & b7 & H6 & H7 & ->).
  pose proof (oconcat_in _ _ _ _ H3) as I3. pose proof (oconcat_in _ _ _ _ H4) as I4.
  pose proof (oconcat_in _ _ _ _ H5) as I5. pose proof (oconcat_in _ _ _ _ H6) as I6.
  rewrite Forall_forall in Hp, Hpa, Hl, Hr.
  split.
  - apply decodes_app.
    { cbn [ts_fields app] in H1. repeat unpack1.
      apply decodes_cons.
      - apply (dec_rI2 0x0502); [reflexivity|discriminate|]. repeat constructor; lia.
      - apply decodes_one. apply (dec_rStr 0x0606); [reflexivity|assumption|assumption]. }
    apply decodes_app; [|apply decodes_one; reflexivity].
    repeat apply decodes_app; apply decodes_flat; apply Forall_forall; intros x Hx.
    + destruct (I3 x Hx). eapply polyset_decodes; [eassumption|]. apply Hp. assumption.
    + destruct (I4 x Hx). eapply pathel_decodes; [eassumption|]. apply Hpa. assumption.
    + destruct (I5 x Hx). eapply label_decodes; [eassumption|]. apply Hl. assumption.
    + destruct (I6 x Hx). eapply refel_decodes; [eassumption|]. apply Hr. assumption.
  - split; apply Forall_forall; intros x Hx.
    + destruct (I3 x Hx). eapply polyset_decodes; [eassumption|]. apply Hp. assumption.
    + destruct (I4 x Hx). eapply pathel_decodes; [eassumption|]. apply Hpa. assumption.
Qed.

Definition header_recs (ts : tstamp) (name : str) (dbu prec : dy) : list record :=
  [(0x00, DInts [600]); (0x01, DInts (ts_ints ts)); (0x02, DStr name);
   (0x03, DReals [rt dbu; rt prec])].

Lemma header_decodes : forall ts name dbu prec b, header_to_gds log2f ts name dbu prec = Some b ->
  text_ok name -> decodes (header_raws log2f ts name dbu prec) (header_recs ts name dbu prec).
Proof.
  intros ts n dbu prec b H Hn. unfold header_to_gds in H. unfold header_raws, header_recs. cbv zeta in H.
  apply oapp_Some in H. destruct H as (b1 & z & H1 & H & ->).
  apply oapp_Some in H. destruct H as (b2 & z1 & H2 & H & ->).
  apply oapp_Some in H. destruct H as (b3 & z2 & H3 & H & ->).
  apply oapp_Some in H. destruct H as (b4 & b5 & H4 & H5 & ->).
  apply real_bytes_rt in H4. destruct H4 as (E4 & L4 & B4).
  apply real_bytes_rt in H5. destruct H5 as (E5 & L5 & B5).
  rewrite E4, E5. clear E4 E5.
  cbn [ts_fields app] in H1. repeat unpack1.
  apply decodes_cons; [reflexivity|].
  apply decodes_cons; [apply (dec_rI2 0x0102); [reflexivity|discriminate|repeat constructor; lia]|].
  apply decodes_cons; [apply (dec_rStr 0x0206); [reflexivity|assumption|assumption]|].
  apply decodes_one. unfold dec_raw. cbn [r_word r_payload].
  erewrite dec_real2; [reflexivity|reflexivity|assumption|assumption|assumption|assumption].
Qed.

(** Resolution of references at ENDLIB. *)
Lemma resolve_pending : forall names c,
  resolve_cell names (pending_cell c) = out_cell o rt (fun n => mem_str n names) c.
Proof.
  intros names c. unfold resolve_cell, pending_cell, out_cell.
  cbn [c_name c_polys c_paths c_labels c_refs]. f_equal. rewrite map_map. apply map_ext.
  intros [r|r]; reflexivity.
Qed.

Lemma mem_str_app : forall n a b, mem_str n (a ++ b) = mem_str n a || mem_str n b.
Proof. intros. apply existsb_app. Qed.

Lemma mem_str_rev : forall n a, mem_str n (rev a) = mem_str n a.
Proof.
  intros n a. unfold mem_str. induction a as [|x a IH]; [reflexivity|].
  cbn [rev existsb]. rewrite existsb_app, IH. cbn. rewrite orb_false_r. apply orb_comm.
Qed.

Lemma out_cell_ext : forall f g c, (forall n, f n = g n) -> out_cell o rt f c = out_cell o rt g c.
Proof.
  intros f g c H. unfold out_cell. f_equal. apply map_ext. intros [r|r]; cbn; unfold out_target;
    rewrite H; reflexivity.
Qed.

Theorem read_write : forall ts l b,
  write_gds log2f ts l = Some b ->
  text_ok (lib_name l) ->
  Forall cell_ok (lib_cells l) ->
  NoDup (map (fun c => renamed o (c_name c)) (lib_cells l)) ->
  (forall c, In c (lib_cells l) -> ~ In (renamed o (c_name c)) names0) ->
  let known n := mem_str n (names0 ++ map (fun c => renamed o (c_name c)) (lib_cells l)) in
  read_gds o names0 b =
  Some (RResult (map (out_cell o rt known) (lib_cells l))
                (Some (Some (lib_name l))) (Some (rt (lib_dbu l), rt (lib_prec l)))).
Proof.
  intros ts l b H Hname Hok Hnd Hfresh known.
  destruct (write_encodes log2f ts l b H) as [-> Hraw].
  unfold write_gds in H.
  apply oapp_Some in H. destruct H as (b1 & z & H1 & H & _).
  apply oapp_Some in H. destruct H as (b2 & b3 & H2 & H3 & ->).
  pose proof (oconcat_in _ _ _ _ H2) as I2.
  assert (HD : decodes (library_raws log2f ts l)
    (header_recs ts (lib_name l) (lib_dbu l) (lib_prec l)
     ++ flat_map (cell_recs ts) (lib_cells l) ++ [(0x04, DNone)])).
  { unfold library_raws. apply decodes_app; [eapply header_decodes; eassumption|].
    apply decodes_app; [|apply decodes_one; reflexivity].
    apply decodes_flat. apply Forall_forall. intros c Hc. destruct (I2 c Hc).
    eapply cell_decodes; [eassumption|]. rewrite Forall_forall in Hok. auto. }
  assert (HN : Forall polys_nonempty (lib_cells l)).
  { apply Forall_forall. intros c Hc. destruct (I2 c Hc).
    eapply cell_decodes; [eassumption|]. rewrite Forall_forall in Hok. auto. }
  unfold read_gds. rewrite (record_reader_stream _ _ Hraw HD). cbn [obind].
  rewrite steps_app.
  change (steps init_state (header_recs ts (lib_name l) (lib_dbu l) (lib_prec l)))
    with (Some (RState kw_empty None [] false [] (-1) (Some (Some (lib_name l)))
                       (Some (rt (lib_dbu l), rt (lib_prec l))))).
  cbn [obind]. rewrite steps_app.
  destruct (cells_steps ts (lib_cells l) [] (-1) (Some (Some (lib_name l)))
             (Some (rt (lib_dbu l), rt (lib_prec l)))) as [a E]; try assumption.
  { intros c Hc. rewrite app_nil_r. apply Hfresh. assumption. }
  rewrite E. cbn [obind]. rewrite app_nil_r.
  cbn [Reader.steps]. unfold Reader.step. cbn -[mem_str resolve_cell map rev].
  unfold result_of. cbn [s_cells s_libname s_units]. f_equal. f_equal.
  rewrite <- map_rev, rev_involutive, map_map. apply map_ext. intros c.
  rewrite resolve_pending. apply out_cell_ext. intros n. unfold known.
  rewrite !mem_str_app, !map_rev, mem_str_rev, map_map. reflexivity.
Qed.

(** Name collisions are never silently resolved. *)
Theorem read_write_dup : forall ts l b,
  write_gds log2f ts l = Some b ->
  text_ok (lib_name l) ->
  Forall cell_ok (lib_cells l) ->
  ~ (NoDup (map (fun c => renamed o (c_name c)) (lib_cells l)) /\
     forall c, In c (lib_cells l) -> ~ In (renamed o (c_name c)) names0) ->
  read_gds o names0 b = None.
Proof.
  intros ts l b H Hname Hok Hbad.
  destruct (write_encodes log2f ts l b H) as [-> Hraw].
  unfold write_gds in H.
  apply oapp_Some in H. destruct H as (b1 & z & H1 & H & _).
  apply oapp_Some in H. destruct H as (b2 & b3 & H2 & H3 & ->).
  pose proof (oconcat_in _ _ _ _ H2) as I2.
  assert (HD : decodes (library_raws log2f ts l)
    (header_recs ts (lib_name l) (lib_dbu l) (lib_prec l)
     ++ flat_map (cell_recs ts) (lib_cells l) ++ [(0x04, DNone)])).
  { unfold library_raws. apply decodes_app; [eapply header_decodes; eassumption|].
    apply decodes_app; [|apply decodes_one; reflexivity].
    apply decodes_flat. apply Forall_forall. intros c Hc. destruct (I2 c Hc).
    eapply cell_decodes; [eassumption|]. rewrite Forall_forall in Hok. auto. }
  assert (HN : Forall polys_nonempty (lib_cells l)).
  { apply Forall_forall. intros c Hc. destruct (I2 c Hc).
    eapply cell_decodes; [eassumption|]. rewrite Forall_forall in Hok. auto. }
  unfold read_gds. rewrite (record_reader_stream _ _ Hraw HD). cbn [obind].
  rewrite steps_app.
  change (steps init_state (header_recs ts (lib_name l) (lib_dbu l) (lib_prec l)))
    with (Some (RState kw_empty None [] false [] (-1) (Some (Some (lib_name l)))
                       (Some (rt (lib_dbu l), rt (lib_prec l))))).
  cbn [obind]. rewrite steps_app.
  rewrite (cells_steps_dup ts (lib_cells l) [] (-1)); try assumption; [reflexivity|].
  intros [Hnd Hfr]. apply Hbad. split; [exact Hnd|]. intros c Hc. specialize (Hfr c Hc).
  rewrite app_nil_r in Hfr. exact Hfr.
Qed.

End WithLog2.
End Go.
