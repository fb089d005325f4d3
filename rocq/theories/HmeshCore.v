(** Invariant of the half-edge mesh and its preservation by vertices and edges. *)
From Coq Require Import List ZArith Lia Bool.
From Verif Require Import Vec VecLemmas HmeshModel HmeshSpec.
Import ListNotations.
Open Scope Z_scope.

Ltac Zify.zify_post_hook ::= Z.to_euclidean_division_equations.

(** ** lists *)
Lemma vget_app_l {A} (l : list A) x i : i < zlen l -> vget (l ++ [x]) i = vget l i.
Proof.
  unfold vget, zlen. intros H. destruct (Z.ltb_spec i 0); [reflexivity|]. apply nth_error_app1. lia.
Qed.
Lemma vget_app_last {A} (l : list A) x : vget (l ++ [x]) (zlen l) = Some x.
Proof.
  unfold vget, zlen. destruct (Z.ltb_spec (Z.of_nat (length l)) 0); [lia|]. rewrite Nat2Z.id.
  rewrite nth_error_app2 by lia. rewrite Nat.sub_diag. reflexivity.
Qed.
Lemma vget_app_Some {A} (l : list A) x i y : vget l i = Some y -> vget (l ++ [x]) i = Some y.
Proof. intros H. rewrite vget_app_l; [exact H|]. apply vget_Some_range in H. lia. Qed.
Lemma zlen_snoc {A} (l : list A) x : zlen (l ++ [x]) = zlen l + 1.
Proof. rewrite zlen_app. reflexivity. Qed.
Lemma zmem_In x l : zmem x l = true <-> In x l.
Proof.
  unfold zmem. rewrite existsb_exists. split.
  - intros (y & H & E). apply Z.eqb_eq in E. congruence.
  - intros H. exists x. split; [exact H|apply Z.eqb_refl].
Qed.
Lemma zmem_notIn x l : zmem x l = false <-> ~ In x l.
Proof. rewrite <- zmem_In. destruct (zmem x l); split; congruence. Qed.
Lemma NoDup_snoc {A} (l : list A) x : NoDup l -> ~ In x l -> NoDup (l ++ [x]).
Proof.
  intros N H. induction N as [|y l Hy N IH]; cbn; [constructor; [tauto|constructor]|].
  constructor; [|apply IH; cbn in H; tauto]. rewrite in_app_iff. cbn in *. intros [K|[K|[]]]; [tauto|]. subst. tauto.
Qed.

(** ** opposite *)
Lemma opposite_even e : opposite (2 * e) = 2 * e + 1.
Proof. unfold opposite. destruct (Z.eqb_spec (2 * e mod 2) 0); lia. Qed.
Lemma opposite_odd e : opposite (2 * e + 1) = 2 * e.
Proof. unfold opposite. destruct (Z.eqb_spec ((2 * e + 1) mod 2) 0); lia. Qed.
Lemma div_even e : 2 * e / 2 = e.
Proof. lia. Qed.
Lemma div_odd e : (2 * e + 1) / 2 = e.
Proof. lia. Qed.
Lemma he_cases h : h = 2 * (h / 2) \/ h = 2 * (h / 2) + 1.
Proof. lia. Qed.
Lemma opposite_div h : opposite h / 2 = h / 2.
Proof. unfold opposite. destruct (Z.eqb_spec (h mod 2) 0); lia. Qed.
Lemma opposite_neq h : opposite h <> h.
Proof. unfold opposite. destruct (Z.eqb_spec (h mod 2) 0); lia. Qed.
Lemma opposite_opposite h : opposite (opposite h) = h.
Proof. unfold opposite. destruct (Z.eqb_spec (h mod 2) 0); [destruct (Z.eqb_spec ((h + 1) mod 2) 0) | destruct (Z.eqb_spec ((h - 1) mod 2) 0)]; lia. Qed.

(** ** single updates *)
Lemma hupd_spec m h g d : hget m h = Some d ->
  exists m', hupd m h g = Some m' /\ hget m' h = Some (g d) /\ (forall x, x <> h -> hget m' x = hget m x) /\
    verts m' = verts m /\ edges m' = edges m /\ faces m' = faces m /\ zlen (hes m') = zlen (hes m) /\
    rf m' = rf m /\ re m' = re m /\ rh m' = rh m /\ rv m' = rv m.
Proof.
  intros E. unfold hupd. unfold hget in *. rewrite E. cbn [obind].
  pose proof (vget_Some_range _ _ _ E) as R. rewrite (vset_Some _ _ (g d) R). cbn [obind].
  pose proof (vset_Some _ _ (g d) R) as V.
  eexists. split; [reflexivity|]. cbn. split; [exact (vget_vset_eq _ _ _ _ V)|].
  split; [intros x N; apply (vget_vset_neq _ _ _ x _ V); congruence|].
  rewrite (vset_len _ _ _ _ V). repeat split; reflexivity.
Qed.
Lemma vupd_spec m v g d : vget (verts m) v = Some d ->
  exists m', vupd m v g = Some m' /\ vget (verts m') v = Some (g d) /\ (forall x, x <> v -> vget (verts m') x = vget (verts m) x) /\
    zlen (verts m') = zlen (verts m) /\ hes m' = hes m /\ edges m' = edges m /\ faces m' = faces m /\
    rf m' = rf m /\ re m' = re m /\ rh m' = rh m /\ rv m' = rv m.
Proof.
  intros E. unfold vupd. rewrite E. cbn [obind].
  pose proof (vget_Some_range _ _ _ E) as R. rewrite (vset_Some _ _ (g d) R). cbn [obind].
  pose proof (vset_Some _ _ (g d) R) as V.
  eexists. split; [reflexivity|]. cbn. split; [exact (vget_vset_eq _ _ _ _ V)|].
  split; [intros x N; apply (vget_vset_neq _ _ _ x _ V); congruence|].
  rewrite (vset_len _ _ _ _ V). repeat split; reflexivity.
Qed.

(** ** the invariant *)
Definition lv m v := 0 <= v < zlen (verts m) /\ ~ In v (rv m).
Definition lh m h := 0 <= h < zlen (hes m) /\ ~ In (h / 2) (re m).
Definition le m e := 0 <= e < zlen (edges m) /\ ~ In e (re m).
Definition pairs (l : list Z) : list Z := flat_map (fun e => [2 * e; 2 * e + 1]) l.

Lemma In_pairs h l : In h (pairs l) <-> In (h / 2) l.
Proof.
  unfold pairs. rewrite in_flat_map. split.
  - intros (e & He & [H|[H|[]]]); subst h; [replace (2 * e / 2) with e by lia | replace ((2 * e + 1) / 2) with e by lia]; exact He.
  - intros H. exists (h / 2). split; [exact H|]. cbn. destruct (he_cases h); auto.
Qed.

Record Core (m : hmesh) : Prop := {
  c_len : zlen (hes m) = 2 * zlen (edges m);
  c_rh : rh m = pairs (re m);
  c_re : NoDup (re m);
  c_re' : forall e, In e (re m) -> 0 <= e < zlen (edges m);
  c_rv : NoDup (rv m);
  c_rv' : forall v, In v (rv m) -> 0 <= v < zlen (verts m);
  c_edge : forall e, le m e -> vget (edges m) e = Some (2 * e);
  c_he : forall h d, lh m h -> hget m h = Some d -> ho d = opposite h /\ he d = h / 2 /\ lv m (ht d);
  c_loop : forall h d d', lh m h -> hget m h = Some d -> hget m (opposite h) = Some d' -> ht d <> ht d';
  c_nodup : forall v d, vget (verts m) v = Some d -> NoDup (vhs d);
  c_inc : forall v d, vget (verts m) v = Some d ->
    forall h, In h (vhs d) <-> (lh m h /\ exists hd, hget m h = Some hd /\ ht hd = v);
  c_dead : forall h d, hget m h = Some d -> In (h / 2) (re m) -> hf d = null /\ hn d = null /\ hp d = null }.

Lemma lh_hget m h : lh m h -> exists d, hget m h = Some d.
Proof. intros [R _]. apply vget_range_Some. exact R. Qed.
Lemma lh_opposite m h : Core m -> lh m h -> lh m (opposite h).
Proof.
  intros C [R N]. split; [|rewrite opposite_div; exact N]. rewrite (c_len m C) in *.
  unfold opposite. destruct (Z.eqb_spec (h mod 2) 0); lia.
Qed.
Lemma lh_live m h : Core m -> (live_halfedge m h <-> lh m h).
Proof. intros C. unfold live_halfedge, lh. rewrite (c_rh m C), In_pairs. tauto. Qed.

Lemma source_target m h d : Core m -> lh m h -> hget m h = Some d ->
  exists d', hget m (opposite h) = Some d' /\ source m h = Some (ht d') /\ target m h = Some (ht d) /\ ht d <> ht d'.
Proof.
  intros C L E. destruct (lh_hget m (opposite h) (lh_opposite m h C L)) as [d' E']. exists d'. split; [exact E'|].
  destruct (c_he m C h d L E) as (Ho & _). unfold source, target. rewrite E. cbn [obind]. rewrite Ho, E'. cbn [obind].
  split; [reflexivity|]. split; [reflexivity|]. exact (c_loop m C h d d' L E E').
Qed.

(** pending part: faces, with the half-edges [acc] of a face [fn] under construction *)
Definition good_cycle (m : hmesh) (f : Z) (hs : list Z) : Prop :=
  (3 <= length hs)%nat /\ NoDup hs /\
  (forall h, In h hs -> lh m h /\ exists d, hget m h = Some d /\ hf d = f) /\
  (forall a b, In (a, b) (cyc_pairs hs) -> exists da db db',
     hget m a = Some da /\ hget m b = Some db /\ hget m (opposite b) = Some db' /\
     hn da = b /\ hp db = a /\ ht da = ht db').

Record FInv (m : hmesh) (fn : Z) (acc : list Z) : Prop := {
  f_rf : NoDup (rf m);
  f_rf' : forall f, In f (rf m) -> 0 <= f < zlen (faces m);
  f_fn : ~ In fn (rf m);
  f_he : forall h d, hget m h = Some d ->
    (hf d = null -> hn d = null /\ hp d = null) /\
    (hf d <> null -> (hf d = fn /\ In h acc /\ hn d = null /\ hp d = null) \/
                     (hf d <> fn /\ ~ In (hf d) (rf m) /\ exists hs, vget (faces m) (hf d) = Some hs /\ In h hs));
  f_face : forall f hs, f <> fn -> ~ In f (rf m) -> vget (faces m) f = Some hs -> good_cycle m f hs;
  f_acc : NoDup acc;
  f_acc' : forall h, In h acc -> lh m h /\ exists d, hget m h = Some d /\ hf d = fn }.

Definition HInv (m : hmesh) : Prop := Core m /\ FInv m null [].

Lemma hempty_inv : HInv hempty.
Proof.
  assert (X : forall (A : Type) i (x : A), vget [] i = Some x -> False).
  { intros A i x H. apply vget_Some_range in H. unfold zlen in H. cbn in H. lia. }
  split; constructor; cbn; try (now constructor); try (intros; exfalso; eauto; fail); try tauto; try contradiction.
  - intros e [H _]. unfold zlen in H. cbn in H. lia.
  - intros h d _ H. exfalso. eapply X; exact H.
  - intros h d d' _ H. exfalso. eapply X; exact H.
  - intros h d H. exfalso. eapply X; exact H.
Qed.

(** ** add_vertex *)
Record vertex_added (m : hmesh) (v : Z) (p : point) (m' : hmesh) : Prop := {
  va_new : (rv m = v :: rv m' /\ zlen (verts m') = zlen (verts m)) \/
           (rv m = [] /\ rv m' = [] /\ v = zlen (verts m) /\ zlen (verts m') = zlen (verts m) + 1);
  va_data : vget (verts m') v = Some (VD p []) \/
            exists d, vget (verts m) v = Some d /\ vget (verts m') v = Some (VD p (vhs d)) ;
  va_slot : rv m = [] -> vget (verts m') v = Some (VD p []);
  va_other : forall x, x <> v -> vget (verts m') x = vget (verts m) x;
  va_hes : hes m' = hes m; va_edges : edges m' = edges m; va_faces : faces m' = faces m;
  va_rf : rf m' = rf m; va_re : re m' = re m; va_rh : rh m' = rh m }.

Lemma add_vertex_spec m p : Core m -> exists v m', add_vertex m p = Some (v, m') /\ vertex_added m v p m'.
Proof.
  intros C. unfold add_vertex. destruct (rv m) as [|v r] eqn:E.
  - assert (Ev : number_of_vertices m = zlen (verts m)) by (unfold number_of_vertices; rewrite E; unfold zlen; cbn; lia).
    rewrite Ev.
    destruct (vupd_spec (set_verts m (verts m ++ [VD (0, 0, 0) []])) (zlen (verts m)) (fun d => VD p (vhs d)) (VD (0, 0, 0) []))
      as (m' & E' & G & O & L & H1 & H2 & H3 & H4 & H5 & H6 & H7); [apply vget_app_last|].
    rewrite E'. cbn [obind]. exists (zlen (verts m)), m'. split; [reflexivity|]. cbn in *.
    constructor; try assumption.
    + right. rewrite H7. repeat split; auto. rewrite L, zlen_snoc. reflexivity.
    + left. exact G.
    + intros _. exact G.
    + intros x N. rewrite O by exact N. destruct (Z_lt_le_dec x (zlen (verts m))) as [K|K].
      * apply vget_app_l. exact K.
      * rewrite !vget_None; [reflexivity|lia|]. rewrite zlen_snoc. lia.
  - assert (R : 0 <= v < zlen (verts m)) by (apply (c_rv' m C); rewrite E; left; reflexivity).
    destruct (vget_range_Some _ _ R) as [d Ed].
    destruct (vupd_spec (set_rv m r) v (fun d => VD p (vhs d)) d) as (m' & E' & G & O & L & H1 & H2 & H3 & H4 & H5 & H6 & H7); [exact Ed|].
    rewrite E'. cbn [obind]. exists v, m'. split; [reflexivity|]. cbn in *.
    constructor; try assumption.
    + left. rewrite H7. auto.
    + right. exists d. auto.
    + rewrite E. discriminate.
Qed.

Lemma vertex_added_lv m v p m' : Core m -> vertex_added m v p m' ->
  (forall x, lv m x -> lv m' x) /\ lv m' v /\ (forall x, lv m' x -> lv m x \/ x = v) /\ ~ lv m v.
Proof.
  intros C A. destruct (va_new m v p m' A) as [[E L]|(E & E' & -> & L)].
  - assert (N : ~ In v (rv m')). { pose proof (c_rv m C) as Nd. rewrite E in Nd. inversion Nd; assumption. }
    assert (R : 0 <= v < zlen (verts m)) by (apply (c_rv' m C); rewrite E; left; reflexivity).
    unfold lv. rewrite E, L. cbn. repeat split; try tauto; try lia.
    intros x [H1 H2]. destruct (Z.eq_dec x v) as [->|Nx]; [right; reflexivity|left]. split; [exact H1|]. intros [K|K]; congruence || tauto.
  - unfold lv. rewrite E, E', L. cbn. repeat split; try tauto; try lia. unfold zlen; lia.
Qed.

Lemma vertex_added_inv m v p m' : HInv m -> (forall d, vget (verts m) v = Some d -> In v (rv m) -> vhs d = []) ->
  vertex_added m v p m' -> HInv m'.
Proof.
  intros [C F] Em A. destruct (vertex_added_lv m v p m' C A) as (V1 & V2 & V3 & V4).
  assert (Hg : forall h, hget m' h = hget m h) by (intros; unfold hget; rewrite (va_hes _ _ _ _ A); reflexivity).
  assert (Hl : forall h, lh m' h <-> lh m h) by (intros; unfold lh; rewrite (va_hes _ _ _ _ A), (va_re _ _ _ _ A); tauto).
  assert (Vd : vget (verts m') v = Some (VD p [])).
  { destruct (va_data _ _ _ _ A) as [K|(d & K1 & K2)]; [exact K|]. rewrite K2.
    destruct (va_new m v p m' A) as [[E L]|(E & E' & -> & L)].
    - rewrite (Em d K1); [reflexivity|]. rewrite E. left. reflexivity.
    - apply vget_Some_range in K1. lia. }
  split; constructor.
  - rewrite (va_hes _ _ _ _ A), (va_edges _ _ _ _ A). apply C.
  - rewrite (va_rh _ _ _ _ A), (va_re _ _ _ _ A). apply C.
  - rewrite (va_re _ _ _ _ A). apply C.
  - rewrite (va_re _ _ _ _ A), (va_edges _ _ _ _ A). apply C.
  - destruct (va_new m v p m' A) as [[E L]|(E & E' & _ & L)]; [|rewrite E'; constructor].
    pose proof (c_rv m C) as Nd. rewrite E in Nd. inversion Nd; assumption.
  - intros x Hx. destruct (va_new m v p m' A) as [[E L]|(E & E' & _ & L)]; [|rewrite E' in Hx; destruct Hx].
    rewrite L. apply (c_rv' m C). rewrite E. right. exact Hx.
  - unfold le. rewrite (va_re _ _ _ _ A), (va_edges _ _ _ _ A). apply C.
  - intros h d L E. apply Hl in L. rewrite Hg in E. destruct (c_he m C h d L E) as (A1 & A2 & A3). auto.
  - intros h d d' L E E'. apply Hl in L. rewrite Hg in E, E'. exact (c_loop m C h d d' L E E').
  - intros x d E. destruct (Z.eq_dec x v) as [->|N].
    + rewrite Vd in E. injection E as <-. constructor.
    + rewrite (va_other _ _ _ _ A) in E by exact N. exact (c_nodup m C x d E).
  - intros x d E h. destruct (Z.eq_dec x v) as [->|N].
    + rewrite Vd in E. injection E as <-. cbn. split; [tauto|]. intros (L & hd & E & T). apply Hl in L. rewrite Hg in E.
      apply V4. rewrite <- T. apply (c_he m C h hd L E).
    + rewrite (va_other _ _ _ _ A) in E by exact N. rewrite (c_inc m C x d E h). rewrite Hl, Hg. tauto.
  - intros h d E R. rewrite Hg in E. rewrite (va_re _ _ _ _ A) in R. exact (c_dead m C h d E R).
  - rewrite (va_rf _ _ _ _ A). apply F.
  - rewrite (va_rf _ _ _ _ A), (va_faces _ _ _ _ A). apply F.
  - rewrite (va_rf _ _ _ _ A). apply F.
  - intros h d E. rewrite Hg in E. rewrite (va_rf _ _ _ _ A), (va_faces _ _ _ _ A). exact (f_he m null [] F h d E).
  - rewrite (va_rf _ _ _ _ A), (va_faces _ _ _ _ A). intros f hs N R E. destruct (f_face m null [] F f hs N R E) as (G1 & G2 & G3 & G4).
    split; [exact G1|]. split; [exact G2|]. split; [intros h Hh; rewrite Hl, Hg; apply G3; exact Hh|].
    intros a b Hab. rewrite !Hg. apply G4. exact Hab.
  - constructor.
  - intros h [].
Qed.

(** ** add_edge *)
Record edge_added (m : hmesh) (v0 v1 e : Z) (m' : hmesh) : Prop := {
  ea_new : (re m = e :: re m' /\ zlen (edges m') = zlen (edges m)) \/
           (re m = [] /\ re m' = [] /\ e = zlen (edges m) /\ zlen (edges m') = zlen (edges m) + 1);
  ea_len : zlen (hes m') = 2 * zlen (edges m');
  ea_rh : rh m' = pairs (re m');
  ea_edge : vget (edges m') e = Some (2 * e);
  ea_edge' : forall x, x <> e -> vget (edges m') x = vget (edges m) x;
  ea_h0 : hget m' (2 * e) = Some (HE v1 null (2 * e + 1) null null e);
  ea_h1 : hget m' (2 * e + 1) = Some (HE v0 null (2 * e) null null e);
  ea_h : forall h, h / 2 <> e -> hget m' h = hget m h;
  ea_vlen : zlen (verts m') = zlen (verts m);
  ea_v0 : forall d, vget (verts m) v0 = Some d -> vget (verts m') v0 = Some (VD (vpt d) (vhs d ++ [2 * e + 1]));
  ea_v1 : forall d, vget (verts m) v1 = Some d -> vget (verts m') v1 = Some (VD (vpt d) (vhs d ++ [2 * e]));
  ea_v : forall x, x <> v0 -> x <> v1 -> vget (verts m') x = vget (verts m) x;
  ea_faces : faces m' = faces m; ea_rf : rf m' = rf m; ea_rv : rv m' = rv m }.

Definition edge_data_slots m h0 h1 := exists d0 d1, hget m h0 = Some d0 /\ hget m h1 = Some d1 /\
  hf d0 = null /\ hn d0 = null /\ hp d0 = null /\ hf d1 = null /\ hn d1 = null /\ hp d1 = null.

(** the part after the allocation *)
Lemma add_edge_fill m3 v0 v1 e : v0 <> v1 ->
  0 <= e < zlen (edges m3) -> edge_data_slots m3 (2 * e) (2 * e + 1) ->
  (exists a, vget (verts m3) v0 = Some a /\ ~ In (2 * e + 1) (vhs a)) ->
  (exists b, vget (verts m3) v1 = Some b /\ ~ In (2 * e) (vhs b)) ->
  exists m8,
   (do es <- vset (edges m3) e (2 * e);
    do m5 <- hupd (set_edges m3 es) (2 * e) (fun d => with_e (with_o (with_t d v1) (2 * e + 1)) e);
    do m6 <- hupd m5 (2 * e + 1) (fun d => with_e (with_o (with_t d v0) (2 * e)) e);
    do m7 <- vupd m6 v0 (add_incident (2 * e + 1));
    do m8 <- vupd m7 v1 (add_incident (2 * e));
    Some (2 * e, m8)) = Some (2 * e, m8) /\
   zlen (edges m8) = zlen (edges m3) /\ zlen (hes m8) = zlen (hes m3) /\ rh m8 = rh m3 /\ re m8 = re m3 /\
   vget (edges m8) e = Some (2 * e) /\ (forall x, x <> e -> vget (edges m8) x = vget (edges m3) x) /\
   hget m8 (2 * e) = Some (HE v1 null (2 * e + 1) null null e) /\
   hget m8 (2 * e + 1) = Some (HE v0 null (2 * e) null null e) /\
   (forall h, h / 2 <> e -> hget m8 h = hget m3 h) /\
   zlen (verts m8) = zlen (verts m3) /\
   (forall d, vget (verts m3) v0 = Some d -> vget (verts m8) v0 = Some (VD (vpt d) (vhs d ++ [2 * e + 1]))) /\
   (forall d, vget (verts m3) v1 = Some d -> vget (verts m8) v1 = Some (VD (vpt d) (vhs d ++ [2 * e]))) /\
   (forall x, x <> v0 -> x <> v1 -> vget (verts m8) x = vget (verts m3) x) /\
   faces m8 = faces m3 /\ rf m8 = rf m3 /\ rv m8 = rv m3.
Proof.
  intros Nv Re (d0 & d1 & E0 & E1 & F0 & N0 & P0 & F1 & N1 & P1) (a & Ea & Na) (b & Eb & Nb).
  pose proof (vset_Some (edges m3) e (2 * e) Re) as Es. rewrite Es. cbn [obind].
  set (m4 := set_edges m3 _).
  destruct (hupd_spec m4 (2 * e) (fun d => with_e (with_o (with_t d v1) (2 * e + 1)) e) d0 E0) as (m5 & X5 & G5 & O5 & V5 & Ed5 & Fc5 & L5 & R5 & R5' & R5'' & R5''').
  rewrite X5. cbn [obind].
  assert (E1' : hget m5 (2 * e + 1) = Some d1) by (rewrite O5 by lia; exact E1).
  destruct (hupd_spec m5 (2 * e + 1) (fun d => with_e (with_o (with_t d v0) (2 * e)) e) d1 E1') as (m6 & X6 & G6 & O6 & V6 & Ed6 & Fc6 & L6 & R6 & R6' & R6'' & R6''').
  rewrite X6. cbn [obind].
  assert (Ea' : vget (verts m6) v0 = Some a) by (rewrite V6, V5; exact Ea).
  destruct (vupd_spec m6 v0 (add_incident (2 * e + 1)) a Ea') as (m7 & X7 & G7 & O7 & V7 & H7 & Ed7 & Fc7 & R7 & R7' & R7'' & R7''').
  rewrite X7. cbn [obind].
  assert (Eb' : vget (verts m7) v1 = Some b) by (rewrite O7 by congruence; rewrite V6, V5; exact Eb).
  destruct (vupd_spec m7 v1 (add_incident (2 * e)) b Eb') as (m8 & X8 & G8 & O8 & V8 & H8 & Ed8 & Fc8 & R8 & R8' & R8'' & R8''').
  rewrite X8. cbn [obind]. exists m8. split; [reflexivity|].
  assert (HH : forall h, hget m8 h = hget m6 h) by (intros h; unfold hget; rewrite H8, H7; reflexivity).
  split; [rewrite Ed8, Ed7, Ed6, Ed5; cbn; exact (vset_len _ _ _ _ Es)|].
  split; [rewrite H8, H7, L6, L5; reflexivity|].
  split; [rewrite R8'', R7'', R6'', R5''; reflexivity|].
  split; [rewrite R8', R7', R6', R5'; reflexivity|].
  split; [rewrite Ed8, Ed7, Ed6, Ed5; cbn; exact (vget_vset_eq _ _ _ _ Es)|].
  split; [intros x N; rewrite Ed8, Ed7, Ed6, Ed5; cbn; apply (vget_vset_neq _ _ _ _ _ Es); congruence|].
  split; [rewrite HH, O6 by lia; rewrite G5; destruct d0; cbn in *; subst; reflexivity|].
  split; [rewrite HH, G6; destruct d1; cbn in *; subst; reflexivity|].
  split; [intros h N; rewrite HH, O6, O5; [reflexivity|lia|lia]|].
  split; [rewrite V8, V7, V6, V5; reflexivity|].
  split; [intros d Ed; rewrite O8 by congruence; rewrite G7; unfold add_incident; rewrite (proj2 (zmem_notIn _ _) Na); congruence|].
  split; [intros d Ed; rewrite G8; unfold add_incident; rewrite (proj2 (zmem_notIn _ _) Nb); congruence|].
  split; [intros x N0' N1'; rewrite O8, O7, V6, V5 by assumption; reflexivity|].
  rewrite Fc8, Fc7, Fc6, Fc5, R8, R7, R6, R5, R8''', R7''', R6''', R5'''. repeat split; reflexivity.
Qed.

Lemma add_edge_spec m v0 v1 : Core m -> lv m v0 -> lv m v1 -> v0 <> v1 ->
  exists e m', add_edge m v0 v1 = Some (2 * e, m') /\ edge_added m v0 v1 e m'.
Proof.
  intros C [R0 _] [R1 _] Nv. unfold add_edge.
  destruct (vget_range_Some _ _ R0) as [a Ea]. destruct (vget_range_Some _ _ R1) as [b Eb].
  assert (Fresh : forall h v d, ~ lh m h -> vget (verts m) v = Some d -> ~ In h (vhs d)).
  { intros h v d N E K. apply N. apply (c_inc m C v d E h). exact K. }
  pose proof (c_len m C) as CL.
  destruct (re m) as [|e r] eqn:Er.
  - set (e := zlen (edges m)) in *.
    assert (Zr : zlen (rh m) = 0) by (rewrite (c_rh m C), Er; reflexivity).
    set (m3 := set_edges (set_hes m ((hes m ++ [he_new]) ++ [he_new])) (edges m ++ [null])).
    replace (alloc_he m) with (2 * e, set_hes m (hes m ++ [he_new])).
    2: { unfold alloc_he, number_of_halfedges. rewrite (c_rh m C), Er. cbn [pairs flat_map]. rewrite CL. f_equal. unfold zlen; cbn; lia. }
    replace (alloc_he (set_hes m (hes m ++ [he_new]))) with (2 * e + 1, set_hes m ((hes m ++ [he_new]) ++ [he_new])).
    2: { unfold alloc_he, number_of_halfedges. cbn [set_hes rh hes]. rewrite (c_rh m C), Er. cbn [pairs flat_map]. rewrite zlen_snoc, CL. f_equal. unfold zlen; cbn; lia. }
    replace (alloc_edge (set_hes m ((hes m ++ [he_new]) ++ [he_new]))) with (e, m3).
    2: { unfold alloc_edge, number_of_edges. cbn [set_hes re edges]. rewrite Er. f_equal. unfold e, zlen; cbn; lia. }
    assert (Hh : hes m3 = (hes m ++ [he_new]) ++ [he_new]) by reflexivity.
    assert (He : edges m3 = edges m ++ [null]) by reflexivity.
    assert (He_ge : 0 <= e) by (unfold e, zlen; lia).
    assert (G0 : hget m3 (2 * e) = Some he_new).
    { unfold hget. rewrite Hh. apply vget_app_Some. rewrite <- CL. apply vget_app_last. }
    assert (G1 : hget m3 (2 * e + 1) = Some he_new).
    { unfold hget. rewrite Hh. rewrite <- CL. replace (zlen (hes m) + 1) with (zlen (hes m ++ [he_new])) by (rewrite zlen_snoc; reflexivity). apply vget_app_last. }
    assert (Go : forall h, h / 2 <> e -> hget m3 h = hget m h).
    { intros h N. unfold hget. rewrite Hh. destruct (Z_lt_le_dec h (zlen (hes m))).
      - rewrite vget_app_l by (rewrite zlen_snoc; lia). apply vget_app_l. lia.
      - rewrite !vget_None; [reflexivity| |]; rewrite ?zlen_snoc; lia. }
    destruct (add_edge_fill m3 v0 v1 e Nv) as (m8 & X & A1 & A2 & A3 & A4 & A5 & A6 & A7 & A8 & A9 & A10 & A11 & A12 & A13 & A14 & A15 & A16).
    + rewrite He, zlen_snoc. fold e. lia.
    + exists he_new, he_new. repeat split; assumption.
    + exists a. split; [exact Ea|]. apply (Fresh _ v0); [|exact Ea]. intros [K _]. lia.
    + exists b. split; [exact Eb|]. apply (Fresh _ v1); [|exact Eb]. intros [K _]. lia.
    + exists e, m8. split; [exact X|]. constructor; try assumption.
      * right. split; [exact Er|]. split; [rewrite A4; exact Er|]. split; [reflexivity|]. rewrite A1, He, zlen_snoc. reflexivity.
      * rewrite A2, A1, Hh, He, !zlen_snoc. lia.
      * rewrite A3, A4. cbn. rewrite (c_rh m C). reflexivity.
      * intros x N. rewrite A6 by exact N. rewrite He. destruct (Z_lt_le_dec x e); [apply vget_app_l; exact l|].
        rewrite !vget_None; [reflexivity| |]; rewrite ?zlen_snoc; fold e; lia.
      * intros h N. rewrite A9 by exact N. apply Go. exact N.
  - unfold alloc_he, alloc_edge. rewrite (c_rh m C), Er. cbn [pairs flat_map app]. cbn [set_rh rh re]. rewrite Er. cbn [set_rh set_re re rh hes edges].
    pose proof (c_re m C) as Nd. rewrite Er in Nd. inversion Nd as [|? ? Nd1 Nd2]; subst.
    assert (Rg : 0 <= e < zlen (edges m)) by (apply (c_re' m C); rewrite Er; left; reflexivity).
    match goal with |- context [set_re ?x ?y] => set (m3 := set_re x y) end.
    destruct (vget_range_Some (hes m) (2 * e)) as [d0 E0]; [lia|].
    destruct (vget_range_Some (hes m) (2 * e + 1)) as [d1 E1]; [lia|].
    destruct (c_dead m C (2 * e) d0 E0) as (F0 & N0 & P0); [rewrite Er; left; lia|].
    destruct (c_dead m C (2 * e + 1) d1 E1) as (F1 & N1 & P1); [rewrite Er; left; lia|].
    destruct (add_edge_fill m3 v0 v1 e Nv) as (m8 & X & A1 & A2 & A3 & A4 & A5 & A6 & A7 & A8 & A9 & A10 & A11 & A12 & A13 & A14 & A15 & A16).
    + exact Rg.
    + exists d0, d1. repeat split; assumption.
    + exists a. split; [exact Ea|]. apply (Fresh _ v0); [|exact Ea]. intros [_ K]. apply K. rewrite Er. left. lia.
    + exists b. split; [exact Eb|]. apply (Fresh _ v1); [|exact Eb]. intros [_ K]. apply K. rewrite Er. left. lia.
    + exists e, m8. split; [exact X|]. constructor; try assumption.
      * left. rewrite A4. auto.
      * rewrite A2, A1. exact CL.
      * rewrite A3, A4. reflexivity.
Qed.

Lemma edge_added_lh m v0 v1 e m' : Core m -> edge_added m v0 v1 e m' ->
  (forall h, lh m' h <-> lh m h \/ h / 2 = e) /\ (forall h, h / 2 = e -> ~ lh m h) /\ 0 <= e < zlen (edges m').
Proof.
  intros C A. pose proof (c_len m C) as CL. pose proof (ea_len _ _ _ _ _ A) as CL'.
  destruct (ea_new _ _ _ _ _ A) as [[E L]|(E & E' & -> & L)].
  - pose proof (c_re m C) as Nd. rewrite E in Nd. inversion Nd as [|? ? N1 N2]; subst.
    assert (R : 0 <= e < zlen (edges m)) by (apply (c_re' m C); rewrite E; left; reflexivity).
    split; [|split; [|lia]].
    + intros h. unfold lh. rewrite E, CL, CL', L. cbn [In]. split.
      * intros [H1 H2]. destruct (Z.eq_dec (h / 2) e); [right; assumption|left]. split; [exact H1|]. intros [K|K]; [congruence|tauto].
      * intros [[H1 H2]|H]; [tauto|]. split; [lia|]. rewrite H. exact N1.
    + intros h <- [_ K]. apply K. rewrite E. left. reflexivity.
  - split; [|split].
    + intros h. unfold lh. rewrite E, E', CL, CL', L. cbn [In]. pose proof (zlen_nonneg (edges m)). split; [|intros [[? ?]|?]; split; (tauto || lia)].
      intros [H1 _]. destruct (Z.eq_dec (h / 2) (zlen (edges m))); [right; assumption|left]. split; [lia|tauto].
    + intros h H [K _]. rewrite CL in K. lia.
    + pose proof (zlen_nonneg (edges m)). lia.
Qed.

Lemma edge_added_core m v0 v1 e m' : Core m -> lv m v0 -> lv m v1 -> v0 <> v1 -> edge_added m v0 v1 e m' -> Core m'.
Proof.
  intros C L0 L1 Nv A. destruct (edge_added_lh m v0 v1 e m' C A) as (Hl & Hn & Re').
  assert (Lv : forall v, lv m' v <-> lv m v) by (intros v; unfold lv; rewrite (ea_vlen _ _ _ _ _ A), (ea_rv _ _ _ _ _ A); tauto).
  assert (Old : forall h d, lh m h -> hget m' h = Some d -> hget m h = Some d).
  { intros h d L E. rewrite (ea_h _ _ _ _ _ A) in E; [exact E|]. intros K. exact (Hn h K L). }
  destruct (vget_range_Some _ _ (proj1 L0)) as [a Ea]. destruct (vget_range_Some _ _ (proj1 L1)) as [b Eb].
  constructor.
  - apply A.
  - apply A.
  - destruct (ea_new _ _ _ _ _ A) as [[E L]|(E & E' & _ & L)]; [|rewrite E'; constructor].
    pose proof (c_re m C) as Nd. rewrite E in Nd. inversion Nd; assumption.
  - destruct (ea_new _ _ _ _ _ A) as [[E L]|(E & E' & _ & L)]; [|rewrite E'; intros x []].
    intros x Hx. rewrite L. apply (c_re' m C). rewrite E. right. exact Hx.
  - rewrite (ea_rv _ _ _ _ _ A). apply C.
  - rewrite (ea_rv _ _ _ _ _ A), (ea_vlen _ _ _ _ _ A). apply C.
  - intros x [R N]. destruct (Z.eq_dec x e) as [->|Nx]; [apply A|]. rewrite (ea_edge' _ _ _ _ _ A) by exact Nx. apply (c_edge m C).
    unfold le. destruct (ea_new _ _ _ _ _ A) as [[E L]|(E & E' & Ee & L)].
    + rewrite L in R. split; [exact R|]. rewrite E. intros [K|K]; congruence || tauto.
    + rewrite E. split; [lia|tauto].
  - intros h d L E. apply Hl in L. destruct (Z.eq_dec (h / 2) e) as [Eh|Nh].
    + destruct (he_cases h) as [K|K]; rewrite Eh in K; subst h.
      * rewrite (ea_h0 _ _ _ _ _ A) in E. injection E as <-. cbn [ho he ht]. rewrite opposite_even, Lv. split; [reflexivity|split; [symmetry; apply div_even|exact L1]].
      * rewrite (ea_h1 _ _ _ _ _ A) in E. injection E as <-. cbn [ho he ht]. rewrite opposite_odd, Lv. split; [reflexivity|split; [symmetry; apply div_odd|exact L0]].
    + destruct L as [L|L]; [|contradiction]. apply (Old h d L) in E. destruct (c_he m C h d L E) as (B1 & B2 & B3). rewrite Lv. auto.
  - intros h d d' L E E'. apply Hl in L. destruct (Z.eq_dec (h / 2) e) as [Eh|Nh].
    + destruct (he_cases h) as [K|K]; rewrite Eh in K; subst h.
      * rewrite opposite_even, (ea_h1 _ _ _ _ _ A) in E'. rewrite (ea_h0 _ _ _ _ _ A) in E. injection E as <-. injection E' as <-. cbn [ht]. congruence.
      * rewrite opposite_odd, (ea_h0 _ _ _ _ _ A) in E'. rewrite (ea_h1 _ _ _ _ _ A) in E. injection E as <-. injection E' as <-. cbn [ht]. congruence.
    + destruct L as [L|L]; [|contradiction]. apply (Old h d L) in E. apply (Old _ d' (lh_opposite m h C L)) in E'. exact (c_loop m C h d d' L E E').
  - intros v d E. destruct (Z.eq_dec v v0) as [->|N0]; [|destruct (Z.eq_dec v v1) as [->|N1]].
    + rewrite (ea_v0 _ _ _ _ _ A a Ea) in E. injection E as <-. cbn [vhs]. apply NoDup_snoc; [exact (c_nodup m C v0 a Ea)|].
      rewrite (c_inc m C v0 a Ea). intros [K _]. apply (Hn (2 * e + 1)); [lia|exact K].
    + rewrite (ea_v1 _ _ _ _ _ A b Eb) in E. injection E as <-. cbn [vhs]. apply NoDup_snoc; [exact (c_nodup m C v1 b Eb)|].
      rewrite (c_inc m C v1 b Eb). intros [K _]. apply (Hn (2 * e)); [lia|exact K].
    + rewrite (ea_v _ _ _ _ _ A) in E by assumption. exact (c_nodup m C v d E).
  - assert (T : forall h v, (lh m' h /\ exists hd, hget m' h = Some hd /\ ht hd = v) <->
       (lh m h /\ exists hd, hget m h = Some hd /\ ht hd = v) \/ (h = 2 * e /\ v = v1) \/ (h = 2 * e + 1 /\ v = v0)).
    { intros h v. split.
      - intros (L & hd & E & T). apply Hl in L. destruct (Z.eq_dec (h / 2) e) as [Eh|Nh].
        + right. destruct (he_cases h) as [K|K]; rewrite Eh in K; subst h.
          * rewrite (ea_h0 _ _ _ _ _ A) in E. injection E as <-. cbn [ht] in T. auto.
          * rewrite (ea_h1 _ _ _ _ _ A) in E. injection E as <-. cbn [ht] in T. auto.
        + left. destruct L as [L|L]; [|contradiction]. split; [exact L|]. exists hd. split; [exact (Old h hd L E)|exact T].
      - intros [(L & hd & E & T)|[[-> ->]|[-> ->]]].
        + split; [apply Hl; left; exact L|]. exists hd. split; [|exact T]. rewrite (ea_h _ _ _ _ _ A); [exact E|]. intros K. exact (Hn h K L).
        + split; [apply Hl; right; lia|]. eexists. split; [apply A|reflexivity].
        + split; [apply Hl; right; lia|]. eexists. split; [apply A|reflexivity]. }
    intros v d E h. rewrite T. destruct (Z.eq_dec v v0) as [->|N0]; [|destruct (Z.eq_dec v v1) as [->|N1]].
    + rewrite (ea_v0 _ _ _ _ _ A a Ea) in E. injection E as <-. cbn [vhs]. rewrite in_app_iff, (c_inc m C v0 a Ea h). cbn [In]. clear - Nv. split; [intros [K|[K|[]]]; auto | intros [K|[[K1 K2]|[K1 K2]]]; auto; congruence].
    + rewrite (ea_v1 _ _ _ _ _ A b Eb) in E. injection E as <-. cbn [vhs]. rewrite in_app_iff, (c_inc m C v1 b Eb h). cbn [In]. clear - Nv. split; [intros [K|[K|[]]]; auto | intros [K|[[K1 K2]|[K1 K2]]]; auto; congruence].
    + rewrite (ea_v _ _ _ _ _ A) in E by assumption. rewrite (c_inc m C v d E h). clear - N0 N1. tauto.
  - intros h d E R. assert (Nh : h / 2 <> e).
    { intros K. rewrite K in R. destruct (ea_new _ _ _ _ _ A) as [[E' L]|(E1 & E' & _ & L)]; [|rewrite E' in R; destruct R].
      pose proof (c_re m C) as Nd. rewrite E' in Nd. inversion Nd; contradiction. }
    rewrite (ea_h _ _ _ _ _ A) in E by exact Nh. apply (c_dead m C h d E).
    destruct (ea_new _ _ _ _ _ A) as [[E' L]|(E1 & E' & _ & L)]; [|rewrite E' in R; destruct R]. rewrite E'. right. exact R.
Qed.

Lemma good_cycle_ext m m' f hs :
  (forall h, In h hs -> lh m h -> lh m' h /\ hget m' h = hget m h /\
     forall d, hget m (opposite h) = Some d -> exists d', hget m' (opposite h) = Some d' /\ ht d' = ht d) ->
  good_cycle m f hs -> good_cycle m' f hs.
Proof.
  intros X (G1 & G2 & G3 & G4). split; [exact G1|]. split; [exact G2|]. split.
  - intros h Hh. destruct (G3 h Hh) as (L & d & E & K). destruct (X h Hh L) as (L' & E' & _). split; [exact L'|]. exists d. rewrite E'. auto.
  - intros a b Hab. destruct (G4 a b Hab) as (da & db & db' & E1 & E2 & E3 & K1 & K2 & K3).
    assert (Ia : In a hs /\ In b hs).
    { unfold cyc_pairs in Hab. destruct hs as [|x r]; [destruct Hab|]. pose proof (in_combine_l _ _ _ _ Hab) as I1.
      pose proof (in_combine_r _ _ _ _ Hab) as I2. split; [exact I1|]. rewrite in_app_iff in I2. cbn in *. tauto. }
    destruct (X a (proj1 Ia) (proj1 (G3 a (proj1 Ia)))) as (_ & Xa & _).
    destruct (X b (proj2 Ia) (proj1 (G3 b (proj2 Ia)))) as (_ & Xb & Xb'). destruct (Xb' _ E3) as (d' & E' & T).
    exists da, db, d'. rewrite Xa, Xb. repeat split; try assumption. congruence.
Qed.

Lemma edge_added_finv m v0 v1 e m' fn acc : Core m -> FInv m fn acc -> edge_added m v0 v1 e m' -> FInv m' fn acc.
Proof.
  intros C F A. destruct (edge_added_lh m v0 v1 e m' C A) as (Hl & Hn & Re').
  assert (Nl : forall h, lh m h -> hget m' h = hget m h).
  { intros h L. apply (ea_h _ _ _ _ _ A). intros K. exact (Hn h K L). }
  constructor.
  - rewrite (ea_rf _ _ _ _ _ A). apply F.
  - rewrite (ea_rf _ _ _ _ _ A), (ea_faces _ _ _ _ _ A). apply F.
  - rewrite (ea_rf _ _ _ _ _ A). apply F.
  - intros h d E. rewrite (ea_rf _ _ _ _ _ A), (ea_faces _ _ _ _ _ A). destruct (Z.eq_dec (h / 2) e) as [Eh|Nh].
    + destruct (he_cases h) as [K|K]; rewrite Eh in K; subst h.
      * rewrite (ea_h0 _ _ _ _ _ A) in E. injection E as <-. cbn. split; [auto|]. intros K; contradiction.
      * rewrite (ea_h1 _ _ _ _ _ A) in E. injection E as <-. cbn. split; [auto|]. intros K; contradiction.
    + rewrite (ea_h _ _ _ _ _ A) in E by exact Nh. exact (f_he m fn acc F h d E).
  - rewrite (ea_rf _ _ _ _ _ A), (ea_faces _ _ _ _ _ A). intros f hs N R E.
    eapply good_cycle_ext; [|exact (f_face m fn acc F f hs N R E)].
    intros h Hh L. split; [apply Hl; left; exact L|]. split; [apply Nl; exact L|]. intros d Hd. exists d. split; [|reflexivity]. rewrite Nl by (apply lh_opposite; assumption). exact Hd.
  - apply F.
  - intros h Hh. destruct (f_acc' m fn acc F h Hh) as (L & d & E & K). split; [apply Hl; left; exact L|]. exists d. rewrite Nl by exact L. auto.
Qed.

Lemma removed_vertex_empty m v d : Core m -> vget (verts m) v = Some d -> In v (rv m) -> vhs d = [].
Proof.
  intros C E R. destruct (vhs d) as [|h r] eqn:Eh; [reflexivity|]. exfalso.
  destruct (proj1 (c_inc m C v d E h)) as (L & hd & Eh' & T); [rewrite Eh; left; reflexivity|].
  destruct (c_he m C h hd L Eh') as (_ & _ & [_ K]). apply K. rewrite T. exact R.
Qed.
