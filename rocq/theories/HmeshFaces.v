(** [add_face]: the loop over the edges, the linking, and the invariant. *)
From Coq Require Import List ZArith Lia Bool.
From Verif Require Import Vec VecLemmas HmeshModel HmeshSpec HmeshCore HmeshCyc.
Import ListNotations.
Open Scope Z_scope.

(** ** updates that keep the vertex/edge structure *)
Record soft (m m' : hmesh) : Prop := {
  s_verts : verts m' = verts m; s_edges : edges m' = edges m;
  s_re : re m' = re m; s_rh : rh m' = rh m; s_rv : rv m' = rv m;
  s_len : zlen (hes m') = zlen (hes m);
  s_he : forall h d, hget m h = Some d -> exists d', hget m' h = Some d' /\
           ht d' = ht d /\ ho d' = ho d /\ he d' = he d /\ (In (h / 2) (re m) -> d' = d) }.

Lemma soft_refl m : soft m m.
Proof. constructor; try reflexivity. intros h d E. exists d. auto. Qed.

Lemma soft_trans a b c : soft a b -> soft b c -> soft a c.
Proof.
  intros A B. constructor.
  1: rewrite (s_verts _ _ B); apply A. 1: rewrite (s_edges _ _ B); apply A. 1: rewrite (s_re _ _ B); apply A.
  1: rewrite (s_rh _ _ B); apply A. 1: rewrite (s_rv _ _ B); apply A. 1: rewrite (s_len _ _ B); apply A.
  intros h d E. destruct (s_he _ _ A h d E) as (d1 & E1 & T1 & O1 & X1 & D1).
  destruct (s_he _ _ B h d1 E1) as (d2 & E2 & T2 & O2 & X2 & D2). exists d2. rewrite (s_re _ _ A) in D2.
  split; [exact E2|]. repeat split; try congruence. intros K. rewrite (D2 K). apply D1. exact K.
Qed.

Lemma soft_lh m m' h : soft m m' -> (lh m' h <-> lh m h).
Proof. intros S. unfold lh. rewrite (s_len _ _ S), (s_re _ _ S). tauto. Qed.
Lemma soft_lv m m' v : soft m m' -> (lv m' v <-> lv m v).
Proof. intros S. unfold lv. rewrite (s_verts _ _ S), (s_rv _ _ S). tauto. Qed.

Lemma soft_back m m' h d' : soft m m' -> hget m' h = Some d' -> exists d, hget m h = Some d /\
  ht d' = ht d /\ ho d' = ho d /\ he d' = he d /\ (In (h / 2) (re m) -> d' = d).
Proof.
  intros S E. pose proof (vget_Some_range _ _ _ E) as R. rewrite (s_len _ _ S) in R.
  destruct (vget_range_Some _ _ R) as [d Ed]. exists d. split; [exact Ed|].
  destruct (s_he _ _ S h d Ed) as (d2 & E2 & K). assert (d2 = d') by congruence. subst. exact K.
Qed.

Lemma soft_core m m' : Core m -> soft m m' -> Core m'.
Proof.
  intros C S. constructor.
  - rewrite (s_len _ _ S), (s_edges _ _ S). apply C.
  - rewrite (s_rh _ _ S), (s_re _ _ S). apply C.
  - rewrite (s_re _ _ S). apply C.
  - rewrite (s_re _ _ S), (s_edges _ _ S). apply C.
  - rewrite (s_rv _ _ S). apply C.
  - rewrite (s_rv _ _ S), (s_verts _ _ S). apply C.
  - unfold le. rewrite (s_re _ _ S), (s_edges _ _ S). apply C.
  - intros h d' L E. apply (soft_lh _ _ _ S) in L. destruct (soft_back _ _ _ _ S E) as (d & Ed & T & O & X & _).
    rewrite T, O, X, (soft_lv _ _ _ S). exact (c_he m C h d L Ed).
  - intros h d1 d2 L E1 E2. apply (soft_lh _ _ _ S) in L. destruct (soft_back _ _ _ _ S E1) as (d & Ed & T & _).
    destruct (soft_back _ _ _ _ S E2) as (d' & Ed' & T' & _). rewrite T, T'. exact (c_loop m C h d d' L Ed Ed').
  - rewrite (s_verts _ _ S). apply C.
  - rewrite (s_verts _ _ S). intros v d E h. rewrite (c_inc m C v d E h), (soft_lh _ _ _ S). split; intros (L & hd & Eh & T); (split; [exact L|]).
    + destruct (s_he _ _ S h hd Eh) as (d' & E' & T' & _). exists d'. split; [exact E'|congruence].
    + destruct (soft_back _ _ _ _ S Eh) as (d' & E' & T' & _). exists d'. split; [exact E'|congruence].
  - intros h d' E R. rewrite (s_re _ _ S) in R. destruct (soft_back _ _ _ _ S E) as (d & Ed & _ & _ & _ & K).
    rewrite (K R). exact (c_dead m C h d Ed R).
Qed.

(** ** growth *)
Record grow (m m' : hmesh) : Prop := {
  g_vlen : zlen (verts m') = zlen (verts m); g_rv : rv m' = rv m;
  g_v : forall v d, vget (verts m) v = Some d -> exists d', vget (verts m') v = Some d' /\ vpt d' = vpt d;
  g_faces : faces m' = faces m; g_rf : rf m' = rf m;
  g_h : forall h d, lh m h -> hget m h = Some d -> lh m' h /\ exists d', hget m' h = Some d' /\
          ht d' = ht d /\ ho d' = ho d /\ hn d' = hn d /\ hp d' = hp d /\ he d' = he d /\ (hf d <> null -> hf d' = hf d) }.

Lemma grow_refl m : grow m m.
Proof. constructor; try reflexivity; [eauto|]. intros h d L E. split; [exact L|]. exists d. repeat split; auto. Qed.

Lemma grow_trans a b c : grow a b -> grow b c -> grow a c.
Proof.
  intros A B. constructor.
  - rewrite (g_vlen _ _ B). apply A.
  - rewrite (g_rv _ _ B). apply A.
  - intros v d E. destruct (g_v _ _ A v d E) as (d1 & E1 & P1). destruct (g_v _ _ B v d1 E1) as (d2 & E2 & P2). exists d2. split; [exact E2|congruence].
  - rewrite (g_faces _ _ B). apply A.
  - rewrite (g_rf _ _ B). apply A.
  - intros h d L E. destruct (g_h _ _ A h d L E) as (L1 & d1 & E1 & T1 & O1 & N1 & P1 & X1 & F1).
    destruct (g_h _ _ B h d1 L1 E1) as (L2 & d2 & E2 & T2 & O2 & N2 & P2 & X2 & F2). split; [exact L2|]. exists d2.
    split; [exact E2|]. repeat split; try congruence. intros K. rewrite F2; [apply F1; exact K|]. rewrite F1 by exact K. exact K.
Qed.

Lemma grow_lv m m' v : grow m m' -> (lv m' v <-> lv m v).
Proof. intros G. unfold lv. rewrite (g_vlen _ _ G), (g_rv _ _ G). tauto. Qed.

Lemma arc_grow m m' s t h : Core m -> grow m m' -> arc m s t h -> arc m' s t h.
Proof.
  intros C G (L & d & d' & E & E' & T & S). destruct (g_h _ _ G h d L E) as (L1 & d1 & E1 & T1 & _).
  destruct (g_h _ _ G _ d' (lh_opposite m h C L) E') as (_ & d2 & E2 & T2 & _).
  split; [exact L1|]. exists d1, d2. repeat split; congruence.
Qed.

Lemma edge_added_grow m v0 v1 e m' : Core m -> lv m v0 -> lv m v1 -> v0 <> v1 -> edge_added m v0 v1 e m' -> grow m m'.
Proof.
  intros C L0 L1 Nv A. destruct (edge_added_lh m v0 v1 e m' C A) as (Hl & Hn & _). constructor; try apply A.
  - intros v d E. destruct (Z.eq_dec v v0) as [->|N0]; [|destruct (Z.eq_dec v v1) as [->|N1]].
    + rewrite (ea_v0 _ _ _ _ _ A d E). eexists. split; reflexivity.
    + rewrite (ea_v1 _ _ _ _ _ A d E). eexists. split; reflexivity.
    + rewrite (ea_v _ _ _ _ _ A) by assumption. eauto.
  - intros h d L E. split; [apply Hl; left; exact L|]. exists d. rewrite (ea_h _ _ _ _ _ A) by (intros K; exact (Hn h K L)). repeat split; auto.
Qed.

Lemma edge_added_arc m v0 v1 e m' : Core m -> edge_added m v0 v1 e m' -> arc m' v0 v1 (2 * e).
Proof.
  intros C A. destruct (edge_added_lh m v0 v1 e m' C A) as (Hl & _ & _).
  split; [apply Hl; right; lia|]. exists (HE v1 null (2 * e + 1) null null e), (HE v0 null (2 * e) null null e).
  rewrite opposite_even. repeat split; apply A.
Qed.

(** ** setting the face of one half-edge *)
Lemma setf_spec m h d fn acc : Core m -> FInv m fn acc -> lh m h -> hget m h = Some d -> hf d = null -> fn <> null ->
  exists m', hupd m h (fun d => with_f d fn) = Some m' /\ soft m m' /\ grow m m' /\ FInv m' fn (acc ++ [h]) /\
    hget m' h = Some (with_f d fn) /\ (forall x, x <> h -> hget m' x = hget m x).
Proof.
  intros C F L E Fd Nf.
  destruct (hupd_spec m h (fun d => with_f d fn) d E) as (m' & X & G & O & V & Ed & Fc & Ln & R1 & R2 & R3 & R4).
  exists m'. split; [exact X|].
  assert (S : soft m m').
  { constructor; auto. intros x dx Ex. destruct (Z.eq_dec x h) as [->|N].
    - assert (dx = d) by congruence. subst. exists (with_f d fn). split; [exact G|]. cbn. repeat split; auto. intros K. destruct L as [_ L]. contradiction.
    - exists dx. rewrite O by exact N. auto. }
  assert (Gr : grow m m').
  { constructor; auto; try congruence.
    - rewrite V. eauto.
    - intros x dx Lx Ex. split; [apply (soft_lh _ _ _ S); exact Lx|]. destruct (Z.eq_dec x h) as [->|N].
      + assert (dx = d) by congruence. subst. exists (with_f d fn). split; [exact G|]. cbn. repeat split; auto. congruence.
      + exists dx. rewrite O by exact N. repeat split; auto. }
  split; [exact S|]. split; [exact Gr|]. split; [|split; assumption].
  assert (Na : ~ In h acc).
  { intros K. destruct (f_acc' m fn acc F h K) as (_ & d2 & E2 & K2). congruence. }
  constructor.
  - rewrite R1. apply F.
  - rewrite R1, Fc. apply F.
  - rewrite R1. apply F.
  - intros x dx Ex. rewrite R1, Fc. destruct (Z.eq_dec x h) as [->|N].
    + assert (dx = with_f d fn) by congruence. subst dx. cbn. split; [contradiction|]. intros _. left.
      destruct (f_he m fn acc F h d E) as [K _]. destruct (K Fd) as [K1 K2]. repeat split; auto. apply in_app_iff. right. left. reflexivity.
    + rewrite O in Ex by exact N. destruct (f_he m fn acc F x dx Ex) as [K1 K2]. split; [exact K1|]. intros K. destruct (K2 K) as [(A1 & A2 & A3)|A]; [left|right; exact A].
      repeat split; try tauto. apply in_app_iff. left. exact A2.
  - rewrite R1, Fc. intros f hs N Nr Ef. pose proof (f_face m fn acc F f hs N Nr Ef) as Gc. eapply good_cycle_ext; [|exact Gc].
    intros x Hx Lx. split; [apply (soft_lh _ _ _ S); exact Lx|]. destruct (proj1 (proj2 (proj2 Gc)) x Hx) as (_ & dx & Ex & Kx).
    assert (Nx : x <> h).
    { intros ->. assert (dx = d) by congruence. assert (f = null) by congruence. apply vget_Some_range in Ef. unfold null in *. lia. }
    split; [apply O; exact Nx|]. intros d2 E2. destruct (s_he _ _ S _ _ E2) as (d3 & E3 & T3 & _). eauto.
  - apply NoDup_snoc; [apply F|exact Na].
  - intros x Hx. apply in_app_iff in Hx. rewrite (soft_lh _ _ _ S). destruct Hx as [Hx|[<-|[]]].
    + destruct (f_acc' m fn acc F x Hx) as (Lx & dx & Ex & Kx). split; [exact Lx|]. exists dx. rewrite O by (intros ->; contradiction). auto.
    + split; [exact L|]. eexists. split; [exact G|reflexivity].
Qed.

(** ** lookups are not disturbed by the other pairs *)
Lemma find_ext {A} (P Q : A -> bool) l : (forall x, In x l -> P x = Q x) -> find P l = find Q l.
Proof. induction l as [|a l IH]; intros H; [reflexivity|]. cbn. rewrite (H a) by (left; reflexivity). rewrite IH; [reflexivity|]. intros x Hx. apply H. right. exact Hx. Qed.
Lemma find_app_none {A} (P : A -> bool) l r : (forall x, In x r -> P x = false) -> find P (l ++ r) = find P l.
Proof.
  intros H. induction l as [|a l IH]; cbn.
  - induction r as [|b r IHr]; [reflexivity|]. cbn. rewrite (H b) by (left; reflexivity). apply IHr. intros x Hx. apply H. right. exact Hx.
  - rewrite IH. reflexivity.
Qed.

Lemma st_true_soft m m' s t : soft m m' -> halfedge_st m' s t true = halfedge_st m s t true.
Proof.
  intros S. unfold halfedge_st. rewrite (s_verts _ _ S). destruct (vget (verts m) s) as [sv|]; [|reflexivity]. destruct (vget (verts m) t) as [tv|]; [|reflexivity].
  cbn [obind]. destruct (find _ (vhs sv)) as [h|]; [|reflexivity].
  assert (G : forall x, option_map ht (hget m' x) = option_map ht (hget m x) /\ option_map ho (hget m' x) = option_map ho (hget m x)).
  { intros x. destruct (hget m x) as [d|] eqn:E.
    - destruct (s_he _ _ S x d E) as (d' & E' & T & O & _). rewrite E'. cbn. rewrite T, O. auto.
    - destruct (hget m' x) as [d'|] eqn:E'; [|auto]. destruct (soft_back _ _ _ _ S E') as (d & Ed & _). congruence. }
  assert (T : forall x, target m' x = target m x).
  { intros x. unfold target. destruct (G x) as [G1 _]. destruct (hget m x), (hget m' x); cbn in *; congruence. }
  assert (Sr : forall x, source m' x = source m x).
  { intros x. unfold source. destruct (G x) as [_ G1]. destruct (hget m x) as [d|], (hget m' x) as [d'|]; cbn in *; try congruence.
    injection G1 as ->. destruct (G (ho d)) as [G2 _]. destruct (hget m (ho d)), (hget m' (ho d)); cbn in *; congruence. }
  rewrite T, Sr. destruct (source m h); [|reflexivity]. destruct (target m h); [|reflexivity]. cbn [obind].
  unfold face. match goal with |- context [hget m ?c] => destruct (G c) as [G1 _]; destruct (hget m c), (hget m' c) end; cbn in *; congruence.
Qed.

Definition other_pair (a b s t : Z) : Prop := ~ (a = s /\ b = t) /\ ~ (a = t /\ b = s).

Lemma st_true_edge_added m v0 v1 e m' s t : Core m -> lv m v0 -> lv m v1 -> v0 <> v1 -> edge_added m v0 v1 e m' ->
  lv m s -> lv m t -> s <> t -> other_pair v0 v1 s t -> halfedge_st m' s t true = halfedge_st m s t true.
Proof.
  intros C L0 L1 Nv A Ls Lt Ns [O1 O2]. destruct (edge_added_lh m v0 v1 e m' C A) as (Hl & Hn & _).
  destruct (vget_range_Some _ _ (proj1 Ls)) as [sv Es]. destruct (vget_range_Some _ _ (proj1 Lt)) as [tv Et].
  assert (X : forall v d, vget (verts m) v = Some d -> exists xs, (exists d', vget (verts m') v = Some d' /\ vhs d' = vhs d ++ xs) /\
             (forall x, In x xs -> x / 2 = e) /\ (xs <> [] -> v = v0 \/ v = v1)).
  { intros v d E. destruct (Z.eq_dec v v0) as [->|N0]; [|destruct (Z.eq_dec v v1) as [->|N1]].
    - exists [2 * e + 1]. rewrite (ea_v0 _ _ _ _ _ A d E). split; [eexists; split; reflexivity|]. split; [|auto]. intros x [<-|[]]. apply div_odd.
    - exists [2 * e]. rewrite (ea_v1 _ _ _ _ _ A d E). split; [eexists; split; reflexivity|]. split; [|auto]. intros x [<-|[]]. apply div_even.
    - exists []. rewrite (ea_v _ _ _ _ _ A) by assumption. split; [exists d; rewrite app_nil_r; auto|]. split; [intros x []|congruence]. }
  destruct (X s sv Es) as (xs & (sv' & Es' & Hs) & Ss & Ns'). destruct (X t tv Et) as (xt & (tv' & Et' & Ht) & St & Nt').
  assert (Em : xs = [] \/ xt = []).
  { destruct xs as [|x1 r1]; [auto|]. destruct xt as [|x2 r2]; [auto|]. exfalso.
    destruct Ns' as [K|K]; [discriminate| |]; destruct Nt' as [K'|K']; try discriminate; subst; tauto. }
  assert (Le : forall v d h, vget (verts m) v = Some d -> In h (vhs d) -> h / 2 <> e).
  { intros v d h E Hh K. apply (c_inc m C v d E) in Hh. exact (Hn h K (proj1 Hh)). }
  assert (Ef : find (fun h => zmem (edge_of h) (map edge_of (vhs tv'))) (vhs sv') = find (fun h => zmem (edge_of h) (map edge_of (vhs tv))) (vhs sv)).
  { rewrite Hs, Ht. rewrite find_app_none.
    - apply find_ext. intros h Hh. rewrite map_app. apply eq_true_iff_eq. rewrite !zmem_In, in_app_iff. split; [|auto]. intros [K|K]; [exact K|].
      apply in_map_iff in K. destruct K as (x & Kx & Hx). apply St in Hx. unfold edge_of in Kx. exfalso. apply (Le s sv h Es Hh). congruence.
    - intros x Hx. destruct Em as [->| ->]; [destruct Hx|]. rewrite app_nil_r. apply zmem_notIn. intros K. apply in_map_iff in K. destruct K as (y & Ky & Hy).
      apply (Le t tv y Et Hy). unfold edge_of in Ky. rewrite Ky. apply Ss. exact Hx. }
  unfold halfedge_st. rewrite Es, Et, Es', Et'. cbn [obind]. rewrite Ef.
  destruct (find _ (vhs sv)) as [h|] eqn:Fd; [|reflexivity].
  apply find_some in Fd. destruct Fd as [Hh _]. apply (c_inc m C s sv Es) in Hh. destruct Hh as (L & d & Ed & _).
  assert (Nl : forall x, lh m x -> hget m' x = hget m x) by (intros x Lx; apply (ea_h _ _ _ _ _ A); intros K; exact (Hn x K Lx)).
  destruct (c_he m C h d L Ed) as (Ho & _).
  unfold source, target, face. rewrite (Nl h L), Ed. cbn [obind]. rewrite Ho, (Nl _ (lh_opposite m h C L)).
  destruct (hget m (opposite h)) as [d'|] eqn:E'; [|reflexivity]. cbn [obind].
  destruct ((ht d' =? s) && (ht d =? t)).
  - rewrite (Nl h L), Ed. reflexivity.
  - rewrite (Nl _ (lh_opposite m h C L)), E'. reflexivity.
Qed.

Lemma free_spec m s t : Core m -> lv m s -> lv m t -> s <> t ->
  (halfedge_st m s t true = Some null /\ free m (s, t) = true) \/
  (exists h d, halfedge_st m s t true = Some h /\ h <> null /\ arc m s t h /\ hget m h = Some d /\ free m (s, t) = (hf d =? null)).
Proof.
  intros C Ls Lt N. unfold free. cbn [fst snd]. destruct (halfedge_st_spec m s t C Ls Lt N) as [(E & _)|(h & d & E & A & Ed & F)].
  - left. split; [exact E|]. rewrite (halfedge_st_null_false m s t E (hget_null m)). reflexivity.
  - right. exists h, d. assert (Hn : h <> null) by (intros ->; eapply hget_null; exact Ed). split; [exact E|]. split; [exact Hn|]. split; [exact A|]. split; [exact Ed|].
    rewrite F. destruct (hf d =? null) eqn:K; [reflexivity|]. apply Z.eqb_neq. exact Hn.
Qed.

Lemma free_eq m m' s t : Core m -> Core m' -> lv m s -> lv m t -> lv m' s -> lv m' t -> s <> t ->
  halfedge_st m' s t true = halfedge_st m s t true ->
  (forall h d, arc m s t h -> hget m h = Some d -> exists d', hget m' h = Some d' /\ (hf d' = null <-> hf d = null)) ->
  free m' (s, t) = free m (s, t).
Proof.
  intros C C' Ls Lt Ls' Lt' N E X.
  destruct (free_spec m s t C Ls Lt N) as [(E1 & F1)|(h & d & E1 & H1 & A1 & G1 & F1)];
  destruct (free_spec m' s t C' Ls' Lt' N) as [(E2 & F2)|(h' & d' & E2 & H2 & A2 & G2 & F2)].
  - congruence.
  - exfalso. apply H2. congruence.
  - exfalso. apply H1. congruence.
  - assert (h' = h) by congruence. subst h'. rewrite F1, F2. destruct (X h d A1 G1) as (d2 & K1 & K2). assert (d2 = d') by congruence. subst.
    destruct (Z.eqb_spec (hf d') null), (Z.eqb_spec (hf d) null); tauto.
Qed.

(** ** the loop *)
Lemma omap_total {A B} (g : A -> option B) l : (forall x, In x l -> exists y, g x = Some y) -> exists r, omap g l = Some r.
Proof.
  induction l as [|a l IH]; intros H; [eexists; reflexivity|]. cbn. destruct (H a (or_introl eq_refl)) as [y ->]. cbn [obind].
  destruct IH as [r ->]; [intros x Hx; apply H; right; exact Hx|]. cbn. eauto.
Qed.

Lemma gvaf_total m f hs : vget (faces m) f = Some hs -> good_cycle m f hs -> exists l, get_vertices_around_face m f = Some l.
Proof.
  intros E (_ & _ & G & _). unfold get_vertices_around_face, get_halfedges_around_face. rewrite E. cbn [obind].
  apply omap_total. intros h Hh. destruct (G h Hh) as (_ & d & Ed & _). unfold target. rewrite Ed. eexists. reflexivity.
Qed.

Lemma F2_impl {A B} (R S : A -> B -> Prop) l r : (forall a b, R a b -> S a b) -> Forall2 R l r -> Forall2 S l r.
Proof. intros H. induction 1; constructor; auto. Qed.

Definition oarc m (p : Z * Z) h := arc m (fst p) (snd p) h.
Definition undir (p q : Z * Z) : Prop := p <> q /\ p <> (snd q, fst q).

Lemma add_face_loop_spec reuse fn ps : forall m acc done, Core m -> FInv m fn acc -> fn <> null ->
  Forall2 (oarc m) done acc -> (forall s t, In (s, t) ps -> lv m s /\ lv m t /\ s <> t) ->
  ForallOrdPairs undir ps -> (forall p q, In p done -> In q ps -> p <> q) ->
  match add_face_loop m fn reuse acc ps with
  | LUB => False
  | LOk m' acc' => forallb (free m) ps = true /\ Core m' /\ FInv m' fn acc' /\ grow m m' /\ Forall2 (oarc m') (done ++ ps) acc'
  | LRejected m' acc' => forallb (free m) ps = false /\ Core m' /\ FInv m' fn acc' /\ grow m m'
  end.
Proof.
  induction ps as [|(v0, v1) r IH]; intros m acc done C F Nf Fa Hp Hu Hd.
  - cbn. rewrite app_nil_r. split; [reflexivity|]. split; [exact C|]. split; [exact F|]. split; [apply grow_refl|exact Fa].
  - cbn [add_face_loop forallb]. destruct (Hp v0 v1 (or_introl eq_refl)) as (L0 & L1 & Nv).
    inversion Hu as [|? ? Hu1 Hu2]; subst. rewrite Forall_forall in Hu1.
    (* the rest of the turn, once a half-edge without a face is at hand *)
    assert (Step : forall m1 h d, Core m1 -> FInv m1 fn acc -> grow m m1 -> arc m1 v0 v1 h -> hget m1 h = Some d -> hf d = null ->
      (forall s t, In (s, t) r -> free m1 (s, t) = free m (s, t)) ->
      match (match hupd m1 h (fun d => with_f d fn) with None => LUB | Some m2 => add_face_loop m2 fn reuse (acc ++ [h]) r end) with
      | LUB => False
      | LOk m' acc' => forallb (free m) r = true /\ Core m' /\ FInv m' fn acc' /\ grow m m' /\ Forall2 (oarc m') (done ++ (v0, v1) :: r) acc'
      | LRejected m' acc' => forallb (free m) r = false /\ Core m' /\ FInv m' fn acc' /\ grow m m'
      end).
    { intros m1 h d C1 F1 G1 A1 E1 K1 Fr. destruct (setf_spec m1 h d fn acc C1 F1 (proj1 A1) E1 K1 Nf) as (m2 & X2 & S2 & G2 & F2 & E2 & O2).
      rewrite X2. pose proof (soft_core _ _ C1 S2) as C2.
      assert (Lr : forall s t, In (s, t) r -> lv m s /\ lv m t /\ s <> t) by (intros s t K; apply Hp; right; exact K).
      assert (Lvx : forall v, lv m2 v <-> lv m v) by (intros v; rewrite (grow_lv _ _ _ G2), (grow_lv _ _ _ G1); tauto).
      assert (IH' := IH m2 (acc ++ [h]) (done ++ [(v0, v1)]) C2 F2 Nf).
      assert (Fa2 : Forall2 (oarc m2) (done ++ [(v0, v1)]) (acc ++ [h])).
      { apply Forall2_app; [|constructor; [|constructor]].
        - eapply F2_impl; [|exact Fa]. intros p x K. apply (arc_grow m m2); [exact C|exact (grow_trans _ _ _ G1 G2)|exact K].
        - apply (arc_grow m1 m2); assumption. }
      specialize (IH' Fa2). assert (Q1 : forall s t, In (s, t) r -> lv m2 s /\ lv m2 t /\ s <> t) by (intros s t K; rewrite !Lvx; apply Lr; exact K).
      specialize (IH' Q1 Hu2). assert (Q2 : forall p q, In p (done ++ [(v0, v1)]) -> In q r -> p <> q).
      { intros p q Kp Kq. apply in_app_iff in Kp. destruct Kp as [Kp|[<-|[]]]; [apply Hd; [exact Kp|right; exact Kq]|]. apply Hu1. exact Kq. }
      specialize (IH' Q2).
      assert (Fr2 : forallb (free m2) r = forallb (free m) r).
      { assert (Y : forall p, In p r -> free m2 p = free m p).
        { intros (s, t) K. rewrite <- (Fr s t K). destruct (Q1 s t K) as (B1 & B2 & B3). apply free_eq; try assumption.
          - apply (grow_lv _ _ _ G2). exact B1.
          - apply (grow_lv _ _ _ G2). exact B2.
          - apply st_true_soft. exact S2.
          - intros x dx Ax Ex. exists dx. rewrite O2; [tauto|]. intros ->. destruct (arc_fun _ _ _ _ _ _ A1 Ax) as [-> ->]. apply (proj1 (Hu1 _ K)). reflexivity. }
        clear - Y. induction r as [|p r IH]; [reflexivity|]. cbn. rewrite (Y p) by (left; reflexivity). rewrite IH; [reflexivity|]. intros q Hq. apply Y. right. exact Hq. }
      rewrite Fr2 in IH'. destruct (add_face_loop m2 fn reuse (acc ++ [h]) r) as [m' acc'|m' acc'|]; [| |exact IH'].
      - destruct IH' as (I1 & I2 & I3 & I4 & I5). rewrite <- app_assoc in I5. cbn [app] in I5. split; [exact I1|]. split; [exact I2|]. split; [exact I3|]. split; [exact (grow_trans _ _ _ (grow_trans _ _ _ G1 G2) I4)|exact I5].
      - destruct IH' as (I1 & I2 & I3 & I4). split; [exact I1|]. split; [exact I2|]. split; [exact I3|]. exact (grow_trans _ _ _ (grow_trans _ _ _ G1 G2) I4). }
    destruct (free_spec m v0 v1 C L0 L1 Nv) as [(E & Ff)|(h & d & E & Hn & A & Ed & Ff)]; rewrite E, Ff; cbn [obind].
    + change (negb (null =? null)) with false. cbn iota. destruct (add_edge_spec m v0 v1 C L0 L1 Nv) as (e & m1 & Ea & Aa). rewrite Ea.
      unfold face. rewrite (ea_h0 _ _ _ _ _ Aa). cbn [obind hf]. change (negb (null =? null)) with false. cbn iota. cbn [andb].
      pose proof (edge_added_grow _ _ _ _ _ C L0 L1 Nv Aa) as G1. pose proof (edge_added_core _ _ _ _ _ C L0 L1 Nv Aa) as C1.
      apply (Step m1 (2 * e) _ C1 (edge_added_finv _ _ _ _ _ _ _ C F Aa) G1 (edge_added_arc _ _ _ _ _ C Aa) (ea_h0 _ _ _ _ _ Aa)); [reflexivity|].
      intros s t K. destruct (Hp s t (or_intror K)) as (B1 & B2 & B3). destruct (Hu1 _ K) as [U1 U2]. cbn [fst snd] in U2.
      apply free_eq; try assumption; try (apply (grow_lv _ _ _ G1); assumption).
      * apply (st_true_edge_added m v0 v1 e m1); try assumption. split; intros [-> ->]; [apply U1|apply U2]; reflexivity.
      * intros x dx Ax Ex. exists dx. split; [|tauto]. destruct (edge_added_lh m v0 v1 e m1 C Aa) as (_ & Hl & _).
        rewrite (ea_h _ _ _ _ _ Aa); [exact Ex|]. intros Kx. exact (Hl x Kx (proj1 Ax)).
    + destruct (Z.eqb_spec h null); [contradiction|]. cbn [negb]. unfold face. rewrite Ed. cbn [obind].
      destruct (Z.eqb_spec (hf d) null) as [Kf|Kf]; cbn [negb andb].
      * apply (Step m h d C F (grow_refl m) A Ed Kf). reflexivity.
      * destruct (proj2 (f_he m fn acc F h d Ed) Kf) as [(K1 & K2 & _)|(K1 & K2 & hs & K3 & K4)].
        -- exfalso. apply In_nth_error in K2. destruct K2 as [i K2]. destruct (Forall2_nth _ _ _ _ _ Fa K2) as ((a & b) & Ep & Ar).
           unfold oarc in Ar. cbn [fst snd] in Ar. destruct (arc_fun _ _ _ _ _ _ Ar A) as [-> ->]. apply (Hd (v0, v1) (v0, v1)); [eapply nth_error_In; exact Ep|left; reflexivity|reflexivity].
        -- destruct (gvaf_total m (hf d) hs K3 (f_face m fn acc F _ hs K1 K2 K3)) as [l ->].
           destruct (reuse && (hf d =? fn)); (split; [reflexivity|]; split; [exact C|]; split; [exact F|apply grow_refl]).
Qed.
