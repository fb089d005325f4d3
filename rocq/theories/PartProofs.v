(** Runs of the loop around the kernel: what the tables say. *)
From Coq Require Import List ZArith Lia Bool Permutation.
From Verif Require Import Vec VecLemmas HmeshModel HmeshSpec HmeshCore HmeshCyc HmeshFaces HmeshAdd HmeshRemove HmeshProps InputModel InputSpec InputProofs DataModel PartModel PartSpec PartOps PartRing PartMesh PartFace PartCut.
Import ListNotations.
Open Scope Z_scope.
Ltac Zify.zify_post_hook ::= idtac.

Lemma around_rd m f r : rd m f r -> around m f r.
Proof. intros [L E]. split; [exact L|]. exists r. split; [exact E|apply sc_refl]. Qed.
Lemma rd_around m f r : around m f r -> exists l, rd m f l /\ same_cycle l r.
Proof. intros (L & l & E & S). exists l. split; [split; assumption|exact S]. Qed.

Lemma plain_W m : plain m <-> W m /\ rf m = [] /\ forall s t x, arc m s t x -> used m s t \/ used m t s.
Proof.
  split.
  - intros [H Rv Rf Fc Si Ed]. pose proof (history_inv m H) as I. split; [|split; [exact Rf|]].
    + constructor; [exact H| |exact Rv|].
      * intros s t h1 h2 A1 A2. apply (live_arc m h1 s t (proj1 I)) in A1. apply (live_arc m h2 s t (proj1 I)) in A2. apply (Si h1 h2 s t); tauto.
      * intros f r R. apply (Fc f r). apply around_rd, R.
    + intros s t x A. apply (live_arc m x s t (proj1 I)) in A. destruct A as (L & S & T). destruct (Ed x s t L S T) as (f & r & A & K). destruct (rd_around m f r A) as (l & R & Sc).
      rewrite directed_cyc in K. rewrite <- !(sc_In _ _ _ (sc_cyc _ _ Sc)) in K. destruct K as [K|K]; [left|right]; exists f, l; auto.
  - intros (Hw & Rf & U). pose proof (w_inv m Hw) as I. constructor; [apply Hw|apply Hw|exact Rf| | |].
    + intros f r A. destruct (rd_around m f r A) as (l & R & Sc). eapply sc_NoDup; [exact Sc|]. exact (w_nd m Hw f l R).
    + intros h1 h2 s t L1 L2 S1 T1 S2 T2. apply (w_simple m Hw s t); apply live_arc; auto; apply I.
    + intros h s t L S T. destruct (U s t h) as [(f & r & R & K)|(f & r & R & K)]; [apply live_arc; [apply I|auto]| |]; exists f, r; (split; [apply around_rd, R|]); rewrite directed_cyc; auto.
Qed.

Lemma partition_plain m f g : plain m -> live_face m f -> two_edges m f g ->
  exists p, partition_face m f g = Some p /\ plain (p_mesh p) /\ cut_in_two m f (g_p0 g) (g_p1 g) (p_mesh p) (p_v0 p) (p_v1 p) (p_c0 p) (p_c1 p).
Proof.
  intros P L T. apply plain_W in P. destruct P as (Hw & Rf & U). destruct (partition_ok m f g Hw Rf L T) as (p & E & W' & Rf' & C & U'). exists p. split; [exact E|]. split; [|exact C].
  apply plain_W. split; [exact W'|]. split; [exact Rf'|]. apply U', U.
Qed.

Lemma converted_plain nv fs m : converted nv fs m -> plain m /\ number_of_vertices m = nv /\ number_of_faces m = zlen fs.
Proof.
  intros (coords & sizes & idx & <- & D & Hr & Hl & E). destruct (seq_convert_spec coords sizes idx fs D Hr Hl) as (m0 & _ & B0 & R1 & R2).
  destruct (all_good_dec (zlen coords) fs Hr) as [G|Bd]; [|rewrite (R2 Bd) in E; discriminate].
  pose proof (insert_all_spec coords fs [] m0 B0 (NoDup_nil _) G) as Sp. rewrite <- (R1 G), E in Sp. cbn [app] in Sp. destruct Sp as [_ B].
  split; [|split].
  - apply plain_W. assert (Rd : forall f r, rd m f r -> exists g, vget fs f = Some g /\ r = rotate1 g).
    { intros f r [[L _] Ev]. rewrite (b_fl _ _ _ B) in L. destruct (vget_range_Some fs f L) as [g Eg]. exists g. split; [exact Eg|]. rewrite (b_face _ _ _ B f g Eg) in Ev. congruence. }
    assert (Hw : W m).
    { constructor; [apply B|apply B|apply B|]. intros f r R. destruct (Rd f r R) as (g & Eg & ->). apply rotate1_NoDup. apply (gfd _ _ (G g (vget_In _ _ _ Eg))). }
    split; [exact Hw|]. split; [apply B|]. intros s t x A.
    assert (K : forall a b, In (a, b) (all_edges fs) -> used m a b).
    { intros a b Hin. unfold all_edges in Hin. apply in_concat in Hin. destruct Hin as (l & Hl' & Hab). apply in_map_iff in Hl'. destruct Hl' as (g & <- & Hg). apply In_vget in Hg. destruct Hg as [f Eg].
      exists f, (rotate1 g). split.
      - split; [|apply (b_face _ _ _ B f g Eg)]. split; [rewrite (b_fl _ _ _ B); eapply vget_Some_range; exact Eg|rewrite (b_rf _ _ _ B); intros []].
      - rewrite directed_cyc in Hab. rewrite rot_rotate1. apply (sc_In _ _ _ (sc_cyc _ _ (sc_rot g))). exact Hab. }
    destruct (b_arcs _ _ _ B s t x A) as [[]|[Q|Q]]; [left|right]; apply K, Q.
  - unfold number_of_vertices. rewrite (b_rv _ _ _ B), (b_vl _ _ _ B). change (zlen (@nil Z)) with 0. lia.
  - unfold number_of_faces. rewrite (b_rf _ _ _ B), (b_fl _ _ _ B). change (zlen (@nil Z)) with 0. lia.
Qed.

(** ** tables *)
Lemma assoc_nil k : assoc [] k = None. Proof. reflexivity. Qed.
Lemma assoc_cons a b l k : assoc ((a, b) :: l) k = if a =? k then Some b else assoc l k.
Proof. unfold assoc. cbn [find fst]. destruct (a =? k); reflexivity. Qed.
Lemma assoc_filter l k k' : k <> k' -> assoc (filter (fun p => negb (fst p =? k)) l) k' = assoc l k'.
Proof.
  intros N. induction l as [|(a, b) l IH]; [reflexivity|]. cbn [filter fst]. destruct (Z.eqb_spec a k) as [->|N']; cbn [negb]; rewrite ?assoc_cons, IH; [|reflexivity].
  destruct (Z.eqb_spec k k'); [congruence|reflexivity].
Qed.
Lemma assoc_put l k v k' : assoc (put l k v) k' = if k =? k' then Some v else assoc l k'.
Proof. unfold put. rewrite assoc_cons. destruct (Z.eqb_spec k k') as [->|N]; [reflexivity|]. apply assoc_filter, N. Qed.
Lemma assoc_In l k b : assoc l k = Some b -> In (k, b) l.
Proof. unfold assoc. destruct (find _ l) as [(x, y)|] eqn:E; [|discriminate]. cbn. intros [= <-]. apply find_some in E. cbn in E. destruct E as [E1 E2]. apply Z.eqb_eq in E2. subst. exact E1. Qed.
Lemma assoc_Some l k b : In (k, b) l -> exists b', assoc l k = Some b'.
Proof. unfold assoc. intros H. destruct (find (fun p => fst p =? k) l) as [p|] eqn:E; [eexists; reflexivity|]. exfalso. apply (find_none _ _ E) in H. cbn in H. rewrite Z.eqb_refl in H. discriminate. Qed.
Lemma In_assoc l k b : NoDup (map fst l) -> In (k, b) l -> assoc l k = Some b.
Proof.
  induction l as [|(x, y) l IH]; intros N H; [destruct H|]. cbn [map fst] in N. apply NoDup_cons_iff in N. destruct N as [N1 N2]. rewrite assoc_cons. destruct H as [H|H].
  - injection H as -> ->. rewrite Z.eqb_refl. reflexivity.
  - destruct (Z.eqb_spec x k) as [->|_]; [|auto]. exfalso. apply N1. apply (in_map fst) in H. exact H.
Qed.
Lemma put_keys l k v : NoDup (map fst l) -> NoDup (map fst (put l k v)).
Proof.
  intros N. unfold put. cbn [map fst]. constructor.
  - intros K. apply in_map_iff in K. destruct K as ((x, y) & Ex & K). apply filter_In in K. cbn in Ex, K. subst x. rewrite Z.eqb_refl in K. destruct K; discriminate.
  - induction l as [|(x, y) l IH]; [constructor|]. cbn [map fst] in N. apply NoDup_cons_iff in N. destruct N as [N1 N2]. cbn [filter fst]. destruct (negb (x =? k)); [|auto].
    cbn [map fst]. constructor; [|auto]. intros K. apply N1. apply in_map_iff in K. destruct K as ((a, b) & Ea & K). apply filter_In in K. cbn in Ea. subst a. destruct K as [K _]. apply (in_map fst) in K. exact K.
Qed.
Lemma assoc_shift l a b k : assoc (map (fun p => (fst p + a, snd p + b)) l) (k + a) = option_map (fun x => x + b) (assoc l k).
Proof.
  induction l as [|(x, y) l IH]; [reflexivity|]. cbn [map fst snd]. rewrite !assoc_cons, IH. destruct (Z.eqb_spec x k) as [->|N]; [rewrite Z.eqb_refl; reflexivity|].
  destruct (Z.eqb_spec (x + a) (k + a)); [lia|reflexivity].
Qed.
Lemma zmem_In x l : zmem x l = true <-> In x l.
Proof. unfold zmem. rewrite existsb_exists. split; [intros (y & H & E); apply Z.eqb_eq in E; subst; exact H|]. intros H. exists x. split; [exact H|apply Z.eqb_refl]. Qed.
Lemma zmem_shift l a k : zmem (k + a) (map (fun v => v + a) l) = zmem k l.
Proof. apply eq_true_iff_eq. rewrite !zmem_In, in_map_iff. split; [intros (x & E & H); assert (x = k) by lia; congruence|]. intros H. exists k. auto. Qed.

(** ** what the tables of one mesh say *)
Record tracked (nv nf : Z) (o : list Z) (s : imesh) : Prop := {
  tr_plain : plain (im s);
  tr_len : number_of_faces (im s) = zlen o;
  tr_nf : 0 <= nf <= zlen o;
  tr_nv : 0 <= nv <= number_of_vertices (im s);
  tr_o : forall k b, vget o k = Some b -> 0 <= b < nf /\ (k < nf -> b = k);
  tr_birth : forall k b, vget o k = Some b -> assoc (im_birth s) k = Some b \/ (k < nf /\ assoc (im_birth s) k = None);
  tr_key : forall k b, assoc (im_birth s) k = Some b -> 0 <= k /\ (k < nf -> b = k);
  tr_keys : NoDup (map fst (im_birth s));
  tr_part : forall v, nv <= v < number_of_vertices (im s) -> In v (im_part s);
  tr_part' : forall v, In v (im_part s) -> nv <= v }.

Lemma live_rf m f : rf m = [] -> (live_face m f <-> 0 <= f < number_of_faces m).
Proof. intros R. unfold live_face, number_of_faces. rewrite R. change (zlen (@nil Z)) with 0. rewrite Z.sub_0_r. cbn. tauto. Qed.
Lemma live_rv m f : rv m = [] -> (live_vertex m f <-> 0 <= f < number_of_vertices m).
Proof. intros R. unfold live_vertex, number_of_vertices. rewrite R. change (zlen (@nil Z)) with 0. rewrite Z.sub_0_r. cbn. tauto. Qed.

Lemma cut_counts m f p0 p1 m' v0 v1 c0 c1 : plain m -> plain m' -> cut_in_two m f p0 p1 m' v0 v1 c0 c1 ->
  number_of_faces m' = number_of_faces m + 1 /\ number_of_vertices m' = number_of_vertices m + 2.
Proof.
  intros P P' C. pose proof (ct_faces _ _ _ _ _ _ _ _ _ C) as F. pose proof (ct_verts _ _ _ _ _ _ _ _ _ C) as V. rewrite (ct_c1 _ _ _ _ _ _ _ _ _ C) in F. rewrite (ct_v0 _ _ _ _ _ _ _ _ _ C), (ct_v1 _ _ _ _ _ _ _ _ _ C) in V.
  pose proof (fun g => live_rf m g (pl_rf m P)) as L1. pose proof (fun g => live_rf m' g (pl_rf m' P')) as L2. pose proof (fun g => live_rv m g (pl_rv m P)) as L3. pose proof (fun g => live_rv m' g (pl_rv m' P')) as L4.
  assert (0 <= number_of_faces m /\ 0 <= number_of_vertices m) as [H1 H2]. { unfold number_of_faces, number_of_vertices. rewrite (pl_rf m P), (pl_rv m P). change (zlen (@nil Z)) with 0. pose proof (zlen_nonneg (faces m)). pose proof (zlen_nonneg (verts m)). lia. }
  assert (Q : forall a b, 0 <= a -> (forall g, 0 <= g < b <-> 0 <= g < a) -> a = b \/ (a = 0 /\ b <= 0)). { intros a b Ha H. destruct (Z_le_dec b 0) as [?|?]; [destruct (Z.eq_dec a 0); [auto|]; specialize (H 0); lia|]. pose proof (H a). pose proof (H b). lia. }
  split.
  - destruct (Q (number_of_faces m + 1) (number_of_faces m')) as [E|E]; [lia| |lia|lia]. intros g. rewrite <- L2, F, L1. lia.
  - destruct (Q (number_of_vertices m + 2) (number_of_vertices m')) as [E|E]; [lia| |lia|lia]. intros g. rewrite <- L4, V, L3. lia.
Qed.

Lemma do_partition_tracked nv nf o s f b g : tracked nv nf o s -> live_face (im s) f -> two_edges (im s) f g -> vget o f = Some b ->
  exists s' p, do_partition s f b g = Some (s', p) /\ tracked nv nf (o ++ [b]) s' /\
    cut_in_two (im s) f (g_p0 g) (g_p1 g) (im s') (p_v0 p) (p_v1 p) (p_c0 p) (p_c1 p) /\ p_mesh p = im s' /\
    (forall k, In k (map fst (im_birth s')) -> In k (map fst (im_birth s)) \/ k = f \/ k = zlen o).
Proof.
  intros T L Tw Eb. destruct (partition_plain (im s) f g (tr_plain _ _ _ _ T) L Tw) as (p & Ep & Pp & C).
  destruct (cut_counts _ _ _ _ _ _ _ _ _ (tr_plain _ _ _ _ T) Pp C) as [Nf Nv].
  pose proof (ct_c0 _ _ _ _ _ _ _ _ _ C) as C0. pose proof (ct_c1 _ _ _ _ _ _ _ _ _ C) as C1. pose proof (ct_v0 _ _ _ _ _ _ _ _ _ C) as V0. pose proof (ct_v1 _ _ _ _ _ _ _ _ _ C) as V1.
  rewrite (tr_len _ _ _ _ T) in C1. rewrite C0, C1, V0, V1 in C. unfold do_partition. rewrite Ep. cbn [obind].
  assert (Rf : 0 <= f < zlen o) by (eapply vget_Some_range; exact Eb). pose proof (tr_nf _ _ _ _ T) as Tn.
  eexists _, p. split; [reflexivity|]. split; [|split; [cbn [im]; rewrite C0, C1, V0, V1; exact C|split; [reflexivity|]]].
  - destruct T as [T1 T2 T3 T4 T5 T6 T7 T8 T9 T10]. constructor; cbn [im im_birth im_part].
    + exact Pp.
    + rewrite Nf, zlen_snoc. lia.
    + rewrite zlen_snoc. lia.
    + lia.
    + intros k x Ek. apply vget_snoc in Ek. destruct Ek as [Ek|[-> ->]]; [exact (T5 k x Ek)|]. split; [apply (T5 f b Eb)|lia].
    + intros k x Ek. rewrite !assoc_put. rewrite C0, C1. apply vget_snoc in Ek. destruct Ek as [Ek|[-> ->]].
      * pose proof (vget_Some_range _ _ _ Ek). destruct (Z.eqb_spec (zlen o) k); [lia|]. destruct (Z.eqb_spec f k) as [<-|_]; [left; congruence|exact (T6 k x Ek)].
      * rewrite Z.eqb_refl. auto.
    + intros k x. rewrite !assoc_put. rewrite C0, C1. destruct (Z.eqb_spec (zlen o) k) as [<-|_]; [lia|]. destruct (Z.eqb_spec f k) as [<-|_]; [|apply T7].
      intros [= <-]. split; [lia|]. apply (T5 f b Eb).
    + apply put_keys, put_keys, T8.
    + intros v Hv. rewrite V0, V1. apply in_or_app. destruct (Z_lt_dec v (number_of_vertices (im s))) as [Hl|Hl]; [left; apply T9; lia|right]. cbn [In]. lia.
    + intros v Hv. apply in_app_iff in Hv. destruct Hv as [Hv|Hv]; [exact (T10 v Hv)|]. cbn [In] in Hv. destruct Hv as [<-|[<-|[]]]; [rewrite V0|rewrite V1]; lia.
  - cbn [im_birth]. intros k Hk. assert (Hp : forall l x y, In k (map fst (put l x y)) -> k = x \/ In k (map fst l)).
    { intros l x y K. apply in_map_iff in K. destruct K as ((a, c) & Ea & K). cbn in Ea. subst a. destruct K as [K|K]; [injection K as -> ->; auto|]. right. apply filter_In in K. destruct K as [K _]. apply (in_map fst) in K. exact K. }
    apply Hp in Hk. destruct Hk as [->|Hk]; [right; right; exact C1|]. apply Hp in Hk. destruct Hk as [->|Hk]; auto.
Qed.

(** ** one floating polygon *)
Lemma children_spec s b k : NoDup (map fst (im_birth s)) -> (In k (children s b) <-> assoc (im_birth s) k = Some b).
Proof.
  intros N. unfold children. rewrite in_map_iff. split.
  - intros ((x, y) & Ex & H). cbn in Ex. subst x. apply filter_In in H. cbn in H. destruct H as [H E]. apply Z.eqb_eq in E. subst y. apply In_assoc; assumption.
  - intros E. exists (k, b). split; [reflexivity|]. apply filter_In. split; [apply assoc_In, E|]. cbn. apply Z.eqb_refl.
Qed.

Lemma get_vertices_range m f r : get_vertices_around_face m f = Some r -> 0 <= f < zlen (faces m).
Proof.
  unfold get_vertices_around_face. destruct (get_halfedges_around_face m f) as [hs|] eqn:E; cbn [obind]; [|discriminate]. intros _. unfold get_halfedges_around_face in E. eapply vget_Some_range. exact E.
Qed.

Lemma resolve_one_tracked nv nf o s f orc s' r : tracked nv nf o s -> legal_fp s f orc -> resolve_one s f orc = Some (s', r) ->
  (r = None /\ s' = s) \/
  (exists f' p b, r = Some (f', p) /\ vget o f' = Some b /\ tracked nv nf (o ++ [b]) s' /\
     cut_in_two (im s) f' (g_p0 (o_geom orc)) (g_p1 (o_geom orc)) (im s') (p_v0 p) (p_v1 p) (p_c0 p) (p_c1 p) /\ p_mesh p = im s' /\
     (forall k, In k (map fst (im_birth s')) -> In k (map fst (im_birth s)) \/ k = f' \/ k = zlen o)).
Proof.
  intros T (Lf & Vs & Tw & Hv) E. unfold resolve_one in E. pose proof (tr_plain _ _ _ _ T) as P.
  assert (Lr : forall x, live_face (im s) x <-> 0 <= x < zlen o). { intros x. rewrite <- (tr_len _ _ _ _ T). apply live_rf, P. }
  destruct (assoc (im_birth s) f) as [b|] eqn:Ea.
  - destruct (o_verdict orc) as [i|i].
    + destruct (visit s _); cbn [obind] in E; [|discriminate]. injection E as <- <-. auto.
    + destruct (visit s (o_visit orc)) as [u|] eqn:Ev; cbn [obind] in E; [|discriminate]. destruct (nth_error (o_visit orc) i) as [f'|] eqn:En; cbn [obind] in E; [|discriminate].
      unfold visit in Ev. destruct (omap _ _) as [rows|] eqn:Eo; cbn [obind] in Ev; [|discriminate].
      destruct (omap_In _ _ _ f' Eo (nth_error_In _ _ En)) as (r0 & Er & _). apply get_vertices_range in Er.
      assert (Lf' : live_face (im s) f'). { split; [exact Er|]. rewrite (pl_rf _ P). intros []. }
      assert (Ab : assoc (im_birth s) f' = Some b). { apply children_spec; [apply T|]. apply (Permutation_in f' (Vs b eq_refl)). eapply nth_error_In; exact En. }
      destruct (vget_range_Some o f' (proj1 (Lr f') Lf')) as [b' Eb']. destruct (tr_birth _ _ _ _ T f' b' Eb') as [Q|[_ Q]]; [|congruence]. assert (b' = b) by congruence. subst b'.
      destruct (do_partition_tracked nv nf o s f' b (o_geom orc) T Lf') as (s2 & p & Ep & T2 & C & Em & Ks); [apply Tw; exists i; auto|exact Eb'|].
      rewrite Ep in E. cbn [obind fst snd] in E. injection E as <- <-. right. exists f', p, b. auto 8.
  - destruct (vget_range_Some o f (proj1 (Lr f) Lf)) as [b' Eb']. destruct (tr_birth _ _ _ _ T f b' Eb') as [Q|[Hl _]]; [congruence|]. pose proof (proj2 (tr_o _ _ _ _ T f b' Eb') Hl) as ->.
    destruct (do_partition_tracked nv nf o s f f (o_geom orc) T Lf (Tw f eq_refl) Eb') as (s2 & p & Ep & T2 & C & Em & Ks).
    rewrite Ep in E. cbn [obind fst snd] in E. injection E as <- <-. right. exists f, p, f. auto 8.
Qed.

(** no undefined behaviour if the table names only faces that exist *)
Definition keys_live (s : imesh) : Prop := forall k, In k (map fst (im_birth s)) -> live_face (im s) k.

Lemma resolve_one_defined nv nf o s f orc : tracked nv nf o s -> keys_live s -> legal_fp s f orc ->
  exists s' r, resolve_one s f orc = Some (s', r) /\ keys_live s'.
Proof.
  intros T Kl Lg. pose proof Lg as (Lf & Vs & Tw & Hv). pose proof (tr_plain _ _ _ _ T) as P.
  assert (Lr : forall x, live_face (im s) x <-> 0 <= x < zlen o). { intros x. rewrite <- (tr_len _ _ _ _ T). apply live_rf, P. }
  assert (Vi : forall l, (forall x, In x l -> live_face (im s) x) -> visit s l = Some tt).
  { intros l H. unfold visit. destruct (omap_total (get_vertices_around_face (im s)) l) as [rr Er]; [|rewrite Er; reflexivity]. intros x Hx. destruct (rd_total (im s) x (history_inv _ (pl_hist _ P)) (H x Hx)) as [q [_ Eq]]. eauto. }
  assert (Main : exists s' r, resolve_one s f orc = Some (s', r)).
  { unfold resolve_one. destruct (assoc (im_birth s) f) as [b|] eqn:Ea.
    - assert (Hv' : match o_verdict orc with Crossed i => (i < length (o_visit orc))%nat | Inside i => (i < length (o_visit orc))%nat end) by (apply Hv; congruence).
      assert (Lv : forall x, In x (o_visit orc) -> live_face (im s) x). { intros x Hx. apply (Permutation_in x (Vs b eq_refl)) in Hx. apply children_spec in Hx; [|apply T]. apply Kl. apply assoc_In in Hx. apply (in_map fst) in Hx. exact Hx. }
      destruct (o_verdict orc) as [i|i].
      + rewrite Vi; [cbn [obind]; eauto|]. intros x Hx. apply Lv. rewrite <- (firstn_skipn (S i) (o_visit orc)). apply in_or_app. auto.
      + rewrite (Vi _ Lv). cbn [obind]. destruct (nth_error (o_visit orc) i) as [f'|] eqn:En; [|apply nth_error_None in En; lia]. cbn [obind].
        pose proof (Lv f' (nth_error_In _ _ En)) as Lf'. destruct (partition_plain (im s) f' (o_geom orc) P Lf') as (p & Ep & _); [apply Tw; eauto|].
        unfold do_partition. rewrite Ep. cbn [obind]. eauto.
    - destruct (partition_plain (im s) f (o_geom orc) P Lf (Tw f eq_refl)) as (p & Ep & _). unfold do_partition. rewrite Ep. cbn [obind]. eauto. }
  destruct Main as (s' & r & E). exists s', r. split; [exact E|]. destruct (resolve_one_tracked nv nf o s f orc s' r T Lg E) as [(-> & ->)|(f' & p & b & _ & Eb & T' & _ & _ & Ks)]; [exact Kl|].
  intros k Hk. apply live_rf; [apply (tr_plain _ _ _ _ T')|]. rewrite (tr_len _ _ _ _ T'), zlen_snoc. pose proof (zlen_nonneg o). destruct (Ks k Hk) as [K|[->| ->]]; [|apply vget_Some_range in Eb; lia|lia].
  apply Kl in K. apply Lr in K. lia.
Qed.
