(** [partition_face] cuts the face in two. *)
From Coq Require Import List ZArith Lia Bool Permutation.
From Verif Require Import Vec VecLemmas HmeshModel HmeshSpec HmeshCore HmeshCyc HmeshFaces HmeshAdd HmeshRemove HmeshProps InputSpec InputProofs PartModel PartSpec PartOps PartRing PartMesh PartFace.
Import ListNotations.
Open Scope Z_scope.
Ltac Zify.zify_post_hook ::= idtac.

Lemma add_vertex_faces m p v m' : add_vertex m p = Some (v, m') -> faces m' = faces m.
Proof.
  unfold add_vertex. destruct (rv m) as [|x l].
  - destruct (vupd _ _ _) as [m1|] eqn:E; cbn [obind]; [|discriminate]. intros [= <- <-]. unfold vupd in E. destruct (vget _ _); cbn [obind] in E; [|discriminate]. destruct (vset _ _ _); cbn [obind] in E; [|discriminate]. injection E as <-. reflexivity.
  - destruct (vupd _ _ _) as [m1|] eqn:E; cbn [obind]; [|discriminate]. intros [= <- <-]. unfold vupd in E. destruct (vget _ _); cbn [obind] in E; [|discriminate]. destruct (vset _ _ _); cbn [obind] in E; [|discriminate]. injection E as <-. reflexivity.
Qed.
Lemma vupd_faces m v g m' : vupd m v g = Some m' -> faces m' = faces m.
Proof. unfold vupd. destruct (vget _ _); cbn [obind]; [|discriminate]. destruct (vset _ _ _); cbn [obind]; [|discriminate]. intros [= <-]. reflexivity. Qed.
Lemma hupd_faces m v g m' : hupd m v g = Some m' -> faces m' = faces m.
Proof. unfold hupd. destruct (vget (hes m) v); cbn [obind]; [|discriminate]. destruct (vset _ _ _); cbn [obind]; [|discriminate]. intros [= <-]. reflexivity. Qed.
Lemma alloc_he_faces m h m' : alloc_he m = (h, m') -> faces m' = faces m.
Proof. unfold alloc_he. destruct (rh m); intros [= <- <-]; reflexivity. Qed.
Lemma alloc_edge_faces m h m' : alloc_edge m = (h, m') -> faces m' = faces m.
Proof. unfold alloc_edge. destruct (re m); intros [= <- <-]; reflexivity. Qed.
Lemma add_edge_faces m a b h m' : add_edge m a b = Some (h, m') -> faces m' = faces m.
Proof.
  unfold add_edge. destruct (alloc_he m) as [h0 m1] eqn:E1. destruct (alloc_he m1) as [h1 m2] eqn:E2. destruct (alloc_edge m2) as [e m3] eqn:E3.
  destruct (vset (edges m3) e h0) as [es|]; cbn [obind]; [|discriminate].
  destruct (hupd (set_edges m3 es) h0 _) as [m5|] eqn:E5; cbn [obind]; [|discriminate]. destruct (hupd m5 h1 _) as [m6|] eqn:E6; cbn [obind]; [|discriminate].
  destruct (vupd m6 a _) as [m7|] eqn:E7; cbn [obind]; [|discriminate]. destruct (vupd m7 b _) as [m8|] eqn:E8; cbn [obind]; [|discriminate]. intros [= <- <-].
  apply vupd_faces in E8, E7. apply hupd_faces in E6, E5. apply alloc_he_faces in E1, E2. apply alloc_edge_faces in E3. rewrite E8, E7, E6, E5. cbn. congruence.
Qed.

Lemma nodup_l {A} (a b : list A) : NoDup (a ++ b) -> NoDup a.
Proof. induction a as [|x a IH]; intros H; [constructor|]. cbn [app] in H. apply NoDup_cons_iff in H. destruct H as [H1 H2]. constructor; [intros K; apply H1, in_or_app; auto|auto]. Qed.
Lemma nodup_r {A} (a b : list A) : NoDup (a ++ b) -> NoDup b.
Proof. induction a as [|x a IH]; intros H; [exact H|]. cbn [app] in H. apply NoDup_cons_iff in H. apply IH, H. Qed.
Lemma nodup_map_inj {A B} (g : A -> B) l x y : NoDup (map g l) -> In x l -> In y l -> g x = g y -> x = y.
Proof.
  induction l as [|z l IH]; intros Nd Hx Hy E; [destruct Hx|]. cbn [map] in Nd. apply NoDup_cons_iff in Nd. destruct Nd as [X Y]. destruct Hx as [Hx|Hx]; destruct Hy as [Hy|Hy]; [congruence| | |auto].
  - subst z. exfalso. apply X. rewrite E. apply in_map. exact Hy.
  - subst z. exfalso. apply X. rewrite <- E. apply in_map. exact Hx.
Qed.
Lemma omap_app {A B} (g : A -> option B) l1 : forall l2 r1 r2, omap g l1 = Some r1 -> omap g l2 = Some r2 -> omap g (l1 ++ l2) = Some (r1 ++ r2).
Proof.
  induction l1 as [|k l1 IH]; intros l2 r1 r2 H1 H2; cbn in *; [injection H1 as <-; exact H2|]. destruct (g k); cbn in *; [|discriminate]. destruct (omap g l1) eqn:E; cbn in *; [|discriminate]. injection H1 as <-.
  rewrite (IH l2 l r2 eq_refl H2). reflexivity.
Qed.
Lemma omap_targets m hs : (forall k, In k hs -> target m k = Some (snd (st m k))) -> omap (target m) hs = Some (map snd (map (st m) hs)).
Proof.
  induction hs as [|k hs IH]; intros H; [reflexivity|]. cbn [omap map]. rewrite (H k (or_introl eq_refl)), IH; [reflexivity|]. intros x Hx. apply H. right. exact Hx.
Qed.

Lemma child_ok m bd u v t s h b a hB : W m -> arc m u v h -> arc m v t b -> arc m s u a ->
  (forall k, In k hB -> arc m (fst (st m k)) (snd (st m k)) k) -> path t (map (st m) hB) s ->
  (forall k, In k (b :: a :: hB) -> In k bd) -> (forall x, In x bd -> exists y, source m x = Some y) ->
  (forall x y z, In x bd -> In y bd -> source m x = Some z -> source m y = Some z -> x = y) -> (length hB + 2 <= length bd)%nat ->
  let B := t :: map snd (map (st m) hB) in NoDup (v :: B ++ [u]) -> (forall p q, In (p, q) (cyc_pairs (u :: v :: B)) -> ~ used m p q) ->
  exists m' r', add_child m bd h = Some (next_slot m, m') /\ W m' /\ rf m' = tl (rf m) /\ zlen (faces m') = next_len m /\ zlen (verts m') = zlen (verts m) /\
  same_cycle r' (u :: v :: B) /\
  (forall g r, rd m' g r <-> (g = next_slot m /\ r = r') \/ rd m g r) /\ ~ live_face m (next_slot m) /\
  (forall s t x, arc m' s t x <-> arc m s t x) /\
  (forall v, 0 <= v < zlen (verts m) -> option_map vpt (vget (verts m') v) = option_map vpt (vget (verts m) v)).
Proof.
  intros Hw Ah Ab Aa Hk Pt Sub Src Inj Len B Nd Un. pose proof (w_inv m Hw) as I.
  assert (FS : forall k z, In k bd -> source m k = Some z -> find_source m bd z = Some k).
  { intros k z Hin Ez. apply find_source_ok; [exact Hin|exact Ez|exact Src|]. intros x Hx Ex. exact (Inj x k z Hx Hin Ex Ez). }
  destruct (arc_st m _ _ _ I Ah) as (Sh & Th & _). destruct (arc_st m _ _ _ I Ab) as (Sb & Tb & Stb). destruct (arc_st m _ _ _ I Aa) as (Sa & Ta & Sta).
  assert (D : forall k, In k hB -> source m k = Some (fst (st m k)) /\ target m k = Some (snd (st m k))).
  { intros k K. destruct (arc_st m _ _ _ I (Hk k K)) as (X & Y & _). auto. }
  assert (Nu : ~ In u (v :: B)). { change (v :: B ++ [u]) with ((v :: B) ++ [u]) in Nd. apply NoDup_remove_2 in Nd. rewrite app_nil_r in Nd. exact Nd. }
  assert (Hp : hpath m bd u h (b :: hB ++ [a])).
  { cbn [hpath]. exists v. split; [exact Th|]. split; [intros ->; apply Nu; left; reflexivity|]. split; [apply FS; [apply Sub; left; reflexivity|exact Sb]|].
    apply (hpath_run m bd u s a hB b t Tb Pt D).
    - intros ->. apply Nu. right. left. reflexivity.
    - intros k K E. apply Nu. right. right. rewrite <- E. apply in_map, in_map. exact K.
    - intros k K. apply FS; [apply Sub; right; right; exact K|apply D, K].
    - apply FS; [apply Sub; right; left; reflexivity|exact Sa].
    - exact Ta. }
  assert (Tr : trace_child (S (length bd)) m bd u h = Some (h :: b :: hB ++ [a])). { apply trace_ok; [exact Hp|]. cbn [length]. rewrite app_length. cbn [length]. lia. }
  assert (Ov : omap (target m) (h :: b :: hB ++ [a]) = Some (v :: B ++ [u])).
  { cbn [omap]. rewrite Th, Tb. cbn [obind]. rewrite (omap_app (target m) hB [a] (map snd (map (st m) hB)) [u]); [reflexivity| |].
    - apply omap_targets. intros k K. apply D, K.
    - cbn [omap]. rewrite Ta. reflexivity. }
  pose proof (child_cycle u v B) as Sc. assert (Pr : forall p q, In (p, q) (cyc_pairs (v :: B ++ [u])) <-> In (p, q) (cyc_pairs (u :: v :: B))) by (intros; apply sc_In, sc_cyc, Sc).
  destruct (path_last t _ s Pt) as [B' EB']. fold B in EB'.
  destruct (w_add_face' m (v :: B ++ [u]) Hw) as (m' & E & W' & Rf & Fl & Vl & Rd & Nl & A & P).
  - cbn [length]. rewrite app_length. unfold B. cbn [length]. lia.
  - exact Nd.
  - intros p q Hin. apply Pr in Hin. apply (cyc_child B s t u v _ _ eq_refl EB') in Hin. destruct Hin as [E|[E|[Hin|E]]]; try (injection E as -> ->; eauto).
    unfold B in Hin. rewrite (path_conn_snd _ _ _ Pt) in Hin. apply in_map_iff in Hin. destruct Hin as (k & E & K). pose proof (Hk k K) as Ak. rewrite E in Ak. cbn [fst snd] in Ak. eauto.
  - intros p q Hin. apply Un, Pr, Hin.
  - exists m', (rotate1 (v :: B ++ [u])). split.
    { unfold add_child. rewrite Sh. cbn [obind]. rewrite Tr. cbn [obind]. rewrite Ov. cbn [obind]. exact E. }
    split; [exact W'|]. split; [exact Rf|]. split; [exact Fl|]. split; [exact Vl|]. split; [rewrite rot_rotate1; eapply sc_trans; [apply sc_sym, sc_rot|exact Sc]|]. split; [exact Rd|]. split; [exact Nl|]. split; [exact A|exact P].
Qed.

Lemma nbs_ok f f0 f1 (sw : bool) : f <> null -> let nbs := filter (fun x => negb (x =? f)) (push_face (push_face [f] f0) f1) in
  let l := if sw then rev nbs else nbs in
  NoDup l /\ (forall x, In x l <-> x <> f /\ x <> null /\ (x = f0 \/ x = f1)).
Proof.
  intros Nf nbs l. assert (Q : NoDup nbs /\ (forall x, In x nbs <-> x <> f /\ x <> null /\ (x = f0 \/ x = f1))).
  { assert (R : forall l x, In x (push_face l f0) <-> In x l \/ (x = f0 /\ f0 <> null)).
    { intros l' x. unfold push_face. destruct (Z.eqb_spec f0 null) as [E|E]; [tauto|]. destruct (zmem f0 l') eqn:M.
      - unfold zmem in M. apply existsb_exists in M. destruct M as (y & Hy & Ey). apply Z.eqb_eq in Ey. subst y. split; [auto|]. intros [K|(-> & _)]; assumption.
      - rewrite in_app_iff. cbn. split; [intros [K|[<-|[]]]; auto|]. intros [K|(-> & _)]; auto. }
    assert (R1 : forall l x, In x (push_face l f1) <-> In x l \/ (x = f1 /\ f1 <> null)).
    { intros l' x. unfold push_face. destruct (Z.eqb_spec f1 null) as [E|E]; [tauto|]. destruct (zmem f1 l') eqn:M.
      - unfold zmem in M. apply existsb_exists in M. destruct M as (y & Hy & Ey). apply Z.eqb_eq in Ey. subst y. split; [auto|]. intros [K|(-> & _)]; assumption.
      - rewrite in_app_iff. cbn. split; [intros [K|[<-|[]]]; auto|]. intros [K|(-> & _)]; auto. }
    assert (N : forall l x, NoDup l -> NoDup (push_face l x)).
    { intros l' x H. unfold push_face. destruct (x =? null); [exact H|]. destruct (zmem x l') eqn:M; [exact H|]. apply NoDup_snoc; [exact H|]. intros K.
      assert (zmem x l' = true); [|congruence]. unfold zmem. apply existsb_exists. exists x. split; [exact K|apply Z.eqb_refl]. }
    split.
    - apply NoDup_filter. apply N, N. constructor; [intros []|constructor].
    - intros x. unfold nbs. rewrite filter_In, R1, R. cbn [In]. destruct (Z.eqb_spec x f) as [E|E]; cbn [negb]; [split; [intros [_ K]; discriminate|tauto]|]. split.
      + intros [[[[K|[]]|[-> K]]|[-> K]] _]; [congruence| |]; auto.
      + intros (_ & K & [-> | ->]); auto. }
  destruct Q as [Q1 Q2]. unfold l. destruct sw; [|auto]. split; [apply NoDup_rev, Q1|]. intros x. rewrite <- in_rev. apply Q2.
Qed.

Lemma subdivide_id a b v c d w r : ~ In (a, b) (cyc_pairs r) -> ~ In (c, d) (cyc_pairs r) -> subdivide a b v c d w r = r.
Proof.
  intros H1 H2. rewrite subdivide_flat. rewrite <- (proj1 (cyc_fst_snd r)) at 2. revert H1 H2. generalize (cyc_pairs r). intros P H1 H2. induction P as [|p P IH]; [reflexivity|].
  cbn [flat_map map]. rewrite IH; [|intros K; apply H1; right; exact K|intros K; apply H2; right; exact K].
  assert (E : ins a b v c d w p = []); [|rewrite E; reflexivity]. unfold ins. destruct p as (x, y). cbn [fst snd].
  destruct ((x =? a) && (y =? b)) eqn:E1; [apply andb_prop in E1; destruct E1 as [K1 K2]; apply Z.eqb_eq in K1, K2; subst; exfalso; apply H1; left; reflexivity|].
  destruct ((x =? c) && (y =? d)) eqn:E2; [apply andb_prop in E2; destruct E2 as [K1 K2]; apply Z.eqb_eq in K1, K2; subst; exfalso; apply H2; left; reflexivity|]. reflexivity.
Qed.

Theorem partition_ok m f g : W m -> rf m = [] -> live_face m f -> two_edges m f g ->
  exists p, partition_face m f g = Some p /\ W (p_mesh p) /\ rf (p_mesh p) = [] /\
    cut_in_two m f (g_p0 g) (g_p1 g) (p_mesh p) (p_v0 p) (p_v1 p) (p_c0 p) (p_c1 p) /\
    ((forall s t x, arc m s t x -> used m s t \/ used m t s) -> forall s t x, arc (p_mesh p) s t x -> used (p_mesh p) s t \/ used (p_mesh p) t s).
Proof.
  intros Hw Rf Lf (hs & Eh & Ri & Rj & Nij). pose proof (w_inv m Hw) as I. pose proof (HInv_consistent m I) as K.
  destruct (rd_total m f I Lf) as [r R]. pose proof (w_nd m Hw f r R) as Nr. pose proof (rd_len3 m f r Hw R) as L3.
  destruct (vget_range_Some hs _ Ri) as [h0 V0]. destruct (vget_range_Some hs _ Rj) as [h1 V1].
  assert (X0 : nth_error hs (Z.to_nat (g_i0 g)) = Some h0). { unfold vget in V0. destruct (Z.ltb_spec (g_i0 g) 0); [lia|exact V0]. }
  assert (X1 : nth_error hs (Z.to_nat (g_i1 g)) = Some h1). { unfold vget in V1. destruct (Z.ltb_spec (g_i1 g) 0); [lia|exact V1]. }
  assert (Nn : Z.to_nat (g_i0 g) <> Z.to_nat (g_i1 g)) by lia.
  destruct (two_parts_exist m f r hs h0 h1 _ _ I R Nr Eh Nn X0 X1) as (s0 & t0 & s1 & t1 & hA & hB & [Tc T0 T1 PA PB Tr Tn]).
  destruct (face_hes m f r I R) as (hs' & Eh' & Nh & _ & Ha & _ & _ & _). assert (hs' = hs) by congruence. subst hs'.
  assert (Perm : Permutation hs (h0 :: hA ++ h1 :: hB)) by (apply sc_perm, Tc).
  assert (Ina : forall k, In k (h0 :: hA ++ h1 :: hB) -> arc m (fst (st m k)) (snd (st m k)) k /\ face m k = Some f).
  { intros k Hk. apply Ha. apply (Permutation_in k (Permutation_sym Perm) Hk). }
  assert (A0 : arc m s0 t0 h0). { destruct (Ina h0 (or_introl eq_refl)) as [A _]. rewrite T0 in A. exact A. }
  assert (A1 : arc m s1 t1 h1). { destruct (Ina h1) as [A _]; [right; apply in_or_app; right; left; reflexivity|]. rewrite T1 in A. exact A. }
  assert (HA : forall k, In k hA -> arc m (fst (st m k)) (snd (st m k)) k). { intros k Hk. apply Ina. right. apply in_or_app. auto. }
  assert (HB : forall k, In k hB -> arc m (fst (st m k)) (snd (st m k)) k). { intros k Hk. apply Ina. right. apply in_or_app. right. right. exact Hk. }
  destruct (arc_st m _ _ _ I A0) as (S0 & Tg0 & _). destruct (arc_st m _ _ _ I A1) as (S1 & Tg1 & _).
  destruct (arc_lv m _ _ _ I A0) as (Ls0 & Lt0 & N0). destruct (arc_lv m _ _ _ I A1) as (Ls1 & Lt1 & N1).
  assert (N01 : (s0, t0) <> (s1, t1)). { intros E. injection E as -> ->. inversion Tn as [|? ? Nx _]. apply Nx. apply in_or_app. right. left. reflexivity. }
  set (A := t0 :: map snd (map (st m) hA)) in *. set (B := t1 :: map snd (map (st m) hB)) in *.
  destruct (path_last _ _ _ PA) as [A' EA']. fold A in EA'. destruct (path_last _ _ _ PB) as [B' EB']. fold B in EB'.
  pose proof (path_conn_snd _ _ _ PA) as CA. fold A in CA. pose proof (path_conn_snd _ _ _ PB) as CB. fold B in CB.
  assert (Cr : forall p, In p (cyc_pairs r) <-> In p (conn A) \/ p = (s1, t1) \/ In p (conn B) \/ p = (s0, t0)).
  { intros p. rewrite (sc_In _ _ p (sc_cyc _ _ Tr)). exact (cyc_two A B s0 t0 s1 t1 _ _ _ _ eq_refl EA' eq_refl EB' p). }
  assert (C0 : In (s0, t0) (cyc_pairs r)) by (apply Cr; auto). assert (C1 : In (s1, t1) (cyc_pairs r)) by (apply Cr; auto).
  pose proof (proj2 (cyc_distinct r s0 t0 Nr L3 C0)) as D0. pose proof (proj2 (cyc_distinct r s1 t1 Nr L3 C1)) as D1.
  (* sources of the two chains *)
  assert (SA : forall x y, In (x, y) (conn A) -> In x (map fst (map (st m) hA))). { intros x y Hin. rewrite CA in Hin. apply (in_map fst) in Hin. exact Hin. }
  assert (SB : forall x y, In (x, y) (conn B) -> In x (map fst (map (st m) hB))). { intros x y Hin. rewrite CB in Hin. apply (in_map fst) in Hin. exact Hin. }
  assert (Ts : ~ In s0 (map fst (map (st m) hA)) /\ ~ In s0 (map fst (map (st m) hB)) /\ ~ In s1 (map fst (map (st m) hA)) /\ ~ In s1 (map fst (map (st m) hB)) /\ s0 <> s1 /\
     (forall x, In x (map fst (map (st m) hA)) -> ~ In x (map fst (map (st m) hB)))).
  { inversion Tn as [|? ? Nx Tn']; subst. rewrite in_app_iff in Nx. cbn [In] in Nx. pose proof (NoDup_remove_2 _ _ _ Tn') as Ny. rewrite in_app_iff in Ny.
    split; [tauto|]. split; [tauto|]. split; [tauto|]. split; [tauto|]. split; [intros E; apply Nx; right; left; auto|].
    apply NoDup_remove_1 in Tn'. intros x Ix Iy. clear -Tn' Ix Iy. induction (map fst (map (st m) hA)) as [|z l IH]; [destruct Ix|]. cbn [app] in Tn'. inversion Tn' as [|? ? Q1 Q2]; subst. destruct Ix as [->|Ix]; [apply Q1, in_or_app; auto|auto]. }
  destruct Ts as (Ts1 & Ts2 & Ts3 & Ts4 & Ns & Tdis).
  (* neighbours *)
  assert (Fo : forall s t h, arc m s t h -> exists x, face m (opposite h) = Some x).
  { intros s t h Ax. apply (arc_opp m s t h (proj1 I)) in Ax. destruct Ax as (_ & d & _ & E & _). exists (hf d). unfold face. rewrite E. reflexivity. }
  destruct (Fo _ _ _ A0) as [f0 F0]. destruct (Fo _ _ _ A1) as [f1 F1].
  assert (Nf : f <> null). { destruct Lf as [[Q _] _]. unfold null. lia. }
  destruct (nbs_ok f f0 f1 (g_swap g) Nf) as [Nb1 Nb2]. set (nbs := if g_swap g then _ else _) in Nb1, Nb2.
  assert (Lo : forall s t h x, arc m s t h -> face m h = Some x -> x <> null -> live_face m x).
  { intros s t h x Ax Fx Nx. apply (live_arc m h s t (proj1 I)) in Ax. apply (k_he_face m K h x); tauto. }
  assert (Nbl : forall x, In x nbs -> live_face m x).
  { intros x Hx. apply Nb2 in Hx. destruct Hx as (_ & Nx & [-> | ->]); [apply (Lo _ _ _ _ (arc_opp m _ _ _ (proj1 I) A0) F0 Nx)|apply (Lo _ _ _ _ (arc_opp m _ _ _ (proj1 I) A1) F1 Nx)]. }
  destruct (omap_total (fun x => do l <- get_halfedges_around_face m x; Some (x, l)) nbs) as [old Eo].
  { intros x Hx. destruct (k_face m K x (Nbl x Hx)) as (l & El & _). rewrite El. cbn [obind]. eauto. }
  assert (Of : map fst old = nbs /\ forall x l, In (x, l) old -> get_halfedges_around_face m x = Some l).
  { clear -Eo. revert old Eo. induction nbs as [|x nbs IH]; intros old Eo; cbn [omap] in Eo; [injection Eo as <-; split; [reflexivity|intros ? ? []]|].
    destruct (get_halfedges_around_face m x) as [l|] eqn:El; cbn [obind] in Eo; [|discriminate]. destruct (omap _ nbs) as [o|]; cbn [obind] in Eo; [|discriminate]. injection Eo as <-.
    destruct (IH o eq_refl) as [IH1 IH2]. split; [cbn; congruence|]. intros y k [E|Hk]; [injection E as <- <-; exact El|exact (IH2 y k Hk)]. }
  destruct Of as [Of1 Of2].
  (* the edges *)
  destruct (stage_edges m (g_p0 g) (g_p1 g) s0 t0 s1 t1 Hw Ls0 Lt0 Ls1 Lt1 N0 N1) as (m1 & m2 & hm & m3 & a0 & m4 & b0 & m5 & a1 & m6 & b1 & m7 & E1 & E2 & E3 & E4 & E5 & E6 & E7 & W7 & Rf7 & Fl7 & Vl7 & Rd7 & Ahm & Aa0 & Ab0 & Aa1 & Ab1 & Inc & Onl & P7 & Pv0 & Pv1).
  set (n := zlen (verts m)) in *. pose proof (zlen_nonneg (verts m)) as n0. fold n in n0.
  assert (Fs7 : faces m7 = faces m).
  { apply add_edge_faces in E3, E4, E5, E6, E7. apply add_vertex_faces in E1, E2. congruence. }
  assert (Old : forall g r, rd m7 g r -> forall v, In v r -> 0 <= v < n).
  { intros g' r' R' v Hv. apply Rd7 in R'. destruct (cyc_all_fst r' v Hv) as [y Hy]. destruct (used_live m v y I) as (Lv & _); [exists g', r'; auto|]. apply w_lv in Lv; assumption. }
  assert (Own0 : forall g r, rd m7 g r -> In (s0, t0) (cyc_pairs r) -> g = f). { intros g' r' R' Hin. apply Rd7 in R'. exact (used_unique m g' r' f r s0 t0 Hw R' R Hin C0). }
  assert (Own1 : forall g r, rd m7 g r -> In (s1, t1) (cyc_pairs r) -> g = f). { intros g' r' R' Hin. apply Rd7 in R'. exact (used_unique m g' r' f r s1 t1 Hw R' R Hin C1). }
  assert (M0 : mid m7 n s0 t0 s1 t1 [] m7).
  { constructor; try reflexivity; try tauto; try (intros ? ? []); try assumption. congruence. }
  destruct (all_neighbours m7 n s0 t0 s1 t1 h0 h1 a0 b0 a1 b1 f W7 (Inc _ _ _ A0) (Inc _ _ _ A1) Aa0 Ab0 Aa1 Ab1 N01 Old Own0 Own1 old [] m7 M0) as (m8 & E8 & M8).
  { rewrite Of1. exact Nb1. }
  { intros x Hx. rewrite Of1 in Hx. split; [intros []|]. split; [apply Nb2, Hx|]. destruct (Nbl x Hx) as [Q1 Q2]. split; [rewrite Fl7; exact Q1|rewrite Rf7; exact Q2]. }
  { intros x l Hx. unfold get_halfedges_around_face. rewrite Fs7. exact (Of2 x l Hx). }
  rewrite Of1, app_nil_r in M8. destruct M8 as [W8 Rf8 Fl8 Vl8 Am8 Dn Dn' Ot P8].
  (* faces after the loop *)
  assert (Nof : ~ In f (rev nbs)). { rewrite <- in_rev. intros Q. apply Nb2 in Q. tauto. }
  assert (R8f : rd m8 f r). { apply Ot; [exact Nof|]. apply Rd7, R. }
  assert (Nin : forall g' l, g' <> f -> rd m7 g' l -> ~ In g' (rev nbs) -> sub7 n s0 t0 s1 t1 l = l).
  { intros g' l Ng Rl Ni. unfold sub7. rewrite <- in_rev in Ni. apply subdivide_id; intros Hin; apply Ni, Nb2; apply Rd7 in Rl.
    - destruct (proj2 (arc_face m t0 s0 (opposite h0) g' l Hw (arc_opp m _ _ _ (proj1 I) A0)) (conj Rl Hin)) as (Fx & Nx & _). split; [exact Ng|]. split; [exact Nx|]. left. congruence.
    - destruct (proj2 (arc_face m t1 s1 (opposite h1) g' l Hw (arc_opp m _ _ _ (proj1 I) A1)) (conj Rl Hin)) as (Fx & Nx & _). split; [exact Ng|]. split; [exact Nx|]. right. congruence. }
  assert (Q8 : forall g' l, g' <> f -> rd m7 g' l -> exists l', rd m8 g' l' /\ same_cycle (sub7 n s0 t0 s1 t1 l) l').
  { intros g' l Ng Rl. destruct (in_dec Z.eq_dec g' (rev nbs)) as [D|D]; [exact (Dn' g' l D Rl)|]. exists l. split; [apply Ot; assumption|]. rewrite (Nin g' l Ng Rl D). apply sc_refl. }
  assert (Q8' : forall g' l', g' <> f -> rd m8 g' l' -> exists l, rd m7 g' l /\ same_cycle (sub7 n s0 t0 s1 t1 l) l').
  { intros g' l' Ng Rl. destruct (in_dec Z.eq_dec g' (rev nbs)) as [D|D]; [exact (Dn g' l' D Rl)|]. pose proof (proj1 (Ot g' l' D) Rl) as R7. exists l'. split; [exact R7|]. rewrite (Nin g' l' Ng R7 D). apply sc_refl. }
  (* removal of f *)
  destruct (w_remove_face m8 f W8 (proj1 R8f)) as (m9 & E9 & W9 & Rf9 & Fl9 & Vl9 & Rd9 & Am9 & P9).
  assert (A97 : forall s t x, arc m9 s t x <-> arc m7 s t x) by (intros; rewrite Am9; apply Am8).
  assert (U9 : forall s t, used m9 s t -> exists g' l, g' <> f /\ rd m g' l /\ In (s, t) (cyc_pairs (sub7 n s0 t0 s1 t1 l))).
  { intros s t (g' & l' & Rl & Hin). apply Rd9 in Rl. destruct Rl as [Rl Ng]. destruct (Q8' g' l' Ng Rl) as (l & R7 & Sc). exists g', l. split; [exact Ng|]. split; [apply Rd7, R7|]. apply (sc_In _ _ (s, t) (sc_cyc _ _ Sc)). exact Hin. }
  assert (Sp := fun l => sub7_pairs m7 n s0 t0 s1 t1 h0 a0 b0 f (Inc _ _ _ A0) Aa0 Ab0 N01 Own0 l).
  apply w_lv in Ls0, Lt0, Ls1, Lt1; try exact Hw. fold n in Ls0, Lt0, Ls1, Lt1.
  assert (Yr : forall g' l x y, rd m g' l -> In (x, y) (cyc_pairs l) -> 0 <= x < n /\ 0 <= y < n).
  { intros g' l x y Rl Hin. apply cyc_In in Hin. split; apply (Old g' l (proj2 (Rd7 _ _) Rl)); tauto. }
  assert (U9' : forall s t, used m9 s t -> (exists g' l, g' <> f /\ rd m g' l /\ In (s, t) (cyc_pairs l) /\ 0 <= s < n /\ 0 <= t < n /\ (s, t) <> (t0, s0) /\ (s, t) <> (t1, s1)) \/ (s, t) = (t0, n) \/ (s, t) = (n, s0) \/ (s, t) = (t1, n + 1) \/ (s, t) = (n + 1, s1)).
  { intros s t U. destruct (U9 s t U) as (g' & l & Ng & Rl & Hin). apply Sp in Hin; [|pose proof (rd_len3 m g' l Hw Rl); lia]. destruct Hin as [(Hin & Q)|[(_ & [Q|Q])|(_ & [Q|Q])]]; auto.
    left. exists g', l. destruct (Yr g' l s t Rl Hin). auto 8. }
  assert (Un9 : forall s t, In (s, t) (cyc_pairs r) -> ~ used m9 s t).
  { intros s t Hin U. destruct (Yr f r s t R Hin). destruct (U9' s t U) as [(g' & l & Ng & Rl & Hl & _)|[Q|[Q|[Q|Q]]]]; [|injection Q as -> ->; lia..].
    apply Ng. exact (used_unique m g' l f r s t Hw Rl R Hl Hin). }
  (* boundary *)
  set (bd := [a0; b0; a1; b1] ++ filter (fun h => negb (h =? h0) && negb (h =? h1)) hs).
  assert (Nx : NoDup (h0 :: hA ++ h1 :: hB)) by (apply (Permutation_NoDup Perm Nh)).
  assert (Hbd : forall k, In k bd <-> k = a0 \/ k = b0 \/ k = a1 \/ k = b1 \/ In k hA \/ In k hB).
  { intros k. unfold bd. rewrite in_app_iff, filter_In. cbn [In].
    assert (Q : (In k hs /\ negb (k =? h0) && negb (k =? h1) = true) <-> In k hA \/ In k hB).
    { inversion Nx as [|? ? Q1 Q2]; subst. pose proof (NoDup_remove_2 _ _ _ Q2) as Q3. rewrite in_app_iff in Q1, Q3. cbn [In] in Q1. split.
      - intros [Hk Hb]. apply (Permutation_in k Perm) in Hk. cbn [In] in Hk. rewrite in_app_iff in Hk. cbn [In] in Hk. apply andb_prop in Hb. destruct Hb as [B1 B2]. apply negb_true_iff in B1, B2. apply Z.eqb_neq in B1, B2. intuition congruence.
      - intros Hk. split; [apply (Permutation_in k (Permutation_sym Perm)); right; apply in_or_app; destruct Hk; [left|right; right]; assumption|].
        apply andb_true_intro. split; apply negb_true_iff, Z.eqb_neq; intros ->; tauto. }
    rewrite Q. clear. intuition congruence. }
  assert (Lbd : (length hA + length hB + 4 <= length bd)%nat).
  { set (flt := filter (fun h => negb (h =? h0) && negb (h =? h1)) hs) in bd. assert (Inc2 : (length (hA ++ hB) <= length flt)%nat).
    { apply NoDup_incl_length.
      - inversion Nx as [|? ? Q1 Q2]; subst. apply NoDup_remove_1 in Q2. exact Q2.
      - intros k Hk. apply in_app_iff in Hk. apply filter_In. inversion Nx as [|? ? Q1 Q2]; subst. pose proof (NoDup_remove_2 _ _ _ Q2) as Q3. rewrite in_app_iff in Q1, Q3. cbn [In] in Q1.
        split; [apply (Permutation_in k (Permutation_sym Perm)); right; apply in_or_app; destruct Hk; [left|right; right]; assumption|].
        apply andb_true_intro. split; apply negb_true_iff, Z.eqb_neq; intros ->; tauto. }
    unfold bd. rewrite app_length in *. cbn [length] in *. lia. }
  assert (Stq : forall mx, HInv mx -> (forall s t x, arc mx s t x <-> arc m7 s t x) -> forall k, In k hA \/ In k hB -> st mx k = st m k).
  { intros mx Ix Ax k Hk. assert (Q : arc m (fst (st m k)) (snd (st m k)) k) by (destruct Hk; auto). destruct (arc_st mx _ _ _ Ix (proj2 (Ax _ _ _) (Inc _ _ _ Q))) as (_ & _ & ->). destruct (st m k); reflexivity. }
  assert (Src : forall mx, HInv mx -> (forall s t x, arc mx s t x <-> arc m7 s t x) -> forall x, In x bd -> exists y, source mx x = Some y /\
     (x = a0 /\ y = s0 \/ x = b0 /\ y = n \/ x = a1 /\ y = s1 \/ x = b1 /\ y = n + 1 \/ In x hA /\ y = fst (st m x) \/ In x hB /\ y = fst (st m x))).
  { intros mx Ix Ax x Hx. apply Hbd in Hx. destruct Hx as [->|[->|[->|[->|[Hx|Hx]]]]].
    - exists s0. split; [apply (arc_st mx _ _ _ Ix (proj2 (Ax _ _ _) Aa0))|auto].
    - exists n. split; [apply (arc_st mx _ _ _ Ix (proj2 (Ax _ _ _) Ab0))|auto].
    - exists s1. split; [apply (arc_st mx _ _ _ Ix (proj2 (Ax _ _ _) Aa1))|auto].
    - exists (n + 1). split; [apply (arc_st mx _ _ _ Ix (proj2 (Ax _ _ _) Ab1))|auto 8].
    - exists (fst (st m x)). split; [apply (arc_st mx _ _ _ Ix (proj2 (Ax _ _ _) (Inc _ _ _ (HA x Hx))))|auto 8].
    - exists (fst (st m x)). split; [apply (arc_st mx _ _ _ Ix (proj2 (Ax _ _ _) (Inc _ _ _ (HB x Hx))))|auto 9]. }
  assert (NdA : NoDup (map (fun k => fst (st m k)) hA) /\ NoDup (map (fun k => fst (st m k)) hB)).
  { rewrite !map_map in Tn. apply NoDup_cons_iff in Tn. destruct Tn as [_ Q2]. split; [exact (nodup_l _ _ Q2)|]. apply NoDup_remove_1 in Q2. exact (nodup_r _ _ Q2). }
  destruct NdA as [NdA NdB].
  assert (Rk : forall k, In k hA \/ In k hB -> 0 <= fst (st m k) < n /\ 0 <= snd (st m k) < n).
  { intros k Hk. assert (Q : arc m (fst (st m k)) (snd (st m k)) k) by (destruct Hk; auto). destruct (arc_range m _ _ _ Hw Q) as (Q1 & Q2 & _). auto. }
  assert (MI : forall l x y, NoDup (map (fun k => fst (st m k)) l) -> In x l -> In y l -> fst (st m x) = fst (st m y) -> x = y).
  { intros l x y. apply (nodup_map_inj (fun k => fst (st m k))). }
  assert (IA : forall k, In k hA -> In (fst (st m k)) (map fst (map (st m) hA))) by (intros k Hk; apply in_map, in_map, Hk).
  assert (IB : forall k, In k hB -> In (fst (st m k)) (map fst (map (st m) hB))) by (intros k Hk; apply in_map, in_map, Hk).
  assert (Inj : forall mx, HInv mx -> (forall s t x, arc mx s t x <-> arc m7 s t x) -> forall x y z, In x bd -> In y bd -> source mx x = Some z -> source mx y = Some z -> x = y).
  { intros mx Ix Ax x y z Hx Hy Ex Ey. destruct (Src mx Ix Ax x Hx) as (z1 & Z1 & Cx). destruct (Src mx Ix Ax y Hy) as (z2 & Z2 & Cy). assert (z1 = z) by congruence. assert (z2 = z) by congruence. subst z1 z2. clear Z1 Z2 Ex Ey Hx Hy.
    assert (Bx : forall w, In w hA \/ In w hB -> z = fst (st m w) -> z <> s0 /\ z <> s1 /\ z <> n /\ z <> n + 1).
    { intros w Hw2 ->. destruct (Rk w Hw2) as [Q _]. split; [|split; [|clear -Q; lia]]; (destruct Hw2 as [Q2|Q2]; [apply IA in Q2|apply IB in Q2]; intros E; rewrite E in Q2; contradiction). }
    assert (Xx : In x hA \/ In x hB -> z = fst (st m x) -> z = s0 \/ z = s1 \/ z = n \/ z = n + 1 -> False). { intros Q1 Q2 Q3. destruct (Bx x Q1 Q2) as (? & ? & ? & ?). destruct Q3 as [?|[?|[?|?]]]; contradiction. }
    assert (Xy : In y hA \/ In y hB -> z = fst (st m y) -> z = s0 \/ z = s1 \/ z = n \/ z = n + 1 -> False). { intros Q1 Q2 Q3. destruct (Bx y Q1 Q2) as (? & ? & ? & ?). destruct Q3 as [?|[?|[?|?]]]; contradiction. }
    assert (Xz : s0 <> s1 /\ s0 <> n /\ s0 <> n + 1 /\ s1 <> n /\ s1 <> n + 1 /\ n <> n + 1) by (clear -Ns Ls0 Ls1; lia). destruct Xz as (? & ? & ? & ? & ? & ?).
    destruct Cx as [[Ex Qx]|[[Ex Qx]|[[Ex Qx]|[[Ex Qx]|[[Hx Qx]|[Hx Qx]]]]]]; destruct Cy as [[Ey Qy]|[[Ey Qy]|[[Ey Qy]|[[Ey Qy]|[[Hy Qy]|[Hy Qy]]]]]]; try congruence;
      try (exfalso; first [apply Xx; auto; fail|apply Xy; auto; fail]).
    - apply (MI hA); [exact NdA|exact Hx|exact Hy|congruence].
    - exfalso. apply (Tdis (fst (st m x)) (IA x Hx)). replace (fst (st m x)) with (fst (st m y)) by congruence. exact (IB y Hy).
    - exfalso. apply (Tdis (fst (st m y)) (IA y Hy)). replace (fst (st m y)) with (fst (st m x)) by congruence. exact (IB x Hx).
    - apply (MI hB); [exact NdB|exact Hx|exact Hy|congruence]. }
  assert (Mq : forall mx l, HInv mx -> (forall s t x, arc mx s t x <-> arc m7 s t x) -> (forall k, In k l -> In k hA \/ In k hB) -> map (st mx) l = map (st m) l).
  { intros mx l Ix Ax Hl. apply map_ext_in. intros k Hk. apply (Stq mx Ix Ax). auto. }
  assert (NAB : NoDup (A ++ B)) by (apply (sc_NoDup _ _ Tr Nr)).
  assert (RAB : forall x, In x (A ++ B) -> 0 <= x < n). { intros x Hx. apply (Old f r (proj2 (Rd7 _ _) R)). apply (sc_In _ _ x Tr). exact Hx. }
  pose proof (nodup_l _ _ NAB) as NA. pose proof (nodup_r _ _ NAB) as NB.
  assert (NdC : forall u v l, NoDup l -> (forall x, In x l -> 0 <= x < n) -> n <= u -> n <= v -> u <> v -> NoDup (v :: l ++ [u])).
  { intros u v l Nl Rl Hu Hv Huv. constructor.
    - rewrite in_app_iff. cbn [In]. intros [Q|[Q|[]]]; [apply Rl in Q; lia|congruence].
    - apply NoDup_snoc; [exact Nl|]. intros Q. apply Rl in Q. lia. }
  (* first child *)
  pose proof (w_inv m9 W9) as I9.
  destruct (child_ok m9 bd n (n + 1) t1 s0 hm b1 a0 hB W9 (proj2 (A97 _ _ _) Ahm) (proj2 (A97 _ _ _) Ab1) (proj2 (A97 _ _ _) Aa0)) as (m10 & r0 & E10 & W10 & Rf10 & Fl10 & Vl10 & Sc0 & Rd10 & Nl10 & Am10 & P10).
  { intros k Hk. rewrite (Stq m9 I9 A97 k (or_intror Hk)). apply A97, Inc, HB, Hk. }
  { rewrite (Mq m9 hB I9 A97); [exact PB|auto]. }
  { intros k Hk. apply Hbd. cbn [In] in Hk. intuition congruence. }
  { intros x Hx. destruct (Src m9 I9 A97 x Hx) as (y & Ey & _). eauto. }
  { exact (Inj m9 I9 A97). }
  { lia. }
  { rewrite (Mq m9 hB I9 A97); [|auto]. fold B. apply NdC; [exact NB| |clear; lia..]. intros x Hx. apply RAB, in_or_app. auto. }
  { rewrite (Mq m9 hB I9 A97); [|auto]. fold B. intros p q Hin. apply (cyc_child B s0 t1 n (n + 1) _ _ eq_refl EB') in Hin. destruct Hin as [E|[E|[Hin|E]]].
    - injection E as -> ->. intros U. destruct (U9' _ _ U) as [(? & ? & ? & ? & ? & Y1 & Y2 & _)|[Q|[Q|[Q|Q]]]]; [clear -Y1 Y2 n0; lia|injection Q; clear -n0 Ls0 Lt0 Ls1 Lt1 N0 N1; lia..].
    - injection E as -> ->. intros U. destruct (U9' _ _ U) as [(? & ? & ? & ? & ? & Y1 & Y2 & _)|[Q|[Q|[Q|Q]]]]; [clear -Y1 Y2 n0; lia|injection Q; clear -n0 Ls0 Lt0 Ls1 Lt1 N0 N1; lia..].
    - apply Un9, Cr. auto.
    - injection E as -> ->. intros U. destruct (U9' _ _ U) as [(? & ? & ? & ? & ? & Y1 & Y2 & _)|[Q|[Q|[Q|Q]]]]; [clear -Y1 Y2 n0; lia|injection Q; clear -n0 Ls0 Lt0 Ls1 Lt1 N0 N1; lia..]. }
  rewrite (Mq m9 hB I9 A97) in Sc0; [|auto]. fold B in Sc0.
  assert (Ns9 : next_slot m9 = f /\ next_len m9 = zlen (faces m9)). { unfold next_slot, next_len. rewrite Rf9, Rf8. auto. } destruct Ns9 as [Ns9 Nl9]. rewrite Ns9, Nl9 in *.
  rewrite Rf9, Rf8 in Rf10. cbn [app tl] in Rf10.
  assert (A107 : forall s t x, arc m10 s t x <-> arc m7 s t x) by (intros; rewrite Am10; apply A97).
  assert (U10 : forall s t, used m10 s t <-> used m9 s t \/ (s, t) = (n, n + 1) \/ (s, t) = (n + 1, t1) \/ In (s, t) (conn B) \/ (s, t) = (s0, n)).
  { intros s t. rewrite <- (cyc_child B s0 t1 n (n + 1) _ _ eq_refl EB' (s, t)), <- (sc_In _ _ (s, t) (sc_cyc _ _ Sc0)). split.
    - intros (g' & l & Rl & Hin). apply Rd10 in Rl. destruct Rl as [[-> ->]|Rl]; [right; exact Hin|left; exists g', l; auto].
    - intros [(g' & l & Rl & Hin)|Hin]; [exists g', l; split; [apply Rd10; auto|exact Hin]|exists f, r0; split; [apply Rd10; auto|exact Hin]]. }
  (* second child *)
  pose proof (w_inv m10 W10) as I10. pose proof (arc_opp m7 _ _ _ (proj1 (w_inv m7 W7)) Ahm) as Aohm.
  destruct (child_ok m10 bd (n + 1) n t0 s1 (opposite hm) b0 a1 hA W10 (proj2 (A107 _ _ _) Aohm) (proj2 (A107 _ _ _) Ab0) (proj2 (A107 _ _ _) Aa1)) as (m11 & r1 & E11 & W11 & Rf11 & Fl11 & Vl11 & Sc1 & Rd11 & Nl11 & Am11 & P11).
  { intros k Hk. rewrite (Stq m10 I10 A107 k (or_introl Hk)). apply A107, Inc, HA, Hk. }
  { rewrite (Mq m10 hA I10 A107); [exact PA|auto]. }
  { intros k Hk. apply Hbd. cbn [In] in Hk. intuition congruence. }
  { intros x Hx. destruct (Src m10 I10 A107 x Hx) as (y & Ey & _). eauto. }
  { exact (Inj m10 I10 A107). }
  { lia. }
  { rewrite (Mq m10 hA I10 A107); [|auto]. fold A. apply NdC; [exact NA| |clear; lia..]. intros x Hx. apply RAB, in_or_app. auto. }
  { rewrite (Mq m10 hA I10 A107); [|auto]. fold A. intros p q Hin. apply (cyc_child A s1 t0 (n + 1) n _ _ eq_refl EA') in Hin.
    assert (BB : forall x y, In (x, y) (conn B) -> 0 <= x < n /\ 0 <= y < n). { intros x y Hb. apply (Yr f r x y R). apply Cr. auto. }
    assert (Nw : (n <= p \/ n <= q) -> used m10 p q -> (p, q) = (n, n + 1) \/ (p, q) = (n + 1, t1) \/ (p, q) = (s0, n) \/ (p, q) = (t0, n) \/ (p, q) = (n, s0) \/ (p, q) = (t1, n + 1) \/ (p, q) = (n + 1, s1)).
    { intros Hn U. apply U10 in U. destruct U as [U|[U|[U|[U|U]]]]; auto; [|apply BB in U; lia]. destruct (U9' _ _ U) as [(? & ? & ? & ? & ? & Y1 & Y2 & _)|[Q|[Q|[Q|Q]]]]; [clear -Y1 Y2 Hn; lia|auto 8..]. }
    destruct Hin as [E|[E|[Hin|E]]].
    - injection E as -> ->. intros U. assert (Hn : n <= n + 1) by (clear -n0; lia). destruct (Nw (or_introl Hn) U) as [Q|[Q|[Q|[Q|[Q|[Q|Q]]]]]]; injection Q; clear -n0 Ls0 Lt0 Ls1 Lt1 N0 N1; lia.
    - injection E as -> ->. intros U. assert (Hn : n <= n) by (clear -n0; lia). destruct (Nw (or_introl Hn) U) as [Q|[Q|[Q|[Q|[Q|[Q|Q]]]]]]; injection Q; clear -n0 Ls0 Lt0 Ls1 Lt1 N0 N1; lia.
    - intros U. assert (Hr : In (p, q) (cyc_pairs r)) by (apply Cr; auto). destruct (Yr f r p q R Hr) as [Hp Hq]. apply U10 in U. destruct U as [U|[U|[U|[U|U]]]]; [exact (Un9 p q Hr U)|injection U; clear -Hp Hq; lia|injection U; clear -Hp Hq; lia| |injection U; clear -Hp Hq; lia].
      exact (Tdis p (SA p q Hin) (SB p q U)).
    - injection E as -> ->. intros U. assert (Hn : n <= n + 1) by (clear -n0; lia). destruct (Nw (or_intror Hn) U) as [Q|[Q|[Q|[Q|[Q|[Q|Q]]]]]]; injection Q; clear -n0 Ls0 Lt0 Ls1 Lt1 N0 N1; lia. }
  rewrite (Mq m10 hA I10 A107) in Sc1; [|auto]. fold A in Sc1.
  assert (Ns10 : next_slot m10 = zlen (faces m) /\ next_len m10 = zlen (faces m) + 1). { unfold next_slot, next_len. rewrite Rf10, Fl10, Fl9, Fl8, Fl7. auto. } destruct Ns10 as [Ns10 Nl10']. rewrite Ns10, Nl10' in *.
  rewrite Rf10 in Rf11. cbn [tl] in Rf11.
  assert (A117 : forall s t x, arc m11 s t x <-> arc m7 s t x) by (intros; rewrite Am11; apply A107).
  assert (U11 : forall s t, used m11 s t <-> used m10 s t \/ (s, t) = (n + 1, n) \/ (s, t) = (n, t0) \/ In (s, t) (conn A) \/ (s, t) = (s1, n + 1)).
  { intros s t. rewrite <- (cyc_child A s1 t0 (n + 1) n _ _ eq_refl EA' (s, t)), <- (sc_In _ _ (s, t) (sc_cyc _ _ Sc1)). split.
    - intros (g' & l & Rl & Hin). apply Rd11 in Rl. destruct Rl as [[-> ->]|Rl]; [right; exact Hin|left; exists g', l; auto].
    - intros [(g' & l & Rl & Hin)|Hin]; [exists g', l; split; [apply Rd11; auto|exact Hin]|exists (zlen (faces m)), r1; split; [apply Rd11; auto|exact Hin]]. }
  (* removal of the two edges *)
  assert (Dead : forall s t, 0 <= s < n -> 0 <= t < n -> (s, t) = (s0, t0) \/ (s, t) = (t0, s0) \/ (s, t) = (s1, t1) \/ (s, t) = (t1, s1) -> ~ used m11 s t).
  { intros s t Hs Ht E U. apply U11 in U.
    assert (U' : used m9 s t \/ In (s, t) (conn A) \/ In (s, t) (conn B)).
    { destruct U as [U|[U|[U|[U|U]]]]; try (injection U; clear -n0 Hs Ht; lia); [|auto]. apply U10 in U. destruct U as [U|[U|[U|[U|U]]]]; try (injection U; clear -n0 Hs Ht; lia); auto. }
    clear U. destruct E as [E|[E|[E|E]]]; injection E as -> ->.
    - destruct U' as [U|[U|U]]; [exact (Un9 _ _ C0 U)|exact (Ts1 (SA _ _ U))|exact (Ts2 (SB _ _ U))].
    - destruct U' as [U|U]; [|apply D0, Cr; tauto]. destruct (U9' _ _ U) as [(? & ? & ? & ? & ? & ? & ? & Q & _)|[Q|[Q|[Q|Q]]]]; [congruence|injection Q; clear -n0 Ls0 Lt0 Ls1 Lt1 N0 N1; lia..].
    - destruct U' as [U|[U|U]]; [exact (Un9 _ _ C1 U)|exact (Ts3 (SA _ _ U))|exact (Ts4 (SB _ _ U))].
    - destruct U' as [U|U]; [|apply D1, Cr; tauto]. destruct (U9' _ _ U) as [(? & ? & ? & ? & ? & ? & ? & _ & Q)|[Q|[Q|[Q|Q]]]]; [congruence|injection Q; clear -n0 Ls0 Lt0 Ls1 Lt1 N0 N1; lia..]. }
  destruct (w_remove_edge m11 (edge_of h0) s0 t0 h0 W11 (proj2 (A117 _ _ _) (Inc _ _ _ A0)) eq_refl) as (m12 & E12 & W12 & Rf12 & Fl12 & Vl12 & Rd12 & Am12 & P12); [apply Dead; auto..|].
  assert (Ne : edge_of h1 <> edge_of h0).
  { intros E. destruct (edge_arcs m Hw s0 t0 h0 h1 A0 E s1 t1 A1) as [Q|Q]; [congruence|]. injection Q as -> ->. apply D0. exact C1. }
  assert (U12 : forall s t, used m12 s t <-> used m11 s t). { intros s t. split; intros (g' & l & Rl & Hin); exists g', l; (split; [apply Rd12; exact Rl|exact Hin]). }
  destruct (w_remove_edge m12 (edge_of h1) s1 t1 h1 W12 (proj2 (Am12 _ _ _) (conj (proj2 (A117 _ _ _) (Inc _ _ _ A1)) Ne)) eq_refl) as (m13 & E13 & W13 & Rf13 & Fl13 & Vl13 & Rd13 & Am13 & P13); [rewrite U12; apply Dead; auto..|].
  assert (U13 : forall s t, used m13 s t <-> used m11 s t). { intros s t. rewrite <- U12. split; intros (g' & l & Rl & Hin); exists g', l; (split; [apply Rd13; exact Rl|exact Hin]). }
  exists (Part m13 n (n + 1) f (zlen (faces m))). cbn [p_mesh p_v0 p_v1 p_c0 p_c1].
  assert (Z7 : zlen (faces m13) = zlen (faces m) + 1) by congruence.
  assert (Z8 : rf m13 = []) by congruence.
  assert (Z9 : zlen (verts m13) = n + 2) by lia.
  assert (Pt : forall v, 0 <= v < n + 2 -> option_map vpt (vget (verts m13) v) = option_map vpt (vget (verts m7) v)).
  { intros v Hv. rewrite P13, P12, P11, P10, P9, P8 by lia. reflexivity. }
  split; [|split; [exact W13|split; [exact Z8|split]]].
  - unfold partition_face. rewrite Eh. cbn [obind]. rewrite V0. cbn [obind]. rewrite S0, Tg0, F0. cbn [obind]. rewrite V1. cbn [obind]. rewrite S1, Tg1, F1. cbn [obind]. fold nbs. rewrite Eo. cbn [obind].
    rewrite E1. cbn [obind]. rewrite E2. cbn [obind]. rewrite E3. cbn [obind]. rewrite E4. cbn [obind]. rewrite E5. cbn [obind]. rewrite E6. cbn [obind]. rewrite E7. cbn [obind].
    change (retrace (edge_of h0) a0 b0 (edge_of h1) a1 b1) with (step7 h0 h1 a0 b0 a1 b1). rewrite E8. cbn [obind]. rewrite E9. cbn [obind]. fold bd. rewrite E10. cbn [obind]. rewrite E11. cbn [obind]. rewrite E12. cbn [obind]. rewrite E13. reflexivity.
  - constructor.
    + exists s0, t0, s1, t1, A, B. split; [split; [exact Lf|exists r; split; [apply R|exact Tr]]|]. split; [eexists; reflexivity|]. split; [exists A'; exact EA'|]. split; [eexists; reflexivity|]. split; [exists B'; exact EB'|].
      assert (Ar : forall g' l l', rd m13 g' l -> same_cycle l l' -> around m13 g' l'). { intros g' l l' [X Y] Sc. split; [exact X|]. exists l. auto. }
      split; [|split].
      * apply (Ar f r0); [|exact Sc0]. apply Rd13, Rd12, Rd11. right. apply Rd10. auto.
      * apply (Ar (zlen (faces m)) r1); [|exact Sc1]. apply Rd13, Rd12, Rd11. auto.
      * intros g' l Ng (Lg & l0 & El & Sl). destruct (Q8 g' l0 Ng) as (l' & Rl & Sc); [apply Rd7; split; assumption|]. apply (Ar g' l'); [|].
        -- apply Rd13, Rd12, Rd11. right. apply Rd10. right. apply Rd9. auto.
        -- eapply sc_trans; [apply sc_sym; exact Sc|]. apply sc_subdivide. exact Sl.
    + reflexivity.
    + unfold number_of_faces. rewrite Rf. change (zlen (@nil Z)) with 0. lia.
    + intros g'. unfold live_face. rewrite Z7, Z8, Rf. cbn [In]. pose proof (zlen_nonneg (faces m)). lia.
    + unfold number_of_vertices. rewrite (w_rv m Hw). change (zlen (@nil Z)) with 0. fold n. lia.
    + unfold number_of_vertices. rewrite (w_rv m Hw). change (zlen (@nil Z)) with 0. fold n. lia.
    + intros v. unfold live_vertex. rewrite Z9, (w_rv m Hw), (w_rv m13 W13). fold n. cbn [In]. lia.
    + intros v [Hv _]. fold n in Hv. rewrite Pt by lia. apply P7. exact Hv.
    + rewrite Pt by lia. exact Pv0.
    + rewrite Pt by lia. exact Pv1.
  - intros Hu s t x Ax. rewrite !U13. apply Am13 in Ax. destruct Ax as [Ax N2]. apply Am12 in Ax. destruct Ax as [Ax N3]. apply A117 in Ax.
    assert (New : forall s t, newpair n s0 t0 s1 t1 s t -> used m11 s t \/ used m11 t s).
    { intros x1 y1 [[-> ->]|[[-> ->]|[[-> ->]|[[-> ->]|[-> ->]]]]]; left; apply U11; [left; apply U10; auto 8|left; apply U10; auto 8|auto 8|auto 8|left; apply U10; auto 8]. }
    destruct (Onl s t x Ax) as [Am|[Np|Np]]; [|exact (New s t Np)|destruct (New t s Np); auto].
    assert (Keep : forall s t x, arc m s t x -> edge_of x <> edge_of h0 -> edge_of x <> edge_of h1 -> used m s t -> used m11 s t).
    { clear s t x Ax N2 N3 Am. intros s t x Ax Ne0 Ne1 (g' & l & Rl & Hin). destruct (Z.eq_dec g' f) as [->|Ng].
      - rewrite (rd_fun _ _ _ _ Rl R) in Hin. apply Cr in Hin. apply U11. destruct Hin as [Hin|[E|[Hin|E]]]; [auto 8| |left; apply U10; auto 8|]; exfalso; injection E as -> ->.
        + apply Ne1. apply (arc_edge m Hw s1 t1 h1 s1 t1 x A1 Ax). auto.
        + apply Ne0. apply (arc_edge m Hw s0 t0 h0 s0 t0 x A0 Ax). auto.
      - apply U11. left. apply U10. left. destruct (Q8 g' l Ng (proj2 (Rd7 _ _) Rl)) as (l' & Rl' & Sc). exists g', l'. split; [apply Rd9; auto|]. apply (sc_In _ _ (s, t) (sc_cyc _ _ Sc)). apply Sp; [pose proof (rd_len3 m g' l Hw Rl); lia|].
        left. split; [exact Hin|]. split; intros E; injection E as -> ->.
        + apply Ne0. apply (arc_edge m Hw s0 t0 h0 t0 s0 x A0 Ax). auto.
        + apply Ne1. apply (arc_edge m Hw s1 t1 h1 t1 s1 x A1 Ax). auto. }
    destruct (Hu s t x Am) as [U|U]; [left; exact (Keep s t x Am N3 N2 U)|right].
    pose proof (arc_opp m s t x (proj1 I) Am) as Ao. apply (Keep t s (opposite x) Ao); [| |exact U]; unfold edge_of in *; rewrite opposite_div; assumption.
Qed.
