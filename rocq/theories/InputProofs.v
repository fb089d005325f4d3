From Coq Require Import List ZArith Lia Bool.
From Verif Require Import Vec VecLemmas HmeshModel HmeshSpec HmeshCore HmeshCyc HmeshFaces HmeshAdd HmeshProps ParModel ParSumModel InputModel InputSpec.
Import ListNotations.
Open Scope Z_scope.

(** ** what add_face leaves alone *)
Record fr (m m' : hmesh) : Prop := {
  fr_rf' : rf m' = rf m; fr_fc : faces m' = faces m; fr_rv : rv m' = rv m; fr_vl : zlen (verts m') = zlen (verts m) }.
Lemma fr_refl m : fr m m. Proof. constructor; reflexivity. Qed.
Lemma fr_trans a b c : fr a b -> fr b c -> fr a c.
Proof. intros [] []. constructor; congruence. Qed.
Lemma hupd_fr m h g m' : hupd m h g = Some m' -> fr m m'.
Proof.
  unfold hupd. destruct (vget (hes m) h) as [d|]; [|cbn; discriminate]. cbn [obind]. destruct (vset _ _ _) as [x|]; [|cbn; discriminate]. cbn. intros E. injection E as <-. constructor; reflexivity.
Qed.
Lemma vupd_fr m v g m' : vupd m v g = Some m' -> fr m m'.
Proof.
  unfold vupd. destruct (vget (verts m) v) as [d|]; [|cbn; discriminate]. cbn [obind]. destruct (vset _ _ _) as [x|] eqn:E1; [|cbn; discriminate]. cbn. intros E. injection E as <-. constructor; try reflexivity. cbn. exact (vset_len _ _ _ _ E1).
Qed.
Lemma set_next_fr m a b m' : set_next m a b = Some m' -> fr m m'.
Proof.
  unfold set_next. destruct (hupd m a _) as [x|] eqn:E; [|cbn; discriminate]. cbn. intros K. eapply fr_trans; [eapply hupd_fr; exact E|eapply hupd_fr; exact K].
Qed.
Lemma link_next_fr hs m m' : link_next m hs = Some m' -> fr m m'.
Proof.
  unfold link_next. generalize (cyc_pairs hs). intros l. revert m. induction l as [|p l IH]; intros m E; cbn in E; [injection E as <-; apply fr_refl|].
  destruct (set_next m (fst p) (snd p)) as [x|] eqn:E1; [|cbn; discriminate]. cbn in E. eapply fr_trans; [eapply set_next_fr; exact E1|apply IH; exact E].
Qed.
Lemma add_edge_fr m a b h m' : add_edge m a b = Some (h, m') -> fr m m'.
Proof.
  unfold add_edge. destruct (alloc_he m) as [h0 m1] eqn:E0. destruct (alloc_he m1) as [h1 m2] eqn:E1. destruct (alloc_edge m2) as [e m3] eqn:E2.
  assert (F1 : fr m m1) by (unfold alloc_he in E0; destruct (rh m); injection E0 as _ <-; constructor; reflexivity).
  assert (F2 : fr m1 m2) by (unfold alloc_he in E1; destruct (rh m1); injection E1 as _ <-; constructor; reflexivity).
  assert (F3 : fr m2 m3) by (unfold alloc_edge in E2; destruct (re m2); injection E2 as _ <-; constructor; reflexivity).
  destruct (vset (edges m3) e h0) as [es|]; [|cbn; discriminate]. cbn [obind].
  destruct (hupd _ h0 _) as [m5|] eqn:E5; [|cbn; discriminate]. cbn [obind]. destruct (hupd m5 _ _) as [m6|] eqn:E6; [|cbn; discriminate]. cbn [obind].
  destruct (vupd m6 _ _) as [m7|] eqn:E7; [|cbn; discriminate]. cbn [obind]. destruct (vupd m7 _ _) as [m8|] eqn:E8; [|cbn; discriminate]. cbn [obind].
  intros E. injection E as _ <-. apply hupd_fr in E5, E6. apply vupd_fr in E7, E8.
  assert (F4 : fr m3 (set_edges m3 es)) by (constructor; reflexivity).
  repeat (eapply fr_trans; [eassumption|]). apply fr_refl.
Qed.
Lemma loop_fr f reuse ps : forall m acc m' acc', add_face_loop m f reuse acc ps = LOk m' acc' -> fr m m'.
Proof.
  induction ps as [|[a b] ps IH]; intros m acc m' acc' E; cbn [add_face_loop] in E; [injection E as <- _; apply fr_refl|].
  destruct (obind (halfedge_st m a b true) _) as [[h m1]|] eqn:Eh; [|cbn; discriminate].
  assert (F : fr m m1).
  { destruct (halfedge_st m a b true) as [x|]; [|cbn; discriminate]. cbn [obind] in Eh. destruct (negb (x =? null)); [injection Eh as _ <-; apply fr_refl|]. eapply add_edge_fr; exact Eh. }
  destruct (face m1 h) as [fc|]; [|cbn; discriminate]. destruct (negb (fc =? null)).
  - destruct (if reuse && (fc =? f) then Some [] else get_vertices_around_face m1 fc); discriminate.
  - destruct (hupd m1 h _) as [m2|] eqn:E2; [|cbn; discriminate]. eapply fr_trans; [exact F|]. eapply fr_trans; [eapply hupd_fr; exact E2|]. eapply IH; exact E.
Qed.

Lemma add_face_append m vi f m' : rf m = [] -> add_face m vi = Added f m' ->
  f = zlen (faces m) /\ rf m' = [] /\ zlen (faces m') = zlen (faces m) + 1 /\ rv m' = rv m /\ zlen (verts m') = zlen (verts m).
Proof.
  intros R E. unfold add_face in E. rewrite R in E. destruct (add_face_loop _ _ _ _ _) as [m1 acc|m1 acc|] eqn:El; try discriminate.
  cbn [obind] in E. destruct (link_next _ _) as [m2|] eqn:E2; [|cbn; discriminate]. injection E as <- <-.
  apply loop_fr in El. apply link_next_fr in E2. destruct El as [A1 A2 A3 A4], E2 as [B1 B2 B3 B4]. cbn in *.
  split; [unfold number_of_faces; rewrite R; unfold zlen; cbn; lia|]. split; [congruence|]. split; [rewrite B2, A2, zlen_snoc; reflexivity|]. split; congruence.
Qed.

Lemma combine_app_eq {A B} (l1 l2 : list A) : forall (r1 r2 : list B), length l1 = length r1 -> combine (l1 ++ l2) (r1 ++ r2) = combine l1 r1 ++ combine l2 r2.
Proof. induction l1 as [|a l1 IH]; intros [|b r1] r2 H; try discriminate; [reflexivity|]. cbn. rewrite IH; [reflexivity|]. cbn in H. lia. Qed.

(** ** meshes without parallel edges *)
Record tsame (m m' : hmesh) : Prop := {
  ts_len : zlen (hes m') = zlen (hes m); ts_re : re m' = re m;
  ts_t : forall h d, hget m h = Some d -> exists d', hget m' h = Some d' /\ ht d' = ht d }.
Lemma tsame_refl m : tsame m m. Proof. constructor; eauto. Qed.
Lemma tsame_trans a b c : tsame a b -> tsame b c -> tsame a c.
Proof.
  intros A B. constructor; [rewrite (ts_len _ _ B); apply A|rewrite (ts_re _ _ B); apply A|].
  intros h d E. destruct (ts_t _ _ A h d E) as (d1 & E1 & T1). destruct (ts_t _ _ B h d1 E1) as (d2 & E2 & T2). exists d2. split; [exact E2|congruence].
Qed.
Lemma tsame_arc m m' s t h : tsame m m' -> (arc m' s t h <-> arc m s t h).
Proof.
  intros S. assert (Bk : forall x d', hget m' x = Some d' -> exists d, hget m x = Some d /\ ht d' = ht d).
  { intros x d' E. pose proof (vget_Some_range _ _ _ E) as R. rewrite (ts_len _ _ S) in R. destruct (vget_range_Some _ _ R) as [d Ed]. exists d. split; [exact Ed|].
    destruct (ts_t _ _ S x d Ed) as (d2 & E2 & T2). unfold hget in *. congruence. }
  unfold arc, lh. rewrite (ts_len _ _ S), (ts_re _ _ S). split; intros (L & d & d' & E & E' & T & T'); (split; [exact L|]).
  - destruct (Bk _ _ E) as (x & Ex & Tx). destruct (Bk _ _ E') as (y & Ey & Ty). exists x, y. repeat split; congruence.
  - destruct (ts_t _ _ S _ _ E) as (x & Ex & Tx). destruct (ts_t _ _ S _ _ E') as (y & Ey & Ty). exists x, y. repeat split; congruence.
Qed.
Lemma hupd_tsame m h g m' : (forall d, ht (g d) = ht d) -> hupd m h g = Some m' -> tsame m m'.
Proof.
  intros Hg E. destruct (hget m h) as [d|] eqn:Ed; [|unfold hupd in E; unfold hget in Ed; rewrite Ed in E; discriminate].
  destruct (hupd_spec m h g d Ed) as (m2 & X & G & O & V & Ee & Fc & Ln & R1 & R2 & R3 & R4). assert (m2 = m') by congruence. subst m2.
  constructor; [exact Ln|exact R2|]. intros x dx Ex. destruct (Z.eq_dec x h) as [->|N].
  - exists (g d). split; [exact G|]. rewrite Hg. congruence.
  - exists dx. rewrite O by exact N. auto.
Qed.
Lemma set_next_tsame m a b m' : set_next m a b = Some m' -> tsame m m'.
Proof.
  unfold set_next. destruct (hupd m a _) as [x|] eqn:E; [|discriminate]. cbn. intros K. eapply tsame_trans; eapply hupd_tsame; try eassumption; reflexivity.
Qed.
Lemma link_next_tsame hs m m' : link_next m hs = Some m' -> tsame m m'.
Proof.
  unfold link_next. generalize (cyc_pairs hs). intros l. revert m. induction l as [|p l IH]; intros m E; cbn in E; [injection E as <-; apply tsame_refl|].
  destruct (set_next m (fst p) (snd p)) as [x|] eqn:E1; [|discriminate]. cbn in E. eapply tsame_trans; [eapply set_next_tsame; exact E1|apply IH; exact E].
Qed.
Lemma hupd_soft m h x d m' : lh m h -> hget m h = Some d -> hupd m h (fun d => with_f d x) = Some m' -> soft m m'.
Proof.
  intros L Ed E. destruct (hupd_spec m h (fun d => with_f d x) d Ed) as (m2 & X & G & O & V & Ee & Fc & Ln & R1 & R2 & R3 & R4). assert (m2 = m') by congruence. subst m2.
  constructor; try assumption. intros y dy Ey. destruct (Z.eq_dec y h) as [->|N].
  - exists (with_f d x). assert (dy = d) by congruence. subst. split; [exact G|]. cbn. repeat split. intros K. exfalso. apply (proj2 L). exact K.
  - exists dy. rewrite O by exact N. auto.
Qed.

Definition simple (m : hmesh) : Prop := forall s t h1 h2, arc m s t h1 -> arc m s t h2 -> h1 = h2.

Lemma edge_added_arcs m v0 v1 e m' s t h : Core m -> edge_added m v0 v1 e m' -> arc m' s t h ->
  arc m s t h \/ (h = 2 * e /\ s = v0 /\ t = v1) \/ (h = 2 * e + 1 /\ s = v1 /\ t = v0).
Proof.
  intros C A (L & d & d' & E & E' & T & S). destruct (edge_added_lh m v0 v1 e m' C A) as (Hl & Hn & _). apply Hl in L.
  destruct (Z.eq_dec (h / 2) e) as [Q|Q].
  - right. destruct (he_cases h) as [Qh|Qh]; rewrite Q in Qh; subst h.
    + left. rewrite opposite_even in E'. rewrite (ea_h0 _ _ _ _ _ A) in E. rewrite (ea_h1 _ _ _ _ _ A) in E'. injection E as <-. injection E' as <-. cbn in *. auto.
    + right. rewrite opposite_odd in E'. rewrite (ea_h1 _ _ _ _ _ A) in E. rewrite (ea_h0 _ _ _ _ _ A) in E'. injection E as <-. injection E' as <-. cbn in *. auto.
  - left. destruct L as [L|L]; [|contradiction]. split; [exact L|]. exists d, d'. rewrite (ea_h _ _ _ _ _ A) in E by exact Q. rewrite (ea_h _ _ _ _ _ A) in E' by (rewrite opposite_div; exact Q). auto.
Qed.

Lemma arc_opp m s t h : Core m -> arc m s t h -> arc m t s (opposite h).
Proof.
  intros C (L & d & d' & E & E' & T & S). split; [apply lh_opposite; assumption|]. exists d', d. rewrite opposite_opposite. auto.
Qed.

Lemma edge_added_simple m v0 v1 e m' : Core m -> v0 <> v1 -> simple m -> (forall h, ~ arc m v0 v1 h) -> edge_added m v0 v1 e m' -> simple m'.
Proof.
  intros C N S Na A s t h1 h2 A1 A2.
  assert (Na' : forall h, ~ arc m v1 v0 h) by (intros h K; apply (Na _ (arc_opp _ _ _ _ C K))).
  destruct (edge_added_arcs m v0 v1 e m' s t h1 C A A1) as [B1|[(-> & B1 & B1')|(-> & B1 & B1')]];
  destruct (edge_added_arcs m v0 v1 e m' s t h2 C A A2) as [B2|[(-> & B2 & B2')|(-> & B2 & B2')]]; subst; try reflexivity; try congruence;
  try (exfalso; eapply Na; eassumption); try (exfalso; eapply Na'; eassumption).
  exact (S s t h1 h2 B1 B2).
Qed.

Lemma loop_arcs f reuse ps : forall m acc m' acc', Core m -> simple m ->
  (forall s t, In (s, t) ps -> lv m s /\ lv m t /\ s <> t) ->
  add_face_loop m f reuse acc ps = LOk m' acc' ->
  simple m' /\ forall s t h, arc m' s t h -> arc m s t h \/ In (s, t) ps \/ In (t, s) ps.
Proof.
  induction ps as [|[a b] ps IH]; intros m acc m' acc' C S Lp E; cbn [add_face_loop] in E.
  - injection E as <- _. split; [exact S|]. auto.
  - destruct (Lp a b (or_introl eq_refl)) as (La & Lb & N).
    assert (X : exists h m1, (do h <- halfedge_st m a b true; if negb (h =? null) then Some (h, m) else add_edge m a b) = Some (h, m1) /\
      Core m1 /\ simple m1 /\ lh m1 h /\ (forall v, lv m1 v <-> lv m v) /\ (forall s t x, arc m1 s t x -> arc m s t x \/ (s = a /\ t = b) \/ (s = b /\ t = a))).
    { destruct (free_spec m a b C La Lb N) as [(Eh & _)|(h & d & Eh & Hn & A & Ed & _)]; rewrite Eh; cbn [obind].
      - change (negb (null =? null)) with false. cbn iota. destruct (add_edge_spec m a b C La Lb N) as (e & m1 & Ea & Aa). exists (2 * e), m1. split; [exact Ea|].
        split; [exact (edge_added_core _ _ _ _ _ C La Lb N Aa)|]. split; [|split; [|split]].
        + apply (edge_added_simple m a b e m1 C N S); [|exact Aa]. intros x K. destruct (halfedge_st_spec m a b C La Lb N) as [(_ & Q)|(h2 & d2 & E2 & _ & K2 & _)]; [exact (Q x K)|].
          assert (h2 = null) by congruence. subst. eapply hget_null; exact K2.
        + apply (edge_added_lh m a b e m1 C Aa). right. lia.
        + intros v. apply (grow_lv m m1). exact (edge_added_grow _ _ _ _ _ C La Lb N Aa).
        + intros s t x K. destruct (edge_added_arcs m a b e m1 s t x C Aa K) as [Q|[(_ & Q)|(_ & Q)]]; auto.
      - destruct (Z.eqb_spec h null); [contradiction|]. cbn [negb]. exists h, m. split; [reflexivity|]. split; [exact C|]. split; [exact S|]. split; [apply A|]. split; [tauto|auto]. }
    destruct X as (h & m1 & Eh & C1 & S1 & Lh & Lv1 & A1). rewrite Eh in E.
    destruct (face m1 h) as [fc|] eqn:Ef; [|discriminate]. destruct (negb (fc =? null)).
    + destruct (if reuse && (fc =? f) then Some [] else get_vertices_around_face m1 fc); discriminate.
    + destruct (hupd m1 h _) as [m2|] eqn:E2; [|discriminate]. destruct (lh_hget m1 h Lh) as [d Ed].
      pose proof (hupd_soft m1 h f d m2 Lh Ed E2) as Sf. pose proof (hupd_tsame m1 h (fun d => with_f d f) m2 (fun _ => eq_refl) E2) as Ts.
      destruct (IH m2 (acc ++ [h]) m' acc') as (I1 & I2).
      * eapply soft_core; eassumption.
      * intros s t h1 h2 K1 K2. apply (tsame_arc _ _ _ _ _ Ts) in K1, K2. exact (S1 s t h1 h2 K1 K2).
      * intros s t K. rewrite !(soft_lv _ _ _ Sf), !Lv1. apply Lp. right. exact K.
      * exact E.
      * split; [exact I1|]. intros s t x K. destruct (I2 s t x K) as [Q|[Q|Q]]; [|right; left; right; exact Q|right; right; right; exact Q].
        apply (tsame_arc _ _ _ _ _ Ts) in Q. destruct (A1 s t x Q) as [Z|[[-> ->]|[-> ->]]]; [left; exact Z|right; left; left; reflexivity|right; right; left; reflexivity].
Qed.

Lemma add_face_arcs m vi f m' : HInv m -> simple m -> (3 <= length vi)%nat -> NoDup vi -> (forall v, In v vi -> lv m v) ->
  add_face m vi = Added f m' -> simple m' /\ forall s t h, arc m' s t h -> arc m s t h \/ In (s, t) (cyc_pairs vi) \/ In (t, s) (cyc_pairs vi).
Proof.
  intros [C F] S L3 Nd Lv E. unfold add_face in E.
  set (z := match rf m with f :: r => (f, true, set_rf m r) | [] => (number_of_faces m, false, m) end) in E.
  assert (Z : tsame m (snd z) /\ Core (snd z) /\ forall v, lv (snd z) v <-> lv m v).
  { unfold z. destruct (rf m) as [|x r]; cbn [snd]; [split; [apply tsame_refl|tauto]|]. split; [constructor; eauto|]. split; [apply set_rf_core; exact C|reflexivity]. }
  destruct z as [[f0 reuse] m0]. cbn [snd] in Z. destruct Z as (T0 & C0 & L0).
  destruct (add_face_loop m0 f0 reuse [] (cyc_pairs vi)) as [m1 acc|m1 acc|] eqn:El; try discriminate.
  2:{ destruct reuse; [destruct (vset (faces m1) f0 acc)|]; discriminate. }
  apply loop_arcs in El; [|exact C0| |].
  2:{ intros s t h1 h2 K1 K2. apply (tsame_arc _ _ _ _ _ T0) in K1, K2. exact (S s t h1 h2 K1 K2). }
  2:{ intros s t K. destruct (cyc_distinct vi s t Nd L3 K) as [Ns _]. apply cyc_In in K. rewrite !L0. split; [apply Lv, K|]. split; [apply Lv, K|exact Ns]. }
  destruct El as (S1 & A1).
  destruct (if reuse then vset (faces m1) f0 acc else Some (faces m1 ++ [acc])) as [fs|]; [|discriminate]. cbn [obind] in E.
  destruct (link_next _ _) as [m2|] eqn:E2; [|discriminate]. injection E as _ <-. apply link_next_tsame in E2.
  assert (T : tsame m1 m2) by (eapply tsame_trans; [|exact E2]; constructor; eauto).
  split.
  - intros s t h1 h2 K1 K2. apply (tsame_arc _ _ _ _ _ T) in K1, K2. exact (S1 s t h1 h2 K1 K2).
  - intros s t h K. apply (tsame_arc _ _ _ _ _ T) in K. destruct (A1 s t h K) as [Q|Q]; [left; apply (tsame_arc _ _ _ _ _ T0); exact Q|right; exact Q].
Qed.

(** ** arcs that already have a face *)
Definition taken (m : hmesh) (s t : Z) : Prop := exists h f, live_halfedge m h /\ source m h = Some s /\ target m h = Some t /\ face m h = Some f /\ f <> null.

Lemma live_arc m h s t : Core m -> (live_halfedge m h /\ source m h = Some s /\ target m h = Some t <-> arc m s t h).
Proof.
  intros C. split.
  - intros (L & S & T). apply (lh_live m h C) in L. destruct (lh_hget m h L) as [d Ed]. destruct (source_target m h d C L Ed) as (d' & E' & S' & T' & _). split; [exact L|]. exists d, d'. repeat split; congruence.
  - intros (L & d & d' & E & E' & T & S). split; [apply (lh_live m h C); exact L|]. destruct (source_target m h d C L E) as (x & Ex & Sx & Tx & _). split; congruence.
Qed.

Lemma taken_free m s t : HInv m -> simple m -> lv m s -> lv m t -> s <> t -> (free m (s, t) = false <-> taken m s t).
Proof.
  intros [C F] Si Ls Lt N. destruct (free_spec m s t C Ls Lt N) as [(E & ->)|(h & d & E & Nn & A & Ed & ->)].
  - split; [discriminate|]. intros (h & f & L & S & T & _). exfalso. assert (K0 : arc m s t h) by (apply live_arc; auto).
    destruct (halfedge_st_spec m s t C Ls Lt N) as [(_ & K)|(h2 & d2 & E2 & _ & K & _)]; [exact (K h K0)|].
    assert (h2 = null) by congruence. subst h2. eapply hget_null; exact K.
  - rewrite Z.eqb_neq. split.
    + intros K. exists h, (hf d). destruct (proj2 (live_arc m h s t C) A) as (B1 & B2 & B3). split; [exact B1|]. split; [exact B2|]. split; [exact B3|]. split; [unfold face; rewrite Ed; reflexivity|exact K].
    + intros (h2 & f & L2 & S2 & T2 & F2 & Nf). assert (A2 : arc m s t h2) by (apply live_arc; auto). pose proof (Si s t h2 h A2 A). subst h2.
      unfold face in F2. rewrite Ed in F2. cbn in F2. congruence.
Qed.

Lemma directed_cyc f : directed_edges f = cyc_pairs f.
Proof. destruct f; reflexivity. Qed.

Lemma omap_In {A B} (g : A -> option B) l r x : omap g l = Some r -> In x l -> exists y, g x = Some y /\ In y r.
Proof.
  revert r. induction l as [|a l IH]; intros r E K; [destruct K|]. cbn in E. destruct (g a) as [b|] eqn:Eb; [|discriminate]. cbn in E. destruct (omap g l) as [bs|]; [|discriminate]. injection E as <-.
  destruct K as [->|K]; [exists b; split; [exact Eb|left; reflexivity]|]. destruct (IH bs eq_refl K) as (y & E1 & E2). exists y. split; [exact E1|right; exact E2].
Qed.
Lemma omap_nth {A B} (g : A -> option B) l r : omap g l = Some r -> length r = length l /\ forall i x, nth_error l i = Some x -> g x = nth_error r i.
Proof.
  revert r. induction l as [|a l IH]; intros r E; cbn in E.
  - injection E as <-. split; [reflexivity|]. intros [|i] x K; discriminate.
  - destruct (g a) as [b|] eqn:Eb; [|discriminate]. cbn in E. destruct (omap g l) as [bs|]; [|discriminate]. injection E as <-.
    destruct (IH bs eq_refl) as [L K]. split; [cbn; lia|]. intros [|i] x Ex; cbn in *; [congruence|]. apply K. exact Ex.
Qed.

(** the arcs of a face are the pairs of consecutive vertices *)
Lemma face_arcs m f l : HInv m -> live_face m f -> get_vertices_around_face m f = Some l ->
  (forall s t, In (s, t) (cyc_pairs l) <-> exists h, live_halfedge m h /\ source m h = Some s /\ target m h = Some t /\ face m h = Some f).
Proof.
  intros I Lf E s t. pose proof (HInv_consistent m I) as K. destruct (k_face m K f Lf) as (hs & Eh & L3 & Nh & Hf & Hc).
  unfold get_vertices_around_face in E. rewrite Eh in E. cbn [obind] in E. destruct (omap_nth _ _ _ E) as [Ll En].
  assert (Nth : forall i a b, nth_error (cyc_pairs hs) i = Some (a, b) -> exists s t, nth_error (cyc_pairs l) i = Some (s, t) /\ source m b = Some s /\ target m b = Some t).
  { intros i a b Hi. pose proof Hi as Hi2. apply cyc_nth in Hi2. destruct Hi2 as (H1 & H2 & Li). pose proof (nth_error_In _ _ Hi) as Hin. destruct (Hc a b Hin) as (_ & _ & Ts).
    pose proof (En _ _ H1) as Q1. pose proof (En _ _ H2) as Q2. rewrite <- Ll in Q2.
    destruct (k_ends m K a) as (sa & ta & Sa & Ta & _); [apply Hf; eapply nth_error_In; exact H1|].
    destruct (k_ends m K b) as (sb & tb & Sb & Tb & _); [apply Hf; eapply nth_error_In; exact H2|].
    exists sb, tb. split; [|split; assumption]. apply cyc_nth. split; [congruence|]. split; [congruence|lia]. }
  split.
  - intros Hin. apply In_nth_error in Hin. destruct Hin as [i Hi]. assert (Li : (i < length hs)%nat). { pose proof Hi as Q. apply cyc_nth in Q. lia. }
    destruct (nth_error (cyc_pairs hs) i) as [[a b]|] eqn:Eab; [|apply nth_error_None in Eab; rewrite cyc_pairs_length in Eab; lia].
    destruct (Nth i a b Eab) as (s' & t' & E' & Sb & Tb). assert (Q : (s', t') = (s, t)) by congruence. injection Q as -> ->.
    apply cyc_nth in Eab. destruct Eab as (_ & Eb & _). exists b. destruct (Hf b (nth_error_In _ _ Eb)) as [B1 B2]. auto.
  - intros (h & Lh & Sh & Th & Fh). assert (Nf : f <> null) by (destruct Lf; unfold null; lia). destruct (k_he_face m K h f Lh Fh Nf) as (_ & hs' & Eh' & Hin). assert (hs' = hs) by congruence. subst hs'.
    destruct (cyc_all_snd hs h Hin) as [a Ha]. apply In_nth_error in Ha. destruct Ha as [i Hi]. destruct (Nth i a h Hi) as (s' & t' & E' & Sb & Tb).
    assert (s' = s) by congruence. assert (t' = t) by congruence. subst. eapply nth_error_In; exact E'.
Qed.

Lemma In_rotate1_cyc l s t : In (s, t) (cyc_pairs (rotate1 l)) <-> In (s, t) (cyc_pairs l).
Proof.
  destruct l as [|a l]; [reflexivity|]. destruct l as [|b l]; [reflexivity|]. cbn [rotate1].
  change (cyc_pairs ((b :: l) ++ [a])) with (combine (b :: (l ++ [a])) ((l ++ [a]) ++ [b])).
  change (cyc_pairs (a :: b :: l)) with ((a, b) :: combine (b :: l) (l ++ [a])).
  rewrite app_comm_cons. assert (Hl : length (b :: l) = length (l ++ [a])) by (rewrite app_length; cbn; lia).
  rewrite (combine_app_eq (b :: l) [a] (l ++ [a]) [b] Hl). rewrite in_app_iff. generalize (combine (b :: l) (l ++ [a])). intros X. cbn [combine In]. tauto.
Qed.

(** ** the mesh under construction *)
Definition all_edges (fs : list (list Z)) : list (Z * Z) := concat (map directed_edges fs).

(** [base]: the arcs that were there before the first face *)
Record built_on (base : Z -> Z -> Prop) (coords : list point) (fs : list (list Z)) (m : hmesh) : Prop := {
  b_hist : history m; b_simple : simple m; b_rf : rf m = []; b_rv : rv m = [];
  b_vl : zlen (verts m) = zlen coords;
  b_pt : forall i p, vget coords i = Some p -> option_map vpt (vget (verts m) i) = Some p;
  b_fl : zlen (faces m) = zlen fs;
  b_face : forall i f, vget fs i = Some f -> get_vertices_around_face m i = Some (rotate1 f);
  b_arcs : forall s t h, arc m s t h -> base s t \/ In (s, t) (all_edges fs) \/ In (t, s) (all_edges fs);
  b_base : forall s t, base s t -> exists h, arc m s t h }.
Arguments b_hist {base}. Arguments b_simple {base}. Arguments b_rf {base}. Arguments b_rv {base}. Arguments b_vl {base}. Arguments b_pt {base}.
Arguments b_fl {base}. Arguments b_face {base}. Arguments b_arcs {base}. Arguments b_base {base}.
Notation built := (built_on (fun _ _ => False)).

Lemma vget_snoc {A} (l : list A) x i y : vget (l ++ [x]) i = Some y -> vget l i = Some y \/ (i = zlen l /\ y = x).
Proof.
  intros E. pose proof (vget_Some_range _ _ _ E) as R. rewrite zlen_snoc in R. destruct (Z.eq_dec i (zlen l)) as [->|N].
  - right. rewrite vget_app_last in E. split; congruence.
  - left. rewrite vget_app_l in E by lia. exact E.
Qed.

Lemma built_vertex coords m p : built coords [] m -> exists v m', add_vertex m p = Some (v, m') /\ v = zlen coords /\ built (coords ++ [p]) [] m'.
Proof.
  intros B. pose proof (history_inv m (b_hist _ _ _ B)) as I. destruct (add_vertex_spec m p (proj1 I)) as (v & m' & E & K). exists v, m'. split; [exact E|].
  destruct (va_new _ _ _ _ K) as [[Q _]|(_ & Rv & Ev & Lv)]; [rewrite (b_rv _ _ _ B) in Q; discriminate|].
  split; [rewrite Ev; apply B|].
  assert (Hg : forall h, hget m' h = hget m h) by (intros; unfold hget; rewrite (va_hes _ _ _ _ K); reflexivity).
  assert (Ha : forall s t h, arc m' s t h <-> arc m s t h).
  { intros s t h. apply tsame_arc. constructor; [rewrite (va_hes _ _ _ _ K); reflexivity|apply K|]. intros x d Ed. exists d. rewrite Hg. auto. }
  constructor.
  - apply (hist_op m (OVertex p)); [apply B|exact Logic.I|]. cbn. rewrite E. reflexivity.
  - intros s t h1 h2 A1 A2. apply Ha in A1, A2. exact (b_simple _ _ _ B s t h1 h2 A1 A2).
  - rewrite (va_rf _ _ _ _ K). apply B.
  - exact Rv.
  - rewrite Lv, zlen_snoc, (b_vl _ _ _ B). reflexivity.
  - intros i q Eq. apply vget_snoc in Eq. destruct Eq as [Eq|[-> ->]].
    + rewrite (va_other _ _ _ _ K); [apply B; exact Eq|]. apply vget_Some_range in Eq. rewrite Ev, (b_vl _ _ _ B). lia.
    + rewrite <- (b_vl _ _ _ B), <- Ev, (va_slot _ _ _ _ K (b_rv _ _ _ B)). reflexivity.
  - rewrite (va_faces _ _ _ _ K). apply B.
  - intros i f Ef. apply vget_Some_range in Ef. unfold zlen in Ef. cbn in Ef. lia.
  - intros s t h A. apply Ha in A. exact (b_arcs _ _ _ B s t h A).
  - intros s t [].
Qed.

Lemma built_vertices coords : exists m, add_vertices coords = Some m /\ built coords [] m.
Proof.
  induction coords as [|p coords IH] using rev_ind.
  - exists hempty. split; [reflexivity|].
    assert (X : forall (A : Type) i (x : A), vget [] i = Some x -> False) by (intros A i x H; apply vget_Some_range in H; unfold zlen in H; cbn in H; lia).
    constructor; try reflexivity; try (intros; exfalso; eapply X; eassumption); [apply hist_nil| | |intros s t []];
    (intros s t h; intros; match goal with A : arc _ _ _ _ |- _ => destruct A as (_ & d & _ & E & _) end; exfalso; eapply X; exact E).
  - destruct IH as (m & E & B). destruct (built_vertex coords m p B) as (v & m' & E' & _ & B'). exists m'. split; [|exact B'].
    unfold add_vertices in *. rewrite ofold_app, E. cbn. rewrite E'. reflexivity.
Qed.

Lemma built_lv {base} coords fs m v : built_on base coords fs m -> (lv m v <-> 0 <= v < zlen coords).
Proof. intros B. unfold lv. rewrite (b_rv _ _ _ B), (b_vl _ _ _ B). cbn. tauto. Qed.

Lemma built_live_face {base} coords fs m i : built_on base coords fs m -> (live_face m i <-> 0 <= i < zlen fs).
Proof. intros B. unfold live_face. rewrite (b_rf _ _ _ B), (b_fl _ _ _ B). cbn. tauto. Qed.

Lemma In_all_edges fs s t : In (s, t) (all_edges fs) <-> exists i f, vget fs i = Some f /\ In (s, t) (cyc_pairs f).
Proof.
  unfold all_edges. rewrite in_concat. split.
  - intros (l & Hl & Hin). apply in_map_iff in Hl. destruct Hl as (f & <- & Hf). destruct (In_vget _ _ Hf) as [i Hi]. exists i, f. rewrite <- directed_cyc. auto.
  - intros (i & f & Ei & Hin). exists (directed_edges f). split; [apply in_map; eapply vget_In; exact Ei|rewrite directed_cyc; exact Hin].
Qed.

Lemma built_taken {base} coords fs m s t : built_on base coords fs m -> (taken m s t <-> In (s, t) (all_edges fs)).
Proof.
  intros B. pose proof (history_inv m (b_hist _ _ _ B)) as I. rewrite In_all_edges. split.
  - intros (h & f & L & S & T & Fh & Nf). destruct (k_he_face m (HInv_consistent m I) h f L Fh Nf) as (Lf & _).
    pose proof (proj1 (built_live_face _ _ _ _ B) Lf) as R. destruct (vget_range_Some _ _ R) as [l El]. exists f, l. split; [exact El|].
    apply In_rotate1_cyc. apply (face_arcs m f (rotate1 l) I Lf); [apply (b_face _ _ _ B); exact El|]. exists h. auto.
  - intros (i & f & Ei & Hin). assert (Lf : live_face m i) by (apply (built_live_face _ _ _ _ B); eapply vget_Some_range; exact Ei).
    apply In_rotate1_cyc in Hin. apply (face_arcs m i (rotate1 f) I Lf) in Hin; [|apply (b_face _ _ _ B); exact Ei].
    destruct Hin as (h & L & S & T & Fh). exists h, i. split; [exact L|]. split; [exact S|]. split; [exact T|]. split; [exact Fh|]. destruct Lf; unfold null; lia.
Qed.

Record good_face (nv : Z) (f : list Z) : Prop := { gf3 : (3 <= length f)%nat; gfd : NoDup f; gfr : forall v, In v f -> 0 <= v < nv }.

Definition clash (E : list (Z * Z)) (f : list Z) : Prop := exists s t, In (s, t) (directed_edges f) /\ In (s, t) E.

Lemma built_face {base} coords fs m f : built_on base coords fs m -> good_face (zlen coords) f ->
  match add_face m f with
  | Added _ m' => ~ clash (all_edges fs) f /\ built_on base coords (fs ++ [f]) m'
  | Rejected _ => clash (all_edges fs) f
  | AddUB => False
  end.
Proof.
  intros B [L3 Nd Rg]. pose proof (history_inv m (b_hist _ _ _ B)) as I.
  assert (Lv : forall v, In v f -> lv m v) by (intros v Hv; apply (built_lv _ _ _ _ B), Rg, Hv).
  assert (Ins : insertable m f = true <-> ~ clash (all_edges fs) f).
  { unfold insertable. rewrite forallb_forall. split.
    - intros H (s & t & K1 & K2). rewrite directed_cyc in K1. specialize (H _ K1). destruct (cyc_distinct f s t Nd L3 K1) as [N _]. apply cyc_In in K1.
      assert (free m (s, t) = false); [|congruence]. apply (taken_free m s t I (b_simple _ _ _ B)); [apply Lv, K1|apply Lv, K1|exact N|]. apply (built_taken _ _ _ _ _ B). exact K2.
    - intros H (s, t) K. destruct (free m (s, t)) eqn:Ef; [reflexivity|exfalso]. destruct (cyc_distinct f s t Nd L3 K) as [N _]. pose proof (cyc_In _ _ _ K) as [Ks Kt].
      apply (taken_free m s t I (b_simple _ _ _ B)) in Ef; [|apply Lv, Ks|apply Lv, Kt|exact N]. apply H. exists s, t. rewrite directed_cyc. split; [exact K|]. apply (built_taken _ _ _ _ _ B). exact Ef. }
  pose proof (add_face_spec m f I L3 Nd Lv) as S. destruct (add_face m f) as [i m'|m'|] eqn:E; [| |exact S].
  - destruct S as [Si Fa]. split; [apply Ins; exact Si|].
    destruct (add_face_append m f i m' (b_rf _ _ _ B) E) as (Ei & Rf & Fl & Rv & Vl). destruct (add_face_arcs m f i m' I (b_simple _ _ _ B) L3 Nd Lv E) as [Sm Ar].
    destruct (fa_pres _ _ _ _ Fa) as (P1 & P2 & P3).
    constructor.
    + apply (hist_op m (OFace f)); [apply B| |cbn; rewrite E; reflexivity]. cbn. split; [exact L3|]. split; [exact Nd|exact Lv].
    + exact Sm.
    + exact Rf.
    + rewrite Rv. apply B.
    + rewrite Vl. apply B.
    + intros j p Ej. rewrite (proj2 (P1 j (proj2 (built_lv _ _ _ _ B) (vget_Some_range _ _ _ Ej)))). apply B. exact Ej.
    + rewrite Fl, zlen_snoc, (b_fl _ _ _ B). reflexivity.
    + intros j g Ej. apply vget_snoc in Ej. destruct Ej as [Ej|[-> ->]].
      * destruct (P2 j (proj2 (built_live_face _ _ _ _ B) (vget_Some_range _ _ _ Ej))) as (_ & _ & Q). rewrite Q. apply B. exact Ej.
      * rewrite <- (b_fl _ _ _ B), <- Ei. apply Fa.
    + intros s t h A. assert (App : forall p, In p (all_edges (fs ++ [f])) <-> In p (all_edges fs) \/ In p (cyc_pairs f)).
      { intros p. unfold all_edges. rewrite map_app, concat_app, in_app_iff. cbn [map concat]. rewrite app_nil_r, directed_cyc. tauto. }
      rewrite !App. destruct (Ar s t h A) as [Q|Q]; [|tauto]. destruct (b_arcs _ _ _ B s t h Q) as [R|[R|R]]; tauto.
    + intros s t Kb. destruct (b_base _ _ _ B s t Kb) as [h A]. exists h. apply (live_arc m h s t (proj1 I)) in A. destruct A as (A1 & A2 & A3).
      assert (I' : HInv m'). { apply history_inv. apply (hist_op m (OFace f)); [apply B| |cbn; rewrite E; reflexivity]. cbn. split; [exact L3|]. split; [exact Nd|exact Lv]. }
      destruct (P3 h A1) as (Q1 & Q2 & Q3 & _). apply (live_arc m' h s t (proj1 I')). split; [exact Q1|]. split; congruence.
  - destruct S as [Si _]. assert (Dec : clash (all_edges fs) f \/ ~ clash (all_edges fs) f).
    { destruct (insertable m f) eqn:Q; [congruence|]. left. unfold insertable in Q. apply not_true_iff_false in Q. rewrite forallb_forall in Q.
      assert (X : exists p, In p (cyc_pairs f) /\ free m p = false).
      { clear - Q. induction (cyc_pairs f) as [|p l IH]; [exfalso; apply Q; intros x []|]. destruct (free m p) eqn:Ep; [|exists p; split; [left; reflexivity|exact Ep]].
        destruct IH as (q & H1 & H2); [|exists q; split; [right; exact H1|exact H2]]. intros H. apply Q. intros x [<-|Hx]; [exact Ep|apply H; exact Hx]. }
      destruct X as ((s, t) & K & Ef). destruct (cyc_distinct f s t Nd L3 K) as [N _]. pose proof (cyc_In _ _ _ K) as [Ks Kt].
      apply (taken_free m s t I (b_simple _ _ _ B)) in Ef; [|apply Lv, Ks|apply Lv, Kt|exact N]. exists s, t. rewrite directed_cyc. split; [exact K|]. apply (built_taken _ _ _ _ _ B). exact Ef. }
    destruct Dec as [D|D]; [exact D|]. apply Ins in D. congruence.
Qed.

(** all the faces, one after the other *)
Fixpoint insert_all (m : hmesh) (fs : list (list Z)) : conv_res :=
  match fs with
  | [] => CAccept m
  | f :: r => match add_face m f with Added _ m' => insert_all m' r | Rejected _ => CRefuse | AddUB => CUB end
  end.

Lemma NoDup_app_clash (E : list (Z * Z)) f : NoDup E -> NoDup f -> (NoDup (E ++ directed_edges f) <-> ~ clash E f).
Proof.
  intros N1 N2. split.
  - intros N (s & t & K1 & K2). apply in_split in K2. destruct K2 as (a & b & ->). rewrite <- app_assoc in N. cbn in N. apply NoDup_remove_2 in N. apply N. rewrite !in_app_iff. auto.
  - intros H. assert (Nf : NoDup (directed_edges f)) by (rewrite directed_cyc; apply cyc_NoDup; exact N2).
    clear N2. induction E as [|e E IH]; [exact Nf|]. cbn. inversion N1 as [|? ? X1 X2]; subst. constructor.
    + rewrite in_app_iff. intros [K|K]; [contradiction|]. apply H. destruct e as [s t]. exists s, t. split; [exact K|left; reflexivity].
    + apply IH; [exact X2|]. intros (s & t & K1 & K2). apply H. exists s, t. split; [exact K1|right; exact K2].
Qed.

Lemma insert_all_spec {base} coords gs : forall fs m, built_on base coords fs m -> NoDup (all_edges fs) -> (forall f, In f gs -> good_face (zlen coords) f) ->
  match insert_all m gs with
  | CAccept m' => NoDup (all_edges (fs ++ gs)) /\ built_on base coords (fs ++ gs) m'
  | CRefuse => ~ NoDup (all_edges (fs ++ gs))
  | CUB => False
  end.
Proof.
  induction gs as [|g gs IH]; intros fs m B N G; cbn [insert_all].
  - rewrite app_nil_r. auto.
  - pose proof (G g (or_introl eq_refl)) as Gg. pose proof (built_face coords fs m g B Gg) as S.
    assert (Ea : all_edges (fs ++ [g]) = all_edges fs ++ directed_edges g).
    { unfold all_edges. rewrite map_app, concat_app. cbn. rewrite app_nil_r. reflexivity. }
    destruct (add_face m g) as [i m'|m'|]; [| |exact S].
    + destruct S as [Nc B']. specialize (IH (fs ++ [g]) m' B'). rewrite <- app_assoc in IH. apply IH.
      * rewrite Ea. apply NoDup_app_clash; [exact N|apply Gg|exact Nc].
      * intros f Hf. apply G. right. exact Hf.
    + intros Na. apply (proj1 (NoDup_app_clash (all_edges fs) g N (gfd _ _ Gg))); [|exact S]. rewrite <- Ea.
      clear - Na. unfold all_edges in *. replace (fs ++ g :: gs) with ((fs ++ [g]) ++ gs) in Na by (rewrite <- app_assoc; reflexivity).
      rewrite map_app, concat_app in Na. revert Na. generalize (concat (map directed_edges (fs ++ [g]))) (concat (map directed_edges gs)). intros a b.
      induction a as [|x a IHa]; [constructor|]. cbn. intros H. inversion H as [|? ? X1 X2]; subst. constructor; [|auto]. intros K. apply X1. apply in_app_iff. auto.
Qed.

(** ** reading a face *)
Lemma vget_app_r {A} (l r : list A) i : zlen l <= i -> vget (l ++ r) i = vget r (i - zlen l).
Proof.
  intros H. unfold vget, zlen in *. destruct (Z.ltb_spec i 0); [lia|]. destruct (Z.ltb_spec (i - Z.of_nat (length l)) 0); [lia|].
  rewrite nth_error_app2 by lia. f_equal. lia.
Qed.

Lemma read_face_spec padded nv f : forall pre post acc, (forall x, In x f -> 0 <= x) ->
  match read_face padded (pre ++ f ++ post) nv (zlen pre) (length f) acc with
  | FcOk l => l = acc ++ f /\ (forall x, In x f -> x < nv) /\ (NoDup acc -> NoDup (acc ++ f))
  | FcBad _ => ~ ((forall x, In x f -> x < nv) /\ NoDup (acc ++ f))
  | FcUB => False
  end.
Proof.
  induction f as [|x f IH]; intros pre post acc Hp; cbn [length read_face].
  - rewrite app_nil_r. split; [reflexivity|]. split; [intros x []|auto].
  - rewrite vget_app_r by lia. rewrite Z.sub_diag. cbn [app]. change (vget (x :: f ++ post) 0) with (Some x). cbv zeta iota beta.
    destruct (Z.leb_spec nv x) as [K|K]; [intros [H _]; specialize (H x (or_introl eq_refl)); lia|].
    assert (Zp : zmem x (acc ++ (if padded then repeat null (S (length f)) else [])) = zmem x acc).
    { destruct padded; [|rewrite app_nil_r; reflexivity]. unfold zmem. rewrite existsb_app. replace (existsb (Z.eqb x) (repeat null (S (length f)))) with false; [rewrite orb_false_r; reflexivity|].
      symmetry. apply not_true_iff_false. intros Q. apply existsb_exists in Q. destruct Q as (y & Hy & Eq). apply repeat_spec in Hy. apply Z.eqb_eq in Eq. specialize (Hp x (or_introl eq_refl)). unfold null in Hy. lia. }
    rewrite Zp. destruct (zmem x acc) eqn:Ez.
    + apply zmem_In in Ez. intros [_ N]. apply NoDup_remove_2 in N. apply N, in_app_iff. auto.
    + apply zmem_notIn in Ez. specialize (IH (pre ++ [x]) post (acc ++ [x])). rewrite <- app_assoc in IH. cbn [app] in IH. rewrite zlen_snoc in IH.
      assert (Hp' : forall y, In y f -> 0 <= y) by (intros y Hy; apply Hp; right; exact Hy). specialize (IH Hp').
      destruct (read_face padded (pre ++ x :: f ++ post) nv (zlen pre + 1) (length f) (acc ++ [x])) as [l|l|]; [| |exact IH].
      * destruct IH as (-> & R & N). rewrite <- app_assoc. split; [reflexivity|]. split; [intros y [<-|Hy]; [lia|apply R; exact Hy]|].
        intros Na. rewrite <- app_assoc in N. apply N. apply NoDup_snoc; assumption.
      * intros [R N]. apply IH. rewrite <- app_assoc. split; [intros y Hy; apply R; right; exact Hy|exact N].
Qed.

(** ** the single-threaded conversion *)
Definition sizes_ok (sizes : option (list Z)) (fs : list (list Z)) : Prop :=
  match sizes with Some l => l = map zlen fs | None => forall f, In f fs -> length f = 3%nat end.

Lemma face_size_ok sizes fs i f : sizes_ok sizes fs -> vget fs i = Some f -> face_size sizes i = Some (zlen f).
Proof.
  intros S E. unfold face_size. destruct sizes as [l|].
  - cbn in S. subst l. unfold vget in *. destruct (i <? 0); [discriminate|]. rewrite nth_error_map, E. reflexivity.
  - cbn in S. unfold zlen. rewrite (S f (vget_In _ _ _ E)). reflexivity.
Qed.

Lemma int32_small x : 0 <= x < 2 ^ 31 -> int32 x = x.
Proof. intros H. unfold int32, wrap32. rewrite Z.mod_small by lia. destruct (Z.ltb_spec x (2 ^ 31)); lia. Qed.

Lemma In_zlen_concat (fs : list (list Z)) f : In f fs -> zlen f <= zlen (concat fs).
Proof.
  induction fs as [|g fs IH]; [intros []|]. cbn [concat]. rewrite zlen_app. pose proof (zlen_nonneg g). pose proof (zlen_nonneg (concat fs)).
  intros [->|K]; [lia|]. specialize (IH K). lia.
Qed.

Definition bad_face (nv : Z) (f : list Z) : Prop := ~ good_face nv f.


(** Result of the conversion: refused as soon as one face is malformed. *)
Definition result (nv : Z) (m : hmesh) (gs : list (list Z)) (r : conv_res) : Prop :=
  ((forall f, In f gs -> good_face nv f) -> r = insert_all m gs) /\
  ((exists f, In f gs /\ ~ good_face nv f) -> r = CRefuse).

Lemma good_face_dec nv f : (forall x, In x f -> 0 <= x) -> good_face nv f \/ ~ good_face nv f.
Proof.
  intros Hp. destruct (le_lt_dec 3 (length f)) as [L|L]; [|right; intros [K _ _]; lia].
  pose proof (read_face_spec false nv f [] [] [] Hp) as S. cbn [app] in S. destruct (read_face _ _ _ _ _ _) as [l|l|]; [| |destruct S].
  - destruct S as (_ & R & N). left. constructor; [exact L|apply N; constructor|]. intros v Hv. split; [apply Hp; exact Hv|apply R; exact Hv].
  - right. intros [_ N R]. apply S. split; [intros x Hx; apply R; exact Hx|exact N].
Qed.

Lemma seq_loop_spec coords sizes rest fs (Hs : sizes_ok sizes fs) (Hr : forall x, In x (concat fs) -> 0 <= x) (Hl : zlen (concat fs) < 2 ^ 31) :
  forall gs pre m, fs = pre ++ gs -> built coords pre m ->
  result (zlen coords) m gs (seq_loop sizes (concat fs ++ rest) (zlen coords) (length gs) (zlen pre) (zlen (concat pre)) m).
Proof.
  induction gs as [|g gs IH]; intros pre m Ef B.
  - cbn. split; [reflexivity|]. intros (f & [] & _).
  - cbn [seq_loop length]. assert (Ev : vget fs (zlen pre) = Some g) by (rewrite Ef, vget_app_r, Z.sub_diag by lia; reflexivity).
    rewrite (face_size_ok sizes fs _ g Hs Ev). cbv zeta.
    assert (Lg : 0 <= zlen g < 2 ^ 31). { pose proof (In_zlen_concat fs g (vget_In _ _ _ Ev)). pose proof (zlen_nonneg g). lia. }
    rewrite (int32_small _ Lg).
    assert (Hg : forall x, In x g -> 0 <= x) by (intros x Hx; apply Hr, in_concat; exists g; split; [eapply vget_In; exact Ev|exact Hx]).
    destruct (Z.ltb_spec (zlen g) 3) as [K|K].
    { split; [|reflexivity]. intros H. destruct (H g (or_introl eq_refl)) as [L3 _ _]. unfold zlen in K. lia. }
    replace (Z.to_nat (zlen g)) with (length g) by (unfold zlen; lia).
    assert (Ei : concat fs ++ rest = concat pre ++ g ++ (concat gs ++ rest)) by (rewrite Ef, concat_app; cbn [concat]; rewrite <- !app_assoc; reflexivity).
    rewrite Ei. pose proof (read_face_spec false (zlen coords) g (concat pre) (concat gs ++ rest) [] Hg) as S. cbn [app] in S.
    destruct (read_face false (concat pre ++ g ++ concat gs ++ rest) (zlen coords) (zlen (concat pre)) (length g) []) as [l|l|]; [| |destruct S].
    + destruct S as (-> & R & N). assert (G : good_face (zlen coords) g).
      { constructor; [unfold zlen in K; lia|apply N; constructor|]. intros v Hv. split; [apply Hg; exact Hv|apply R; exact Hv]. }
      pose proof (built_face coords pre m g B G) as Sf. unfold result. cbn [insert_all]. destruct (add_face m g) as [i m'|m'|]; [| |destruct Sf].
      * destruct Sf as [_ B']. rewrite <- Ei. replace (zlen pre + 1) with (zlen (pre ++ [g])) by apply zlen_snoc.
        replace (zlen (concat pre) + zlen g) with (zlen (concat (pre ++ [g]))) by (rewrite concat_app, zlen_app; cbn; rewrite app_nil_r; reflexivity).
        destruct (IH (pre ++ [g]) m') as [I1 I2]; [rewrite <- app_assoc; exact Ef|exact B'|]. split.
        -- intros H. apply I1. intros f Hf. apply H. right. exact Hf.
        -- intros (f & [<-|Hf] & Bf); [contradiction|]. apply I2. exists f. auto.
      * split; reflexivity.
    + split; [|reflexivity]. intros H. exfalso. destruct (H g (or_introl eq_refl)) as [_ N R]. apply S. split; [intros x Hx; apply R; exact Hx|exact N].
Qed.

Lemma all_good_dec nv fs : (forall x, In x (concat fs) -> 0 <= x) -> (forall f, In f fs -> good_face nv f) \/ exists f, In f fs /\ ~ good_face nv f.
Proof.
  induction fs as [|f fs IH]; intros H; [left; intros f []|]. cbn [concat] in H.
  destruct (good_face_dec nv f) as [G|G]; [intros x Hx; apply H, in_app_iff; left; exact Hx| |right; exists f; split; [left; reflexivity|exact G]].
  destruct IH as [A|(g & Hg & Bg)]; [intros x Hx; apply H, in_app_iff; right; exact Hx| |right; exists g; split; [right; exact Hg|exact Bg]].
  left. intros g [<-|Hg]; auto.
Qed.

Lemma seq_convert_spec coords sizes idx fs : describes sizes idx fs -> (forall x, In x (concat fs) -> 0 <= x) -> zlen (concat fs) < 2 ^ 31 ->
  exists m, add_vertices coords = Some m /\ built coords [] m /\ result (zlen coords) m fs (seq_convert coords sizes idx (zlen fs)).
Proof.
  intros [[rest ->] Hs] Hr Hl. destruct (built_vertices coords) as (m & E & B). exists m. split; [exact E|]. split; [exact B|].
  unfold seq_convert. rewrite E. replace (Z.to_nat (zlen fs)) with (length fs) by (unfold zlen; lia).
  exact (seq_loop_spec coords sizes rest fs Hs Hr Hl fs [] m eq_refl B).
Qed.

Lemma well_formed_iff nv fs : well_formed nv fs <-> (forall f, In f fs -> good_face nv f) /\ NoDup (all_edges fs).
Proof.
  split.
  - intros [A1 A2 A3 A4]. split; [|exact A4]. intros f Hf. constructor; auto. intros v Hv. exact (A2 f v Hf Hv).
  - intros [G N]. constructor; [intros f Hf; apply G; exact Hf|intros f v Hf Hv; exact (gfr _ _ (G f Hf) v Hv)|intros f Hf; apply G; exact Hf|exact N].
Qed.

Lemma built_mirrors coords fs m : built coords fs m -> mirrors coords fs m.
Proof.
  intros B. constructor.
  - unfold number_of_vertices. rewrite (b_rv _ _ _ B), (b_vl _ _ _ B). unfold zlen. cbn. lia.
  - unfold number_of_faces. rewrite (b_rf _ _ _ B), (b_fl _ _ _ B). unfold zlen. cbn. lia.
  - intros i. apply (built_lv _ _ _ _ B).
  - apply B.
  - intros i. apply (built_live_face _ _ _ _ B).
  - apply B.
  - intros s t h L S T. destruct (b_arcs _ _ _ B s t h) as [[]|Q]; [apply live_arc; [apply history_inv, B|auto]|exact Q].
Qed.

Lemma result_spec coords m fs r : built coords [] m -> (forall x, In x (concat fs) -> 0 <= x) -> result (zlen coords) m fs r ->
  (well_formed (zlen coords) fs -> exists m', r = CAccept m' /\ history m' /\ mirrors coords fs m') /\
  (~ well_formed (zlen coords) fs -> r = CRefuse).
Proof.
  intros B Hr [R1 R2]. rewrite well_formed_iff. assert (N0 : NoDup (all_edges [])) by constructor.
  destruct (all_good_dec (zlen coords) fs Hr) as [G|Bd].
  - pose proof (insert_all_spec coords fs [] m B N0 G) as S. cbn [app] in S. rewrite (R1 G). destruct (insert_all m fs) as [m'| |]; [| |destruct S].
    + destruct S as [N B']. split; [intros _; exists m'; split; [reflexivity|]; split; [apply B'|apply built_mirrors; exact B']|]. intros K. exfalso. apply K. auto.
    + split; [intros [_ K]; contradiction|reflexivity].
  - rewrite (R2 Bd). split; [|reflexivity]. intros [G _]. destruct Bd as (f & Hf & Bf). exfalso. apply Bf, G, Hf.
Qed.
