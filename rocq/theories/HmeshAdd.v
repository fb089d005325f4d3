(** [add_face] as a whole. *)
From Coq Require Import List ZArith Lia Bool.
From Verif Require Import Vec VecLemmas HmeshModel HmeshSpec HmeshCore HmeshCyc HmeshFaces.
Import ListNotations.
Open Scope Z_scope.

Definition same_but_hes (m m' : hmesh) : Prop :=
  verts m' = verts m /\ edges m' = edges m /\ faces m' = faces m /\ rf m' = rf m /\ re m' = re m /\ rh m' = rh m /\ rv m' = rv m /\
  zlen (hes m') = zlen (hes m).

Lemma sbh_refl m : same_but_hes m m.
Proof. repeat split. Qed.
Lemma sbh_trans a b c : same_but_hes a b -> same_but_hes b c -> same_but_hes a c.
Proof. intros (A1 & A2 & A3 & A4 & A5 & A6 & A7 & A8) (B1 & B2 & B3 & B4 & B5 & B6 & B7 & B8). repeat split; congruence. Qed.

Lemma hupd_sbh m h g d : hget m h = Some d ->
  exists m', hupd m h g = Some m' /\ same_but_hes m m' /\ hget m' h = Some (g d) /\ (forall x, x <> h -> hget m' x = hget m x).
Proof.
  intros E. destruct (hupd_spec m h g d E) as (m' & X & G & O & V & Ed & Fc & Ln & R1 & R2 & R3 & R4). exists m'.
  repeat split; assumption.
Qed.

Lemma sbh_hget m m' h d : same_but_hes m m' -> hget m h = Some d -> exists d', hget m' h = Some d'.
Proof. intros (_ & _ & _ & _ & _ & _ & _ & L) E. apply vget_Some_range in E. rewrite <- L in E. apply vget_range_Some in E. exact E. Qed.

Lemma set_next_spec m a b : (exists d, hget m a = Some d) -> (exists d, hget m b = Some d) ->
  exists m', set_next m a b = Some m' /\ same_but_hes m m' /\
   forall h d, hget m h = Some d -> exists d', hget m' h = Some d' /\ ht d' = ht d /\ hf d' = hf d /\ ho d' = ho d /\ he d' = he d /\
     hn d' = (if h =? a then b else hn d) /\ hp d' = (if h =? b then a else hp d).
Proof.
  intros [da Ea] [db Eb]. unfold set_next. destruct (hupd_sbh m a (fun d => with_n d b) da Ea) as (m1 & X1 & S1 & G1 & O1). rewrite X1. cbn [obind].
  destruct (sbh_hget _ _ _ _ S1 Eb) as [db1 Eb1].
  destruct (hupd_sbh m1 b (fun d => with_p d a) db1 Eb1) as (m2 & X2 & S2 & G2 & O2). exists m2. split; [exact X2|]. split; [exact (sbh_trans _ _ _ S1 S2)|].
  intros h d E.
  destruct (Z.eqb_spec h b) as [->|Nb].
  - exists (with_p db1 a). split; [exact G2|]. destruct (Z.eqb_spec b a) as [->|Na].
    + assert (db1 = with_n da a) by congruence. assert (d = da) by congruence. subst. cbn. repeat split; reflexivity.
    + rewrite O1 in Eb1 by exact Na. assert (d = db1) by congruence. subst. cbn. repeat split; reflexivity.
  - rewrite O2 by exact Nb. destruct (Z.eqb_spec h a) as [->|Na].
    + assert (d = da) by congruence. subst. exists (with_n da b). split; [exact G1|]. cbn. repeat split; reflexivity.
    + rewrite O1 by exact Na. exists d. repeat split; auto.
Qed.

Lemma link_spec ps : forall m, NoDup (map fst ps) -> NoDup (map snd ps) ->
  (forall a b, In (a, b) ps -> (exists d, hget m a = Some d) /\ (exists d, hget m b = Some d)) ->
  exists m', ofold (fun m p => set_next m (fst p) (snd p)) ps m = Some m' /\ same_but_hes m m' /\
   forall h d, hget m h = Some d -> exists d', hget m' h = Some d' /\ ht d' = ht d /\ hf d' = hf d /\ ho d' = ho d /\ he d' = he d /\
     (forall b, In (h, b) ps -> hn d' = b) /\ (~ In h (map fst ps) -> hn d' = hn d) /\
     (forall a, In (a, h) ps -> hp d' = a) /\ (~ In h (map snd ps) -> hp d' = hp d).
Proof.
  induction ps as [|(a, b) r IH]; intros m N1 N2 H.
  - exists m. split; [reflexivity|]. split; [apply sbh_refl|]. intros h d E. exists d. cbn. repeat split; auto; contradiction.
  - cbn [map fst snd] in *. inversion N1 as [|? ? N1a N1b]; subst. inversion N2 as [|? ? N2a N2b]; subst.
    destruct (H a b (or_introl eq_refl)) as [Ha Hb]. destruct (set_next_spec m a b Ha Hb) as (m1 & X1 & S1 & G1).
    destruct (IH m1 N1b N2b) as (m2 & X2 & S2 & G2).
    { intros x y K. destruct (H x y (or_intror K)) as [[dx Ex] [dy Ey]]. split; eapply sbh_hget; eassumption. }
    exists m2. cbn [ofold fst snd]. rewrite X1. cbn [obind]. split; [exact X2|]. split; [exact (sbh_trans _ _ _ S1 S2)|].
    intros h d E. destruct (G1 h d E) as (d1 & E1 & T1 & F1 & O1 & Y1 & Nx1 & P1). destruct (G2 h d1 E1) as (d2 & E2 & T2 & F2 & O2 & Y2 & B1 & B2 & B3 & B4).
    exists d2. split; [exact E2|]. split; [congruence|]. split; [congruence|]. split; [congruence|]. split; [congruence|].
    split; [|split; [|split]].
    + intros y [K|K]; [|apply B1; exact K]. injection K as <- <-. rewrite B2 by exact N1a. rewrite Nx1, Z.eqb_refl. reflexivity.
    + cbn. intros K. rewrite B2 by tauto. rewrite Nx1. destruct (Z.eqb_spec h a); [subst; tauto|reflexivity].
    + intros y [K|K]; [|apply B3; exact K]. injection K as <- <-. rewrite B4 by exact N2a. rewrite P1, Z.eqb_refl. reflexivity.
    + cbn. intros K. rewrite B4 by tauto. rewrite P1. destruct (Z.eqb_spec h b); [subst; tauto|reflexivity].
Qed.

Lemma fop_of_nodup {A} (R : A -> A -> Prop) l : NoDup l -> (forall x y, In x l -> In y l -> x <> y -> R x y) -> ForallOrdPairs R l.
Proof.
  induction 1 as [|a l Ha N IH]; intros H; constructor.
  - apply Forall_forall. intros y Hy. apply H; [left; reflexivity|right; exact Hy|]. intros ->. contradiction.
  - apply IH. intros x y Hx Hy. apply H; right; assumption.
Qed.

Lemma omap_target m ps acc : Forall2 (oarc m) ps acc -> omap (target m) acc = Some (map snd ps).
Proof.
  induction 1 as [|p h ps acc A F IH]; [reflexivity|]. cbn. destruct A as (_ & d & d' & E & _ & T & _). unfold target at 1. rewrite E. cbn [obind].
  rewrite IH. cbn. rewrite T. reflexivity.
Qed.

Lemma finv_null_rf m fn acc : FInv m fn acc -> ~ In null (rf m).
Proof. intros F K. apply (f_rf' m fn acc F) in K. unfold null in K. lia. Qed.

(** storing and linking the finished face *)
Lemma close_face m fn acc vi fs m1 : Core m -> FInv m fn acc -> fn <> null -> (3 <= length vi)%nat -> NoDup vi ->
  Forall2 (oarc m) (cyc_pairs vi) acc ->
  vget fs fn = Some acc -> (forall f, f <> fn -> vget fs f = vget (faces m) f) ->
  (forall f, In f (rf m) -> 0 <= f < zlen fs) ->
  m1 = set_faces m fs ->
  exists m2, link_next m1 acc = Some m2 /\ HInv m2 /\ soft m m2 /\ faces m2 = fs /\ rf m2 = rf m /\
    (forall h, ~ In h acc -> hget m2 h = hget m h).
Proof.
  intros C F Nf L3 Nv Fa Ef Ef' Rf ->. unfold link_next.
  assert (Lacc : length acc = length vi) by (rewrite <- (cyc_pairs_length vi); symmetry; eapply F2_length; exact Fa).
  pose proof (f_acc m fn acc F) as Na.
  destruct (link_spec (cyc_pairs acc) (set_faces m fs)) as (m2 & X & (V & Ed & Fc & R1 & R2 & R3 & R4 & Ln) & G).
  { rewrite (proj1 (cyc_fst_snd acc)). exact Na. }
  { rewrite (proj2 (cyc_fst_snd acc)). apply rotate1_NoDup. exact Na. }
  { intros a b K. apply cyc_In in K. destruct K as [Ka Kb].
    destruct (f_acc' m fn acc F a Ka) as (_ & da & Ea & _). destruct (f_acc' m fn acc F b Kb) as (_ & db & Eb & _). split; eexists; eassumption. }
  exists m2. split; [exact X|].
  rewrite (proj1 (cyc_fst_snd acc)), (proj2 (cyc_fst_snd acc)) in G. cbn in V, Ed, Fc, R1, R2, R3, R4, Ln.
  change (forall h d, hget m h = Some d -> exists d', hget m2 h = Some d' /\ ht d' = ht d /\ hf d' = hf d /\ ho d' = ho d /\ he d' = he d /\
     (forall b, In (h, b) (cyc_pairs acc) -> hn d' = b) /\ (~ In h acc -> hn d' = hn d) /\
     (forall a, In (a, h) (cyc_pairs acc) -> hp d' = a) /\ (~ In h (rotate1 acc) -> hp d' = hp d)) in G.
  assert (Same : forall h, ~ In h acc -> hget m2 h = hget m h).
  { intros h K. destruct (hget m h) as [d|] eqn:E.
    - destruct (G h d E) as (d' & E' & T & Fh & O & Y & _ & B2 & _ & B4). rewrite E'. f_equal.
      rewrite In_rotate1 in B4. specialize (B2 K). specialize (B4 K). destruct d, d'. cbn in *. congruence.
    - apply vget_None. rewrite Ln. intros R. apply vget_range_Some in R. destruct R as [d R]. unfold hget in E. congruence. }
  assert (S : soft m m2).
  { constructor; try assumption. intros h d E. destruct (G h d E) as (d' & E' & T & Fh & O & Y & B). exists d'. split; [exact E'|]. repeat split; auto.
    intros K. assert (Nh : ~ In h acc). { intros K'. destruct (f_acc' m fn acc F h K') as ((_ & Z) & _). contradiction. }
    rewrite Same in E' by exact Nh. congruence. }
  assert (Back : forall h d', hget m2 h = Some d' -> exists d, hget m h = Some d /\ hf d' = hf d).
  { intros h d' E'. destruct (soft_back _ _ _ _ S E') as (d & E & _). exists d. split; [exact E|]. destruct (G h d E) as (d2 & E2 & _ & Fh & _). congruence. }
  split; [|split; [exact S|]; split; [exact Fc|]; split; [exact R1|exact Same]]. split; [exact (soft_core _ _ C S)|].
  constructor.
  - rewrite R1. apply F.
  - rewrite R1, Fc. exact Rf.
  - rewrite R1. eapply finv_null_rf. exact F.
  - intros h d' E'. destruct (Back h d' E') as (d & E & Fh). rewrite R1, Fc, Fh. destruct (f_he m fn acc F h d E) as [K1 K2]. split.
    + intros K. assert (Nh : ~ In h acc). { intros K'. destruct (f_acc' m fn acc F h K') as (_ & dd & Edd & Kdd). congruence. }
      rewrite Same in E' by exact Nh. assert (d' = d) by congruence. subst d'. apply K1. exact K.
    + intros K. right. split; [exact K|]. destruct (K2 K) as [(A1 & A2 & _)|(A1 & A2 & A3)].
      * rewrite A1. split; [apply F|]. exists acc. auto.
      * split; [exact A2|]. rewrite Ef' by exact A1. exact A3.
  - rewrite R1, Fc. intros f hs _ Nr E. destruct (Z.eq_dec f fn) as [->|N].
    + assert (hs = acc) by congruence. subst hs. split; [lia|]. split; [exact Na|]. split.
      * intros h Hh. rewrite (soft_lh _ _ _ S). destruct (f_acc' m fn acc F h Hh) as (Lh & d & E1 & E2). split; [exact Lh|].
        destruct (G h d E1) as (d' & E' & _ & Fh & _). exists d'. split; [exact E'|congruence].
      * intros a b Hab. destruct (cyc_consecutive _ _ _ _ _ Fa Hab) as (x & y & z & (La & da & da' & Ea & Ea' & Ta & Sa) & (Lb & db & db' & Eb & Eb' & Tb & Sb)).
        destruct (G a da Ea) as (da2 & Ea2 & Ta2 & _ & _ & _ & Ba & _). destruct (G b db Eb) as (db2 & Eb2 & Tb2 & _ & _ & _ & _ & _ & Bb & _).
        destruct (G _ db' Eb') as (db3 & Eb3 & Tb3 & _). exists da2, db2, db3. cbn [fst snd] in *. repeat split; try assumption; try congruence; [apply Ba|apply Bb]; exact Hab.
    + rewrite Ef' in E by exact N. pose proof (f_face m fn acc F f hs N Nr E) as Gc. eapply good_cycle_ext; [|exact Gc].
      intros h Hh Lh. split; [apply (soft_lh _ _ _ S); exact Lh|]. destruct (proj1 (proj2 (proj2 Gc)) h Hh) as (_ & d & Ehd & Kd).
      split; [|intros d2 E2; destruct (s_he _ _ S _ _ E2) as (d3 & E3 & T3 & _); eauto].
      apply Same. intros K. destruct (f_acc' m fn acc F h K) as (_ & dd & Edd & Kdd). congruence.
  - constructor.
  - intros h [].
Qed.

(** ** what is visible is preserved *)
Lemma target_ht m h d : hget m h = Some d -> target m h = Some (ht d).
Proof. intros E. unfold target. rewrite E. reflexivity. Qed.

Lemma grow_views m m' h : Core m -> Core m' -> grow m m' -> lh m h ->
  source m' h = source m h /\ target m' h = target m h.
Proof.
  intros C C' G L. destruct (lh_hget m h L) as [d E]. destruct (g_h _ _ G h d L E) as (L' & d' & E' & T & _).
  destruct (source_target m h d C L E) as (od & Eo & S1 & T1 & _). destruct (source_target m' h d' C' L' E') as (od' & Eo' & S2 & T2 & _).
  destruct (g_h _ _ G _ od (lh_opposite m h C L) Eo) as (_ & od2 & Eo2 & To & _). rewrite S1, S2, T1, T2. split; congruence.
Qed.

(** ** the specification of add_face *)
Definition insertable (m : hmesh) (vi : list Z) : bool := forallb (free m) (cyc_pairs vi).

Lemma finv_start m fn m0 : HInv m -> m0 = set_rf m (rf m0) -> (forall f, In f (rf m0) -> In f (rf m)) -> NoDup (rf m0) -> ~ In fn (rf m0) ->
  (forall f, ~ In f (rf m0) -> f <> fn -> ~ In f (rf m)) -> fn <> null ->
  (forall hs, vget (faces m) fn = Some hs -> In fn (rf m)) -> FInv m0 fn [].
Proof.
  intros [C F] E H1 H2 H3 H4 Nf H5. assert (Hg : forall h, hget m0 h = hget m h) by (rewrite E; reflexivity).
  assert (Hl : forall h, lh m0 h <-> lh m h) by (rewrite E; reflexivity). assert (Hf : faces m0 = faces m) by (rewrite E; reflexivity).
  constructor; auto.
  - rewrite Hf. intros f K. apply (f_rf' _ _ _ F). apply H1. exact K.
  - intros h d Eh. rewrite Hg in Eh. rewrite Hf. destruct (f_he _ _ _ F h d Eh) as [A1 A2]. split; [exact A1|]. intros K. right.
    destruct (A2 K) as [(B1 & B2 & _)|(B1 & B2 & hs & B3 & B4)]; [destruct B2|].
    assert (N : hf d <> fn). { intros Q. apply B2. rewrite Q. apply (H5 hs). rewrite <- Q. exact B3. }
    split; [exact N|]. split; [intros Q; apply B2, H1, Q|]. eauto.
  - rewrite Hf. intros f hs N1 N2 Ef. assert (Nn : f <> null) by (apply vget_Some_range in Ef; unfold null; lia).
    pose proof (f_face _ _ _ F f hs Nn (H4 f N2 N1) Ef) as G. eapply good_cycle_ext; [|exact G].
    intros h _ L. rewrite Hl, !Hg. split; [exact L|]. split; [reflexivity|]. eauto.
  - constructor.
  - intros h [].
Qed.

Record face_added (m : hmesh) (vi : list Z) (f : Z) (m' : hmesh) : Prop := {
  fa_inv : HInv m';
  fa_new : ~ live_face m f; fa_live : live_face m' f;
  fa_only : forall x, live_face m' x -> x = f \/ live_face m x;
  fa_verts : get_vertices_around_face m' f = Some (rotate1 vi);
  fa_pres : preserves m m' }.

Lemma set_rf_core m x : Core m -> Core (set_rf m x).
Proof. intros C. eapply soft_core; [exact C|]. constructor; try reflexivity. intros h d E. exists d. auto. Qed.

Lemma add_face_spec m vi : HInv m -> (3 <= length vi)%nat -> NoDup vi -> (forall v, In v vi -> lv m v) ->
  match add_face m vi with
  | AddUB => False
  | Added f m' => insertable m vi = true /\ face_added m vi f m'
  | Rejected m' => insertable m vi = false /\ Core m' /\ grow m (set_faces (set_rf m' (rf m)) (faces m)) /\
                   (forall f hs, ~ In f (rf m) -> vget (faces m) f = Some hs -> ~ In f (rf m') /\ vget (faces m') f = Some hs)
  end.
Proof.
  intros Inv L3 Nv Lv. pose proof Inv as [C F]. unfold add_face.
  assert (Start : exists f reuse m0, (match rf m with f :: r => (f, true, set_rf m r) | [] => (number_of_faces m, false, m) end) = (f, reuse, m0) /\
    FInv m0 f [] /\ f <> null /\ m0 = set_rf m (rf m0) /\ (forall x, In x (rf m) <-> In x (rf m0) \/ (reuse = true /\ x = f)) /\ ~ In f (rf m0) /\
    (if reuse then 0 <= f < zlen (faces m) else f = zlen (faces m))).
  { destruct (rf m) as [|f r] eqn:Er.
    - exists (number_of_faces m), false, m. split; [reflexivity|]. assert (En : number_of_faces m = zlen (faces m)) by (unfold number_of_faces; rewrite Er; unfold zlen; cbn; lia).
      rewrite En. pose proof (zlen_nonneg (faces m)). assert (Nn : zlen (faces m) <> null) by (unfold null; lia).
      split; [|split; [exact Nn|]; split; [destruct m; cbn in *; subst; reflexivity|]; split; [rewrite Er; cbn; split; [tauto|intros [[]|[K _]]; discriminate]|]; split; [rewrite Er; auto|reflexivity]].
      apply (finv_start m); [assumption|destruct m; reflexivity|auto|rewrite Er; constructor|rewrite Er; auto|auto|exact Nn|].
      intros hs K. apply vget_Some_range in K. lia.
    - exists f, true, (set_rf m r). split; [reflexivity|]. pose proof (f_rf _ _ _ F) as Nd. rewrite Er in Nd. inversion Nd as [|? ? N1 N2]; subst.
      assert (R : 0 <= f < zlen (faces m)) by (apply (f_rf' _ _ _ F); rewrite Er; left; reflexivity). assert (Nn : f <> null) by (unfold null; lia).
      split; [|split; [exact Nn|]; split; [reflexivity|]; split; [cbn; intuition|]; split; [exact N1|exact R]].
      apply (finv_start m); try assumption.
      + reflexivity.
      + cbn. rewrite Er. intros x K. right. exact K.
      + cbn. rewrite Er. intros x K1 K2 [K|K]; [congruence|contradiction].
      + rewrite Er. intros. left. reflexivity. }
  destruct Start as (f & reuse & m0 & -> & F0 & Nf & E0 & Hrf & Nf0 & Rg).
  assert (C0 : Core m0) by (rewrite E0; apply set_rf_core; exact C).
  assert (Lv0 : forall v, lv m0 v <-> lv m v) by (intros v; rewrite E0; reflexivity).
  assert (Hf0 : faces m0 = faces m) by (rewrite E0; reflexivity).
  pose proof (add_face_loop_spec reuse f (cyc_pairs vi) m0 [] [] C0 F0 Nf (Forall2_nil _)) as Lp.
  assert (Q1 : forall s t, In (s, t) (cyc_pairs vi) -> lv m0 s /\ lv m0 t /\ s <> t).
  { intros s t K. destruct (cyc_distinct vi s t Nv L3 K) as [Ns _]. apply cyc_In in K. rewrite !Lv0. split; [apply Lv, K|]. split; [apply Lv, K|exact Ns]. }
  specialize (Lp Q1). assert (Q2 : ForallOrdPairs undir (cyc_pairs vi)).
  { apply fop_of_nodup; [apply cyc_NoDup; exact Nv|]. intros (a, b) (s, t) K1 K2 N. split; [exact N|]. cbn. intros Q. injection Q as -> ->.
    destruct (cyc_distinct vi s t Nv L3 K2) as [_ Ns]. contradiction. }
  specialize (Lp Q2). assert (Q3 : forall p q : Z * Z, In p [] -> In q (cyc_pairs vi) -> p <> q) by (intros p q []). specialize (Lp Q3).
  assert (Fi : forallb (free m0) (cyc_pairs vi) = insertable m vi).
  { unfold insertable. assert (K : free m0 = free m) by (rewrite E0; reflexivity). rewrite K. reflexivity. }
  destruct (add_face_loop m0 f reuse [] (cyc_pairs vi)) as [m1 acc|m1 acc|]; [| |exact Lp].
  - destruct Lp as (I1 & C1 & F1 & G1 & Fa). rewrite Fi in I1. cbn [app] in Fa.
    assert (Fs : exists fs, (if reuse then vset (faces m1) f acc else Some (faces m1 ++ [acc])) = Some fs /\ vget fs f = Some acc /\
      (forall x, x <> f -> vget fs x = vget (faces m1) x) /\ (forall x, In x (rf m1) -> 0 <= x < zlen fs) /\ (forall x, 0 <= x < zlen fs -> x = f \/ 0 <= x < zlen (faces m1)) /\ 0 <= f < zlen fs /\ zlen (faces m1) <= zlen fs).
    { rewrite (g_faces _ _ G1), Hf0, (g_rf _ _ G1). destruct reuse.
      - pose proof (vset_Some (faces m) f acc Rg) as Es. eexists. split; [exact Es|]. split; [exact (vget_vset_eq _ _ _ _ Es)|].
        split; [intros x N; apply (vget_vset_neq _ _ _ _ _ Es); congruence|]. rewrite (vset_len _ _ _ _ Es). split; [intros x K; apply (f_rf' _ _ _ F), Hrf; left; exact K|]. split; [auto|]. split; [exact Rg|lia].
      - subst f. exists (faces m ++ [acc]). split; [reflexivity|]. split; [apply vget_app_last|]. rewrite zlen_snoc. pose proof (zlen_nonneg (faces m)).
        split; [|split; [|split; [|split]]].
        + intros x N. destruct (Z_lt_le_dec x (zlen (faces m))); [apply vget_app_l; assumption|]. rewrite !vget_None; [reflexivity| |]; rewrite ?zlen_snoc; lia.
        + intros x K. assert (0 <= x < zlen (faces m)) by (apply (f_rf' _ _ _ F), Hrf; left; exact K). lia.
        + intros x K. lia.
        + lia.
        + lia. }
    destruct Fs as (fs & -> & Ff & Fo & Fr & Frange & Frf & Fle). cbn [obind].
    destruct (close_face m1 f acc vi fs (set_faces m1 fs) C1 F1 Nf L3 Nv Fa Ff Fo Fr eq_refl) as (m2 & X2 & Inv2 & S2 & Fc2 & R2 & Same). rewrite X2.
    split; [exact I1|]. pose proof (proj1 Inv2) as C2.
    assert (Gv : forall h, lh m h -> source m1 h = source m h /\ target m1 h = target m h /\ lh m1 h).
    { intros h L. assert (L0 : lh m0 h) by (rewrite E0; exact L). destruct (grow_views m0 m1 h C0 C1 G1 L0) as [A B]. destruct (lh_hget _ _ L0) as [d E]. split; [rewrite A, E0; reflexivity|]. split; [rewrite B, E0; reflexivity|].
      apply (g_h _ _ G1 h d L0 E). }
    assert (Gv2 : forall h, lh m h -> source m2 h = source m h /\ target m2 h = target m h /\ lh m2 h).
    { intros h L. destruct (Gv h L) as (A & B & L1). destruct (lh_hget _ _ L1) as [d E]. destruct (s_he _ _ S2 h d E) as (d' & E' & T & _).
      assert (L2 : lh m2 h) by (apply (soft_lh _ _ _ S2); exact L1).
      destruct (source_target m1 h d C1 L1 E) as (od & Eo & S1 & T1 & _). destruct (source_target m2 h d' C2 L2 E') as (od' & Eo' & S3 & T3 & _).
      destruct (s_he _ _ S2 _ od Eo) as (od2 & Eo2 & To & _). split; [rewrite <- A, S1, S3; congruence|]. split; [rewrite <- B, T1, T3; congruence|exact L2]. }
    assert (Rf2 : forall x, In x (rf m2) <-> In x (rf m0)) by (intros x; rewrite R2, (g_rf _ _ G1); tauto).
    assert (Face : forall x hs, live_face m x -> vget (faces m) x = Some hs -> live_face m2 x /\ vget (faces m2) x = Some hs).
    { intros x hs [R N] E. assert (Nx : x <> f).
      { intros ->. destruct reuse; [apply N, Hrf; right; auto|lia]. }
      split; [split|].
      - rewrite Fc2. rewrite (g_faces _ _ G1), Hf0 in Fle. lia.
      - rewrite Rf2. intros K. apply N, Hrf. left. exact K.
      - rewrite Fc2, Fo by exact Nx. rewrite (g_faces _ _ G1), Hf0. exact E. }
    constructor.
    + exact Inv2.
    + intros [R N]. destruct reuse; [apply N, Hrf; right; auto|lia].
    + split; [rewrite Fc2; exact Frf|]. rewrite Rf2. exact Nf0.
    + intros x [R N]. rewrite Fc2 in R. destruct (Frange x R) as [->|R']; [left; reflexivity|]. destruct (Z.eq_dec x f) as [->|Nx]; [left; reflexivity|right].
      rewrite (g_faces _ _ G1), Hf0 in R'. split; [exact R'|]. rewrite Hrf. rewrite Rf2 in N. intros [K|[_ K]]; contradiction.
    + unfold get_vertices_around_face, get_halfedges_around_face. rewrite Fc2, Ff. cbn [obind].
      rewrite <- (proj2 (cyc_fst_snd vi)). apply omap_target. eapply F2_impl; [|exact Fa].
      intros p h (L & d & d' & E & E' & T & T'). split; [apply (soft_lh _ _ _ S2); exact L|].
      destruct (s_he _ _ S2 _ _ E) as (e1 & X1 & Y1 & _). destruct (s_he _ _ S2 _ _ E') as (e2 & X2' & Y2 & _). exists e1, e2. repeat split; congruence.
    + split; [|split].
      * intros v [R N]. destruct (vget_range_Some _ _ R) as [d E]. assert (E1 : vget (verts m0) v = Some d) by (rewrite E0; exact E).
        destruct (g_v _ _ G1 v d E1) as (d' & E' & P). split.
        -- unfold live_vertex. rewrite (s_verts _ _ S2), (s_rv _ _ S2), (g_vlen _ _ G1), (g_rv _ _ G1), E0. split; assumption.
        -- rewrite (s_verts _ _ S2), E', E. cbn. congruence.
      * intros x Hx. destruct (vget_range_Some _ _ (proj1 Hx)) as [hs Eh]. destruct (Face x hs Hx Eh) as [A B]. split; [exact A|].
        unfold get_halfedges_around_face, get_vertices_around_face, get_halfedges_around_face. rewrite B, Eh. split; [reflexivity|]. cbn [obind].
        assert (Nn : x <> null) by (destruct Hx; unfold null; lia).
        destruct (f_face _ _ _ F x hs Nn (proj2 Hx) Eh) as (_ & _ & G3 & _).
        assert (Z : forall l, (forall h, In h l -> lh m h) -> omap (target m2) l = omap (target m) l).
        { induction l as [|h l IHl]; intros H; [reflexivity|]. cbn. rewrite (proj1 (proj2 (Gv2 h (H h (or_introl eq_refl))))). rewrite IHl; [reflexivity|]. intros y Hy. apply H. right. exact Hy. }
        apply Z. intros h Hh. apply G3. exact Hh.
      * intros h Hh. apply (lh_live m h C) in Hh. destruct (Gv2 h Hh) as (A & B & L2). split; [apply (lh_live m2 h C2); exact L2|]. split; [exact A|]. split; [exact B|].
        intros x Ex Nx. destruct (lh_hget _ _ Hh) as [d Ed]. unfold face in Ex. rewrite Ed in Ex. cbn in Ex. injection Ex as Ex.
        assert (L0 : lh m0 h) by (rewrite E0; exact Hh). assert (Ed0 : hget m0 h = Some d) by (rewrite E0; exact Ed).
        destruct (g_h _ _ G1 h d L0 Ed0) as (L1 & d1 & E1 & T1 & O1 & N1 & P1 & X1 & K1). rewrite Ex in K1.
        assert (Nf' : x <> f).
        { intros ->. destruct (proj2 (f_he _ _ _ F0 h d Ed0)) as [(_ & [] & _)|(K & _)]; congruence. }
        assert (Nacc : ~ In h acc). { intros K. destruct (f_acc' _ _ _ F1 h K) as (_ & dd & Edd & Kdd). specialize (K1 Nx). congruence. }
        unfold face, next, prev. rewrite Same by exact Nacc. rewrite E1, Ed. cbn [obind]. rewrite (K1 Nx), N1, P1. auto.
  - destruct Lp as (I1 & C1 & F1 & G1). rewrite Fi in I1.
    assert (Gr : forall fs, grow m (set_faces (set_rf (set_faces m1 fs) (rf m)) (faces m))).
    { intros fs. destruct G1 as [a1 a2 a3 a4 a5 a6]. rewrite E0 in a1, a2, a3, a6. constructor; auto. }
    destruct reuse.
    + rewrite (g_faces _ _ G1), Hf0. pose proof (vset_Some (faces m) f acc Rg) as Es. rewrite Es. split; [exact I1|]. split; [|split].
      * eapply soft_core; [exact C1|]. constructor; try reflexivity. intros h d E. exists d. auto.
      * apply Gr.
      * cbn. intros x hs N E. rewrite (g_rf _ _ G1). split; [intros K; apply N, Hrf; left; exact K|]. rewrite (vget_vset_neq _ _ _ _ _ Es); [exact E|]. intros <-. apply N, Hrf. right. auto.
    + split; [exact I1|]. split; [exact C1|]. split; [|].
      * assert (X := Gr (faces m1)). replace (set_faces m1 (faces m1)) with m1 in X by (destruct m1; reflexivity). exact X.
      * intros x hs N E. rewrite (g_rf _ _ G1), (g_faces _ _ G1), Hf0. split; [intros K; apply N, Hrf; left; exact K|exact E].
Qed.
