(** Effect of the mesh operations on the faces read as lists of vertices. *)
From Coq Require Import List ZArith Lia Bool.
From Verif Require Import Vec VecLemmas HmeshModel HmeshSpec HmeshCore HmeshCyc HmeshFaces HmeshAdd HmeshRemove HmeshProps InputSpec InputProofs.
Import ListNotations.
Open Scope Z_scope.
Ltac Zify.zify_post_hook ::= idtac.

Definition rd (m : hmesh) (f : Z) (r : list Z) : Prop := live_face m f /\ get_vertices_around_face m f = Some r.

Lemma rd_fun m f r r' : rd m f r -> rd m f r' -> r = r'.
Proof. intros [_ A] [_ B]. congruence. Qed.

Lemma rd_total m f : HInv m -> live_face m f -> exists r, rd m f r.
Proof.
  intros I L. destruct (k_face m (HInv_consistent m I) f L) as (hs & E & _ & _ & Hf & _).
  destruct (omap_total (target m) hs) as [r Er].
  { intros h Hh. destruct (Hf h Hh) as [Lh _]. destruct (k_ends m (HInv_consistent m I) h Lh) as (a & b & _ & T & _). exists b. exact T. }
  exists r. split; [exact L|]. unfold get_vertices_around_face. rewrite E. exact Er.
Qed.

Lemma omap_ext {A B} (g g' : A -> option B) l : (forall x, In x l -> g x = g' x) -> omap g l = omap g' l.
Proof. induction l as [|a l IH]; intros H; [reflexivity|]. cbn. rewrite (H a (or_introl eq_refl)), IH; [reflexivity|]. intros x Hx. apply H. right. exact Hx. Qed.

Lemma rd_fwd m m' f r : HInv m -> live_face m' f -> vget (faces m') f = vget (faces m) f ->
  (forall h, live_halfedge m h -> face m h = Some f -> target m' h = target m h) -> rd m f r -> rd m' f r.
Proof.
  intros I L' Ef Et [L E]. split; [exact L'|]. destruct (k_face m (HInv_consistent m I) f L) as (hs & Eh & _ & _ & Hf & _).
  unfold get_vertices_around_face, get_halfedges_around_face in *. rewrite Ef, Eh. rewrite Eh in E. cbn [obind] in *.
  rewrite <- E. apply omap_ext. intros h Hh. destruct (Hf h Hh). apply Et; assumption.
Qed.

Lemma rd_iff m m' : HInv m -> (forall f, live_face m' f -> live_face m f) -> (forall f r, live_face m' f -> rd m f r -> rd m' f r) ->
  forall f r, rd m' f r <-> rd m f r /\ live_face m' f.
Proof.
  intros I L F f r. split.
  - intros K. pose proof K as [L' _]. destruct (rd_total m f I (L f L')) as [r0 R0]. pose proof (F f r0 L' R0) as K'. rewrite (rd_fun _ _ _ _ K K'). auto.
  - intros [A B]. apply F; assumption.
Qed.

(** a half-edge has a face iff its ends are consecutive in some face *)
Definition used (m : hmesh) (s t : Z) : Prop := exists f r, rd m f r /\ In (s, t) (cyc_pairs r).

Lemma used_taken m s t : HInv m -> (used m s t <-> taken m s t).
Proof.
  intros I. split.
  - intros (f & r & [L E] & Hin). apply (face_arcs m f r I L E) in Hin. destruct Hin as (h & Lh & S & T & F). exists h, f. destruct L as [L _]. split; [exact Lh|]. split; [exact S|]. split; [exact T|]. split; [exact F|]. intros ->. unfold null in L. lia.
  - intros (h & f & Lh & S & T & F & N). destruct (k_he_face m (HInv_consistent m I) h f Lh F N) as (L & _). destruct (rd_total m f I L) as [r [_ E]].
    exists f, r. split; [split; assumption|]. apply (face_arcs m f r I L E). exists h. auto.
Qed.

Lemma used_arc m s t : HInv m -> used m s t -> exists h, arc m s t h.
Proof. intros I U. apply (used_taken m s t I) in U. destruct U as (h & f & L & S & T & _). exists h. apply live_arc; [apply I|auto]. Qed.

Lemma used_live m s t : HInv m -> used m s t -> lv m s /\ lv m t /\ s <> t.
Proof.
  intros I U. destruct (used_arc m s t I U) as [h A]. apply (live_arc m h s t (proj1 I)) in A. destruct A as (L & S & T).
  destruct (k_ends m (HInv_consistent m I) h L) as (a & b & Sa & Tb & N & La & Lb & _). assert (a = s) by congruence. assert (b = t) by congruence. subst. auto.
Qed.

(** working invariant *)
Record W (m : hmesh) : Prop := { w_hist : history m; w_simple : simple m; w_rv : rv m = []; w_nd : forall f r, rd m f r -> NoDup r }.
Lemma w_inv m : W m -> HInv m. Proof. intros H. apply history_inv, H. Qed.
Lemma w_lv m v : W m -> (lv m v <-> 0 <= v < zlen (verts m)).
Proof. intros H. unfold lv. rewrite (w_rv m H). cbn. tauto. Qed.

(** the half-edge a face uses for a pair *)
Lemma arc_face m s t h f r : W m -> arc m s t h -> (face m h = Some f /\ f <> null /\ rd m f r <-> rd m f r /\ In (s, t) (cyc_pairs r)).
Proof.
  intros Hw A. pose proof (w_inv m Hw) as I. pose proof (proj2 (live_arc m h s t (proj1 I)) A) as (L & S & T). split.
  - intros (F & N & R). split; [exact R|]. destruct R as [Lf E]. apply (face_arcs m f r I Lf E). exists h. auto.
  - intros (R & Hin). destruct R as [Lf E]. pose proof (proj1 (face_arcs m f r I Lf E s t) Hin) as (h' & L' & S' & T' & F'). assert (arc m s t h') by (apply live_arc; [apply I|auto]).
    rewrite (w_simple m Hw s t h h' A H). split; [exact F'|]. split; [intros ->; destruct Lf as [[Q _] _]; unfold null in Q; lia|]. split; assumption.
Qed.

Lemma arc_unused_null m s t h : W m -> arc m s t h -> ~ used m s t -> face m h = Some null.
Proof.
  intros Hw A N. pose proof (w_inv m Hw) as I. pose proof (proj2 (live_arc m h s t (proj1 I)) A) as (L & S & T).
  pose proof A as (Lh & d & _ & E & _). assert (F : face m h = Some (hf d)) by (unfold face; rewrite E; reflexivity).
  destruct (Z.eq_dec (hf d) null) as [Q|Q]; [congruence|]. exfalso. apply N. apply used_taken; [exact I|]. exists h, (hf d). auto.
Qed.

(** ** add_vertex *)
Lemma w_add_vertex m p : W m -> exists m', add_vertex m p = Some (zlen (verts m), m') /\ W m' /\
  rf m' = rf m /\ zlen (faces m') = zlen (faces m) /\ zlen (verts m') = zlen (verts m) + 1 /\
  (forall f r, rd m' f r <-> rd m f r) /\ (forall s t h, arc m' s t h <-> arc m s t h) /\
  (forall v, v <> zlen (verts m) -> option_map vpt (vget (verts m') v) = option_map vpt (vget (verts m) v)) /\
  option_map vpt (vget (verts m') (zlen (verts m))) = Some p.
Proof.
  intros Hw. pose proof (w_inv m Hw) as I. destruct (add_vertex_spec m p (proj1 I)) as (v & m' & E & K). 
  destruct (va_new _ _ _ _ K) as [[Q _]|(_ & Rv & Ev & Lv)]; [rewrite (w_rv m Hw) in Q; discriminate|]. subst v.
  assert (Hg : forall h, hget m' h = hget m h) by (intros; unfold hget; rewrite (va_hes _ _ _ _ K); reflexivity).
  assert (Ha : forall s t h, arc m' s t h <-> arc m s t h).
  { intros s t h. apply tsame_arc. constructor; [rewrite (va_hes _ _ _ _ K); reflexivity|apply K|]. intros x d Ed. exists d. rewrite Hg. auto. }
  assert (Hr : forall f r, rd m' f r <-> rd m f r).
  { intros f r. unfold rd, live_face, get_vertices_around_face, get_halfedges_around_face. rewrite (va_faces _ _ _ _ K), (va_rf _ _ _ _ K).
    assert (Et : forall l, omap (target m') l = omap (target m) l) by (intros l; apply omap_ext; intros x _; unfold target; rewrite Hg; reflexivity).
    destruct (vget (faces m) f); cbn [obind]; [rewrite Et|]; reflexivity. }
  exists m'. split; [exact E|]. split.
  { constructor.
    - apply (hist_op m (OVertex p)); [apply Hw|exact Logic.I|]. cbn. rewrite E. reflexivity.
    - intros s t h1 h2 A1 A2. apply Ha in A1, A2. exact (w_simple m Hw s t h1 h2 A1 A2).
    - exact Rv.
    - intros f r R. apply Hr in R. exact (w_nd m Hw f r R). }
  split; [apply K|]. split; [rewrite (va_faces _ _ _ _ K); reflexivity|]. split; [exact Lv|]. split; [exact Hr|]. split; [exact Ha|]. split.
  - intros v N. rewrite (va_other _ _ _ _ K v N). reflexivity.
  - rewrite (va_slot _ _ _ _ K (w_rv m Hw)). reflexivity.
Qed.

(** ** add_edge *)
Lemma w_add_edge m a b : W m -> lv m a -> lv m b -> a <> b -> (forall h, ~ arc m a b h) ->
  exists h m', add_edge m a b = Some (h, m') /\ W m' /\
  rf m' = rf m /\ zlen (faces m') = zlen (faces m) /\ zlen (verts m') = zlen (verts m) /\
  (forall f r, rd m' f r <-> rd m f r) /\ arc m' a b h /\ (forall s t x, arc m s t x -> arc m' s t x) /\
  (forall s t x, arc m' s t x -> arc m s t x \/ (s = a /\ t = b) \/ (s = b /\ t = a)) /\
  (forall v, option_map vpt (vget (verts m') v) = option_map vpt (vget (verts m) v)).
Proof.
  intros Hw La Lb N Na. pose proof (w_inv m Hw) as I. destruct (add_edge_spec m a b (proj1 I) La Lb N) as (e & m' & E & K).
  pose proof (edge_added_grow m a b e m' (proj1 I) La Lb N K) as G.
  assert (Hh : history m') by (apply (hist_op m (OEdge a b)); [apply Hw|split; [exact La|split; [exact Lb|exact N]]|]; cbn; rewrite E; reflexivity).
  assert (Lf : forall f, live_face m' f <-> live_face m f) by (intros f; unfold live_face; rewrite (g_faces _ _ G), (g_rf _ _ G); reflexivity).
  assert (Hr : forall f r, rd m' f r <-> rd m f r).
  { intros f r. rewrite (rd_iff m m' I).
    - rewrite Lf. split; [tauto|]. intros R. split; [exact R|apply R].
    - intros x. apply Lf.
    - intros x y Lx R. apply (rd_fwd m m' x y I Lx); [rewrite (g_faces _ _ G); reflexivity| |exact R].
      intros h Lh _. apply (lh_live m h (proj1 I)) in Lh. destruct (lh_hget m h Lh) as [d Ed]. destruct (g_h _ _ G h d Lh Ed) as (_ & d' & Ed' & T & _). unfold target. rewrite Ed, Ed'. cbn. congruence. }
  exists (2 * e), m'. split; [exact E|]. split.
  { constructor; [exact Hh| | |].
    - eapply edge_added_simple; [apply I|exact N|apply Hw|exact Na|exact K].
    - rewrite (g_rv _ _ G). apply Hw.
    - intros f r R. apply Hr in R. exact (w_nd m Hw f r R). }
  split; [apply G|]. split; [rewrite (g_faces _ _ G); reflexivity|]. split; [apply G|]. split; [exact Hr|]. split; [eapply edge_added_arc; [apply I|exact K]|]. split.
  - intros s t x A. eapply arc_grow; [apply I|exact G|exact A].
  - split.
    + intros s t x A. destruct (edge_added_arcs m a b e m' s t x (proj1 I) K A) as [A'|[(_ & -> & ->)|(_ & -> & ->)]]; auto.
    + intros v. destruct (vget (verts m) v) as [d|] eqn:Ed.
      * destruct (g_v _ _ G v d Ed) as (d' & E' & P). rewrite E'. cbn. congruence.
      * destruct (vget (verts m') v) as [d'|] eqn:E'; [|reflexivity]. exfalso. apply vget_Some_range in E'. rewrite (g_vlen _ _ G) in E'. destruct (vget_range_Some _ _ E') as [x Ex]. congruence.
Qed.

(** ** remove_face *)
Lemma w_remove_face m f : W m -> live_face m f -> exists m', remove_face m f = Some m' /\ W m' /\
  rf m' = rf m ++ [f] /\ zlen (faces m') = zlen (faces m) /\ zlen (verts m') = zlen (verts m) /\
  (forall g r, rd m' g r <-> rd m g r /\ g <> f) /\ (forall s t h, arc m' s t h <-> arc m s t h) /\
  (forall v, option_map vpt (vget (verts m') v) = option_map vpt (vget (verts m) v)).
Proof.
  intros Hw L. pose proof (w_inv m Hw) as I. destruct (remove_face_spec m f I L) as (m' & E & K). pose proof (fr_soft _ _ _ K) as S.
  assert (Ts : tsame m m'). { constructor; [apply S|apply S|]. intros h d Ed. destruct (s_he _ _ S h d Ed) as (d' & E' & T & _). eauto. }
  assert (Ha : forall s t h, arc m' s t h <-> arc m s t h) by (intros; apply tsame_arc; exact Ts).
  assert (Lf : forall g, live_face m' g <-> live_face m g /\ g <> f).
  { intros g. unfold live_face. rewrite (fr_faces _ _ _ K), (fr_rf _ _ _ K), in_app_iff. cbn. intuition congruence. }
  assert (Hr : forall g r, rd m' g r <-> rd m g r /\ g <> f).
  { intros g r. rewrite (rd_iff m m' I).
    - rewrite Lf. split; [tauto|]. intros [R N]. split; [exact R|]. split; [apply R|exact N].
    - intros x Lx. apply Lf in Lx. tauto.
    - intros x y Lx R. apply (rd_fwd m m' x y I Lx); [rewrite (fr_faces _ _ _ K); reflexivity| |exact R].
      intros h Lh _. apply (lh_live m h (proj1 I)) in Lh. destruct (lh_hget m h Lh) as [d Ed]. destruct (ts_t _ _ Ts h d Ed) as (d' & Ed' & T). unfold target. rewrite Ed, Ed'. cbn. congruence. }
  exists m'. split; [exact E|]. split.
  { constructor.
    - apply (hist_op m (ORemoveFace f)); [apply Hw|exact L|exact E].
    - intros s t h1 h2 A1 A2. apply Ha in A1, A2. exact (w_simple m Hw s t h1 h2 A1 A2).
    - rewrite (s_rv _ _ S). apply Hw.
    - intros g r R. apply Hr in R. exact (w_nd m Hw g r (proj1 R)). }
  split; [apply K|]. split; [rewrite (fr_faces _ _ _ K); reflexivity|]. split; [rewrite (s_verts _ _ S); reflexivity|]. split; [exact Hr|]. split; [exact Ha|].
  intros v. rewrite (s_verts _ _ S). reflexivity.
Qed.

(** ** add_face *)
Lemma add_face_reuse m vi f m' x l : rf m = x :: l -> add_face m vi = Added f m' ->
  f = x /\ rf m' = l /\ zlen (faces m') = zlen (faces m) /\ rv m' = rv m /\ zlen (verts m') = zlen (verts m).
Proof.
  intros R E. unfold add_face in E. rewrite R in E. destruct (add_face_loop _ _ _ _ _) as [m1 acc|m1 acc|] eqn:El; try discriminate.
  2:{ destruct (vset (faces m1) x acc); discriminate. }
  cbn [obind] in E. destruct (vset (faces m1) x acc) as [fs|] eqn:Es; cbn [obind] in E; [|discriminate].
  destruct (link_next _ _) as [m2|] eqn:E2; [|cbn; discriminate]. injection E as <- <-.
  apply loop_fr in El. apply link_next_fr in E2. destruct El as [A1 A2 A3 A4], E2 as [B1 B2 B3 B4]. cbn in *.
  split; [reflexivity|]. split; [congruence|]. split; [rewrite B2, (vset_len _ _ _ _ Es), A2; reflexivity|]. split; congruence.
Qed.

Definition next_slot (m : hmesh) : Z := match rf m with x :: _ => x | [] => zlen (faces m) end.
Definition next_len (m : hmesh) : Z := match rf m with _ :: _ => zlen (faces m) | [] => zlen (faces m) + 1 end.

Lemma w_add_face m vi : W m -> (3 <= length vi)%nat -> NoDup vi -> (forall v, In v vi -> lv m v) ->
  (forall s t, In (s, t) (cyc_pairs vi) -> ~ used m s t) ->
  exists m', add_face m vi = Added (next_slot m) m' /\ W m' /\
  rf m' = tl (rf m) /\ zlen (faces m') = next_len m /\ zlen (verts m') = zlen (verts m) /\
  (forall g r, rd m' g r <-> (g = next_slot m /\ r = rotate1 vi) \/ rd m g r) /\ ~ live_face m (next_slot m) /\
  (forall s t x, arc m s t x -> arc m' s t x) /\
  (forall s t x, arc m' s t x -> arc m s t x \/ In (s, t) (cyc_pairs vi) \/ In (t, s) (cyc_pairs vi)) /\
  (forall v, lv m v -> option_map vpt (vget (verts m') v) = option_map vpt (vget (verts m) v)).
Proof.
  intros Hw L3 Nd Lv Nu. pose proof (w_inv m Hw) as I. pose proof (add_face_spec m vi I L3 Nd Lv) as S.
  assert (Ins : insertable m vi = true).
  { unfold insertable. apply forallb_forall. intros (s, t) Hin. destruct (free m (s, t)) eqn:Ef; [reflexivity|exfalso].
    destruct (cyc_distinct vi s t Nd L3 Hin) as [N _]. pose proof (cyc_In _ _ _ Hin) as [Hs Ht].
    apply (taken_free m s t I (w_simple m Hw) (Lv s Hs) (Lv t Ht) N) in Ef. apply (used_taken m s t I) in Ef. exact (Nu s t Hin Ef). }
  destruct (add_face m vi) as [f m'|m'|] eqn:E; [|destruct S; congruence|destruct S].
  destruct S as [_ Fa]. exists m'.
  assert (Q : f = next_slot m /\ rf m' = tl (rf m) /\ zlen (faces m') = next_len m /\ rv m' = rv m /\ zlen (verts m') = zlen (verts m)).
  { unfold next_slot, next_len. destruct (rf m) as [|x l] eqn:R.
    - destruct (add_face_append m vi f m' R E) as (A & B & C & D & G). auto.
    - destruct (add_face_reuse m vi f m' x l R E) as (A & B & C & D & G). auto. }
  destruct Q as (-> & Rf & Fl & Rv & Vl). split; [reflexivity|].
  destruct (add_face_arcs m vi _ m' I (w_simple m Hw) L3 Nd Lv E) as [Sm Ar]. destruct (fa_pres _ _ _ _ Fa) as (P1 & P2 & P3).
  assert (Hr : forall g r, rd m' g r <-> (g = next_slot m /\ r = rotate1 vi) \/ rd m g r).
  { intros g r. split.
    - intros [L' E']. destruct (fa_only _ _ _ _ Fa g L') as [->|L]; [left|right].
      + split; [reflexivity|]. pose proof (fa_verts _ _ _ _ Fa). congruence.
      + split; [exact L|]. destruct (P2 g L) as (_ & _ & V). congruence.
    - intros [[-> ->]|[L E0]].
      + split; [apply Fa|apply Fa].
      + destruct (P2 g L) as (L' & _ & V). split; [exact L'|congruence]. }
  split.
  { constructor.
    - apply (hist_op m (OFace vi)); [apply Hw|split; [exact L3|split; [exact Nd|exact Lv]]|]. cbn. rewrite E. reflexivity.
    - exact Sm.
    - rewrite Rv. apply Hw.
    - intros g r R. apply Hr in R. destruct R as [[-> ->]|R]; [apply rotate1_NoDup; exact Nd|exact (w_nd m Hw g r R)]. }
  split; [exact Rf|]. split; [exact Fl|]. split; [exact Vl|]. split; [exact Hr|]. split; [apply Fa|]. split; [|split; [exact Ar|]].
  - intros s t x A. apply (live_arc m x s t (proj1 I)) in A. destruct A as (L & Sx & Tx). destruct (P3 x L) as (L' & S' & T' & _). apply live_arc; [exact (proj1 (fa_inv _ _ _ _ Fa))|].
    split; [exact L'|]. split; congruence.
  - intros v Lvv. apply P1. exact Lvv.
Qed.

(** ** remove_edge *)
Lemma w_remove_edge m e s t h : W m -> arc m s t h -> edge_of h = e -> ~ used m s t -> ~ used m t s ->
  exists m', remove_edge m e = Some m' /\ W m' /\
  rf m' = rf m /\ zlen (faces m') = zlen (faces m) /\ zlen (verts m') = zlen (verts m) /\
  (forall g r, rd m' g r <-> rd m g r) /\ (forall a b x, arc m' a b x <-> arc m a b x /\ edge_of x <> e) /\
  (forall v, option_map vpt (vget (verts m') v) = option_map vpt (vget (verts m) v)).
Proof.
  intros Hw A Ee N1 N2. pose proof (w_inv m Hw) as I. pose proof (proj1 I) as C. unfold edge_of in *.
  pose proof A as [Lh _]. pose proof (arc_opp m s t h C A) as A'. pose proof A' as [Lh' _].
  assert (F1 : face m h = Some null) by (eapply arc_unused_null; eassumption).
  assert (F2 : face m (opposite h) = Some null) by (eapply arc_unused_null; eassumption).
  assert (Le : live_edge m e). { apply (lh_live m h C) in Lh. destruct (k_opposite m (HInv_consistent m I) h Lh) as (_ & _ & _ & _ & Le & _). unfold edge_of in Le. rewrite Ee in Le. exact Le. }
  assert (Z01 : face m (edge_halfedge e 0) = Some null /\ face m (edge_halfedge e 1) = Some null).
  { unfold edge_halfedge. destruct (he_cases h) as [Q|Q]; rewrite Ee in Q.
    - rewrite Q, opposite_even in F2. replace (e * 2 + 0) with h by lia. replace (e * 2 + 1) with (2 * e + 1) by lia. auto.
    - rewrite Q, opposite_odd in F2. replace (e * 2 + 1) with h by lia. replace (e * 2 + 0) with (2 * e) by lia. auto. }
  destruct Z01 as [Z0 Z1]. destruct (remove_edge_spec m e I Le Z0 Z1) as (m' & E & K). exists m'. split; [exact E|].
  assert (Hh : history m') by (apply (hist_op m (ORemoveEdge e)); [apply Hw|split; [exact Le|split; [exact Z0|exact Z1]]|exact E]).
  pose proof (history_inv m' Hh) as I'.
  assert (Lhh : forall x, lh m' x <-> lh m x /\ x / 2 <> e).
  { intros x. unfold lh. rewrite (er_hlen _ _ _ K), (er_re _ _ _ K), in_app_iff. cbn. intuition congruence. }
  assert (Ha : forall a b x, arc m' a b x <-> arc m a b x /\ x / 2 <> e).
  { intros a b x. unfold arc. rewrite Lhh. split.
    - intros ((L & N) & d & d' & E1 & E2 & T1 & T2). rewrite (er_h _ _ _ K) in E1 by exact N. rewrite (er_h _ _ _ K) in E2 by (rewrite opposite_div; exact N). split; [split; [exact L|]|exact N]. exists d, d'. auto.
    - intros ((L & d & d' & E1 & E2 & T1 & T2) & N). split; [auto|]. exists d, d'. rewrite (er_h _ _ _ K) by exact N. rewrite (er_h _ _ _ K) by (rewrite opposite_div; exact N). auto. }
  assert (Lf : forall g, live_face m' g <-> live_face m g) by (intros g; unfold live_face; rewrite (er_faces _ _ _ K), (er_rf _ _ _ K); reflexivity).
  assert (Hr : forall g r, rd m' g r <-> rd m g r).
  { intros g r. rewrite (rd_iff m m' I).
    - rewrite Lf. split; [tauto|]. intros R. split; [exact R|apply R].
    - intros x. apply Lf.
    - intros x y Lx R. apply (rd_fwd m m' x y I Lx); [rewrite (er_faces _ _ _ K); reflexivity| |exact R].
      intros k Lk Fk. unfold target. rewrite (er_h _ _ _ K); [reflexivity|]. intros Q. destruct R as [[Rg _] _].
      assert (Fn : face m k = Some null). { unfold edge_halfedge in *. destruct (he_cases k) as [Qk|Qk]; rewrite Q in Qk; [replace k with (e * 2 + 0) by lia|replace k with (e * 2 + 1) by lia]; assumption. }
      rewrite Fn in Fk. injection Fk as <-. unfold null in Rg. lia. }
  split.
  { constructor; [exact Hh| | |].
    - intros a b h1 h2 A1 A2. apply Ha in A1, A2. exact (w_simple m Hw a b h1 h2 (proj1 A1) (proj1 A2)).
    - rewrite (er_rv _ _ _ K). apply Hw.
    - intros g r R. apply Hr in R. exact (w_nd m Hw g r R). }
  split; [apply K|]. split; [rewrite (er_faces _ _ _ K); reflexivity|]. split; [apply K|]. split; [exact Hr|]. split; [exact Ha|].
  intros v. destruct (vget (verts m) v) as [d|] eqn:Ed.
  - destruct (er_v _ _ _ K v d Ed) as (d' & E' & P & _). rewrite E'. cbn. congruence.
  - destruct (vget (verts m') v) as [d'|] eqn:E'; [|reflexivity]. exfalso. apply vget_Some_range in E'. rewrite (er_vlen _ _ _ K) in E'. destruct (vget_range_Some _ _ E') as [x Ex]. congruence.
Qed.
