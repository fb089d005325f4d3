(** C80: the kernel works on the union of the two meshes.  Theorems. *)
From Coq Require Import List ZArith Lia Bool Permutation.
From Verif Require Import Vec VecLemmas HmeshModel HmeshSpec HmeshCore HmeshCyc HmeshFaces HmeshAdd HmeshRemove HmeshProps HmeshIter HmeshParModel
  ParModel ParProofs InputModel InputSpec InputProofs ExtractModel ExtractProofs DataModel PartModel PartSpec PartOps PartRing PartProofs PartProps SoupModel SoupSpec SoupProofs.
Import ListNotations.
Open Scope Z_scope.
Ltac Zify.zify_post_hook ::= idtac.

Section Union.
Variables (sm cs ps : hmesh) (rs rc : list (list Z)).
Hypotheses (Ps : plain sm) (Pc : plain cs) (Es : rings_of sm rs) (Ec : rings_of cs rc).
Let nv := number_of_vertices sm.
Let nf := number_of_faces sm.
Let fs := map unrot rs ++ map (shift nv) rc.
Let coords := map vpt (verts sm) ++ map vpt (verts cs).
Hypothesis (B : built coords fs ps).

Lemma nv_pos : 0 <= nv. Proof. unfold nv. rewrite (plain_nv sm Ps). apply zlen_nonneg. Qed.
Lemma nf_pos : 0 <= nf. Proof. unfold nf. rewrite (plain_nf sm Ps). apply zlen_nonneg. Qed.
Lemma coords_len : zlen coords = nv + number_of_vertices cs.
Proof. unfold coords, nv. rewrite zlen_app, !zlen_map, (plain_nv sm Ps), (plain_nv cs Pc). reflexivity. Qed.
Lemma fs_len : zlen fs = nf + number_of_faces cs.
Proof. unfold fs, nf. rewrite zlen_app, !zlen_map, (rings_len sm rs Ps Es), (rings_len cs rc Pc Ec). reflexivity. Qed.
Lemma fs_s f : f < nf -> vget fs f = option_map unrot (vget rs f).
Proof.
  intros H. unfold fs. rewrite <- vget_map. unfold vget. destruct (Z.ltb_spec f 0); [reflexivity|]. apply nth_error_app1. rewrite map_length.
  pose proof (rings_len sm rs Ps Es) as L. fold nf in L. unfold zlen in L. lia.
Qed.
Lemma fs_c c : 0 <= c -> vget fs (nf + c) = option_map (shift nv) (vget rc c).
Proof.
  intros H. assert (L : zlen (map unrot rs) = nf) by (rewrite zlen_map; apply rings_len; assumption). unfold fs. rewrite vget_app_r by (rewrite L; lia).
  rewrite L. replace (nf + c - nf) with c by lia. apply vget_map.
Qed.
Lemma fs_cases f r : vget fs f = Some r -> (exists q, rd sm f q /\ r = unrot q) \/ exists c q, f = nf + c /\ rd cs c q /\ r = shift nv q.
Proof.
  intros E. pose proof (vget_Some_range _ _ _ E) as R. destruct (Z_lt_le_dec f nf) as [H|H].
  - left. rewrite fs_s in E by exact H. destruct (vget rs f) as [q|] eqn:Eq; [|discriminate]. cbn in E. injection E as <-. exists q. split; [apply (rings_rd sm rs f q Ps Es), Eq|reflexivity].
  - right. replace f with (nf + (f - nf)) in E by lia. rewrite fs_c in E by lia. destruct (vget rc (f - nf)) as [q|] eqn:Eq; [|discriminate]. cbn in E. injection E as <-.
    exists (f - nf), q. split; [lia|]. split; [apply (rings_rd cs rc _ q Pc Ec), Eq|reflexivity].
Qed.
Lemma fs_good r : In r fs -> good_face (zlen coords) r.
Proof.
  intros H. apply In_vget in H. destruct H as [f E]. rewrite coords_len. pose proof nv_pos. destruct (fs_cases f r E) as [(q & R & ->)|(c & q & -> & R & ->)].
  - destruct (ring_good sm f q Ps R) as [A1 A2 A3]. fold nv in A3. constructor; [rewrite unrot_length; exact A1|apply unrot_NoDup, A2|]. intros v Hv. apply (proj1 (unrot_In _ _)) in Hv. specialize (A3 v Hv).
    assert (0 <= number_of_vertices cs) by (rewrite (plain_nv cs Pc); apply zlen_nonneg). lia.
  - destruct (ring_good cs c q Pc R) as [A1 A2 A3]. constructor; [unfold shift; rewrite map_length; exact A1| |].
    + unfold shift. apply FinFun.Injective_map_NoDup; [intros x y; lia|exact A2].
    + intros v Hv. unfold shift in Hv. apply in_map_iff in Hv. destruct Hv as (x & <- & Hx). specialize (A3 x Hx). lia.
Qed.
Lemma shift_cyc q s t : In (s, t) (cyc_pairs (shift nv q)) <-> exists s' t', In (s', t') (cyc_pairs q) /\ s = nv + s' /\ t = nv + t'.
Proof.
  unfold shift. rewrite cyc_map, in_map_iff. split.
  - intros ([a b] & E & H). cbn in E. injection E as <- <-. exists a, b. auto.
  - intros (a & b & H & -> & ->). exists (a, b). auto.
Qed.
Lemma rd_range m f r s t : plain m -> rd m f r -> In (s, t) (cyc_pairs r) -> 0 <= s < number_of_vertices m /\ 0 <= t < number_of_vertices m.
Proof. intros P R H. destruct (ring_good m f r P R) as [_ _ A]. apply cyc_In in H. split; apply A; apply H. Qed.

Lemma fs_nodup : NoDup (all_edges fs).
Proof.
  apply NoDup_concat_nth.
  - intros i x Ei. rewrite directed_cyc. apply cyc_NoDup. apply (fs_good x (nth_error_In _ _ Ei)).
  - intros i j x y [s t] Ei Ej Hi Hj. apply nth_vget in Ei, Ej. rewrite directed_cyc in Hi. rewrite directed_cyc in Hj. pose proof nv_pos as Pn.
    destruct (fs_cases _ _ Ei) as [(q & R & ->)|(c & q & Ec1 & R & ->)]; destruct (fs_cases _ _ Ej) as [(q' & R' & ->)|(c' & q' & Ec2 & R' & ->)].
    + rewrite unrot_cyc in Hi. rewrite unrot_cyc in Hj. pose proof (ring_unique sm _ _ _ _ _ Ps R R' Hi Hj). lia.
    + rewrite unrot_cyc in Hi. apply shift_cyc in Hj. destruct Hj as (s' & t' & K & -> & ->). pose proof (rd_range _ _ _ _ _ Ps R Hi) as [Q _]. pose proof (rd_range _ _ _ _ _ Pc R' K) as [Q' _]. fold nv in Q. lia.
    + rewrite unrot_cyc in Hj. apply shift_cyc in Hi. destruct Hi as (s' & t' & K & -> & ->). pose proof (rd_range _ _ _ _ _ Ps R' Hj) as [Q _]. pose proof (rd_range _ _ _ _ _ Pc R K) as [Q' _]. fold nv in Q. lia.
    + apply shift_cyc in Hi, Hj. destruct Hi as (s1 & t1 & K1 & A1 & A2), Hj as (s2 & t2 & K2 & A3 & A4). assert (s1 = s2) by lia. assert (t1 = t2) by lia. subst s2 t2.
      pose proof (ring_unique cs _ _ _ _ _ Pc R R' K1 K2). lia.
Qed.

Lemma ps_rd f q : rd ps f q <-> exists r, vget fs f = Some r /\ q = rotate1 r.
Proof.
  split.
  - intros [L E]. apply (built_live_face _ _ _ _ B) in L. destruct (vget_range_Some _ _ L) as [r Er]. exists r. split; [exact Er|]. rewrite (b_face _ _ _ B f r Er) in E. congruence.
  - intros (r & Er & ->). split; [apply (built_live_face _ _ _ _ B); eapply vget_Some_range; exact Er|apply (b_face _ _ _ B), Er].
Qed.
Lemma ps_used s t : used ps s t <-> In (s, t) (all_edges fs).
Proof.
  rewrite In_all_edges. split.
  - intros (f & q & R & H). apply ps_rd in R. destruct R as (r & Er & ->). exists f, r. split; [exact Er|apply In_rotate1_cyc, H].
  - intros (f & r & Er & H). exists f, (rotate1 r). split; [apply ps_rd; eauto|apply In_rotate1_cyc, H].
Qed.
Lemma ps_plain : plain ps.
Proof.
  apply plain_W. split; [constructor; [apply B|apply B|apply B|]|split; [apply B|]].
  - intros f q R. apply ps_rd in R. destruct R as (r & Er & ->). apply rotate1_NoDup. apply (fs_good r (vget_In _ _ _ Er)).
  - intros s t x A. rewrite !ps_used. destruct (b_arcs _ _ _ B s t x A) as [[]|K]. exact K.
Qed.

Lemma borders_rd m s t f : HInv m -> f <> null -> (borders m s t f <-> exists r, rd m f r /\ In (s, t) (cyc_pairs r)).
Proof.
  intros I N. split.
  - intros (h & L & S & T & F). destruct (k_he_face m (HInv_consistent m I) h f L F N) as (Lf & _). destruct (rd_total m f I Lf) as [r R]. exists r. split; [exact R|]. apply (face_arcs m f r I Lf (proj2 R)). exists h. auto.
  - intros (r & [L E] & H). apply (face_arcs m f r I L E) in H. exact H.
Qed.
Lemma joined_used m s t : plain m -> (joined_by_edge m s t <-> used m s t \/ used m t s).
Proof.
  intros P. pose proof (proj1 (plain_W m) P) as (Hw & _ & U). pose proof (w_inv m Hw) as I. split.
  - intros (h & L & S & T). apply (U s t h). apply live_arc; [apply I|auto].
  - assert (X : forall a b, used m a b -> joined_by_edge m a b) by (intros a b K; destruct (used_arc m a b I K) as [h A]; exists h; apply (live_arc m h a b (proj1 I)), A).
    intros [K|K]; [apply X, K|]. destruct (X _ _ K) as (h & L & S & T). destruct (k_ends m (HInv_consistent m I) h L) as (a & b & Sa & Tb & _ & _ & _ & S' & T').
    exists (opposite h). destruct (k_opposite m (HInv_consistent m I) h L) as (L' & _). split; [exact L'|]. split; congruence.
Qed.
Lemma live_null m f : plain m -> live_face m f -> f <> null.
Proof. intros P L. apply (plain_lf m f P) in L. unfold null. lia. Qed.

Lemma used_union s t : used ps s t <-> used sm s t \/ exists s' t', used cs s' t' /\ s = nv + s' /\ t = nv + t'.
Proof.
  rewrite ps_used, In_all_edges. split.
  - intros (f & r & Er & H). destruct (fs_cases f r Er) as [(q & R & ->)|(c & q & -> & R & ->)].
    + left. exists f, q. split; [exact R|apply unrot_cyc, H].
    + right. apply shift_cyc in H. destruct H as (s' & t' & H & -> & ->). exists s', t'. split; [exists c, q; auto|auto].
  - intros [(f & q & R & H)|(s' & t' & (c & q & R & H) & -> & ->)].
    + exists f, (unrot q). split; [|apply unrot_cyc, H]. pose proof (proj1 (plain_lf sm f Ps) (proj1 R)) as Rg. fold nf in Rg. rewrite fs_s by lia. rewrite (proj2 (rings_rd sm rs f q Ps Es) R). reflexivity.
    + exists (nf + c), (shift nv q). split; [|apply shift_cyc; eauto]. pose proof (proj1 (plain_lf cs c Pc) (proj1 R)) as Rg. rewrite fs_c by lia. rewrite (proj2 (rings_rd cs rc c q Pc Ec) R). reflexivity.
Qed.

Lemma ps_union : union sm cs ps.
Proof.
  pose proof ps_plain as Pp. pose proof nv_pos as P1. pose proof nf_pos as P2. pose proof (history_inv _ (pl_hist _ Ps)) as Is. pose proof (history_inv _ (pl_hist _ Pc)) as Ic. pose proof (history_inv _ (pl_hist _ Pp)) as Ip.
  assert (Nv : number_of_vertices ps = nv + number_of_vertices cs) by (rewrite (plain_nv ps Pp), (b_vl _ _ _ B); apply coords_len).
  assert (Nf : number_of_faces ps = nf + number_of_faces cs) by (rewrite (plain_nf ps Pp), (b_fl _ _ _ B); apply fs_len).
  assert (C1 : 0 <= number_of_vertices cs) by (rewrite (plain_nv cs Pc); apply zlen_nonneg). assert (C2 : 0 <= number_of_faces cs) by (rewrite (plain_nf cs Pc); apply zlen_nonneg).
  assert (L1 : zlen (map vpt (verts sm)) = nv) by (rewrite zlen_map; symmetry; apply plain_nv, Ps).
  assert (Fs : forall f q, rd sm f q -> rd ps f q).
  { intros f q R. apply ps_rd. exists (unrot q). rewrite rotate1_unrot. split; [|reflexivity]. pose proof (proj1 (plain_lf sm f Ps) (proj1 R)) as Rg. fold nf in Rg.
    rewrite fs_s by lia. rewrite (proj2 (rings_rd sm rs f q Ps Es) R). reflexivity. }
  assert (Fc : forall c q, rd cs c q -> rd ps (nf + c) (rotate1 (shift nv q))).
  { intros c q R. apply ps_rd. exists (shift nv q). split; [|reflexivity]. pose proof (proj1 (plain_lf cs c Pc) (proj1 R)) as Rg.
    rewrite fs_c by lia. rewrite (proj2 (rings_rd cs rc c q Pc Ec) R). reflexivity. }
  constructor; fold nv nf.
  - exact Nv.
  - exact Nf.
  - intros v. rewrite (plain_lv ps v Pp), (plain_lv sm v Ps), Nv. fold nv. split.
    + intros H. destruct (Z_lt_le_dec v nv); [left; lia|right]. exists (v - nv). rewrite (plain_lv cs _ Pc). lia.
    + intros [H|(c & H & ->)]; [lia|]. rewrite (plain_lv cs _ Pc) in H. lia.
  - intros f. rewrite (plain_lf ps f Pp), (plain_lf sm f Ps), Nf. fold nf. split.
    + intros H. destruct (Z_lt_le_dec f nf); [left; lia|right]. exists (f - nf). rewrite (plain_lf cs _ Pc). lia.
    + intros [H|(c & H & ->)]; [lia|]. rewrite (plain_lf cs _ Pc) in H. lia.
  - intros v L. apply (plain_lv sm v Ps) in L. fold nv in L. split; [lia|]. unfold point_of. rewrite <- (vget_map vpt (verts sm)). destruct (vget_range_Some (map vpt (verts sm)) v) as [p Ep]; [lia|].
    rewrite Ep. apply (b_pt _ _ _ B). unfold coords. unfold vget in *. destruct (v <? 0); [discriminate|]. rewrite nth_error_app1; [exact Ep|]. apply nth_error_Some. congruence.
  - intros c L. apply (plain_lv cs c Pc) in L. unfold point_of. rewrite <- (vget_map vpt (verts cs)). destruct (vget_range_Some (map vpt (verts cs)) c) as [p Ep]; [rewrite zlen_map, <- (plain_nv cs Pc); lia|].
    rewrite Ep. apply (b_pt _ _ _ B). unfold coords. rewrite vget_app_r by (rewrite L1; lia). rewrite L1. replace (nv + c - nv) with c by lia. exact Ep.
  - intros f L. pose proof (proj1 (plain_lf sm f Ps) L) as R. fold nf in R. split; [lia|]. destruct (rd_total sm f Is L) as [q Q]. rewrite (proj2 Q). apply (Fs f q Q).
  - intros c r A. destruct (rd_around cs c r A) as (q & R & Sc). destruct (Fc c q R) as [L E]. split; [exact L|]. eexists. split; [exact E|]. destruct Sc as (x & y & -> & ->).
    unfold shift. rewrite !map_app. eapply sc_trans; [apply sc_sym; rewrite rot_rotate1; apply sc_rot|]. exists (map (Z.add nv) x), (map (Z.add nv) y). auto.
  - intros s t f N. rewrite (borders_rd ps s t f Ip N), (borders_rd sm s t f Is N). split.
    + intros (q & R & H). apply ps_rd in R. destruct R as (r & Er & ->). rewrite In_rotate1_cyc in H. destruct (fs_cases f r Er) as [(q & R & ->)|(c & q & -> & R & ->)].
      * left. exists q. split; [exact R|apply unrot_cyc, H].
      * right. apply shift_cyc in H. destruct H as (s' & t' & H & -> & ->). exists s', t', c. pose proof (live_null cs c Pc (proj1 R)) as Nc. split; [exact Nc|].
        split; [apply (borders_rd cs s' t' c Ic Nc); eauto|auto].
    + intros [(q & R & H)|(s' & t' & c & Nc & H & -> & -> & ->)]; [exists q; split; [apply Fs, R|exact H]|]. apply (borders_rd cs s' t' c Ic Nc) in H. destruct H as (q & R & H).
      exists (rotate1 (shift nv q)). split; [apply Fc, R|]. apply In_rotate1_cyc. apply shift_cyc. eauto.
  - intros s t. rewrite (joined_used ps s t Pp), (joined_used sm s t Ps), !used_union. split.
    + intros [[H|(a & b & H & -> & ->)]|[H|(a & b & H & -> & ->)]]; [left; auto| |left; auto|]; right.
      * exists a, b. rewrite (joined_used cs a b Pc). auto.
      * exists b, a. rewrite (joined_used cs b a Pc). auto.
    + intros [[H|H]|(a & b & H & -> & ->)]; [left; left; exact H|right; left; exact H|]. rewrite (joined_used cs a b Pc) in H. destruct H as [H|H]; [left|right]; right; eauto.
Qed.
End Union.

Lemma copy_vertices ps n : 0 <= n <= zlen (verts ps) ->
  exists m0 a b, ofold (copy_vertex ps) (zrange n) (hempty, [], table (zlen (verts ps))) = Some (m0, a, b) /\ built (map vpt (firstn (Z.to_nat n) (verts ps))) [] m0 /\ re m0 = re hempty /\ edges m0 = [] /\
    a = zrange n /\ zlen b = zlen (verts ps) /\ forall v, 0 <= v < n -> vget b v = Some v.
Proof.
  intros Hn. assert (G : forall k, Z.of_nat k <= zlen (verts ps) ->
    exists m0 a b, ofold (copy_vertex ps) (zrange (Z.of_nat k)) (hempty, [], table (zlen (verts ps))) = Some (m0, a, b) /\ built (map vpt (firstn k (verts ps))) [] m0 /\ re m0 = re hempty /\ edges m0 = [] /\
    a = zrange (Z.of_nat k) /\ zlen b = zlen (verts ps) /\ forall v, 0 <= v < Z.of_nat k -> vget b v = Some v).
  { induction k as [|k IH]; intros Hk.
    - exists hempty, [], (table (zlen (verts ps))). split; [reflexivity|]. split; [|split; [reflexivity|]; split; [reflexivity|]; split; [reflexivity|]; split; [apply table_len, zlen_nonneg|intros; lia]].
      destruct (built_vertices []) as (m & E & Bm). cbn in E. injection E as <-. exact Bm.
    - destruct IH as (m0 & a & b & E & Bm & Re & Ed0 & Ea & Lb & Hb); [lia|]. replace (Z.of_nat (S k)) with (Z.of_nat k + 1) by lia. rewrite zrange_snoc by lia. rewrite ofold_app, E. cbn [ofold].
      destruct (vget_range_Some (verts ps) (Z.of_nat k)) as [d Ed]; [lia|].
      pose proof (add_vertex_spec m0 (vpt d) (proj1 (history_inv _ (b_hist _ _ _ Bm)))) as (v0 & m1 & Ev0 & Ad).
      destruct (built_vertex_on _ _ _ (vpt d) Bm) as (v & m' & Ev & Hv & B'). assert (v0 = v /\ m1 = m') as [-> ->] by (split; congruence).
      rewrite zlen_map in Hv. assert (Lf : zlen (firstn k (verts ps)) = Z.of_nat k) by (unfold zlen in *; rewrite firstn_length_le; lia). rewrite Lf in Hv. subst v.
      assert (Rg : 0 <= Z.of_nat k < zlen b) by lia. pose proof (vset_Some b (Z.of_nat k) (Z.of_nat k) Rg) as Es.
      exists m', (a ++ [Z.of_nat k]), (lset b (Z.to_nat (Z.of_nat k)) (Z.of_nat k)). split; [unfold copy_vertex; rewrite Ed; cbn [obind]; rewrite Ev; cbn [obind fst snd]; rewrite Es; reflexivity|].
      split; [|split; [rewrite (va_re _ _ _ _ Ad); exact Re|]; split; [rewrite (va_edges _ _ _ _ Ad); exact Ed0|]; split; [rewrite Ea; reflexivity|]; split].
      + rewrite (firstn_snoc (verts ps) k d); [rewrite map_app; exact B'|]. unfold vget in Ed. destruct (Z.of_nat k <? 0); [discriminate|]. rewrite Nat2Z.id in Ed. exact Ed.
      + rewrite (vset_len _ _ _ _ Es). exact Lb.
      + intros c Hc. destruct (Z.eq_dec c (Z.of_nat k)) as [->|Nc]; [exact (vget_vset_eq _ _ _ _ Es)|]. rewrite (vget_vset_neq _ _ _ _ _ Es) by lia. apply Hb. lia. }
  destruct (G (Z.to_nat n)) as (m0 & a & b & R); [lia|]. rewrite !Z2Nat.id in R by lia. exists m0, a, b. exact R.
Qed.

Lemma make_soup_spec pool vorder forder sm cs : plain sm -> plain cs -> 0 < number_of_faces cs -> number_of_faces cs + 1023 < 2 ^ 32 ->
  match pool with Some t => 0 <= t < 2 ^ 32 - 1 | None => True end ->
  Permutation (zrange (number_of_vertices sm)) vorder -> Permutation (zrange (number_of_faces sm)) forder ->
  exists S, make_soup pool vorder forder sm cs = Some S /\ plain (s_ps S) /\ union sm cs (s_ps S) /\ tables sm cs S /\ vertex_copy (s_ps S) S.
Proof.
  intros Ps Pc Hf Hb Hp Pv Pf. destruct (plain_rings sm Ps) as [rs Es]. destruct (plain_rings cs Pc) as [rc Ec].
  set (nv := number_of_vertices sm). set (nf := number_of_faces sm). pose proof (nv_pos sm Ps) as P1. pose proof (nf_pos sm Ps) as P2. fold nv in P1. fold nf in P2.
  assert (C1 : 0 <= number_of_vertices cs) by (rewrite (plain_nv cs Pc); apply zlen_nonneg).
  unfold make_soup. fold nv nf.
  destruct (fill_same_spec vorder (table (nv + number_of_vertices cs))) as (tv & Etv & _ & Tv & _).
  { intros x Hx. rewrite table_len by lia. apply (Permutation_in x (Permutation_sym Pv)) in Hx. apply In_zrange in Hx. fold nv in Hx. lia. }
  destruct (fill_same_spec forder (table (nf + number_of_faces cs))) as (tf & Etf & _ & Tf & _).
  { intros x Hx. rewrite table_len by lia. apply (Permutation_in x (Permutation_sym Pf)) in Hx. apply In_zrange in Hx. fold nf in Hx. lia. }
  rewrite Etv, Etf. cbn [obind]. rewrite (pl_rv cs Pc), iterate_all by apply zlen_nonneg. cbn [obind].
  pose proof (plain_built sm rs Ps Es) as Bs.
  destruct (merge_vertices cs _ _ sm (nv + number_of_vertices cs) (zlen (verts cs)) Bs) as (m1 & t1 & E1 & B1 & Lt1 & Ht1).
  { split; [apply zlen_nonneg|lia]. }
  { rewrite zlen_map, <- (plain_nv sm Ps), <- (plain_nv cs Pc). reflexivity. }
  assert (L0 : zlen (map vpt (verts sm)) = nv) by (rewrite zlen_map; symmetry; apply plain_nv, Ps). rewrite L0 in Ht1.
  rewrite E1. cbn [obind fst snd]. unfold zlen in B1 at 1. rewrite Nat2Z.id, firstn_all in B1.
  rewrite (pl_rf cs Pc), <- (plain_nf cs Pc). destruct (loop_blocks_spec pool (number_of_faces cs) Hf Hb Hp) as (bs & Ebs & Cbs). rewrite Ebs. cbn [obind].
  destruct (remap_all cs nv rc bs Pc Ec Cbs) as (out & Eout & Cout). rewrite Eout. cbn [obind]. rewrite Cout.
  assert (Lc : length (zrange (number_of_faces cs)) = length (map (shift nv) rc)).
  { rewrite length_zrange, map_length. pose proof (rings_len cs rc Pc Ec) as Q. unfold zlen in Q. lia. }
  destruct (combine_snd _ _ Lc) as [Sn Sf]. set (l := combine (zrange (number_of_faces cs)) (map (shift nv) rc)) in *.
  assert (Ll : zlen l = number_of_faces cs) by (rewrite <- (zlen_map fst l), Sf; apply zlen_zrange; lia).
  destruct (merge_faces _ l (map unrot rs) m1 (table (nf + number_of_faces cs)) B1) as (ps & t2 & E2 & B2 & Lt2 & _ & Ht2).
  { rewrite Sn. apply (fs_nodup sm cs rs rc Ps Pc Es Ec). }
  { intros p Hp'. apply (fs_good sm cs rs rc Ps Pc Es Ec). apply in_app_iff. right. fold nv. rewrite <- Sn. apply in_map, Hp'. }
  { rewrite zlen_map, (rings_len sm rs Ps Es), Ll, table_len by lia. fold nf. lia. }
  rewrite zlen_map, (rings_len sm rs Ps Es) in Ht2. fold nf in Ht2. rewrite Sn in B2.
  rewrite E2. cbn [obind fst snd].
  pose proof (ps_plain sm cs ps rs rc Ps Pc Es Ec B2) as Pp. pose proof (ps_union sm cs ps rs rc Ps Pc Es Ec B2) as U.
  rewrite (pl_rv ps Pp), iterate_all by apply zlen_nonneg. cbn [obind].
  pose proof (u_nv _ _ _ U) as Nv. fold nv in Nv. rewrite <- Nv, (plain_nv ps Pp).
  destruct (copy_vertices ps (zlen (verts ps))) as (m0 & a & b & E3 & B3 & Re0 & Ed0 & Ea & Lb & Hbv); [split; [apply zlen_nonneg|lia]|]. rewrite E3. cbn [obind fst snd].
  eexists. split; [reflexivity|]. cbn [s_ps]. split; [exact Pp|]. split; [exact U|]. split.
  - constructor; cbn.
    + intros v L. apply (plain_lv sm v Ps) in L. apply Tv. apply (Permutation_in v Pv). apply In_zrange. exact L.
    + intros f L. apply (plain_lf sm f Ps) in L. apply Tf. apply (Permutation_in f Pf). apply In_zrange. exact L.
    + intros c L. apply (plain_lv cs c Pc) in L. fold nv. apply Ht1. rewrite <- (plain_nv cs Pc). exact L.
    + intros c L. apply (plain_lf cs c Pc) in L. fold nf. pose proof (vget_zrange _ _ L) as Q. rewrite <- Sf, vget_map in Q. destruct (vget l c) as [p|] eqn:El; [|discriminate]. cbn in Q.
      rewrite (Ht2 c p El). exact Q.
  - unfold zlen in B3 at 1. rewrite Nat2Z.id, firstn_all in B3. constructor; cbn.
    + intros v. rewrite (plain_lv ps v Pp), (plain_nv ps Pp). change (live_vertex m0 v) with (lv m0 v). rewrite (built_lv _ _ _ _ B3), zlen_map. reflexivity.
    + intros v L. apply (plain_lv ps v Pp) in L. rewrite (plain_nv ps Pp) in L. unfold point_of. rewrite <- (vget_map vpt (verts ps)). destruct (vget_range_Some (map vpt (verts ps)) v) as [p Ep]; [rewrite zlen_map; exact L|].
      rewrite Ep. apply (b_pt _ _ _ B3). exact Ep.
    + intros e [Rg _]. rewrite Ed0 in Rg. unfold zlen in Rg. cbn in Rg. lia.
    + intros f L. apply (built_live_face _ _ _ _ B3) in L. unfold zlen in L. cbn in L. lia.
    + intros v L. apply (plain_lv ps v Pp) in L. rewrite (plain_nv ps Pp) in L. split; [rewrite Ea; apply vget_zrange; exact L|apply Hbv; exact L].
    + rewrite Ea, (plain_nv ps Pp). apply zlen_zrange, zlen_nonneg.
Qed.

Definition pool_fits (pool : option Z) : Prop := match pool with Some t => 0 <= t < 2 ^ 32 - 1 | None => True end.
Definition fits (m : hmesh) : Prop := 0 < number_of_faces m /\ number_of_faces m + 1023 < 2 ^ 32 /\ number_of_vertices m + 1023 < 2 ^ 32.

Lemma has_vertices m : plain m -> 0 < number_of_faces m -> 0 < number_of_vertices m.
Proof.
  intros P H. destruct (rd_total m 0 (history_inv m (pl_hist m P))) as [r R]; [apply (plain_lf m 0 P); lia|]. destruct (ring_good m 0 r P R) as [L _ A].
  destruct r as [|v r]; [cbn in L; lia|]. specialize (A v (or_introl eq_refl)). lia.
Qed.

(** Whatever the number of helper threads and however their writes to the tables are interleaved, the kernel gets the union of the two meshes,
    tables that lead back to the inputs, and an auxiliary mesh with the same vertices. *)
Theorem C80_union : forall pool sm cs r, plain sm -> plain cs -> fits sm -> fits cs -> pool_fits pool -> soup_run pool sm cs r ->
  exists S, r = Some S /\ plain (s_ps S) /\ union sm cs (s_ps S) /\ tables sm cs S /\ vertex_copy (s_ps S) S.
Proof.
  intros pool sm cs r Ps Pc (S1 & S2 & S3) (C1 & C2 & C3) Hp R. unfold soup_run in R. rewrite (pl_rv sm Ps), (pl_rf sm Ps), <- (plain_nv sm Ps), <- (plain_nf sm Ps) in R.
  destruct (loop_blocks_spec pool (number_of_vertices sm)) as (vb & Ev & Cv); [apply has_vertices; assumption|exact S3|exact Hp|].
  destruct (loop_blocks_spec pool (number_of_faces sm)) as (fb & Ef & Cf); [exact S1|exact S2|exact Hp|].
  rewrite Ev, Ef in R. destruct R as (vo & fo & Iv & If & ->). apply interleaving_perm in Iv, If. rewrite Cv in Iv. rewrite Cf in If.
  exact (make_soup_spec pool vo fo sm cs Ps Pc C1 C2 Hp Iv If).
Qed.

(** There is such a run. *)
Theorem C80_runs : forall pool sm cs, plain sm -> fits sm -> pool_fits pool -> exists r, soup_run pool sm cs r.
Proof.
  intros pool sm cs Ps (S1 & S2 & S3) Hp. unfold soup_run. rewrite (pl_rv sm Ps), (pl_rf sm Ps), <- (plain_nv sm Ps), <- (plain_nf sm Ps).
  destruct (loop_blocks_spec pool (number_of_vertices sm)) as (vb & Ev & _); [apply has_vertices; assumption|exact S3|exact Hp|].
  destruct (loop_blocks_spec pool (number_of_faces sm)) as (fb & Ef & _); [exact S1|exact S2|exact Hp|]. rewrite Ev, Ef.
  eexists. exists (concat vb), (concat fb). split; [apply interleaving_seq|]. split; [apply interleaving_seq|reflexivity].
Qed.

(** In particular for the meshes the kernel is given in any turn of the loop around it. *)
Theorem C80_every_turn : forall nvs fss nvc fsc d pool r, reached nvs fss nvc fsc d -> fits (im (d_src d)) -> fits (im (d_cut d)) -> pool_fits pool ->
  soup_run pool (im (d_src d)) (im (d_cut d)) r ->
  exists S, r = Some S /\ union (im (d_src d)) (im (d_cut d)) (s_ps S) /\ tables (im (d_src d)) (im (d_cut d)) S /\ vertex_copy (s_ps S) S.
Proof.
  intros nvs fss nvc fsc d pool r R F1 F2 Hp Hr. destruct (C59_meshes _ _ _ _ _ R) as [P1 P2]. destruct (C80_union pool _ _ r P1 P2 F1 F2 Hp Hr) as (S & E & _ & U & T & V). exists S. auto.
Qed.

(** The result does not depend on the threads. *)
Theorem C80_same_for_all_threads : forall pool pool' sm cs S S', plain sm -> plain cs -> fits sm -> fits cs -> pool_fits pool -> pool_fits pool' ->
  soup_run pool sm cs (Some S) -> soup_run pool' sm cs (Some S') -> s_ps S = s_ps S' /\ s_m0 S = s_m0 S'.
Proof.
  intros pool pool' sm cs S S' Ps Pc (S1 & S2 & S3) (C1 & C2 & C3) Hp Hp' R R'.
  assert (X : forall p Q, pool_fits p -> soup_run p sm cs (Some Q) ->
    exists vs bs, omap (remap_block cs (number_of_vertices sm)) bs = Some vs /\ concat bs = zrange (number_of_faces cs) /\
     exists mv, (do cvs <- iterate (zlen (verts cs)) (rv cs); ofold (merge_vertex cs) cvs (sm, table (number_of_vertices sm + number_of_vertices cs))) = Some mv /\
     exists mf, ofold merge_face (concat vs) (fst mv, table (number_of_faces sm + number_of_faces cs)) = Some mf /\ s_ps Q = fst mf /\
     exists m0, (do pvs <- iterate (zlen (verts (fst mf))) (rv (fst mf)); ofold (copy_vertex (fst mf)) pvs (hempty, [], table (number_of_vertices sm + number_of_vertices cs))) = Some m0 /\ s_m0 Q = fst (fst m0)).
  { intros p Q Fp Rq. unfold soup_run in Rq. destruct (loop_blocks p (zlen (verts sm)) (rv sm)); [|discriminate]. destruct (loop_blocks p (zlen (faces sm)) (rf sm)); [|discriminate].
    destruct Rq as (vo & fo & _ & _ & E). unfold make_soup in E.
    destruct (fill_same vo _) as [t1|]; [|discriminate]. destruct (fill_same fo _) as [t2|]; [|discriminate]. cbn [obind] in E.
    destruct (iterate (zlen (verts cs)) (rv cs)) as [cvs|]; [|discriminate]. cbn [obind] in *. destruct (ofold (merge_vertex cs) cvs _) as [mv|]; [|discriminate]. cbn [obind] in E.
    destruct (loop_blocks p (zlen (faces cs)) (rf cs)) as [bs|] eqn:Eb; [|discriminate]. cbn [obind] in E.
    destruct (omap (remap_block cs (number_of_vertices sm)) bs) as [vs|] eqn:Evs; [|discriminate]. cbn [obind] in E.
    destruct (ofold merge_face (concat vs) _) as [mf|] eqn:Emf; [|discriminate]. cbn [obind] in E.
    destruct (iterate (zlen (verts (fst mf))) (rv (fst mf))) as [pvs|] eqn:Ep; [|discriminate]. cbn [obind] in E.
    destruct (ofold (copy_vertex (fst mf)) pvs _) as [m0|] eqn:E0; [|discriminate]. cbn [obind] in E. injection E as ->. cbn [s_ps s_m0].
    exists vs, bs. split; [exact Evs|]. rewrite (pl_rf cs Pc), <- (plain_nf cs Pc) in Eb. destruct (loop_blocks_spec p (number_of_faces cs) C1 C2 Fp) as (bs' & Eb' & Cb). assert (bs' = bs) by congruence. subst bs'.
    split; [exact Cb|]. exists mv. split; [reflexivity|]. exists mf. split; [exact Emf|]. split; [reflexivity|]. exists m0. rewrite Ep. cbn [obind]. auto. }
  destruct (X _ _ Hp R) as (vs & bs & V1 & V2 & mv & V3 & mf & V4 & V5 & m0 & V6 & V7). destruct (X _ _ Hp' R') as (vs' & bs' & W1 & W2 & mv' & W3 & mf' & W4 & W5 & m0' & W6 & W7).
  destruct (plain_rings cs Pc) as [rc Ec].
  destruct (remap_all cs (number_of_vertices sm) rc bs Pc Ec V2) as (o & O1 & O2). destruct (remap_all cs (number_of_vertices sm) rc bs' Pc Ec W2) as (o' & O1' & O2').
  assert (concat vs = concat vs') by congruence. assert (mv = mv') by congruence. subst mv'. assert (mf = mf') by congruence. subst mf'. assert (m0 = m0') by congruence. subst m0'. split; congruence.
Qed.

(** Together with the tables of the later steps: the number the kernel reports for a vertex is its number in the union, and [null] for the new ones. *)
Theorem C80_vertex_numbers : forall sm cs S P, plain sm -> plain cs -> union sm cs (s_ps S) -> tables sm cs S -> vertex_copy (s_ps S) S -> plain (s_ps S) ->
  m0_to_ps_vtx P = s_m0_to_ps S -> ps_to_sm_vtx P = s_to_sm_vtx S -> ps_to_cm_vtx P = s_to_cm_vtx S -> sm_vtx_cnt P = number_of_vertices sm ->
  forall v r, ExtractSpec.vertex_origin P v r <->
    exists m0, 0 <= m0 /\ ExtractSpec.m0_vertex P v m0 /\ r = if m0 <? number_of_vertices sm + number_of_vertices cs then m0 else null.
Proof.
  intros sm cs S P Ps Pc U T V Pp E1 E2 E3 E4 v r. pose proof (vc_len _ _ V) as Ln. rewrite (u_nv _ _ _ U) in Ln. unfold ExtractSpec.vertex_origin. rewrite E1, E2, E3, E4.
  assert (Q : forall m, 0 <= m < number_of_vertices sm + number_of_vertices cs ->
    vget (s_m0_to_ps S) m = Some m /\ (m < number_of_vertices sm -> vget (s_to_sm_vtx S) m = Some m) /\ (number_of_vertices sm <= m -> vget (s_to_cm_vtx S) m = Some (m - number_of_vertices sm))).
  { intros m Hm. split; [apply (vc_t _ _ V); apply (plain_lv _ _ Pp); rewrite (u_nv _ _ _ U); exact Hm|]. split; intros K.
    - apply (t_sv _ _ _ T). apply (plain_lv sm m Ps). lia.
    - replace m with (number_of_vertices sm + (m - number_of_vertices sm)) at 1 by lia. apply (t_cv _ _ _ T). apply (plain_lv cs _ Pc). lia. }
  split.
  - intros (m0 & H0 & Hm & K). exists m0. split; [exact H0|]. split; [exact Hm|]. destruct K as [[K1 K2]|(ps & K1 & K2)].
    + destruct (Z.ltb_spec m0 (number_of_vertices sm + number_of_vertices cs)); [lia|exact K2].
    + pose proof (vget_Some_range _ _ _ K1) as Rg. rewrite Ln in Rg. destruct (Z.ltb_spec m0 (number_of_vertices sm + number_of_vertices cs)); [|lia].
      destruct (Q m0 ltac:(lia)) as (Q1 & Q2 & Q3). assert (ps = m0) by congruence. subst ps. destruct K2 as [[K2 K3]|(K2 & x & K3 & ->)]; [rewrite (Q2 K2) in K3; congruence|].
      rewrite (Q3 K2) in K3. injection K3 as <-. lia.
  - intros (m0 & H0 & Hm & ->). exists m0. split; [exact H0|]. split; [exact Hm|]. destruct (Z.ltb_spec m0 (number_of_vertices sm + number_of_vertices cs)) as [K|K]; [right|left; split; [lia|reflexivity]].
    destruct (Q m0 ltac:(lia)) as (Q1 & Q2 & Q3). exists m0. split; [exact Q1|]. destruct (Z_lt_le_dec m0 (number_of_vertices sm)) as [L|L]; [left; auto|right]. split; [exact L|].
    eexists. split; [exact (Q3 L)|]. lia.
Qed.

(** The same for faces. *)
Theorem C80_face_numbers : forall sm cs S P, plain sm -> plain cs -> union sm cs (s_ps S) -> tables sm cs S ->
  ps_to_sm_face P = s_to_sm_face S -> ps_to_cm_face P = s_to_cm_face S -> sm_face_count P = number_of_faces sm ->
  (forall m0 ps, lookup (m0_to_ps_face P) m0 = Some ps -> live_face (s_ps S) ps) ->
  forall i r, ExtractSpec.face_origin P i r <->
    exists m0, ((m1_to_m0_face P = [] /\ m0 = base_offset P + i) \/ (m1_to_m0_face P <> [] /\ lookup (m1_to_m0_face P) (base_offset P + i) = Some m0)) /\
      lookup (m0_to_ps_face P) m0 = Some r.
Proof.
  intros sm cs S P Ps Pc U T E1 E2 E3 L i r. unfold ExtractSpec.face_origin. rewrite E1, E2, E3.
  assert (Q : forall m, live_face (s_ps S) m ->
    (m < number_of_faces sm -> vget (s_to_sm_face S) m = Some m) /\ (number_of_faces sm <= m -> vget (s_to_cm_face S) m = Some (m - number_of_faces sm))).
  { intros m Hm. apply (u_f _ _ _ U) in Hm. destruct Hm as [Hm|(c & Hc & ->)].
    - pose proof (proj1 (plain_lf sm m Ps) Hm). split; intros K; [apply (t_sf _ _ _ T), Hm|lia].
    - pose proof (proj1 (plain_lf cs c Pc) Hc). split; intros K; [lia|]. rewrite (t_cf _ _ _ T c Hc). f_equal. lia. }
  split.
  - intros (m0 & ps & H0 & Hp & K). exists m0. split; [exact H0|]. destruct (Q ps (L _ _ Hp)) as [Q1 Q2]. destruct K as [[K1 K2]|(K1 & x & K2 & ->)].
    + rewrite (Q1 K1) in K2. congruence.
    + rewrite (Q2 K1) in K2. injection K2 as <-. rewrite Hp. f_equal. lia.
  - intros (m0 & H0 & Hp). exists m0, r. split; [exact H0|]. split; [exact Hp|]. destruct (Q r (L _ _ Hp)) as [Q1 Q2].
    destruct (Z_lt_le_dec r (number_of_faces sm)) as [H|H]; [left; auto|right]. split; [exact H|]. eexists. split; [exact (Q2 H)|]. lia.
Qed.

(** A square of two triangles and a triangle, without and with helper threads. *)
Definition quad_mesh : hmesh := Eval vm_compute in match seq_convert [(0, 0, 0); (4, 0, 0); (4, 4, 0); (0, 4, 0)] None [0; 1; 2; 0; 2; 3] 2 with CAccept m => m | _ => hempty end.
Lemma quad_plain : plain quad_mesh.
Proof.
  apply (converted_plain 4 [[0; 1; 2]; [0; 2; 3]]). exists [(0, 0, 0); (4, 0, 0); (4, 4, 0); (0, 4, 0)], None, [0; 1; 2; 0; 2; 3].
  split; [reflexivity|]. split; [split; [exists []; reflexivity|intros f [<-|[<-|[]]]; reflexivity]|].
  split; [cbn; intros x K; repeat destruct K as [<-|K]; try contradiction; lia|]. split; [reflexivity|reflexivity].
Qed.
Lemma tri_plain : plain tri_mesh.
Proof.
  apply (converted_plain 3 tri_faces). exists tri_points, None, [0; 1; 2].
  split; [reflexivity|]. split; [split; [exists []; reflexivity|intros f [<-|[]]; reflexivity]|].
  split; [cbn; intros x K; repeat destruct K as [<-|K]; try contradiction; lia|]. split; [reflexivity|reflexivity].
Qed.
Theorem C80_case : fits quad_mesh /\ fits tri_mesh /\ exists S, soup_run (Some 3) quad_mesh tri_mesh (Some S) /\
  number_of_vertices (s_ps S) = 7 /\ get_vertices_around_face (s_ps S) 1 = Some [2; 3; 0] /\ around (s_ps S) 2 [4; 5; 6] /\
  s_to_cm_vtx S = [null; null; null; null; 0; 1; 2] /\ s_to_cm_face S = [null; null; 0] /\ s_to_sm_face S = [0; 1; null] /\ s_m0_to_ps S = [0; 1; 2; 3; 4; 5; 6].
Proof.
  split; [vm_compute; auto|]. split; [vm_compute; auto|].
  destruct (make_soup (Some 3) [0; 1; 2; 3] [0; 1] quad_mesh tri_mesh) as [S|] eqn:E; [|vm_compute in E; discriminate].
  exists S. split.
  - unfold soup_run. replace (loop_blocks (Some 3) (zlen (verts quad_mesh)) (rv quad_mesh)) with (Some [[0; 1; 2; 3]]) by (vm_compute; reflexivity).
    replace (loop_blocks (Some 3) (zlen (faces quad_mesh)) (rf quad_mesh)) with (Some [[0; 1]]) by (vm_compute; reflexivity).
    exists [0; 1; 2; 3], [0; 1]. split; [apply (interleaving_seq [[0; 1; 2; 3]])|]. split; [apply (interleaving_seq [[0; 1]])|]. symmetry. exact E.
  - vm_compute in E. injection E as <-. split; [reflexivity|]. split; [reflexivity|]. split; [|repeat split; reflexivity].
    split; [vm_compute; repeat split; try discriminate; intros []|]. exists [6; 4; 5]. split; [reflexivity|]. exists [6], [4; 5]. auto.
Qed.
