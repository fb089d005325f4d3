(** The combined mesh: proofs. *)
From Coq Require Import List ZArith Lia Bool Permutation.
From Verif Require Import Vec VecLemmas HmeshModel HmeshSpec HmeshCore HmeshCyc HmeshFaces HmeshAdd HmeshRemove HmeshProps HmeshIter HmeshParModel
  ParModel ParProofs InputModel InputSpec InputProofs ExtractProofs DataModel PartModel PartSpec PartOps PartRing PartProofs SoupModel SoupSpec.
Import ListNotations.
Open Scope Z_scope.
Ltac Zify.zify_post_hook ::= idtac.

(** ** lists *)
Definition unrot (l : list Z) : list Z := match rev l with [] => [] | a :: r => a :: rev r end.
Lemma rotate1_unrot l : rotate1 (unrot l) = l.
Proof. unfold unrot. rewrite <- (rev_involutive l) at 2. destruct (rev l) as [|a r]; reflexivity. Qed.
Lemma unrot_cyc l s t : In (s, t) (cyc_pairs (unrot l)) <-> In (s, t) (cyc_pairs l).
Proof. rewrite <- In_rotate1_cyc, rotate1_unrot. reflexivity. Qed.
Lemma unrot_In l x : In x (unrot l) <-> In x l.
Proof. rewrite <- (In_rotate1 (unrot l)), rotate1_unrot. reflexivity. Qed.
Lemma rotate1_length l : length (rotate1 l) = length l.
Proof. destruct l; [reflexivity|]. cbn. rewrite app_length. cbn. lia. Qed.
Lemma unrot_length l : length (unrot l) = length l.
Proof. rewrite <- (rotate1_length (unrot l)), rotate1_unrot. reflexivity. Qed.
Lemma rotate1_perm l : Permutation (rotate1 l) l.
Proof. destruct l; [constructor|]. cbn. symmetry. apply Permutation_cons_append. Qed.
Lemma unrot_NoDup l : NoDup l -> NoDup (unrot l).
Proof. intros H. eapply Permutation_NoDup; [apply rotate1_perm|]. rewrite rotate1_unrot. exact H. Qed.

Lemma cyc_map (g : Z -> Z) l : cyc_pairs (map g l) = map (fun p => (g (fst p), g (snd p))) (cyc_pairs l).
Proof.
  destruct l as [|a r]; [reflexivity|]. unfold cyc_pairs. cbn [map]. change (g a :: map g r) with (map g (a :: r)).
  change [g a] with (map g [a]). rewrite <- map_app. generalize (r ++ [a]). generalize (a :: r). clear.
  induction l as [|x l IH]; intros [|y l']; cbn; [reflexivity..|]. f_equal. apply IH.
Qed.

Lemma NoDup_concat_nth {A B} (g : A -> list B) l : (forall i x, nth_error l i = Some x -> NoDup (g x)) ->
  (forall i j x y e, nth_error l i = Some x -> nth_error l j = Some y -> In e (g x) -> In e (g y) -> i = j) -> NoDup (concat (map g l)).
Proof.
  induction l as [|a l IH]; intros N D; [constructor|]. cbn [map concat].
  assert (X : forall a b : list B, NoDup a -> NoDup b -> (forall x, In x a -> ~ In x b) -> NoDup (a ++ b)).
  { induction 1 as [|x a' Hx Na IHa]; intros Nb Dd; [exact Nb|]. cbn. constructor; [|apply IHa; [exact Nb|intros y Hy; apply Dd; right; exact Hy]].
    rewrite in_app_iff. intros [K|K]; [contradiction|]. exact (Dd x (or_introl eq_refl) K). }
  apply X; [exact (N O a eq_refl)| |].
  - apply IH; [intros i x E; exact (N (S i) x E)|]. intros i j x y e Ei Ej Hi Hj. pose proof (D (S i) (S j) x y e Ei Ej Hi Hj). lia.
  - intros e He Hc. apply in_concat in Hc. destruct Hc as (k & Hk & Hek). apply in_map_iff in Hk. destruct Hk as (y & <- & Hy). apply In_nth_error in Hy. destruct Hy as [j Ej].
    pose proof (D O (S j) a y e eq_refl Ej He Hek). lia.
Qed.
Lemma nth_vget {A} (l : list A) i x : nth_error l i = Some x -> vget l (Z.of_nat i) = Some x.
Proof. intros E. unfold vget. destruct (Z.ltb_spec (Z.of_nat i) 0); [lia|]. rewrite Nat2Z.id. exact E. Qed.

Lemma omap_vget {A B} (g : A -> option B) l r : omap g l = Some r -> forall i x, vget l i = Some x -> g x = vget r i.
Proof.
  intros E i x Ex. destruct (omap_nth _ _ _ E) as [_ H]. unfold vget in *. destruct (i <? 0); [discriminate|]. apply H, Ex.
Qed.
Lemma vget_zrange n i : 0 <= i < n -> vget (zrange n) i = Some i.
Proof.
  intros H. unfold vget, zrange. destruct (Z.ltb_spec i 0); [lia|]. rewrite nth_error_map. rewrite (nth_error_nth' _ O) by (rewrite seq_length; lia).
  rewrite seq_nth by lia. cbn. f_equal. lia.
Qed.
Lemma zlen_map {A B} (g : A -> B) l : zlen (map g l) = zlen l.
Proof. unfold zlen. rewrite map_length. reflexivity. Qed.
Lemma vget_map {A B} (g : A -> B) l i : vget (map g l) i = option_map g (vget l i).
Proof. unfold vget. destruct (i <? 0); [reflexivity|]. apply nth_error_map. Qed.
Lemma zlen_zrange n : 0 <= n -> zlen (zrange n) = n.
Proof. intros H. unfold zlen. rewrite length_zrange. lia. Qed.
Lemma table_len n : 0 <= n -> zlen (table n) = n.
Proof. intros H. apply zlen_repeat. exact H. Qed.

(** ** meshes without free slots *)
Lemma plain_nv m : plain m -> number_of_vertices m = zlen (verts m).
Proof. intros P. unfold number_of_vertices. rewrite (pl_rv m P). change (zlen (@nil Z)) with 0. lia. Qed.
Lemma plain_nf m : plain m -> number_of_faces m = zlen (faces m).
Proof. intros P. unfold number_of_faces. rewrite (pl_rf m P). change (zlen (@nil Z)) with 0. lia. Qed.
Lemma plain_lv m v : plain m -> (live_vertex m v <-> 0 <= v < number_of_vertices m).
Proof. intros P. apply live_rv, P. Qed.
Lemma plain_lf m f : plain m -> (live_face m f <-> 0 <= f < number_of_faces m).
Proof. intros P. apply live_rf, P. Qed.
Lemma iterate_all n : 0 <= n -> iterate n [] = Some (zrange n).
Proof. intros H. rewrite iterate_spec by exact H. rewrite live_slots_all. reflexivity. Qed.

(** the list of faces as rings, in the order they can be inserted *)
Definition rings_of (m : hmesh) (rs : list (list Z)) : Prop :=
  omap (get_vertices_around_face m) (zrange (number_of_faces m)) = Some rs.
Lemma plain_rings m : plain m -> exists rs, rings_of m rs.
Proof.
  intros P. apply omap_total. intros f Hf. apply In_zrange in Hf. destruct (rd_total m f (history_inv m (pl_hist m P))) as [r [_ E]]; [apply plain_lf; assumption|]. exists r. exact E.
Qed.
Lemma rings_len m rs : plain m -> rings_of m rs -> zlen rs = number_of_faces m.
Proof.
  intros P E. destruct (omap_nth _ _ _ E) as [L _]. unfold zlen at 1. rewrite L, length_zrange. rewrite Z2Nat.id; [reflexivity|]. rewrite plain_nf by exact P. apply zlen_nonneg.
Qed.
Lemma rings_rd m rs f r : plain m -> rings_of m rs -> (vget rs f = Some r <-> rd m f r).
Proof.
  intros P E. split.
  - intros Ef. pose proof (vget_Some_range _ _ _ Ef) as R. rewrite (rings_len m rs P E) in R. split; [apply plain_lf; assumption|].
    rewrite (omap_vget _ _ _ E f f (vget_zrange _ _ R)). exact Ef.
  - intros [L Eg]. apply plain_lf in L; [|exact P]. rewrite <- (omap_vget _ _ _ E f f (vget_zrange _ _ L)). exact Eg.
Qed.
Lemma ring_good m f r : plain m -> rd m f r -> good_face (number_of_vertices m) r.
Proof.
  intros P R. pose proof (history_inv m (pl_hist m P)) as I. pose proof (proj1 (plain_W m) P) as (Hw & _). constructor.
  - destruct R as [L E]. destruct (k_face m (HInv_consistent m I) f L) as (hs & Eh & L3 & _). unfold get_vertices_around_face in E. rewrite Eh in E. cbn [obind] in E.
    destruct (omap_nth _ _ _ E) as [Ll _]. lia.
  - exact (w_nd m Hw f r R).
  - intros v Hv. destruct R as [L E]. destruct (cyc_all_fst r v Hv) as [w Hw']. destruct (used_live m v w I) as (A & _); [exists f, r; split; [split; assumption|exact Hw']|].
    apply (plain_lv m v P). exact A.
Qed.
Lemma ring_unique m f g r q e : plain m -> rd m f r -> rd m g q -> In e (cyc_pairs r) -> In e (cyc_pairs q) -> f = g.
Proof.
  intros P Rf Rg Hr Hq. pose proof (history_inv m (pl_hist m P)) as I. destruct e as [s t]. pose proof (proj1 (plain_W m) P) as (Hw & _).
  destruct (used_arc m s t I) as [h A]; [exists f, r; auto|].
  pose proof (proj2 (arc_face m s t h f r Hw A) (conj Rf Hr)) as (F1 & _). pose proof (proj2 (arc_face m s t h g q Hw A) (conj Rg Hq)) as (F2 & _). congruence.
Qed.

Lemma plain_built m rs : plain m -> rings_of m rs -> built (map vpt (verts m)) (map unrot rs) m.
Proof.
  intros P E. pose proof (proj1 (plain_W m) P) as (Hw & _ & U). constructor; [apply P|apply Hw|apply P|apply P| | | | | |].
  - rewrite zlen_map. reflexivity.
  - intros i p Ei. rewrite vget_map in Ei. exact Ei.
  - rewrite zlen_map, (rings_len m rs P E), (plain_nf m P). reflexivity.
  - intros i f Ei. rewrite vget_map in Ei. destruct (vget rs i) as [r|] eqn:Er; [|discriminate]. cbn in Ei. injection Ei as <-. rewrite rotate1_unrot.
    apply (rings_rd m rs i r P E) in Er. apply Er.
  - intros s t h A. right.
    assert (K : forall a b, used m a b -> In (a, b) (all_edges (map unrot rs))).
    { intros a b (f & r & R & Hin). apply In_all_edges. exists f, (unrot r). split; [|apply unrot_cyc, Hin]. rewrite vget_map, (proj2 (rings_rd m rs f r P E) R). reflexivity. }
    destruct (U s t h A) as [Q|Q]; [left|right]; apply K, Q.
  - intros s t [].
Qed.
Lemma plain_edges_nodup m rs : plain m -> rings_of m rs -> NoDup (all_edges (map unrot rs)).
Proof.
  intros P E. apply NoDup_concat_nth.
  - intros i x Ei. apply nth_vget in Ei. rewrite vget_map in Ei. destruct (vget rs (Z.of_nat i)) as [r|] eqn:Er; [|discriminate]. cbn in Ei. injection Ei as <-.
    apply (rings_rd m rs _ _ P E) in Er. rewrite directed_cyc. apply cyc_NoDup. apply unrot_NoDup. exact (gfd _ _ (ring_good m _ _ P Er)).
  - intros i j x y [s t] Ei Ej Hi Hj. apply nth_vget in Ei, Ej. rewrite vget_map in Ei, Ej.
    destruct (vget rs (Z.of_nat i)) as [r|] eqn:Er; [|discriminate]. destruct (vget rs (Z.of_nat j)) as [q|] eqn:Eq; [|discriminate].
    cbn in Ei, Ej. injection Ei as <-. injection Ej as <-. rewrite directed_cyc, unrot_cyc in Hi. rewrite directed_cyc, unrot_cyc in Hj.
    apply (rings_rd m rs _ _ P E) in Er. apply (rings_rd m rs _ _ P E) in Eq. pose proof (ring_unique m _ _ _ _ _ P Er Eq Hi Hj). lia.
Qed.

(** ** adding vertices to a mesh that has faces *)
Lemma built_vertex_on {base} coords fs m p : built_on base coords fs m -> exists v m', add_vertex m p = Some (v, m') /\ v = zlen coords /\ built_on base (coords ++ [p]) fs m'.
Proof.
  intros B. pose proof (history_inv m (b_hist _ _ _ B)) as I. destruct (add_vertex_spec m p (proj1 I)) as (v & m' & E & K). exists v, m'. split; [exact E|].
  destruct (va_new _ _ _ _ K) as [[Q _]|(_ & Rv & Ev & Lv)]; [rewrite (b_rv _ _ _ B) in Q; discriminate|].
  split; [rewrite Ev; apply B|].
  assert (Hg : forall h, hget m' h = hget m h) by (intros; unfold hget; rewrite (va_hes _ _ _ _ K); reflexivity).
  assert (Ha : forall s t h, arc m' s t h <-> arc m s t h).
  { intros s t h. apply tsame_arc. constructor; [rewrite (va_hes _ _ _ _ K); reflexivity|apply K|]. intros x d Ed. exists d. rewrite Hg. auto. }
  constructor.
  - apply (hist_op m (OVertex p)); [apply B|exact Logic.I|]. cbn. rewrite E. reflexivity.
  - intros s t h1 h2 A1 A2. apply Ha in A1, A2. exact (b_simple _ _ _ B s t h1 h2 A1 A2).
  - rewrite (va_rf _ _ _ _ K). apply B.
  - exact Rv.
  - rewrite Lv, zlen_snoc, (b_vl _ _ _ B). reflexivity.
  - intros i q Eq. apply vget_snoc in Eq. destruct Eq as [Eq|[-> ->]].
    + rewrite (va_other _ _ _ _ K); [apply B; exact Eq|]. apply vget_Some_range in Eq. rewrite Ev, (b_vl _ _ _ B). lia.
    + rewrite <- (b_vl _ _ _ B), <- Ev, (va_slot _ _ _ _ K (b_rv _ _ _ B)). reflexivity.
  - rewrite (va_faces _ _ _ _ K). apply B.
  - intros i f Ef. rewrite <- (b_face _ _ _ B i f Ef). unfold get_vertices_around_face, get_halfedges_around_face. rewrite (va_faces _ _ _ _ K).
    destruct (vget (faces m) i); [|reflexivity]. cbn [obind]. apply omap_ext. intros h _. unfold target. rewrite Hg. reflexivity.
  - intros s t h A. apply Ha in A. exact (b_arcs _ _ _ B s t h A).
  - intros s t Kb. destruct (b_base _ _ _ B s t Kb) as [h A]. exists h. apply Ha, A.
Qed.

Lemma merge_vertices cs coords fs m N n : built coords fs m -> 0 <= n <= zlen (verts cs) -> N = zlen coords + zlen (verts cs) ->
  exists m' t, ofold (merge_vertex cs) (zrange n) (m, table N) = Some (m', t) /\ built (coords ++ map vpt (firstn (Z.to_nat n) (verts cs))) fs m' /\
    zlen t = N /\ forall c, 0 <= c < n -> vget t (zlen coords + c) = Some c.
Proof.
  intros B Hn HN. pose proof (zlen_nonneg coords) as Pc. assert (G : forall k, (Z.of_nat k <= zlen (verts cs)) ->
    exists m' t, ofold (merge_vertex cs) (zrange (Z.of_nat k)) (m, table N) = Some (m', t) /\ built (coords ++ map vpt (firstn k (verts cs))) fs m' /\
    zlen t = N /\ forall c, 0 <= c < Z.of_nat k -> vget t (zlen coords + c) = Some c).
  { induction k as [|k IH]; intros Hk.
    - exists m, (table N). split; [reflexivity|]. cbn [firstn map]. rewrite app_nil_r. split; [exact B|]. split; [apply table_len; lia|]. intros c Hc. lia.
    - destruct IH as (m' & t & E & B' & Lt & Ht); [lia|]. replace (Z.of_nat (S k)) with (Z.of_nat k + 1) by lia. rewrite zrange_snoc by lia. rewrite ofold_app, E. cbn [ofold].
      destruct (vget_range_Some (verts cs) (Z.of_nat k)) as [d Ed]; [lia|]. destruct (built_vertex_on _ _ _ (vpt d) B') as (v & m'' & Ev & Hv & B'').
      assert (Len : zlen (coords ++ map vpt (firstn k (verts cs))) = zlen coords + Z.of_nat k).
      { rewrite zlen_app, zlen_map. unfold zlen at 2. rewrite firstn_length_le; [reflexivity|]. unfold zlen in Hk. lia. }
      rewrite Len in Hv. assert (Rg : 0 <= v < zlen t) by lia. pose proof (vset_Some t v (Z.of_nat k) Rg) as Es.
      exists m'', (lset t (Z.to_nat v) (Z.of_nat k)). split; [unfold merge_vertex; rewrite Ed; cbn [obind fst snd]; rewrite Ev; cbn [obind fst snd]; rewrite Es; reflexivity|].
      split; [|split].
      + rewrite (firstn_snoc (verts cs) k d); [rewrite map_app, app_assoc; exact B''|]. unfold vget in Ed. destruct (Z.of_nat k <? 0); [discriminate|]. rewrite Nat2Z.id in Ed. exact Ed.
      + rewrite (vset_len _ _ _ _ Es). exact Lt.
      + intros c Hc. destruct (Z.eq_dec c (Z.of_nat k)) as [->|Nc]; [rewrite <- Hv; exact (vget_vset_eq _ _ _ _ Es)|].
        rewrite (vget_vset_neq _ _ _ _ _ Es) by lia. apply Ht. lia. }
  destruct (G (Z.to_nat n)) as (m' & t & E & R); [lia|]. rewrite !Z2Nat.id in * by lia. exists m', t. split; [exact E|exact R].
Qed.

(** ** adding faces *)
Lemma all_edges_app_nodup (a b : list (list Z)) : NoDup (all_edges (a ++ b)) -> NoDup (all_edges a).
Proof. rewrite all_edges_app. apply NoDup_app_l. Qed.

Lemma merge_faces coords l : forall fs m t, built coords fs m -> NoDup (all_edges (fs ++ map snd l)) -> (forall p, In p l -> good_face (zlen coords) (snd p)) ->
  zlen fs + zlen l <= zlen t ->
  exists m' t', ofold merge_face l (m, t) = Some (m', t') /\ built coords (fs ++ map snd l) m' /\ zlen t' = zlen t /\
    (forall j, j < zlen fs -> vget t' j = vget t j) /\ (forall i p, vget l i = Some p -> vget t' (zlen fs + i) = Some (fst p)).
Proof.
  induction l as [|p l IH]; intros fs m t B N G Hl.
  - exists m, t. cbn [map ofold]. rewrite app_nil_r. split; [reflexivity|]. split; [exact B|]. split; [reflexivity|]. split; [auto|]. intros i q E. apply vget_Some_range in E. unfold zlen in E. cbn in E. lia.
  - pose proof (built_face coords fs m (snd p) B (G p (or_introl eq_refl))) as S. cbn [ofold]. unfold merge_face. cbn [fst snd].
    cbn [map] in N. replace (fs ++ snd p :: map snd l) with ((fs ++ [snd p]) ++ map snd l) in N by (rewrite <- app_assoc; reflexivity).
    destruct (add_face m (snd p)) as [f m1|m1|] eqn:Ea; [| |destruct S].
    + destruct S as [_ B1]. destruct (add_face_append m (snd p) f m1 (b_rf _ _ _ B) Ea) as (Ef & _). rewrite (b_fl _ _ _ B) in Ef.
      assert (Zl : zlen (p :: l) = zlen l + 1) by (unfold zlen; cbn [length]; lia). pose proof (zlen_nonneg fs). pose proof (zlen_nonneg l).
      assert (Rg : 0 <= f < zlen t) by lia. pose proof (vset_Some t f (fst p) Rg) as Es. rewrite Es. cbn [obind].
      pose proof (vset_len _ _ _ _ Es) as Ls. destruct (IH (fs ++ [snd p]) m1 (lset t (Z.to_nat f) (fst p)) B1 N) as (m' & t' & E & B' & Lt & Old & New).
      { intros q Hq. apply G. right. exact Hq. }
      { rewrite zlen_snoc, Ls. lia. }
      exists m', t'. split; [exact E|]. split; [cbn [map]; replace (fs ++ snd p :: map snd l) with ((fs ++ [snd p]) ++ map snd l) by (rewrite <- app_assoc; reflexivity); exact B'|].
      split; [lia|]. rewrite zlen_snoc in Old, New. split.
      * intros j Hj. rewrite Old by lia. apply (vget_vset_neq _ _ _ _ _ Es). lia.
      * intros i q Eq. pose proof (vget_Some_range _ _ _ Eq) as Ri. destruct (Z.eq_dec i 0) as [->|Ni].
        -- unfold vget in Eq. cbn in Eq. injection Eq as <-. rewrite Z.add_0_r, Old by lia. rewrite <- Ef. exact (vget_vset_eq _ _ _ _ Es).
        -- assert (Eq' : vget l (i - 1) = Some q).
           { unfold vget in Eq |- *. destruct (Z.ltb_spec i 0); [lia|]. destruct (Z.ltb_spec (i - 1) 0); [lia|]. replace (Z.to_nat i) with (S (Z.to_nat (i - 1))) in Eq by lia. exact Eq. }
           rewrite <- (New _ _ Eq'). f_equal. lia.
    + exfalso. apply all_edges_app_nodup in N. rewrite all_edges_app, all_edges_one in N. apply NoDup_app_clash in N; [contradiction| |].
      * apply NoDup_app_l in N. exact N.
      * apply (gfd _ _ (G p (or_introl eq_refl))).
Qed.

(** ** the blocks of the parallel loops *)
Lemma loop_blocks_spec pool len : 0 < len -> len + 1023 < 2 ^ 32 -> match pool with Some t => 0 <= t < 2 ^ 32 - 1 | None => True end ->
  exists bs, loop_blocks pool len [] = Some bs /\ concat bs = zrange len.
Proof.
  intros Hl Hb Hp. destruct pool as [t|].
  - destruct (edge_loop_spec t len [] 1024) as (ws & m & parts & E & _ & Ep & Ec); try lia.
    + constructor.
    + intros x [].
    + rewrite live_slots_all. intros Q. apply (f_equal (@length Z)) in Q. rewrite length_zrange in Q. cbn in Q. lia.
    + exists parts. unfold loop_blocks.
      assert (Q : mesh_parallel_for_plan raw_distance t len [] 1024 = mesh_parallel_for_plan edge_distance t len [] 1024).
      { unfold mesh_parallel_for_plan. assert (D : forall a b, raw_distance [] a b = edge_distance [] a b).
        { intros a b. unfold raw_distance, edge_distance, count_removed_in_range. destruct (b - a =? 0); cbn [filter]; unfold zlen; cbn; lia. }
        rewrite D. reflexivity. }
      rewrite Q, E. split; [exact Ep|]. rewrite Ec. apply live_slots_all.
  - exists [zrange len]. unfold loop_blocks. rewrite iterate_all by lia. split; [reflexivity|]. cbn. apply app_nil_r.
Qed.

Lemma fill_same_spec order : forall t, (forall x, In x order -> 0 <= x < zlen t) ->
  exists t', fill_same order t = Some t' /\ zlen t' = zlen t /\ (forall x, In x order -> vget t' x = Some x) /\ (forall x, ~ In x order -> vget t' x = vget t x).
Proof.
  unfold fill_same. induction order as [|a order IH]; intros t H.
  - exists t. split; [reflexivity|]. split; [reflexivity|]. split; [intros x []|auto].
  - cbn [ofold]. pose proof (vset_Some t a a (H a (or_introl eq_refl))) as Es. rewrite Es. pose proof (vset_len _ _ _ _ Es) as Ls.
    destruct (IH (lset t (Z.to_nat a) a)) as (t' & E & L & A & B); [intros x Hx; rewrite Ls; apply H; right; exact Hx|]. exists t'. split; [exact E|]. split; [lia|]. split.
    + intros x Hx. destruct (in_dec Z.eq_dec x order) as [Q|Q]; [apply A, Q|]. destruct Hx as [<-|Hx]; [|contradiction]. rewrite (B a Q). exact (vget_vset_eq _ _ _ _ Es).
    + intros x Hx. rewrite B by (intros Q; apply Hx; right; exact Q). apply (vget_vset_neq _ _ _ _ _ Es). intros ->. apply Hx. left. reflexivity.
Qed.

(** ** the tasks *)
Definition shift (k : Z) (r : list Z) : list Z := map (Z.add k) r.
Lemma gvaf_offset m f off r : get_vertices_around_face m f = Some r -> get_vertices_around_face_offset m f off = Some (shift off r).
Proof.
  unfold get_vertices_around_face, get_vertices_around_face_offset. destruct (get_halfedges_around_face m f) as [hs|]; [|discriminate]. cbn [obind]. revert r.
  induction hs as [|h hs IH]; intros r E; cbn in *; [injection E as <-; reflexivity|].
  destruct (target m h) as [t|]; [|discriminate]. cbn [obind] in *. destruct (omap (target m) hs) as [ts|]; [|discriminate]. cbn [obind] in E. injection E as <-.
  rewrite (IH ts eq_refl). reflexivity.
Qed.
Lemma omap_app {A B} (g : A -> option B) l1 : forall l2, omap g (l1 ++ l2) = (do a <- omap g l1; do b <- omap g l2; Some (a ++ b)).
Proof.
  induction l1 as [|x l1 IH]; intros l2; cbn [app omap].
  - cbn [obind]. destruct (omap g l2); reflexivity.
  - destruct (g x) as [y|]; [|reflexivity]. cbn [obind]. rewrite IH. destruct (omap g l1); [|reflexivity]. cbn [obind]. destruct (omap g l2); reflexivity.
Qed.
Lemma omap_concat {A B} (g : A -> option B) ls : forall r, omap g (concat ls) = Some r -> exists rs, omap (omap g) ls = Some rs /\ concat rs = r.
Proof.
  induction ls as [|l ls IH]; intros r E; cbn [concat] in *; [exists []; cbn in E; injection E as <-; split; reflexivity|].
  rewrite omap_app in E. destruct (omap g l) as [a|] eqn:Ea; [|discriminate]. cbn [obind] in E. destruct (omap g (concat ls)) as [b|] eqn:Eb; [|discriminate]. cbn [obind] in E. injection E as <-.
  destruct (IH b eq_refl) as (rs & Ers & Ec). exists (a :: rs). cbn [omap]. rewrite Ea. cbn [obind]. rewrite Ers. split; [reflexivity|]. cbn. rewrite Ec. reflexivity.
Qed.
Lemma remap_all cs off rs bs : plain cs -> rings_of cs rs -> concat bs = zrange (number_of_faces cs) ->
  exists out, omap (remap_block cs off) bs = Some out /\ concat out = combine (zrange (number_of_faces cs)) (map (shift off) rs).
Proof.
  intros P E C. unfold remap_block. apply omap_concat. rewrite C. pose proof E as E'. unfold rings_of in E'. revert E'. generalize (zrange (number_of_faces cs)). clear E C bs.
  intros l. revert rs. induction l as [|f l IH]; intros rs E; cbn in E; [injection E as <-; reflexivity|].
  destruct (get_vertices_around_face cs f) as [r|] eqn:Ef; [|discriminate]. cbn [obind] in E. destruct (omap (get_vertices_around_face cs) l) as [q|] eqn:El; [|discriminate]. cbn [obind] in E. injection E as <-.
  cbn [omap map combine]. rewrite (gvaf_offset _ _ off _ Ef). cbn [obind]. rewrite (IH q eq_refl). reflexivity.
Qed.
Lemma combine_snd {A B} (a : list A) : forall (b : list B), length a = length b -> map snd (combine a b) = b /\ map fst (combine a b) = a.
Proof. induction a as [|x a IH]; intros [|y b] H; try discriminate; [auto|]. cbn. destruct (IH b) as [-> ->]; [cbn in H; lia|]. auto. Qed.
