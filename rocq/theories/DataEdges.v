(** The edge query. *)
From Coq Require Import List ZArith Lia Bool Permutation.
From Verif Require Import Vec VecLemmas HmeshModel HmeshSpec HmeshCore HmeshFaces HmeshIter HmeshParModel HmeshProps InputProofs ParModel ParProofs DataModel DataSpec DataProofs DataFull DataRows.
Import ListNotations.
Open Scope Z_scope.
Ltac Zify.zify_post_hook ::= idtac.

Lemma edge_distance_span removed first last : NoDup removed -> first <= last ->
  edge_distance removed first last = zlen (live_span removed first last).
Proof.
  intros N H. unfold edge_distance, count_removed_in_range.
  destruct (Z.eqb_spec (last - first) 0).
  - unfold live_span. rewrite zspan_nil by lia. cbn [filter]. unfold zlen. cbn [length]. lia.
  - set (r := filter _ removed).
    assert (P : Permutation (zspan first last) (live_span removed first last ++ r)).
    { apply NoDup_Permutation.
      - unfold zspan. apply FinFun.Injective_map_NoDup; [intros x y; lia|apply seq_NoDup].
      - assert (X : forall a b : list Z, NoDup a -> NoDup b -> (forall x, In x a -> ~ In x b) -> NoDup (a ++ b)).
        { induction 1 as [|x a Hx Na IH]; intros Nb D; [exact Nb|]. cbn. constructor; [|apply IH; [exact Nb|intros y Hy; apply D; right; exact Hy]].
          rewrite in_app_iff. intros [K|K]; [contradiction|]. exact (D x (or_introl eq_refl) K). }
        apply X.
        + apply NoDup_filter. unfold zspan. apply FinFun.Injective_map_NoDup; [intros x y; lia|apply seq_NoDup].
        + apply NoDup_filter. exact N.
        + intros x K K'. apply filter_In in K. apply filter_In in K'. destruct K as [_ K]. apply live_In in K. apply K, K'.
      - intros x. rewrite in_app_iff. unfold live_span, r. rewrite !filter_In, In_zspan, live_In, andb_true_iff, Z.leb_le, Z.leb_le.
        destruct (in_dec Z.eq_dec x removed) as [I|I]; [|tauto]. split; [intros; right; split; [exact I|lia]|]. intros [[_ K]|[_ K]]; [contradiction|lia]. }
    apply Permutation_length in P. rewrite app_length in P. unfold zspan in P at 1. rewrite map_length, seq_length in P. unfold zlen. lia.
Qed.

Lemma skip_ge fuel len removed : forall i, i <= skip_removed fuel len removed i.
Proof.
  induction fuel as [|fuel IH]; intros i; cbn [skip_removed]; [lia|]. destruct (_ && _); [|lia]. specialize (IH (i + 1)). lia.
Qed.

Lemma mesh_blocks_chain n len removed b : forall start l s, 0 <= b -> mesh_blocks n len removed start b = (l, s) -> chain start l s.
Proof.
  induction n as [|n IH]; intros start l s Hb E; cbn [mesh_blocks] in E.
  - injection E as <- <-. reflexivity.
  - destruct (mesh_blocks n len removed (it_advance len removed start b) b) as [l' s'] eqn:E'. injection E as <- <-. cbn [chain bfirst blast].
    split; [reflexivity|]. split; [|eapply IH; eassumption]. unfold it_advance. pose proof (skip_ge (Z.to_nat len) len removed (start + b)). lia.
Qed.

(** the blocks of the loop over the edges *)
Lemma edge_blocks pool len removed mn : NoDup removed ->
  live_slots len removed <> [] -> 0 <= pool < 2 ^ 32 - 1 -> 1 <= mn -> 0 <= len -> len + mn - 1 < 2 ^ 32 ->
  exists w ms, mesh_parallel_for_plan edge_distance pool len removed mn = PlanOk w ms /\
    chain (it_begin len removed) (w ++ [ms]) len /\ 0 <= it_begin len removed /\
    live_span removed (it_begin len removed) len = live_slots len removed /\
    (forall b, In b (w ++ [ms]) -> mesh_block_elements len removed b = Some (live_span removed (bfirst b) (blast b))).
Proof.
  intros N Ne Hp Hm Hl Hw. unfold mesh_parallel_for_plan, it_begin.
  destruct (skip_spec (Z.to_nat len) len removed 0) as (A & B & C); [lia|lia|]. set (first := skip_removed _ _ _ _) in *.
  rewrite edge_distance_span by (assumption || lia).
  assert (Es : live_span removed first len = live_slots len removed).
  { rewrite <- live_span_zslots, (live_span_app removed 0 first len) by lia. rewrite (live_span_removed removed 0 first) by exact B. reflexivity. }
  rewrite Es. pose proof (live_span_len removed first len) as Ll. rewrite Es in Ll.
  assert (L1 : 1 <= zlen (live_slots len removed)) by (apply zlen_pos; exact Ne).
  set (k := zlen (live_slots len removed)) in *.
  assert (W1 : wrap32 k = k) by (unfold wrap32; apply Z.mod_small; lia).
  assert (W2 : wrap32 (pool + 1) = pool + 1) by (unfold wrap32; apply Z.mod_small; lia). rewrite W1, W2.
  destruct (sched_ok k (pool + 1) mn) as (n & b & E & Hn & Hb & Hnb & Q); [lia|lia|lia|lia|]. rewrite E.
  destruct (Z.ltb_spec pool (n - 1)); [lia|].
  destruct (mesh_blocks (Z.to_nat (n - 1)) len removed first b) as [l s] eqn:Em.
  destruct (mesh_blocks_spec (Z.to_nat (n - 1)) len removed b first l s) as (D1 & D2 & D3 & D4 & D5); try assumption; try lia.
  { rewrite Es. fold k. rewrite Z2Nat.id by lia. nia. }
  exists l, (Blk s len). split; [reflexivity|]. split; [|split; [lia|split; [reflexivity|]]].
  - eapply chain_app; [eapply mesh_blocks_chain; [|exact Em]; lia|]. cbn. split; [reflexivity|]. split; [lia|reflexivity].
  - intros x Hx. apply in_app_iff in Hx. unfold mesh_block_elements. destruct Hx as [Hx|[<-|[]]].
    + destruct (D3 x Hx) as (F1 & F2 & F3 & F4). apply it_loop_spec; try lia; [intros; apply F3; lia|exact F4].
    + cbn [bfirst blast]. apply it_loop_spec; try lia. intros; apply D2; lia.
Qed.

Lemma flat2_app a b : flat2 (a ++ b) = flat2 a ++ flat2 b.
Proof. unfold flat2. rewrite map_app, concat_app. reflexivity. Qed.
Lemma flat2_len l : zlen (flat2 l) = 2 * zlen l.
Proof. induction l as [|[a b] r IH]; [reflexivity|]. change (flat2 ((a, b) :: r)) with ([a; b] ++ flat2 r). rewrite zlen_app, IH, !zlen_cons, zlen_nil. lia. Qed.
Lemma copy_edges_all l : forall off, copy_edges off l = store_all off (flat2 l).
Proof.
  induction l as [|[a b] r IH]; intros off; [reflexivity|]. change (flat2 ((a, b) :: r)) with ([a; b] ++ flat2 r). rewrite store_all_app.
  cbn [copy_edges store_all app]. rewrite IH. repeat f_equal.
Qed.

Lemma edge_ends_ok m e : history m -> live_edge m e -> exists a b, edge_ends m e = Some (a, b) /\
  source m (edge_halfedge e 0) = Some b /\ target m (edge_halfedge e 0) = Some a /\ a <> b /\ live_vertex m a /\ live_vertex m b.
Proof.
  intros H L. pose proof (HInv_consistent m (history_inv m H)) as K. destruct (k_edge m K e L) as (L0 & L1 & O).
  destruct (k_ends m K _ L0) as (b & a & S0 & T0 & N & Lb & La & S1 & T1). rewrite O in T1.
  exists a, b. unfold edge_ends, edge_vertex. fold (edge_halfedge e 0). fold (edge_halfedge e 1). rewrite T0, T1. cbn [obind]. repeat (split; [reflexivity || assumption|]).
  split; [congruence|]. auto.
Qed.

Lemma omap_const {A B} (g : A -> option B) (h : A -> B) l : (forall x, In x l -> g x = Some (h x)) -> omap g l = Some (map h l).
Proof.
  induction l as [|x l IH]; intros H; [reflexivity|]. cbn [omap map]. rewrite (H x) by (left; reflexivity). cbn [obind].
  rewrite IH by (intros y Hy; apply H; right; exact Hy). reflexivity.
Qed.

Lemma q_edge_stores e c bytes : component_mesh (c_mesh c) -> pool_ok e ->
  0 <= bytes <= 8 * number_of_edges (c_mesh c) -> bytes mod 8 = 0 -> 0 < number_of_edges (c_mesh c) ->
  exists ts, q_edge e c (Buffer bytes) = Stores 4 ts /\ concat ts = store_all 0 (flat2 (edge_list (c_mesh c))).
Proof.
  intros C P Hb Hm Hn. set (m := c_mesh c) in *. destruct (history_inv m (cm_history m C)) as [Co _].
  pose proof (cm_small _ C) as (_ & Hs & _). fold m in Hs. unfold q_edge. fold m.
  destruct (Z.ltb_spec (number_of_edges m * 2 * 4) bytes); [lia|]. change (4 * 2) with 8. rewrite Hm. cbn [negb Z.eqb].
  assert (Cs : zlen (live_slots (zlen (edges m)) (re m)) = number_of_edges m).
  { unfold number_of_edges. apply count_spec; [apply zlen_nonneg|exact (c_re m Co)|exact (c_re' m Co)]. }
  assert (Ne : live_slots (zlen (edges m)) (re m) <> []) by (intros K; rewrite K, zlen_nil in Cs; lia).
  destruct (edge_blocks (e_pool e) (zlen (edges m)) (re m) 1024) as (w & ms & Ep & Ch & F0 & Fs & El); try lia; try exact P; try exact Ne; [exact (c_re m Co)|apply zlen_nonneg|].
  rewrite Ep. set (first := it_begin (zlen (edges m)) (re m)) in *. set (bs := w ++ [ms]) in *.
  set (ends := fun e => match edge_ends m e with Some p => p | None => (null, null) end).
  set (h := fun b => store_all (edge_distance (re m) first (bfirst b) * 2) (flat2 (map ends (live_span (re m) (bfirst b) (blast b))))).
  assert (Bd : forall b, In b bs -> first <= bfirst b <= blast b /\ blast b <= zlen (edges m)).
  { clear - Ch. assert (G : forall bl a x, chain a bl (zlen (edges m)) -> In x bl -> a <= bfirst x <= blast x /\ blast x <= zlen (edges m)).
    { induction bl as [|y r IH]; intros a x K H; [destruct H|]. cbn in K. destruct K as (E & L & K). destruct H as [->|H].
      - apply chain_le in K. lia.
      - destruct (IH _ _ K H). lia. }
    intros b Hb. exact (G bs first b Ch Hb). }
  assert (E0 : omap (fun b => do es <- mesh_block_elements (zlen (edges m)) (re m) b; do rows <- omap (edge_ends m) es;
     Some (copy_edges (edge_distance (re m) first (bfirst b) * 2) rows)) bs = Some (map h bs)).
  { apply omap_const. intros b Hin. rewrite El by exact Hin. cbn [obind]. rewrite (omap_const (edge_ends m) ends).
    - cbn [obind]. rewrite copy_edges_all. reflexivity.
    - intros x Hx. unfold live_span in Hx. apply filter_In in Hx. destruct Hx as [Hx Lx]. apply In_zspan in Hx. apply live_In in Lx.
      destruct (Bd b Hin). destruct (edge_ends_ok m x (cm_history m C)) as (a & b' & E & _); [split; [lia|exact Lx]|]. unfold ends. rewrite E. reflexivity. }
  rewrite E0. eexists. split; [reflexivity|].
  assert (G : forall bl a, chain a bl (zlen (edges m)) -> first <= a ->
    concat (map h bl) = store_all (2 * zlen (live_span (re m) first a)) (flat2 (map ends (live_span (re m) a (zlen (edges m)))))).
  { clear - Co. induction bl as [|b r IH]; intros a K Ha; cbn in K.
    - subst a. unfold live_span at 2. rewrite zspan_nil by lia. reflexivity.
    - destruct K as (E & L & K). cbn [map concat]. pose proof (chain_le _ _ _ K). rewrite (IH (blast b)) by (assumption || lia).
      rewrite (live_span_app (re m) a (blast b) (zlen (edges m))) by lia. rewrite map_app, flat2_app, store_all_app. unfold h. rewrite E.
      rewrite edge_distance_span by (exact (c_re m Co) || lia). f_equal; [f_equal; lia|]. f_equal. rewrite flat2_len, zlen_map.
      rewrite (live_span_app (re m) first a (blast b)) by lia. rewrite zlen_app. lia. }
  rewrite (G bs first Ch) by lia. rewrite Fs. unfold live_span. rewrite zspan_nil by lia. reflexivity.
Qed.

Lemma edge_list_len m : history m -> zlen (edge_list m) = number_of_edges m.
Proof.
  intros H. destruct (history_inv m H) as [Co _]. unfold edge_list. rewrite zlen_map. unfold number_of_edges.
  apply count_spec; [apply zlen_nonneg|exact (c_re m Co)|exact (c_re' m Co)].
Qed.

Lemma q_edge_full e c : component_mesh (c_mesh c) -> pool_ok e -> 0 < number_of_edges (c_mesh c) ->
  agrees (q_edge e c) 4 (flat2 (edge_list (c_mesh c))).
Proof.
  intros C P Hn. unfold agrees. rewrite flat2_len, edge_list_len by exact (cm_history _ C). split; [unfold q_edge; f_equal; lia|].
  replace (4 * (2 * number_of_edges (c_mesh c))) with (number_of_edges (c_mesh c) * 8) by lia.
  destruct (q_edge_stores e c (number_of_edges (c_mesh c) * 8)) as (ts & E & Ct); try assumption; try (apply Z.mod_mul; lia); try lia.
  rewrite E. apply fills_concat. exact Ct.
Qed.

(** a mesh with a face has edges *)
Lemma has_edges m : component_mesh m -> 0 < number_of_edges m.
Proof.
  intros C. pose proof (history_inv m (cm_history m C)) as I. pose proof (HInv_consistent m I) as K.
  destruct (cm_nonempty _ C) as [_ Nf]. apply zlen_pos in Nf. destruct (k_face m K 0) as (hs & E & L3 & _ & Hh & _); [apply live_faces; [exact C|lia]|].
  destruct hs as [|h hs]; [cbn in L3; lia|]. destruct (Hh h (or_introl eq_refl)) as [Lh _]. destruct (k_opposite m K h Lh) as (_ & _ & _ & _ & Le & _).
  rewrite <- (edge_list_len m (cm_history m C)). unfold edge_list. rewrite zlen_map.
  assert (In (edge_of h) (live_slots (zlen (edges m)) (re m))) as Hi.
  { unfold live_slots. apply filter_In. destruct Le as [R N]. split; [apply In_zrange; exact R|]. destruct (in_dec _ _ _); [contradiction|reflexivity]. }
  destruct (live_slots (zlen (edges m)) (re m)) as [|x l]; [destruct Hi|]. rewrite zlen_cons. pose proof (zlen_nonneg l). lia.
Qed.
