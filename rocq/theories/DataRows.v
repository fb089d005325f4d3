(** Rows of faces and adjacent faces: sizes, offsets, copies. *)
From Coq Require Import List ZArith Lia Bool Permutation.
From Verif Require Import Vec VecLemmas HmeshModel HmeshSpec HmeshCore HmeshFaces HmeshRemove HmeshProps InputProofs ParModel ParProofs ParSumModel ParSumSpec ParSumProofs DataModel DataSpec DataProofs DataFull.
Import ListNotations.
Open Scope Z_scope.
Ltac Zify.zify_post_hook ::= idtac.

Lemma omap_rows f n rows : 0 <= n -> omap f (zrange n) = Some rows -> rows_of f n rows.
Proof.
  intros Hn E. destruct (omap_nth _ _ _ E) as [L N]. split.
  - unfold zlen. rewrite L. unfold zrange. rewrite map_length, seq_length. lia.
  - intros i Hi. unfold vget. destruct (Z.ltb_spec i 0); [lia|]. apply N. unfold zrange.
    rewrite nth_error_map. rewrite (nth_error_nth' _ O) by (rewrite seq_length; lia). cbn. rewrite seq_nth by lia. f_equal. lia.
Qed.

Lemma live_faces m f : component_mesh m -> 0 <= f < zlen (faces m) -> live_face m f.
Proof. intros C H. split; [exact H|]. rewrite (cm_rf _ C). intros []. Qed.
Lemma live_vertices m v : component_mesh m -> 0 <= v < zlen (verts m) -> live_vertex m v.
Proof. intros C H. split; [exact H|]. rewrite (cm_rv _ C). intros []. Qed.

Lemma face_rows_ok m : component_mesh m -> exists rows, face_rows m = Some rows /\ rows_of (get_vertices_around_face m) (zlen (faces m)) rows.
Proof.
  intros C. pose proof (HInv_consistent m (history_inv m (cm_history m C))) as K. unfold face_rows.
  destruct (omap_total (get_vertices_around_face m) (zrange (zlen (faces m)))) as [rows E].
  - intros f Hf. apply In_zrange in Hf. destruct (k_face m K f (live_faces m f C Hf)) as (hs & E & _ & _ & L & _).
    unfold get_vertices_around_face. rewrite E. cbn [obind]. apply omap_total. intros h Hh.
    destruct (k_ends m K h (proj1 (L h Hh))) as (a & b & _ & T & _). eauto.
  - exists rows. split; [exact E|]. apply omap_rows; [apply zlen_nonneg|exact E].
Qed.

Lemma adj_rows_ok m : component_mesh m -> exists rows, adj_rows m = Some rows /\ rows_of (get_faces_around_face m) (zlen (faces m)) rows.
Proof.
  intros C. pose proof (HInv_consistent m (history_inv m (cm_history m C))) as K. unfold adj_rows.
  destruct (omap_total (get_faces_around_face m) (zrange (zlen (faces m)))) as [rows E].
  - intros f Hf. apply In_zrange in Hf. destruct (k_face m K f (live_faces m f C Hf)) as (hs & E & _ & _ & L & _).
    unfold get_faces_around_face. rewrite E. cbn [obind].
    assert (T : exists l, omap (fun h => do d <- hget m h; if ho d =? null then Some null else face m (ho d)) hs = Some l).
    { apply omap_total. intros h Hh. destruct (L h Hh) as [Lh Fh].
      destruct (vget_range_Some (hes m) h (proj1 Lh)) as [d Ed]. unfold hget. rewrite Ed. cbn [obind].
      destruct (Z.eqb_spec (ho d) null) as [|Nn]; [eauto|].
      assert (Eo : ho d = opposite h).
      { pose proof (history_inv m (cm_history m C)) as [I _]. destruct (c_he m I h d (proj1 (lh_live m h I) Lh) Ed) as (Eo & _). exact Eo. }
      rewrite Eo. destruct (k_opposite m K h Lh) as ((Ro & _) & _). unfold face.
      destruct (vget_range_Some (hes m) _ Ro) as [d' Ed']. unfold hget. rewrite Ed'. cbn. eauto. }
    destruct T as [l El]. rewrite El. cbn. eauto.
  - exists rows. split; [exact E|]. apply omap_rows; [apply zlen_nonneg|exact E].
Qed.

(** ** Totals *)

Definition zsum (l : list Z) : Z := fold_right Z.add 0 l.
Lemma zsum_app a b : zsum (a ++ b) = zsum a + zsum b.
Proof. unfold zsum. induction a as [|x a IH]; cbn [app fold_right]; [lia|]. rewrite IH. lia. Qed.
Lemma total_sum {A} (rows : list (list A)) : total rows = zsum (map zlen rows).
Proof.
  unfold total. induction rows as [|r rows IH]; [reflexivity|]. cbn [concat map]. rewrite zlen_app, IH. reflexivity.
Qed.
Lemma total_app {A} (a b : list (list A)) : total (a ++ b) = total a + total b.
Proof. unfold total. rewrite concat_app, zlen_app. reflexivity. Qed.
Lemma total_nonneg {A} (a : list (list A)) : 0 <= total a.
Proof. apply zlen_nonneg. Qed.
Lemma total_cons {A} (r : list A) rows : total (r :: rows) = zlen r + total rows.
Proof. unfold total. cbn. apply zlen_app. Qed.

Lemma sum_first_total {A} (rows : list (list A)) k : sum_first (map zlen rows) k = total (sub rows (Blk 0 k)).
Proof. unfold sum_first, sub. cbn [bfirst blast]. rewrite Z.sub_0_r, total_sum, <- firstn_map. reflexivity. Qed.

Lemma wrap_sum_chain (rows : list (list Z)) bs : forall a z, 0 <= a -> z <= zlen rows -> chain a bs z ->
  wrap32 (fold_right Z.add 0 (map (fun b => wrap32 (fold_right Z.add 0 (map zlen (sub rows b)))) bs))
  = wrap32 (total (sub rows (Blk a z))).
Proof.
  induction bs as [|b r IH]; intros a z Ha Hz C; cbn in C.
  - subst. rewrite sub_nil. reflexivity.
  - destruct C as (E & L & C). cbn [map fold_right]. pose proof (chain_le _ _ _ C) as CL.
    rewrite (sub_split rows a (blast b) z) by lia. rewrite total_app.
    rewrite wrap_add_l. rewrite <- wrap_add_r, IH with (a := blast b) (z := z) by (assumption || lia). rewrite wrap_add_r.
    f_equal. f_equal. rewrite (blk_eta b), E. cbn [bfirst blast]. symmetry. apply total_sum.
Qed.

Lemma count_indices_ok pool (rows : list (list Z)) : 1 <= zlen rows < 2 ^ 31 -> 0 <= pool < 2 ^ 32 - 1 -> total rows < 2 ^ 32 ->
  count_indices pool rows = Some (total rows).
Proof.
  intros Hr Hp Ht. unfold count_indices. destruct (par_blocks_ok pool (zlen rows) 1024) as (bs & n & b & E & C & _); try lia.
  rewrite E. cbn [obind]. f_equal. rewrite (wrap_sum_chain rows bs 0 (zlen rows)); try lia; [|exact C].
  rewrite sub_all. apply Z.mod_small. pose proof (total_nonneg rows). lia.
Qed.

Lemma fill_sizes_ok pool (rows : list (list Z)) cache : 1 <= zlen rows < 2 ^ 31 -> 0 <= pool < 2 ^ 32 - 1 ->
  (forall l, cache = Some l -> l = map zlen rows) -> fill_sizes pool cache rows = Some (map zlen rows).
Proof.
  intros Hr Hp Hc. unfold fill_sizes. destruct cache as [l|]; [f_equal; auto|].
  destruct (par_blocks_ok pool (zlen rows) 1024) as (bs & n & b & E & _); try lia. rewrite E. reflexivity.
Qed.

(** ** Copies of rows into a buffer that is large enough *)

Lemma copy_face_full n vs : forall off, 0 <= off -> off + zlen vs <= n -> n < 2 ^ 32 ->
  copy_face n off vs = (store_all off vs, off + zlen vs).
Proof.
  induction vs as [|x r IH]; intros off Ho Hn Hw; cbn [copy_face store_all].
  - rewrite zlen_nil. f_equal. lia.
  - rewrite zlen_cons in *. pose proof (zlen_nonneg r). assert (W : wrap32 (off + 1) = off + 1) by (apply Z.mod_small; lia). rewrite W.
    destruct (Z.eqb_spec (off + 1) n) as [E|N].
    + assert (Z0 : zlen r = 0) by lia. destruct r as [|y r]; [rewrite zlen_nil; reflexivity|]. rewrite zlen_cons in Z0. pose proof (zlen_nonneg r). lia.
    + rewrite IH by lia. f_equal. lia.
Qed.

Lemma oriented_total flip rows : total (oriented flip rows) = total rows.
Proof.
  induction rows as [|r rows IH]; [reflexivity|]. cbn [oriented map]. rewrite !total_cons. unfold oriented in IH. rewrite IH.
  destruct flip; [|reflexivity]. unfold zlen. rewrite rev_length. reflexivity.
Qed.

Lemma copy_faces_full flip n rows : forall off, 0 <= off -> off + total rows <= n -> n < 2 ^ 32 ->
  copy_faces flip n off rows = store_all off (concat (oriented flip rows)).
Proof.
  induction rows as [|r rows IH]; intros off Ho Hn Hw; [reflexivity|]. rewrite total_cons in Hn. pose proof (total_nonneg rows).
  cbn [copy_faces oriented map concat]. set (r' := if flip then rev r else r).
  assert (L : zlen r' = zlen r) by (unfold r', zlen; destruct flip; rewrite ?rev_length; reflexivity). pose proof (zlen_nonneg r).
  rewrite copy_face_full by lia. rewrite IH by lia. rewrite store_all_app. reflexivity.
Qed.

Lemma copy_adj_full rows : forall off, copy_adj off rows = store_all off (concat rows).
Proof.
  induction rows as [|r rows IH]; intros off; [reflexivity|]. cbn [copy_adj concat]. rewrite IH, store_all_app. reflexivity.
Qed.

Lemma In_combine_zrange {A} (l : list A) k x : In (k, x) (combine (zrange (zlen l)) l) -> vget l k = Some x.
Proof.
  intros H. apply In_nth_error in H. destruct H as [i H].
  assert (G : forall (a : list Z) (b : list A) i, nth_error (combine a b) i = Some (k, x) -> nth_error a i = Some k /\ nth_error b i = Some x).
  { clear. induction a as [|u a IH]; intros [|v b] [|i]; cbn; try discriminate; [|apply IH]. intros E. injection E as <- <-. auto. }
  destruct (G _ _ _ H) as [H1 H2]. unfold zrange in H1. rewrite nth_error_map in H1.
  destruct (nth_error (seq 0 _) i) as [j|] eqn:E; [|discriminate]. cbn in H1. injection H1 as <-.
  assert (j = i).
  { assert (R : (i < length (seq 0 (Z.to_nat (zlen l))))%nat) by (apply nth_error_Some; congruence). rewrite (nth_error_nth' _ O R) in E.
    injection E as <-. rewrite seq_length in R. apply seq_nth. exact R. }
  subst j. unfold vget. destruct (Z.ltb_spec (Z.of_nat i) 0); [lia|]. rewrite Nat2Z.id. exact H2.
Qed.

Lemma omap_combine {A B} (g : Z * A -> option B) (h : A -> B) (l : list A) :
  (forall k x, vget l k = Some x -> g (k, x) = Some (h x)) ->
  omap g (combine (zrange (zlen l)) l) = Some (map h l).
Proof.
  intros H. assert (G : forall (a : list Z) (b : list A), length a = length b -> (forall k x, In (k, x) (combine a b) -> g (k, x) = Some (h x)) ->
    omap g (combine a b) = Some (map h b)).
  { clear. induction a as [|u a IH]; intros [|v b] L H; try discriminate L; [reflexivity|]. cbn [combine omap map].
    rewrite (H u v) by (left; reflexivity). cbn [obind]. rewrite (IH b); [reflexivity| |]; [cbn in L; lia|]. intros k x K. apply H. right. exact K. }
  apply G.
  - unfold zrange. rewrite map_length, seq_length. unfold zlen. lia.
  - intros k x K. apply H. apply In_combine_zrange. exact K.
Qed.

(** If every thread reads the right partial sum, the blocks are copied one after the other. *)
Lemma par_rows_ok pool grain (rows : list (list Z)) seen f content bs :
  par_blocks pool (zlen rows) grain = Some bs -> chain 0 bs (zlen rows) -> (forall x, In x bs -> bfirst x < blast x) ->
  total rows < 2 ^ 32 ->
  (forall k b, vget bs k = Some b -> seen k = wrap32 (sum_first (map zlen rows) (bfirst b + 1))) ->
  (forall off x, 0 <= off -> off + total x <= total rows -> f off x = store_all off (concat (content x))) ->
  (forall x y, content (x ++ y) = content x ++ content y) -> (forall x, total (content x) = total x) ->
  fills (par_rows pool grain (map zlen rows) rows seen f) 4 (concat (content rows)).
Proof.
  intros E C P Ht Hs Hf CA CT. unfold par_rows. rewrite E.
  set (off b := total (sub rows (Blk 0 (bfirst b)))).
  assert (B : forall b, In b bs -> 0 <= bfirst b < blast b /\ blast b <= zlen rows).
  { intros x Hx. specialize (P x Hx). clear - C Hx P.
    assert (G : forall bs a, chain a bs (zlen rows) -> 0 <= a -> In x bs -> 0 <= bfirst x /\ blast x <= zlen rows).
    { clear. induction bs as [|y r IH]; intros a C Ha H; [destruct H|]. cbn in C. destruct C as (E & L & C). destruct H as [->|H].
      - split; [lia|]. apply chain_le in C. exact C.
      - apply (IH (blast y)); [exact C|lia|exact H]. }
    destruct (G bs 0 C) as [G1 G2]; [lia|exact Hx|]. lia. }
  assert (T : forall a z, 0 <= a <= z -> z <= zlen rows -> total (sub rows (Blk 0 a)) + total (sub rows (Blk a z)) <= total rows).
  { intros a z Ha Hz. rewrite <- total_app, <- sub_split by lia. rewrite <- (sub_all rows) at 2.
    rewrite (sub_split rows 0 z (zlen rows)) by lia. rewrite total_app. pose proof (total_nonneg (sub rows (Blk z (zlen rows)))). lia. }
  rewrite (omap_combine _ (fun b => store_all (off b) (concat (content (sub rows b))))).
  - apply fills_concat.
    assert (G : forall bs a, chain a bs (zlen rows) -> 0 <= a ->
       concat (map (fun b => store_all (off b) (concat (content (sub rows b)))) bs)
       = store_all (total (sub rows (Blk 0 a))) (concat (content (sub rows (Blk a (zlen rows)))))).
    { clear - CA CT. induction bs as [|b r IH]; intros a C Ha; cbn in C.
      - subst a. rewrite sub_nil. assert (N : content [] = []).
        { specialize (CA [] []). cbn in CA. destruct (content []) as [|y l] eqn:K; [reflexivity|]. exfalso. apply (f_equal (@length _)) in CA. rewrite app_length in CA. cbn in CA. lia. }
        rewrite N. reflexivity.
      - destruct C as (E & L & C). cbn [map concat]. pose proof (chain_le _ _ _ C) as CL.
        rewrite (IH (blast b)) by (assumption || lia). rewrite (sub_split rows a (blast b) (zlen rows)) by lia.
        rewrite CA, concat_app, store_all_app. fold (total (content (sub rows (Blk a (blast b))))). rewrite CT.
        unfold off. rewrite E. f_equal.
        + do 3 f_equal. rewrite (blk_eta b), E. reflexivity.
        + f_equal. rewrite <- total_app. f_equal. apply sub_split; lia. }
    rewrite (G bs 0 C) by lia. rewrite sub_nil, sub_all. reflexivity.
  - intros k b Hb. assert (Ib : In b bs) by (eapply vget_In; exact Hb). destruct (B b Ib) as [B1 B2]. cbn [fst snd].
    destruct (vget_range_Some (map zlen rows) (bfirst b)) as [s Es]; [rewrite zlen_map; lia|]. rewrite Es. cbn [obind]. f_equal.
    rewrite (Hs k b Hb), (sum_first_S _ _ _ Es).
    assert (W : wrap32 (wrap32 (sum_first (map zlen rows) (bfirst b) + s) - s) = off b).
    { unfold wrap32. rewrite Zminus_mod_idemp_l. replace (sum_first (map zlen rows) (bfirst b) + s - s) with (sum_first (map zlen rows) (bfirst b)) by lia.
      rewrite sum_first_total. apply Z.mod_small. unfold off. specialize (T (bfirst b) (blast b)). pose proof (total_nonneg (sub rows (Blk 0 (bfirst b)))).
      pose proof (total_nonneg (sub rows (Blk (bfirst b) (blast b)))). lia. }
    rewrite W. apply Hf; [apply total_nonneg|]. unfold off. rewrite (blk_eta b) at 2. apply T; lia.
Qed.

(** ** What the threads read *)

Lemma sizes_u32 (rows : list (list Z)) : total rows < 2 ^ 32 -> all_u32 (map zlen rows).
Proof.
  intros H x Hx. apply in_map_iff in Hx. destruct Hx as (r & <- & Hr). split; [apply zlen_nonneg|].
  apply in_split in Hr. destruct Hr as (a & b & ->). rewrite total_app, total_cons in H. pose proof (total_nonneg a). pose proof (total_nonneg b). lia.
Qed.

(** the first cell always holds the first element *)
Lemma seen_zero pool sizes nb k x : 1 <= zlen sizes < 2 ^ 31 -> 0 <= pool < 2 ^ 32 - 1 -> all_u32 sizes ->
  sum_seen pool sizes nb k 0 x -> x = wrap32 (sum_first sizes 1).
Proof.
  intros Hl Hp Hu (cf & s & Ec & R & _ & _ & V).
  destruct (sum_cfg_good pool (zlen sizes)) as (c' & Ec' & G & HL & _); try lia. assert (c' = cf) by congruence. subst c'.
  pose proof (sreach_inv cf sizes G HL Hu s R) as I.
  assert (H0 : 0 <= 0 < ParSumModel.c_n cf) by (destruct G; lia). pose proof (si_blk _ _ _ I 0 H0) as B.
  pose proof (blk_bounds cf sizes G HL 0 H0) as (B1 & B2). assert (F0 : blk_first cf 0 = 0) by (unfold blk_first; lia).
  assert (AL : at_local cf sizes (smem s) 0 0 -> x = wrap32 (sum_first sizes 1)).
  { intros A. apply local_first0 in A. unfold at_total in A. rewrite V in A. injection A as ->. reflexivity. }
  assert (AT : at_total sizes (smem s) 0 -> x = wrap32 (sum_first sizes 1)).
  { intros A. unfold at_total in A. rewrite V in A. injection A as ->. reflexivity. }
  assert (AI : at_init sizes (smem s) 0 -> x = wrap32 (sum_first sizes 1)).
  { intros A. unfold at_init in A. rewrite V in A. symmetry in A. change 1 with (0 + 1). rewrite (sum_first_S _ _ _ A). change (sum_first sizes 0) with 0.
    symmetry. unfold wrap32. apply Z.mod_small. apply Hu. eapply vget_In. exact A. }
  unfold blk_inv in B. destruct (spc s 0) as [|k' sum| |a|[a|]|k' a|]; try lia.
  - apply AI. apply B. lia.
  - apply AL. apply B. lia.
  - destruct B as (_ & A1 & A2 & _). destruct (Z.eq_dec (blk_last cf 0) 0) as [K|K]; [apply AT; rewrite <- K; exact A1|apply AL, A2; lia].
  - destruct B as (_ & A0 & A1 & A2 & A3 & _). destruct (Z.eq_dec (blk_last cf 0) 0) as [K|K]; [apply AT; rewrite <- K; exact A1|].
    destruct (Z_lt_le_dec 0 k'); [apply AT, A2; lia|apply AL, A3; lia].
  - apply AT. apply B. lia.
Qed.

Lemma sched_block len avail mn n b : get_scheduling_parameters len avail mn = SchedOk n b -> b = len / n.
Proof.
  unfold get_scheduling_parameters. cbv zeta. intros H.
  repeat match type of H with (if ?c then _ else _) = _ => destruct c; try discriminate H end.
  injection H as <- <-. reflexivity.
Qed.

(** If the blocks of the copy are the chunks of the sum, every thread reads final values. *)
Lemma seen_same_blocks pool sizes grain bs k b x : 1 <= zlen sizes < 2 ^ 31 -> 0 <= pool < 2 ^ 32 - 1 -> 1 <= grain <= 2 ^ 20 -> all_u32 sizes ->
  Z.min (pool + 1) ((zlen sizes + grain - 1) / grain) = Z.min (pool + 1) ((zlen sizes + 1024 - 1) / 1024) ->
  par_blocks pool (zlen sizes) grain = Some bs -> vget bs k = Some b ->
  sum_seen pool sizes (zlen bs) k (bfirst b) x -> x = wrap32 (sum_first sizes (bfirst b + 1)).
Proof.
  intros Hl Hp Hg Hu Hm Eb Hb (cf & s & Ec & R & Ret & Fn & V).
  destruct (sum_cfg_good pool (zlen sizes)) as (c' & Ec' & G & HL & _); try lia. assert (c' = cf) by congruence. subst c'.
  destruct (par_blocks_ok pool (zlen sizes) grain) as (bs' & n & b0 & E' & C & P & Es & Ln & Hn & Hb0 & Hnb & Q & K); try lia.
  assert (bs' = bs) by congruence. subst bs'.
  destruct (sched_ok (zlen sizes) (pool + 1) 1024) as (n1 & b1 & Es1 & _ & _ & _ & Q1); try lia.
  assert (Ecf : cf = Cfg (zlen sizes) n1 b1).
  { unfold sum_cfg in Ec. assert (W1 : wrap32 (zlen sizes) = zlen sizes) by (apply Z.mod_small; lia).
    assert (W2 : wrap32 (pool + 1) = pool + 1) by (apply Z.mod_small; lia). rewrite W1, W2, Es1 in Ec. congruence. }
  assert (Nn : n1 = n) by congruence. clear Q Q1 Hm. rewrite Nn in *. clear Nn n1.
  assert (Bb : b1 = b0) by (rewrite (sched_block _ _ _ _ _ Es1), (sched_block _ _ _ _ _ Es); reflexivity). subst b1.
  pose proof (sreach_inv cf sizes G HL Hu s R) as I. pose proof (vget_Some_range _ _ _ Hb) as Hk. rewrite Ln in Hk.
  assert (Hk' : 0 <= k < ParSumModel.c_n cf) by (rewrite Ecf; exact Hk).
  assert (Fk : spc s k = Fin).
  { destruct (Z.eq_dec k (n - 1)) as [->|Nk].
    - unfold call_returned in Ret. rewrite Ecf in Ret. exact Ret.
    - apply Fn; [rewrite Ln; lia|lia]. }
  pose proof (si_blk _ _ _ I k Hk') as B. rewrite Fk in B. cbn [blk_inv] in B. destruct B as [B _].
  assert (T : at_total sizes (smem s) (bfirst b)).
  { apply B. rewrite (K k b Hb). pose proof (blk_bounds cf sizes G HL k Hk') as BB. rewrite Ecf in *. unfold blk_first in *. cbn [c_bs] in *. lia. }
  unfold at_total in T. rewrite V in T. injection T as ->. reflexivity.
Qed.

(** ** The queries *)

Definition coherent (c : cc) : Prop :=
  (forall l, c_fsize c = Some l -> exists rows, face_rows (c_mesh c) = Some rows /\ l = map zlen rows) /\
  (forall l, c_asize c = Some l -> exists rows, adj_rows (c_mesh c) = Some rows /\ l = map zlen rows).

Lemma rows_len m (rows : list (list Z)) f : component_mesh m -> rows_of f (zlen (faces m)) rows -> 1 <= zlen rows < 2 ^ 31.
Proof.
  intros C [L _]. rewrite L. destruct (cm_nonempty _ C) as [_ N]. apply zlen_pos in N. destruct (cm_small _ C) as (_ & _ & B). lia.
Qed.

Lemma q_face_full e c seen rows : component_mesh (c_mesh c) -> coherent c -> pool_ok e ->
  face_rows (c_mesh c) = Some rows -> rows_of (get_vertices_around_face (c_mesh c)) (zlen (faces (c_mesh c))) rows ->
  total rows < 2 ^ 32 -> face_copy_safe (e_pool e) (zlen rows) -> reads_ok (e_pool e) (2 ^ 14) (map zlen rows) seen ->
  agrees (fun d => fst (q_face e c seen d)) 4 (concat (oriented (e_flip e) rows)).
Proof.
  intros C Co P E Hr Ht Sf Rd. pose proof (rows_len _ _ _ C Hr) as Hl. unfold agrees. fold (total (oriented (e_flip e) rows)). rewrite oriented_total.
  unfold q_face. rewrite E. split.
  - rewrite count_indices_ok by (assumption || exact P). cbn [fst]. f_equal. lia.
  - replace (4 * total rows) with (total rows * 4) by lia. rewrite Z.mod_mul by lia. cbn [negb Z.eqb]. rewrite Z.div_mul by lia.
    pose proof (total_nonneg rows) as T0. assert (W : wrap32 (total rows) = total rows) by (apply Z.mod_small; lia). rewrite W.
    rewrite fill_sizes_ok; [|exact Hl|exact P|].
    2:{ intros l Hc. destruct (proj1 Co l Hc) as (rows' & E' & ->). assert (rows' = rows) by congruence. subst. reflexivity. }
    cbn [fst].
    destruct (par_blocks_ok (e_pool e) (zlen rows) (2 ^ 14)) as (bs & n & b & Eb & Ch & Pb & Es & Ln & Hn & Hb & Hnb & Q & K); try lia; try exact P.
    eapply par_rows_ok with (content := oriented (e_flip e)); try eassumption.
    + intros k x Hx. assert (Eb' : par_blocks (e_pool e) (zlen (map zlen rows)) (2 ^ 14) = Some bs) by (rewrite zlen_map; exact Eb).
      pose proof (Rd bs k x Eb' Hx) as S. unfold face_copy_safe, pool_ok in *.
      destruct (Z_le_gt_dec (zlen rows) (2 ^ 14)) as [Small|Big].
      * assert (N1 : n = 1).
        { rewrite Q. replace ((zlen rows + 2 ^ 14 - 1) / 2 ^ 14) with 1; [lia|]. Z.to_euclidean_division_equations; lia. }
        pose proof (vget_Some_range _ _ _ Hx) as Rk. assert (k = 0) by lia. subst k.
        assert (F0 : bfirst x = 0) by (rewrite (K 0 x Hx); lia). rewrite F0 in *.
        eapply seen_zero; [| |apply sizes_u32; exact Ht|exact S]; rewrite ?zlen_map; lia.
      * destruct Sf as [Sf|Sf]; [lia|]. eapply (seen_same_blocks (e_pool e) (map zlen rows) (2 ^ 14) bs k x); try eassumption; rewrite ?zlen_map; try lia; try (apply sizes_u32; exact Ht).
    + intros off x Ho Hx. apply copy_faces_full; lia.
    + intros x y. unfold oriented. apply map_app.
    + intros x. apply oriented_total.
Qed.

Lemma q_adj_full e c seen rows : component_mesh (c_mesh c) -> coherent c -> pool_ok e ->
  adj_rows (c_mesh c) = Some rows -> rows_of (get_faces_around_face (c_mesh c)) (zlen (faces (c_mesh c))) rows ->
  total rows < 2 ^ 32 -> reads_ok (e_pool e) 1024 (map zlen rows) seen ->
  agrees (fun d => fst (q_adj e c seen d)) 4 (concat rows).
Proof.
  intros C Co P E Hr Ht Rd. pose proof (rows_len _ _ _ C Hr) as Hl. unfold agrees. fold (total rows).
  unfold q_adj. rewrite E. split.
  - rewrite count_indices_ok by (assumption || exact P). cbn [fst]. f_equal. lia.
  - replace (4 * total rows) with (total rows * 4) by lia. rewrite Z.mod_mul by lia. cbn [negb Z.eqb].
    rewrite fill_sizes_ok; [|exact Hl|exact P|].
    2:{ intros l Hc. destruct (proj2 Co l Hc) as (rows' & E' & ->). assert (rows' = rows) by congruence. subst. reflexivity. }
    cbn [fst].
    destruct (par_blocks_ok (e_pool e) (zlen rows) 1024) as (bs & n & b & Eb & Ch & Pb & Es & Ln & Hn & Hb & Hnb & Q & K); try lia; try exact P.
    eapply par_rows_ok with (content := fun x => x); try eassumption.
    + intros k x Hx. assert (Eb' : par_blocks (e_pool e) (zlen (map zlen rows)) 1024 = Some bs) by (rewrite zlen_map; exact Eb).
      pose proof (Rd bs k x Eb' Hx) as S. unfold pool_ok in *.
      eapply seen_same_blocks; try eassumption; rewrite ?zlen_map; try lia. apply sizes_u32; exact Ht.
    + intros off x Ho Hx. apply copy_adj_full.
    + reflexivity.
    + reflexivity.
Qed.

Lemma q_sizes_full pool nf rows cache : 1 <= zlen rows < 2 ^ 31 -> 0 <= pool < 2 ^ 32 - 1 -> nf = zlen rows ->
  (forall l, cache = Some l -> l = map zlen rows) ->
  agrees (fun d => fst (q_sizes pool nf cache rows d)) 4 (map zlen rows).
Proof.
  intros Hl Hp -> Hc. unfold agrees, q_sizes. rewrite zlen_map. split; [cbn [fst]; f_equal; lia|].
  replace (4 * zlen rows) with (zlen rows * 4) by lia. rewrite Z.ltb_irrefl, Z.mod_mul by lia. cbn [negb Z.eqb].
  rewrite fill_sizes_ok by assumption. cbn [fst]. apply fills_concat. cbn. rewrite app_nil_r. f_equal.
  rewrite firstn_all2; [reflexivity|]. rewrite map_length. unfold zlen. lia.
Qed.
