(** Proofs about the construction and the traversal of the hierarchy. *)
From Coq Require Import List ZArith Lia Bool Permutation.
From Coq Require Import ZifyBool.
From Verif Require Import Vec VecLemmas BvhModel BvhFloat BvhArith BvhSpec.
Import ListNotations.
Open Scope Z_scope.

(** ** Boxes *)

Definition vle (a b : vec3) : Prop := vx a <= vx b /\ vy a <= vy b /\ vz a <= vz b.
(** [sub a b]: [a] is below [b] in the lattice of (possibly inside-out) boxes *)
Definition sub (a b : box) : Prop := vle (bmin b) (bmin a) /\ vle (bmax a) (bmax b).

Lemma sub_refl a : sub a a.
Proof. unfold sub, vle; lia. Qed.
Lemma sub_trans a b c : sub a b -> sub b c -> sub a c.
Proof. unfold sub, vle; lia. Qed.
Lemma sub_expand_l a b : sub a (expand_box a b).
Proof. unfold sub, vle, expand_box, compwise_min, compwise_max; cbn; lia. Qed.
Lemma sub_expand_r a b : sub b (expand_box a b).
Proof. unfold sub, vle, expand_box, compwise_min, compwise_max; cbn; lia. Qed.
Lemma expand_lub a b c : sub a c -> sub b c -> sub (expand_box a b) c.
Proof. unfold sub, vle, expand_box, compwise_min, compwise_max; cbn; lia. Qed.

Lemma intersect_mono a b a' b' :
  sub a a' -> sub b b' -> intersect_bounding_boxes a b = true -> intersect_bounding_boxes a' b' = true.
Proof. unfold sub, vle, intersect_bounding_boxes; lia. Qed.

(** [b] is the least upper bound of the boxes satisfying [P] *)
Definition lub (b : box) (P : box -> Prop) : Prop :=
  (forall x, P x -> sub x b) /\ (forall c, (forall x, P x -> sub x c) -> sub b c).

Lemma proper_default b : proper_box b -> sub default_box b.
Proof.
  unfold proper_box, sub, vle, default_box; cbn [vx vy vz bmin bmax].
  intros H. lia.
Qed.

(** ** The construction *)

(** ** Implicit indices *)

Definition node_idx (l j : Z) : Z := 2 ^ l - 1 + j.
Lemma left_child_idx l j : 0 <= l -> node_idx l j * 2 + 1 = node_idx (l + 1) (2 * j).
Proof. intros H. unfold node_idx. rewrite Z.pow_add_r by lia. lia. Qed.
Lemma right_child_idx l j : 0 <= l -> node_idx l j * 2 + 2 = node_idx (l + 1) (2 * j + 1).
Proof. intros H. unfold node_idx. rewrite Z.pow_add_r by lia. lia. Qed.

Section Build.
Variables (fboxes : list box) (order : list Z).
Let t := zlen fboxes.
Hypothesis Ht : okt t.
Hypothesis Horder : Permutation order (zrange t).
Hypothesis Hproper : forall b, In b fboxes -> proper_box b.

Definition lface (k : Z) : Z := nth (Z.to_nat k) order 0.
Definition lbox (k : Z) : box := nth (Z.to_nat (lface k)) fboxes default_box.

Lemma order_len : zlen order = t.
Proof.
  unfold zlen. rewrite (Permutation_length Horder), length_zrange. unfold t, zlen. lia.
Qed.

Lemma lface_get k : 0 <= k < t -> vget order k = Some (lface k).
Proof.
  intros H. rewrite <- order_len in H. destruct (vget_range_Some order k H) as [x E].
  rewrite E. f_equal. unfold lface. unfold vget in E. destruct (k <? 0); [discriminate|].
  symmetry. apply nth_error_nth. exact E.
Qed.

Lemma lface_range k : 0 <= k < t -> 0 <= lface k < t.
Proof.
  intros H. apply lface_get, vget_In in H. apply (Permutation_in _ Horder) in H.
  apply In_zrange in H. exact H.
Qed.

Lemma lbox_get k : 0 <= k < t -> vget fboxes (lface k) = Some (lbox k).
Proof.
  intros H. apply lface_range in H. unfold t in H. destruct (vget_range_Some _ _ H) as [x E].
  rewrite E. f_equal. unfold lbox. unfold vget in E. destruct (lface k <? 0); [discriminate|].
  symmetry. apply nth_error_nth. exact E.
Qed.

Lemma lbox_proper k : 0 <= k < t -> proper_box (lbox k).
Proof. intros H. apply lbox_get, vget_In in H. auto. Qed.

(** leaf boxes below node (l, j) *)
Definition under (l j : Z) (x : box) : Prop :=
  exists k, leaf_below t (depth t) l j k /\ x = lbox k.

Definition slot_ok (mem : list box) (l j : Z) : Prop :=
  exists b, vget mem (base t l + j) = Some b /\ lub b (under l j).

Definition msize (mem : list box) : Prop := zlen mem = get_ostensibly_implicit_bvh_size t.

Lemma leaf_mem_index_spec i : 0 <= i < t -> leaf_mem_index t i = base t (depth t) + i.
Proof.
  intros H. pose proof (depth_bounds t Ht) as D. unfold leaf_mem_index.
  unfold okt in Ht. rewrite leaf_level_spec by lia. fold (depth t).
  rewrite rightmost_spec by (unfold okt; lia). rewrite leftmost_spec by lia.
  rewrite mem_index_spec by (unfold okt; lia). lia.
Qed.

Lemma under_leaf k x : 0 <= k < t -> under (depth t) k x <-> x = lbox k.
Proof.
  intros H. unfold under, leaf_below. rewrite Z.sub_diag. change (2 ^ 0) with 1.
  split.
  - intros (k' & (Hk & E) & ->). rewrite Z.div_1_r in E. subst. reflexivity.
  - intros ->. exists k. rewrite Z.div_1_r. auto.
Qed.

Lemma store_leaf_ok mem k :
  0 <= k < t -> msize mem ->
  exists mem', store_leaf t fboxes order mem k = Some mem' /\ msize mem' /\
    slot_ok mem' (depth t) k /\
    (forall s, s <> base t (depth t) + k -> vget mem' s = vget mem s).
Proof.
  intros Hk Hm. unfold store_leaf. rewrite lface_get by exact Hk. cbn [obind].
  rewrite lbox_get by exact Hk. cbn [obind].
  rewrite leaf_mem_index_spec by exact Hk.
  pose proof (depth_bounds t Ht) as D.
  pose proof (slot_range t (depth t) k Ht ltac:(lia) ltac:(rewrite cnt_leaf; lia)) as R.
  unfold msize in Hm.
  pose proof (vset_Some mem (base t (depth t) + k) (lbox k) ltac:(lia)) as E.
  eexists; split; [exact E|]. split; [unfold msize; rewrite (vset_len _ _ _ _ E); exact Hm|].
  split.
  - exists (lbox k). split; [eapply vget_vset_eq; exact E|].
    split.
    + intros x Hx. apply under_leaf in Hx; [subst; apply sub_refl | exact Hk].
    + intros c Hc. apply Hc. apply under_leaf; [exact Hk | reflexivity].
  - intros s Hs. eapply vget_vset_neq; [exact E | lia].
Qed.

Lemma store_leaves_ok l mem done :
  (forall k, In k l -> 0 <= k < t) -> (forall k, In k done -> 0 <= k < t) -> msize mem ->
  (forall k, In k done -> slot_ok mem (depth t) k) ->
  exists mem', ofold (store_leaf t fboxes order) l mem = Some mem' /\ msize mem' /\
    (forall k, In k done \/ In k l -> slot_ok mem' (depth t) k).
Proof.
  revert mem done. induction l as [|k r IH]; intros mem done Hl Hd Hm Hok.
  - exists mem. cbn. split; [reflexivity|]. split; [exact Hm|]. intros k [H | []]. auto.
  - destruct (store_leaf_ok mem k (Hl k (or_introl eq_refl)) Hm) as (m1 & E1 & Hm1 & Hk1 & F1).
    cbn [ofold]. rewrite E1. cbn [obind].
    destruct (IH m1 (k :: done)) as (m2 & E2 & Hm2 & Hok2).
    + intros k' H. apply Hl. right. exact H.
    + intros k' [<- | H]; [apply Hl; left; reflexivity | auto].
    + exact Hm1.
    + intros k' [<- | H]; [exact Hk1|].
      destruct (Z.eq_dec k' k) as [-> | N]; [exact Hk1|].
      destruct (Hok k' H) as (b & Eb & Lb). exists b. split; [|exact Lb].
      rewrite F1; [exact Eb | lia].
    + exists m2. split; [exact E2|]. split; [exact Hm2|].
      intros k' H. apply Hok2. cbn in *. tauto.
Qed.

(** children *)
Lemma under_children l j x :
  0 <= l < depth t ->
  under l j x <-> under (l + 1) (2 * j) x \/ under (l + 1) (2 * j + 1) x.
Proof.
  intros Hl. unfold under, leaf_below.
  assert (A : forall k, k / 2 ^ (depth t - l) = k / 2 ^ (depth t - (l + 1)) / 2).
  { intros k. replace (depth t - l) with (depth t - (l + 1) + 1) by lia.
    rewrite Z.pow_add_r by lia. rewrite <- Z.div_div; [reflexivity | apply Z.pow_nonzero; lia | lia]. }
  split.
  - intros (k & (Hk & E) & ->). rewrite A in E.
    set (q := k / 2 ^ (depth t - (l + 1))) in *.
    pose proof (Z.div_mod q 2 ltac:(lia)). pose proof (Z.mod_pos_bound q 2 ltac:(lia)).
    destruct (Z.eq_dec q (2 * j)) as [E0 | N0]; [left | right]; exists k; repeat split; try lia; auto.
  - intros [(k & (Hk & E) & ->) | (k & (Hk & E) & ->)]; exists k; (repeat split; try lia);
      rewrite A, E; [rewrite Z.mul_comm; apply Z.div_mul; lia|].
    replace (2 * j + 1) with (1 + j * 2) by ring. rewrite Z.div_add by lia. reflexivity.
Qed.

Lemma not_real_empty l j x : 0 <= l <= depth t -> cnt t l <= j -> ~ under l j x.
Proof. clear Hproper.
  intros Hl Hj (k & (Hk & E) & _). unfold cnt in Hj.
  assert (k / 2 ^ (depth t - l) <= (t - 1) / 2 ^ (depth t - l)).
  { apply Z.div_le_mono; [apply Z.pow_pos_nonneg; lia | lia]. }
  lia.
Qed.

Lemma real_nonempty l j : 0 <= l <= depth t -> 0 <= j < cnt t l -> exists x, under l j x.
Proof.
  intros Hl Hj. unfold under.
  assert (W : 0 < 2 ^ (depth t - l)) by (apply Z.pow_pos_nonneg; lia).
  exists (lbox (j * 2 ^ (depth t - l))), (j * 2 ^ (depth t - l)). split; [|reflexivity].
  split; [|apply Z.div_mul; lia].
  unfold cnt in Hj.
  assert (j <= (t - 1) / 2 ^ (depth t - l)) by lia.
  assert (j * 2 ^ (depth t - l) <= t - 1).
  { pose proof (Z.mul_div_le (t - 1) (2 ^ (depth t - l)) W). nia. }
  nia.
Qed.

Lemma under_proper l j x : under l j x -> sub default_box x.
Proof. intros (k & (Hk & _) & ->). apply proper_default, lbox_proper. exact Hk. Qed.

Lemma lub_default l j b : 0 <= l <= depth t -> 0 <= j < cnt t l -> lub b (under l j) -> sub default_box b.
Proof.
  intros Hl Hj [H _]. destruct (real_nonempty l j Hl Hj) as [x Hx].
  eapply sub_trans; [eapply under_proper; exact Hx | auto].
Qed.

Lemma lub_join a b (P Q R : box -> Prop) :
  lub a P -> lub b Q -> sub default_box a ->
  (forall x, R x <-> P x \/ Q x) -> lub (expand_box (expand_box default_box a) b) R.
Proof.
  intros [Pa La] [Qb Lb] D E. split.
  - intros x Hx. apply E in Hx. destruct Hx as [Hx | Hx].
    + eapply sub_trans; [apply Pa; exact Hx|]. eapply sub_trans; [apply sub_expand_r | apply sub_expand_l].
    + eapply sub_trans; [apply Qb; exact Hx | apply sub_expand_r].
  - intros c Hc. apply expand_lub; [apply expand_lub|].
    + eapply sub_trans; [exact D|]. apply La. intros x Hx. apply Hc, E. auto.
    + apply La. intros x Hx. apply Hc, E. auto.
    + apply Lb. intros x Hx. apply Hc, E. auto.
Qed.

Lemma lub_single a (P R : box -> Prop) :
  lub a P -> sub default_box a -> (forall x, R x <-> P x) -> lub (expand_box default_box a) R.
Proof.
  intros [Pa La] D E. split.
  - intros x Hx. eapply sub_trans; [apply Pa, E; exact Hx | apply sub_expand_r].
  - intros c Hc. apply expand_lub.
    + eapply sub_trans; [exact D|]. apply La. intros x Hx. apply Hc, E. exact Hx.
    + apply La. intros x Hx. apply Hc, E. exact Hx.
Qed.

Lemma child_pos_range l j :
  0 <= l < depth t -> 0 <= j < cnt t l -> 0 <= 2 * j < cnt t (l + 1).
Proof.
  intros Hl Hj. rewrite (cnt_child t l Ht Hl) in Hj.
  pose proof (Z.mul_div_le (cnt t (l + 1) + 1) 2 ltac:(lia)). lia.
Qed.

(** unfolded form of [build_node] *)
Definition node_box (l j : Z) (mem : list box) : option box :=
  let pen := l =? depth t - 1 in
  let rex := 2 * j + 1 <? cnt t (l + 1) in
  if pen then
    do lf <- vget order (2 * j);
    do lb <- vget fboxes lf;
    let b := expand_box default_box lb in
    if rex then
      do rf <- vget order (2 * j + 1);
      do rb <- vget fboxes rf;
      Some (expand_box b rb)
    else Some b
  else
    do lb <- vget mem (base t (l + 1) + 2 * j);
    let b := expand_box default_box lb in
    if rex then
      do rb <- vget mem (base t (l + 1) + (2 * j + 1));
      Some (expand_box b rb)
    else Some b.

Lemma build_node_unfold l mem j :
  0 <= l < depth t ->
  build_node t fboxes order l mem j = obind (node_box l j mem) (vset mem (base t l + j)).
Proof.
  intros Hl. pose proof (depth_bounds t Ht) as D. unfold build_node, node_box.
  rewrite leaf_level_spec by (unfold okt in Ht; lia). fold (depth t).
  rewrite !rightmost_spec by (exact Ht || lia).
  rewrite !leftmost_spec by lia.
  rewrite !mem_index_spec by (exact Ht || lia).
  assert (P : 2 ^ (l + 1) = 2 * 2 ^ l) by (rewrite Z.pow_add_r by lia; lia).
  replace ((2 ^ l - 1 + j) * 2 + 1 - (2 ^ (l + 1) - 1)) with (2 * j) by lia.
  replace ((2 ^ l - 1 + j) * 2 + 2 - (2 ^ (l + 1) - 1)) with (2 * j + 1) by lia.
  replace (2 ^ l - 1 + j - (2 ^ l - 1)) with j by lia.
  replace ((2 ^ l - 1 + j) * 2 + 2 <=? 2 ^ (l + 1) - 1 + cnt t (l + 1) - 1)
    with (2 * j + 1 <? cnt t (l + 1)).
  2:{ destruct (Z.ltb_spec (2 * j + 1) (cnt t (l + 1)));
      destruct (Z.leb_spec ((2 ^ l - 1 + j) * 2 + 2) (2 ^ (l + 1) - 1 + cnt t (l + 1) - 1)); lia. }
  reflexivity.
Qed.

Definition level_ok (mem : list box) (l : Z) : Prop := forall j, 0 <= j < cnt t l -> slot_ok mem l j.

Lemma build_node_ok l mem j :
  0 <= l < depth t -> 0 <= j < cnt t l -> msize mem -> level_ok mem (l + 1) ->
  exists mem', build_node t fboxes order l mem j = Some mem' /\ msize mem' /\
    slot_ok mem' l j /\ (forall s, s <> base t l + j -> vget mem' s = vget mem s).
Proof.
  intros Hl Hj Hm Hc. rewrite build_node_unfold by exact Hl.
  pose proof (child_pos_range l j Hl Hj) as Hlc.
  assert (exists b, node_box l j mem = Some b /\ lub b (under l j)) as (b & Eb & Lb).
  { unfold node_box. destruct (Z.eqb_spec l (depth t - 1)) as [El | Nl].
    - assert (E1 : l + 1 = depth t) by lia. rewrite E1, cnt_leaf in *.
      rewrite lface_get by lia. cbn [obind]. rewrite lbox_get by lia. cbn [obind].
      assert (LL : lub (lbox (2 * j)) (under (l + 1) (2 * j))).
      { rewrite E1. split.
        - intros x Hx. apply under_leaf in Hx; [subst; apply sub_refl | lia].
        - intros c H. apply H. apply under_leaf; [lia | reflexivity]. }
      destruct (Z.ltb_spec (2 * j + 1) t) as [Hr | Hr].
      + rewrite lface_get by lia. cbn [obind]. rewrite lbox_get by lia. cbn [obind].
        assert (LR : lub (lbox (2 * j + 1)) (under (l + 1) (2 * j + 1))).
        { rewrite E1. split.
          - intros x Hx. apply under_leaf in Hx; [subst; apply sub_refl | lia].
          - intros c H. apply H. apply under_leaf; [lia | reflexivity]. }
        eexists; split; [reflexivity|]. eapply lub_join; [exact LL | exact LR | |].
        * apply proper_default, lbox_proper. lia.
        * intros x. apply under_children. lia.
      + eexists; split; [reflexivity|]. eapply lub_single; [exact LL | |].
        * apply proper_default, lbox_proper. lia.
        * intros x. rewrite under_children by lia. split; [|auto].
          intros [H | H]; [exact H|]. exfalso.
          eapply not_real_empty; [| |exact H]; [lia|]. rewrite E1, cnt_leaf. lia.
    - destruct (Hc (2 * j) Hlc) as (lb & El & LL). rewrite El. cbn [obind].
      assert (DL : sub default_box lb) by (eapply lub_default; [| |exact LL]; lia).
      destruct (Z.ltb_spec (2 * j + 1) (cnt t (l + 1))) as [Hr | Hr].
      + destruct (Hc (2 * j + 1) ltac:(lia)) as (rb & Er & LR). rewrite Er. cbn [obind].
        eexists; split; [reflexivity|]. eapply lub_join; [exact LL | exact LR | exact DL|].
        intros x. apply under_children. lia.
      + eexists; split; [reflexivity|]. eapply lub_single; [exact LL | exact DL|].
        intros x. rewrite under_children by lia. split; [|auto].
        intros [H | H]; [exact H|]. exfalso.
        eapply not_real_empty; [| |exact H]; lia. }
  rewrite Eb. cbn [obind].
  pose proof (slot_range t l j Ht ltac:(lia) Hj) as R. unfold msize in Hm.
  pose proof (vset_Some mem (base t l + j) b ltac:(lia)) as E.
  eexists; split; [exact E|]. split; [unfold msize; rewrite (vset_len _ _ _ _ E); exact Hm|].
  split.
  - exists b. split; [eapply vget_vset_eq; exact E | exact Lb].
  - intros s Hs. eapply vget_vset_neq; [exact E | lia].
Qed.

Lemma build_level_ok l js mem done :
  0 <= l < depth t ->
  (forall j, In j js -> 0 <= j < cnt t l) -> (forall j, In j done -> 0 <= j < cnt t l) ->
  msize mem -> (forall l', l < l' <= depth t -> level_ok mem l') ->
  (forall j, In j done -> slot_ok mem l j) ->
  exists mem', ofold (build_node t fboxes order l) js mem = Some mem' /\ msize mem' /\
    (forall l', l < l' <= depth t -> level_ok mem' l') /\
    (forall j, In j done \/ In j js -> slot_ok mem' l j).
Proof.
  intros Hl. revert mem done. induction js as [|j r IH]; intros mem done Hjs Hd Hm Hok Hdone.
  - exists mem. cbn. split; [reflexivity|]. split; [exact Hm|]. split; [exact Hok|].
    intros j [H | []]. auto.
  - pose proof (Hjs j (or_introl eq_refl)) as Hj.
    destruct (build_node_ok l mem j Hl Hj Hm (Hok (l + 1) ltac:(lia))) as (m1 & E1 & Hm1 & Hj1 & F1).
    cbn [ofold]. rewrite E1. cbn [obind].
    destruct (IH m1 (j :: done)) as (m2 & E2 & Hm2 & Hok2 & Hd2).
    + intros k H. apply Hjs. right. exact H.
    + intros k [<- | H]; [exact Hj | auto].
    + exact Hm1.
    + intros l' Hl' j' Hj'. destruct (Hok l' Hl' j' Hj') as (b & Eb & Lb).
      exists b. split; [|exact Lb]. rewrite F1; [exact Eb|].
      intros E. apply slot_inj in E; [lia | exact Ht | lia | exact Hj' | lia | exact Hj].
    + intros k [<- | H]; [exact Hj1|].
      destruct (Z.eq_dec k j) as [-> | N]; [exact Hj1|].
      destruct (Hdone k H) as (b & Eb & Lb). exists b. split; [|exact Lb].
      rewrite F1; [exact Eb | lia].
    + exists m2. split; [exact E2|]. split; [exact Hm2|]. split; [exact Hok2|].
      intros k H. apply Hd2. cbn in *. tauto.
Qed.

Lemma build_levels_ok sched n mem :
  Z.of_nat n <= depth t ->
  (forall l, 0 <= l < depth t -> forall j, In j (sched l) <-> 0 <= j < cnt t l) ->
  msize mem -> (forall l', Z.of_nat n <= l' <= depth t -> level_ok mem l') ->
  exists mem', build_levels t fboxes order sched n mem = Some mem' /\ msize mem' /\
    (forall l', 0 <= l' <= depth t -> level_ok mem' l').
Proof.
  intros Hn Hs. revert mem Hn. induction n as [|n IH]; intros mem Hn Hm Hok.
  - exists mem. cbn. split; [reflexivity|]. split; [exact Hm|]. intros l' H. apply Hok. lia.
  - cbn [build_levels].
    destruct (build_level_ok (Z.of_nat n) (sched (Z.of_nat n)) mem []) as (m1 & E1 & Hm1 & Ho1 & Hd1).
    + lia.
    + intros j H. apply Hs; [lia | exact H].
    + intros j [].
    + exact Hm.
    + intros l' H. apply Hok. lia.
    + intros j [].
    + rewrite E1. cbn [obind]. apply IH; [lia | exact Hm1 |].
      intros l' H. destruct (Z.eq_dec l' (Z.of_nat n)) as [-> | N].
      * intros j Hj. apply Hd1. right. apply Hs; [lia | exact Hj].
      * apply Ho1. lia.
Qed.

Lemma nodes_on_level_spec l : 0 <= l <= depth t -> nodes_on_level t l = cnt t l.
Proof.
  intros Hl. unfold nodes_on_level. rewrite leaf_level_spec by (unfold okt in Ht; lia).
  fold (depth t). rewrite rightmost_spec by (exact Ht || lia). rewrite leftmost_spec by lia. lia.
Qed.

Theorem build_ok leafsched sched :
  any_order leafsched t ->
  (forall l, 0 <= l < depth t -> any_order (sched l) (nodes_on_level t l)) ->
  exists mem, build_oibvh fboxes order leafsched sched = Some mem /\ msize mem /\
    (forall l, 0 <= l <= depth t -> level_ok mem l).
Proof.
  intros Hleaf Hs. pose proof (depth_bounds t Ht) as D. unfold build_oibvh. fold t.
  rewrite leaf_level_spec by (unfold okt in Ht; lia). fold (depth t).
  set (mem0 := repeat default_box _).
  assert (M0 : msize mem0).
  { unfold msize, mem0. apply zlen_repeat. unfold okt in Ht. pose proof (size_pos t ltac:(lia)). lia. }
  destruct (store_leaves_ok leafsched mem0 []) as (m1 & E1 & Hm1 & Ho1).
  - intros k H. apply (Permutation_in _ Hleaf), In_zrange in H. exact H.
  - intros k [].
  - exact M0.
  - intros k [].
  - rewrite E1. cbn [obind].
    apply build_levels_ok; [lia | | exact Hm1 |].
    + intros l Hl j. rewrite <- (nodes_on_level_spec l) by lia. rewrite <- In_zrange.
      specialize (Hs l Hl). split; apply Permutation_in; [exact Hs | apply Permutation_sym, Hs].
    + intros l' Hl'. assert (l' = depth t) as -> by lia. intros k Hk. rewrite cnt_leaf in Hk.
      apply Ho1. right. apply (Permutation_in _ (Permutation_sym Hleaf)), In_zrange. exact Hk.
Qed.

(** ** Nodes as seen by the traversal *)

Definition wf_node (l j : Z) : Prop := 0 <= l <= depth t /\ 0 <= j < cnt t l.

Lemma node_level l j : wf_node l j -> get_level_from_implicit_idx (node_idx l j) = l.
Proof.
  intros [Hl Hj]. apply level_of_node; [lia|]. pose proof (cnt_bounds t l Ht Hl). lia.
Qed.

Lemma node_info_ok mem l j :
  (forall l, 0 <= l <= depth t -> level_ok mem l) -> wf_node l j ->
  exists b, node_info t mem order (node_idx l j)
            = Some (b, if l =? depth t then Some (lface j) else None) /\ lub b (under l j).
Proof. clear Hproper.
  intros Hok Hw. unfold node_info. rewrite (node_level l j Hw).
  rewrite leaf_level_spec by (unfold okt in Ht; lia). fold (depth t).
  destruct Hw as [Hl Hj].
  rewrite rightmost_spec by (exact Ht || lia). rewrite leftmost_spec by lia.
  rewrite mem_index_spec by (exact Ht || lia). unfold node_idx.
  replace (2 ^ l - 1 + j - (2 ^ l - 1)) with j by lia.
  destruct (Hok l Hl j Hj) as (b & Eb & Lb). rewrite Eb. cbn [obind].
  exists b. split; [|exact Lb].
  destruct (Z.eqb_spec l (depth t)) as [-> | N]; [|reflexivity].
  rewrite cnt_leaf in Hj. rewrite lface_get by lia. reflexivity.
Qed.

Lemma right_child_spec l j :
  wf_node l j -> l < depth t -> right_child_is_real t (node_idx l j) = (2 * j + 1 <? cnt t (l + 1)).
Proof. clear Hproper.
  intros Hw Hd. unfold right_child_is_real. rewrite (node_level l j Hw).
  rewrite leaf_level_spec by (unfold okt in Ht; lia). fold (depth t).
  destruct Hw as [Hl Hj].
  rewrite rightmost_spec by (exact Ht || lia). unfold node_idx.
  assert (P : 2 ^ (l + 1) = 2 * 2 ^ l) by (rewrite Z.pow_add_r by lia; lia).
  destruct (Z.ltb_spec (2 * j + 1) (cnt t (l + 1))); lia.
Qed.


Lemma wf_left l j : wf_node l j -> l < depth t -> wf_node (l + 1) (2 * j).
Proof. intros [Hl Hj] H. split; [lia|]. apply child_pos_range; lia. Qed.

(** leaves below a node, as a list *)
Definition belowb (l j k : Z) : bool := k / 2 ^ (depth t - l) =? j.
Definition leaves (l j : Z) : list Z := filter (belowb l j) (zrange t).

Lemma In_leaves l j k : In k (leaves l j) <-> leaf_below t (depth t) l j k.
Proof.
  unfold leaves, leaf_below, belowb. rewrite filter_In, In_zrange, Z.eqb_eq. reflexivity.
Qed.

Lemma filter_split {A} (p q r : A -> bool) l :
  (forall x, p x = q x || r x) -> (forall x, q x = true -> r x = true -> False) ->
  Permutation (filter p l) (filter q l ++ filter r l).
Proof.
  intros E D. induction l as [|a l IH]; cbn; [constructor|].
  rewrite E. destruct (q a) eqn:Q; destruct (r a) eqn:R; cbn.
  - exfalso. eauto.
  - constructor. exact IH.
  - eapply Permutation_trans; [constructor; exact IH | apply Permutation_middle].
  - exact IH.
Qed.

Lemma leaves_split l j :
  0 <= l < depth t ->
  Permutation (leaves l j) (leaves (l + 1) (2 * j) ++ leaves (l + 1) (2 * j + 1)).
Proof.
  intros Hl. apply filter_split.
  - intros k. unfold belowb.
    replace (depth t - l) with (depth t - (l + 1) + 1) by lia.
    rewrite Z.pow_add_r by lia. rewrite <- Z.div_div; [| apply Z.pow_nonzero; lia | lia].
    change (2 ^ 1) with 2. set (q := k / 2 ^ (depth t - (l + 1))).
    pose proof (Z.div_mod q 2 ltac:(lia)). pose proof (Z.mod_pos_bound q 2 ltac:(lia)). lia.
  - intros k. unfold belowb. lia.
Qed.

Lemma leaves_not_real l j : 0 <= l <= depth t -> cnt t l <= j -> leaves l j = [].
Proof. clear Hproper.
  intros Hl Hj. destruct (leaves l j) as [|k r] eqn:E; [reflexivity|]. exfalso.
  assert (Hk : In k (leaves l j)) by (rewrite E; left; reflexivity).
  apply In_leaves in Hk. eapply not_real_empty with (x := lbox k); eauto. exists k. auto.
Qed.

Lemma leaves_leaf j : 0 <= j < t -> leaves (depth t) j = [j].
Proof. clear Hproper.
  intros Hj. unfold leaves, belowb.
  assert (E : forall l, filter (fun k => k / 2 ^ (depth t - depth t) =? j) l = filter (fun k => k =? j) l).
  { intros l. apply filter_ext. intros k. rewrite Z.sub_diag. change (2 ^ 0) with 1. rewrite Z.div_1_r. reflexivity. }
  rewrite E.
  assert (G : forall l, NoDup l -> In j l -> filter (fun k => k =? j) l = [j]).
  { induction l as [|a r IH]; intros N I; [destruct I|]. inversion N as [|? ? Na Nr]; subst. cbn.
    destruct (Z.eqb_spec a j) as [-> | Ne].
    - f_equal. assert (forall l, ~ In j l -> filter (fun k => k =? j) l = []) as Q.
      { induction l as [|b s IHs]; intros H; [reflexivity|]. cbn. destruct (Z.eqb_spec b j); [exfalso; apply H; left; auto|].
        apply IHs. intros H'. apply H. right. exact H'. }
      apply Q. exact Na.
    - destruct I as [I | I]; [congruence|]. apply IH; assumption. }
  apply G; [apply NoDup_zrange | apply In_zrange; lia].
Qed.

Lemma leaves_root : leaves 0 0 = zrange t.
Proof.
  unfold leaves, belowb. rewrite Z.sub_0_r.
  pose proof (t_le_pow_depth t Ht) as P.
  assert (G : forall l, (forall k, In k l -> 0 <= k < t) -> filter (fun k => k / 2 ^ depth t =? 0) l = l).
  { induction l as [|a r IH]; intros H; [reflexivity|]. cbn.
    pose proof (H a (or_introl eq_refl)). rewrite Z.div_small by lia. cbn. f_equal. apply IH.
    intros k Hk. apply H. right. exact Hk. }
  apply G. intros k. apply In_zrange.
Qed.

End Build.
