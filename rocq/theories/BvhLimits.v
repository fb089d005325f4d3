(** Beyond 2^23 faces the single-precision index arithmetic is wrong, and building the
    hierarchy writes outside the node array. *)
From Coq Require Import List ZArith Lia Permutation.
From Coq Require Import ZifyBool ZifyNat.
From Verif Require Import Vec VecLemmas BvhModel BvhArith BvhSpec BvhProofs BvhTraverse BvhBoxes.
Import ListNotations.
Open Scope Z_scope.

Lemma store_leaf_len t fb ord mem k mem' :
  store_leaf t fb ord mem k = Some mem' -> zlen mem' = zlen mem.
Proof.
  unfold store_leaf. destruct (vget ord k); cbn [obind]; [|discriminate].
  destruct (vget fb z); cbn [obind]; [|discriminate]. apply vset_len.
Qed.

Lemma store_leaf_out t fb ord mem k :
  zlen mem <= leaf_mem_index t k -> store_leaf t fb ord mem k = None.
Proof.
  intros Hbig. unfold store_leaf. destruct (vget ord k) as [f|]; cbn [obind]; [|reflexivity].
  destruct (vget fb f) as [b|]; cbn [obind]; [|reflexivity].
  revert Hbig. generalize (leaf_mem_index t k). intros i Hbig.
  destruct (vset mem i b) as [m'|] eqn:E; [|reflexivity]. apply vset_inv in E. lia.
Qed.

Lemma ofold_fail {S} (f : S -> Z -> option S) (bad : S -> Prop) k :
  (forall s, bad s -> f s k = None) ->
  (forall s a s', bad s -> f s a = Some s' -> bad s') ->
  forall l s, In k l -> bad s -> ofold f l s = None.
Proof.
  intros Hk Hp. induction l as [|a r IH]; intros s Hin Hb; [destruct Hin|].
  cbn [ofold]. destruct (f s a) as [s'|] eqn:E; cbn [obind]; [|reflexivity].
  destruct Hin as [-> | Hin].
  - rewrite (Hk _ Hb) in E. discriminate.
  - apply IH; [exact Hin|]. exact (Hp _ _ _ Hb E).
Qed.

Lemma store_leaves_fail t fb ord l mem k :
  In k l -> zlen mem <= leaf_mem_index t k ->
  ofold (store_leaf t fb ord) l mem = None.
Proof.
  apply (ofold_fail (store_leaf t fb ord) (fun mem => zlen mem <= leaf_mem_index t k)).
  - intros s Hs. apply store_leaf_out. exact Hs.
  - intros s a s' Hs E. rewrite (store_leaf_len _ _ _ _ _ _ E). exact Hs.
Qed.

Lemma overflow_index_b :
  ((0 <=? get_ostensibly_implicit_bvh_size (2 ^ 23 + 4)) &&
   (get_ostensibly_implicit_bvh_size (2 ^ 23 + 4) <=? leaf_mem_index (2 ^ 23 + 4) (2 ^ 23 + 3)))%bool = true.
Proof. vm_compute. reflexivity. Qed.

Lemma overflow_index n : n = 2 ^ 23 + 4 ->
  0 <= get_ostensibly_implicit_bvh_size n <= leaf_mem_index n (2 ^ 23 + 3).
Proof.
  intros ->. pose proof overflow_index_b as H. apply Bool.andb_true_iff in H. destruct H as [A B].
  apply Z.leb_le in A. apply Z.leb_le in B. split; assumption.
Qed.

Lemma build_overflow fb ord leafsched sched :
  zlen fb = 2 ^ 23 + 4 -> any_order leafsched (zlen fb) ->
  build_oibvh fb ord leafsched sched = None.
Proof.
  intros Hl Ha. pose proof (overflow_index _ Hl) as [B1 B2].
  assert (I : In (2 ^ 23 + 3) leafsched).
  { apply (Permutation_in _ (Permutation_sym Ha)), In_zrange. rewrite Hl. clear. lia. }
  revert I B2. generalize (2 ^ 23 + 3). intros k I B2. clear Hl Ha.
  unfold build_oibvh. cbv zeta.
  rewrite (store_leaves_fail _ _ _ _ _ k); [reflexivity | |].
  - exact I.
  - rewrite zlen_repeat by exact B1. exact B2.
Qed.

Lemma is_height_depth t h : okt t -> is_height t h -> h = depth t.
Proof.
  intros Ht (H0 & H1 & H2). pose proof (t_le_pow_depth t Ht) as T. pose proof (depth_bounds t Ht) as D.
  assert (h <= depth t) by (apply H2; lia).
  assert (depth t <= h); [|lia].
  unfold depth. rewrite <- (Z.log2_up_pow2 h) by lia. apply Z.log2_up_le_mono. exact H1.
Qed.

Lemma real_node_cnt t l j : okt t -> 0 <= l <= depth t ->
  (exists k, leaf_below t (depth t) l j k) <-> 0 <= j < cnt t l.
Proof.
  intros Ht Hl. assert (W : 0 < 2 ^ (depth t - l)) by (apply Z.pow_pos_nonneg; lia). split.
  - intros (k & Hk & E). unfold cnt.
    assert (k / 2 ^ (depth t - l) <= (t - 1) / 2 ^ (depth t - l)) by (apply Z.div_le_mono; lia).
    pose proof (Z.div_pos k (2 ^ (depth t - l)) ltac:(lia) W). lia.
  - intros Hj. exists (j * 2 ^ (depth t - l)). unfold leaf_below. split; [|apply Z.div_mul; lia].
    unfold cnt in Hj. pose proof (Z.mul_div_le (t - 1) (2 ^ (depth t - l)) W). nia.
Qed.

Lemma node_slot_base t l j : okt t -> 0 <= l <= depth t -> node_slot t l j = base t l + j.
Proof.
  intros Ht Hl. unfold node_slot. unfold okt in Ht.
  rewrite leaf_level_spec by lia. fold (depth t).
  rewrite rightmost_spec by (assumption || lia). rewrite leftmost_spec by lia.
  rewrite mem_index_spec by (assumption || lia). lia.
Qed.

Lemma node_slots_bijection t h :
  1 <= t <= 2 ^ 23 -> is_height t h ->
  (forall l j, real_node t h l j -> 0 <= node_slot t l j < get_ostensibly_implicit_bvh_size t) /\
  (forall l j l' j', real_node t h l j -> real_node t h l' j' ->
     node_slot t l j = node_slot t l' j' -> l = l' /\ j = j') /\
  (forall s, 0 <= s < get_ostensibly_implicit_bvh_size t ->
     exists l j, real_node t h l j /\ node_slot t l j = s).
Proof.
  intros Ht Hh. pose proof (is_height_depth t h Ht Hh) as ->.
  assert (R : forall l j, real_node t (depth t) l j <-> 0 <= l <= depth t /\ 0 <= j < cnt t l).
  { intros l j. unfold real_node. split.
    - intros [Hl Hk]. split; [exact Hl|]. apply real_node_cnt; assumption.
    - intros [Hl Hj]. split; [exact Hl|]. apply real_node_cnt; assumption. }
  split; [|split].
  - intros l j H. apply R in H. destruct H as [Hl Hj]. rewrite node_slot_base by assumption.
    apply slot_range; assumption.
  - intros l j l' j' H H'. apply R in H. apply R in H'. destruct H as [Hl Hj]. destruct H' as [Hl' Hj'].
    rewrite !node_slot_base by assumption. apply slot_inj; assumption.
  - intros s Hs. destruct (slot_surj t s Ht Hs) as (l & j & Hl & Hj & E).
    exists l, j. split; [apply R; split; assumption|]. rewrite node_slot_base by assumption. exact E.
Qed.

(** inner boxes *)
Lemma lub_smallest b (P : box -> Prop) (l : list box) :
  (forall x, P x <-> In x l) -> (forall x, In x l -> proper_box x) -> lub b P -> smallest_box b l.
Proof.
  intros E Hp [U L]. split.
  - intros a Ha. apply sub_contains, U, E. exact Ha.
  - intros c Hc. apply sub_contains, L. intros x Hx. apply E in Hx.
    apply contains_sub; [apply Hp; exact Hx | apply Hc; exact Hx].
Qed.

Lemma tree_boxes_smallest fb ord leafsched sched h :
  1 <= zlen fb <= 2 ^ 23 -> is_height (zlen fb) h ->
  (forall b, In b fb -> proper_box b) -> any_order ord (zlen fb) ->
  any_order leafsched (zlen fb) -> (forall l, any_order (sched l) (nodes_on_level (zlen fb) l)) ->
  exists mem, build_oibvh fb ord leafsched sched = Some mem /\
    zlen mem = get_ostensibly_implicit_bvh_size (zlen fb) /\
    forall l j, real_node (zlen fb) h l j ->
      exists b, vget mem (node_slot (zlen fb) l j) = Some b /\
        forall below, (forall x, In x below <->
             exists k f, leaf_below (zlen fb) h l j k /\ vget ord k = Some f /\ vget fb f = Some x) ->
          smallest_box b below.
Proof.
  intros Ht Hh Hp Ho Hl Hs. pose proof (is_height_depth _ h Ht Hh) as ->.
  destruct (build_ok fb ord Ht Ho Hp leafsched sched Hl) as (mem & E & Hm & Hok); [intros l _; apply Hs|].
  exists mem. split; [exact E|]. split; [exact Hm|].
  intros l j [Hlr Hk]. apply real_node_cnt in Hk; [|exact Ht | exact Hlr].
  destruct (Hok l Hlr j Hk) as (b & Eb & Lb). exists b.
  rewrite node_slot_base by assumption. split; [exact Eb|].
  intros below Hb. apply lub_smallest with (P := under fb ord l j); [| |exact Lb].
  - intros x. rewrite Hb. split.
    + intros (k & Hkb & ->). exists k, (lface ord k). split; [exact Hkb|].
      destruct Hkb as [Hk0 _]. split; [apply (lface_get fb ord Ho k Hk0) | apply (lbox_get fb ord Ho k Hk0)].
    + intros (k & f & Hkb & Ef & Ex). exists k. split; [exact Hkb|]. destruct Hkb as [Hk0 _].
      pose proof (lface_get fb ord Ho k Hk0) as E1. rewrite Ef in E1. injection E1 as ->.
      pose proof (lbox_get fb ord Ho k Hk0) as E2. rewrite Ex in E2. injection E2 as ->. reflexivity.
  - intros x Hx. apply Hb in Hx. destruct Hx as (k & f & _ & _ & Ex). apply Hp. eapply vget_In; exact Ex.
Qed.

(** the whole broad phase from vertex coordinates *)
Lemma face_boxes_hulls faces :
  (forall pts, In pts faces -> pts <> [] /\ forall p, In p pts -> finite_pt p) ->
  zlen (face_boxes 0 [] faces) = zlen faces /\
  forall i pts, vget faces i = Some pts ->
    exists b, vget (face_boxes 0 [] faces) i = Some b /\ proper_box b /\ hull_of_points b pts.
Proof.
  intros H. split; [unfold zlen; rewrite face_boxes_length; reflexivity|].
  intros i pts E. exists (face_box 0 default_box pts). split; [apply face_boxes_fresh; exact E|].
  destruct (H pts (vget_In _ _ _ E)) as [Hne Hf]. apply face_box_hull; assumption.
Qed.

Lemma overlap_contains a b b' : contains b' b -> boxes_overlap a b -> boxes_overlap a b'.
Proof. intros H (p & Ha & Hb). exists p. auto. Qed.

Lemma perturbation_conservative sboxes cfaces eps d m f g bf pts :
  0 < eps -> bounded_by eps d ->
  vget sboxes f = Some bf -> vget cfaces g = Some pts ->
  pts <> [] -> (forall p, In p pts -> finite_pt p) ->
  (forall p, In p pts -> finite_pt (perturb_pt d p)) ->
  exact_candidates sboxes (face_boxes eps [] cfaces) m ->
  boxes_overlap bf (face_box 0 default_box (map (perturb_pt d) pts)) ->
  In (g + zlen sboxes) (m f) /\ In f (m (g + zlen sboxes)).
Proof.
  intros He Hd Ef Eg Hne Hf Hf' [Hs [Hc _]] Hov.
  pose proof (vget_Some_range _ _ _ Ef) as Rf. pose proof (vget_Some_range _ _ _ Eg) as Rg.
  assert (Hov' : boxes_overlap bf (face_box eps default_box pts)).
  { eapply overlap_contains; [|exact Hov]. apply perturbed_face_within; assumption. }
  pose proof (face_boxes_fresh eps cfaces g pts Eg) as Eb.
  assert (Rg' : 0 <= g < zlen (face_boxes eps [] cfaces)) by (eapply vget_Some_range; exact Eb).
  split.
  - apply (proj2 (Hs f Rf)). exists g, bf, (face_box eps default_box pts). auto.
  - apply (proj2 (Hc g Rg')). exists bf, (face_box eps default_box pts). auto.
Qed.
