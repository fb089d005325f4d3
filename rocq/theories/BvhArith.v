(** Arithmetic of the implicit tree: bit smearing, sizes, memory slots. *)
From Coq Require Import List ZArith Lia Bool.
From Coq Require Import ZifyBool.
From Verif Require Import Vec BvhModel BvhFloat.
Import ListNotations.
Open Scope Z_scope.

(** ** Bit smearing *)

(** [smeared n y z]: bit k of z is the "or" of bits k..k+n-1 of y. *)
Definition smeared (n y z : Z) : Prop :=
  0 <= z /\ forall k, 0 <= k ->
  (Z.testbit z k = true <-> exists i, 0 <= i < n /\ Z.testbit y (k + i) = true).

Lemma smeared_1 y : 0 <= y -> smeared 1 y y.
Proof.
  intros Hy. split; [exact Hy|]. intros k Hk. split.
  - intros H. exists 0. rewrite Z.add_0_r. split; [lia | exact H].
  - intros (i & Hi & H). replace i with 0 in H by lia. rewrite Z.add_0_r in H. exact H.
Qed.

Lemma smeared_step n s y z :
  0 <= s <= n -> smeared n y z -> smeared (n + s) y (Z.lor z (Z.shiftr z s)).
Proof.
  intros Hs [Hz H]. split.
  { apply Z.lor_nonneg. split; [exact Hz | apply Z.shiftr_nonneg; exact Hz]. }
  intros k Hk. rewrite Z.lor_spec, Z.shiftr_spec by lia.
  rewrite orb_true_iff, (H k) by lia. rewrite (H (k + s)) by lia.
  split.
  - intros [(i & Hi & E) | (i & Hi & E)].
    + exists i. split; [lia | exact E].
    + exists (s + i). split; [lia|]. replace (k + (s + i)) with (k + s + i) by ring. exact E.
  - intros (i & Hi & E). destruct (Z_lt_le_dec i n) as [A | A].
    + left. exists i. split; [lia | exact E].
    + right. exists (i - s). split; [lia|]. replace (k + s + (i - s)) with (k + i) by ring. exact E.
Qed.

Lemma smeared_32_ones y z :
  0 < y < 2 ^ 32 -> smeared 32 y z -> z = 2 ^ (Z.log2 y + 1) - 1.
Proof.
  intros Hy [Hz H].
  assert (L32 : Z.log2 y < 32) by (apply Z.log2_lt_pow2; lia).
  assert (L0 : 0 <= Z.log2 y) by apply Z.log2_nonneg.
  replace (2 ^ (Z.log2 y + 1) - 1) with (Z.ones (Z.log2 y + 1)) by (rewrite Z.ones_equiv; lia).
  apply Z.bits_inj'. intros k Hk.
  destruct (Z_lt_le_dec k (Z.log2 y + 1)) as [A | A].
  - rewrite Z.ones_spec_low by lia. apply (proj2 (H k Hk)).
    exists (Z.log2 y - k). split; [lia|].
    replace (k + (Z.log2 y - k)) with (Z.log2 y) by ring. apply Z.bit_log2; lia.
  - rewrite Z.ones_spec_high by lia.
    destruct (Z.testbit z k) eqn:E; [|reflexivity].
    apply (proj1 (H k Hk)) in E. destruct E as (i & Hi & E).
    rewrite Z.bits_above_log2 in E by lia. discriminate.
Qed.

Lemma next_power_of_two_spec x :
  1 <= x <= 2 ^ 31 -> next_power_of_two x = 2 ^ Z.log2_up x.
Proof.
  intros Hx. destruct (Z.eq_dec x 1) as [-> | N]; [reflexivity|].
  unfold next_power_of_two.
  set (y := x - 1).
  assert (Hy : 0 < y < 2 ^ 32) by (unfold y; lia).
  pose proof (smeared_1 y ltac:(lia)) as S1.
  pose proof (smeared_step 1 1 y _ ltac:(lia) S1) as S2. change (1 + 1) with 2 in S2.
  pose proof (smeared_step 2 2 y _ ltac:(lia) S2) as S3. change (2 + 2) with 4 in S3.
  pose proof (smeared_step 4 4 y _ ltac:(lia) S3) as S4. change (4 + 4) with 8 in S4.
  pose proof (smeared_step 8 8 y _ ltac:(lia) S4) as S5. change (8 + 8) with 16 in S5.
  pose proof (smeared_step 16 16 y _ ltac:(lia) S5) as S6. change (16 + 16) with 32 in S6.
  apply smeared_32_ones in S6; [|exact Hy].
  cbv zeta. rewrite S6.
  rewrite Z.log2_up_eqn by lia. unfold y. rewrite <- Z.sub_1_r.
  rewrite <- Z.add_1_r. lia.
Qed.

Lemma ilog2_spec x : 0 < x -> ilog2 x = Z.log2 x.
Proof. intros H. unfold ilog2, clz. destruct (Z.leb_spec x 0); lia. Qed.

Lemma leaf_level_spec t :
  1 <= t <= 2 ^ 31 -> get_leaf_level_from_real_leaf_count t = Z.log2_up t.
Proof.
  intros H. unfold get_leaf_level_from_real_leaf_count.
  rewrite next_power_of_two_spec by lia.
  pose proof (Z.log2_up_nonneg t).
  rewrite ilog2_spec by (apply Z.pow_pos_nonneg; lia).
  apply Z.log2_pow2; lia.
Qed.

Lemma leftmost_spec l : 0 <= l -> get_level_leftmost_node l = 2 ^ l - 1.
Proof. intros H. unfold get_level_leftmost_node. rewrite shiftl_pow2 by lia. reflexivity. Qed.

Lemma log2_node l j : 0 <= l -> 0 <= j < 2 ^ l -> Z.log2 (2 ^ l + j) = l.
Proof.
  intros Hl Hj. apply Z.log2_unique; [lia|].
  rewrite <- Z.add_1_r, Z.pow_add_r by lia. lia.
Qed.

Lemma level_of_node l j :
  0 <= l -> 0 <= j < 2 ^ l -> get_level_from_implicit_idx (2 ^ l - 1 + j) = l.
Proof.
  intros Hl Hj. unfold get_level_from_implicit_idx.
  replace (2 ^ l - 1 + j + 1) with (2 ^ l + j) by ring.
  rewrite ilog2_spec by lia. apply log2_node; assumption.
Qed.

(** ** The tree of [t] leaves *)

(** depth *)
Definition depth (t : Z) : Z := Z.log2_up t.
(** number of real nodes on level [l] *)
Definition cnt (t l : Z) : Z := (t - 1) / 2 ^ (depth t - l) + 1.

Definition okt (t : Z) : Prop := 1 <= t <= 2 ^ 23.

Lemma depth_bounds t : okt t -> 0 <= depth t <= 23.
Proof.
  intros H. unfold okt in H. split; [apply Z.log2_up_nonneg|].
  unfold depth. change 23 with (Z.log2_up (2 ^ 23)). apply Z.log2_up_le_mono. lia.
Qed.

Lemma t_le_pow_depth t : okt t -> t <= 2 ^ depth t.
Proof.
  intros H. unfold okt, depth in *. destruct (Z.eq_dec t 1) as [-> | N]; [cbn; lia|].
  apply Z.log2_up_spec. lia.
Qed.

Lemma pow_depth_le t : okt t -> 2 ^ depth t <= 2 ^ 23.
Proof. intros H. apply Z.pow_le_mono_r; [lia | apply depth_bounds; exact H]. Qed.

Lemma pow_depth_lt_2t t : okt t -> 2 ^ depth t <= 2 * t - 1.
Proof.
  intros H. unfold okt in H. unfold depth. destruct (Z.eq_dec t 1) as [-> | N]; [cbn; lia|].
  pose proof (Z.log2_up_spec t ltac:(lia)) as [A _].
  assert (P : 0 < Z.log2_up t) by (apply Z.log2_up_pos; lia).
  replace (Z.log2_up t) with (Z.pred (Z.log2_up t) + 1) by lia.
  rewrite Z.pow_add_r by lia. lia.
Qed.

Lemma cnt_bounds t l : okt t -> 0 <= l <= depth t -> 1 <= cnt t l <= 2 ^ l.
Proof.
  intros H Hl. unfold cnt.
  pose proof (t_le_pow_depth t H) as A. unfold okt in H.
  assert (P : 0 < 2 ^ (depth t - l)) by (apply Z.pow_pos_nonneg; lia).
  assert (E : 2 ^ depth t = 2 ^ (depth t - l) * 2 ^ l).
  { rewrite <- Z.pow_add_r by lia. f_equal. lia. }
  split.
  - pose proof (Z.div_pos (t - 1) (2 ^ (depth t - l)) ltac:(lia) P). lia.
  - assert ((t - 1) / 2 ^ (depth t - l) < 2 ^ l); [|lia].
    apply Z.div_lt_upper_bound; lia.
Qed.

Lemma cnt_leaf t : cnt t (depth t) = t.
Proof. unfold cnt. rewrite Z.sub_diag. cbn [Z.pow]. rewrite Z.div_1_r. lia. Qed.

Lemma cnt_child t l : okt t -> 0 <= l < depth t -> cnt t l = (cnt t (l + 1) + 1) / 2.
Proof.
  intros H Hl. unfold cnt.
  replace (depth t - l) with (depth t - (l + 1) + 1) by lia.
  rewrite Z.pow_add_r by lia.
  rewrite <- Z.div_div; [| apply Z.pow_nonzero; lia | lia].
  change (2 ^ 1) with 2.
  set (q := (t - 1) / 2 ^ (depth t - (l + 1))).
  replace (q + 1 + 1) with (q + 1 * 2) by ring. rewrite Z.div_add by lia. reflexivity.
Qed.

Lemma cnt_root t : okt t -> cnt t 0 = 1.
Proof.
  intros H. pose proof (cnt_bounds t 0 H) as B.
  pose proof (depth_bounds t H). specialize (B ltac:(lia)). change (2 ^ 0) with 1 in B. lia.
Qed.

Lemma rightmost_leaf_spec t :
  okt t -> get_rightmost_real_leaf (depth t) t = 2 ^ depth t + t - 2.
Proof.
  intros H. pose proof (depth_bounds t H). unfold get_rightmost_real_leaf.
  rewrite leftmost_spec by lia. ring.
Qed.

Lemma rightmost_spec t l :
  okt t -> 0 <= l <= depth t ->
  get_level_rightmost_real_node (get_rightmost_real_leaf (depth t) t) (depth t) l
  = 2 ^ l - 1 + cnt t l - 1.
Proof.
  intros H Hl. unfold get_level_rightmost_real_node. rewrite rightmost_leaf_spec by exact H.
  pose proof (depth_bounds t H) as D. pose proof (t_le_pow_depth t H) as T.
  pose proof (pow_depth_le t H) as P. unfold okt in H.
  assert (PP : 2 ^ (depth t - l) <= 2 ^ depth t) by (apply Z.pow_le_mono_r; lia).
  assert (W : 0 < 2 ^ (depth t - l)) by (apply Z.pow_pos_nonneg; lia).
  rewrite f32_ancestor_exact by lia.
  unfold cnt. replace (2 ^ depth t + t - 2 + 1) with (t - 1 + 2 ^ l * 2 ^ (depth t - l)).
  - rewrite Z.div_add by lia. lia.
  - rewrite <- Z.pow_add_r by lia. replace (l + (depth t - l)) with (depth t) by lia. lia.
Qed.

(** ** Sizes *)

Lemma popcount_double x : 0 <= x -> popcount (2 * x) = popcount x.
Proof. intros H. destruct x; cbn; try lia; reflexivity. Qed.

Lemma popcount_double_1 x : 0 <= x -> popcount (2 * x + 1) = 1 + popcount x.
Proof. intros H. destruct x; cbn; try lia; reflexivity. Qed.

Lemma popcount_nonneg x : 0 <= popcount x.
Proof.
  destruct x as [|p|p]; cbn; try lia.
  induction p; cbn [popcount_pos]; lia.
Qed.

Lemma log2_up_double m : 1 <= m -> Z.log2_up (2 * m) = Z.log2_up m + 1.
Proof. intros H. rewrite Z.log2_up_double by lia. lia. Qed.

Lemma log2_up_double_m1 m : 2 <= m -> Z.log2_up (2 * m - 1) = Z.log2_up m + 1.
Proof.
  intros H. rewrite !Z.log2_up_eqn by lia.
  replace (Z.pred (2 * m - 1)) with (2 * Z.pred m) by lia.
  rewrite Z.log2_double by lia. lia.
Qed.

Lemma size_one : get_ostensibly_implicit_bvh_size 1 = 1.
Proof. reflexivity. Qed.

Lemma size_rec m :
  2 <= m <= 2 ^ 30 ->
  get_ostensibly_implicit_bvh_size m = m + get_ostensibly_implicit_bvh_size ((m + 1) / 2).
Proof.
  intros H. unfold get_ostensibly_implicit_bvh_size.
  set (k := (m + 1) / 2).
  assert (Hk : m = 2 * k \/ m = 2 * k - 1) by (unfold k; pose proof (Z.div_mod (m + 1) 2); pose proof (Z.mod_pos_bound (m + 1) 2); lia).
  rewrite !next_power_of_two_spec by lia.
  assert (Hpk : k <= 2 ^ Z.log2_up k).
  { destruct (Z.eq_dec k 1) as [-> | N]; [cbn; lia|]. apply Z.log2_up_spec. lia. }
  pose proof (Z.log2_up_nonneg k).
  destruct Hk as [E | E]; rewrite E.
  - rewrite log2_up_double by lia. rewrite Z.pow_add_r by lia.
    change (2 ^ 1) with 2.
    replace (2 ^ Z.log2_up k * 2 - 2 * k) with (2 * (2 ^ Z.log2_up k - k)) by ring.
    rewrite popcount_double by lia. lia.
  - rewrite log2_up_double_m1 by lia. rewrite Z.pow_add_r by lia. change (2 ^ 1) with 2.
    replace (2 ^ Z.log2_up k * 2 - (2 * k - 1)) with (2 * (2 ^ Z.log2_up k - k) + 1) by ring.
    rewrite popcount_double_1 by lia. lia.
Qed.

Lemma size_pos m : 1 <= m <= 2 ^ 30 -> m <= get_ostensibly_implicit_bvh_size m.
Proof.
  intros H. unfold get_ostensibly_implicit_bvh_size.
  pose proof (popcount_nonneg (next_power_of_two m - m)). lia.
Qed.

(** ** Memory slots *)

(** first slot of level [l] *)
Definition base (t l : Z) : Z :=
  if l =? 0 then 0 else get_ostensibly_implicit_bvh_size (cnt t (l - 1)).

Lemma cnt_small t l : okt t -> 0 <= l <= depth t -> 1 <= cnt t l <= 2 ^ 23.
Proof.
  intros H Hl. pose proof (cnt_bounds t l H Hl). pose proof (depth_bounds t H).
  assert (2 ^ l <= 2 ^ 23) by (apply Z.pow_le_mono_r; lia). lia.
Qed.

Lemma cnt_ge2 t l : okt t -> 0 < l <= depth t -> 2 <= cnt t l.
Proof.
  intros H Hl. unfold cnt.
  assert (1 <= (t - 1) / 2 ^ (depth t - l)); [|lia].
  apply Z.div_le_lower_bound; [apply Z.pow_pos_nonneg; lia|].
  (* 2^(depth - l) <= 2^(depth-1) <= t - 1 *)
  assert (2 ^ (depth t - l) <= 2 ^ (depth t - 1)) by (apply Z.pow_le_mono_r; lia).
  assert (2 ^ (depth t - 1) <= t - 1); [|lia].
  unfold okt in H. unfold depth in *. assert (1 < t).
  { destruct (Z.eq_dec t 1) as [-> | N]; [cbn in Hl; lia | lia]. }
  pose proof (Z.log2_up_spec t ltac:(lia)) as [A _]. rewrite Z.sub_1_r. lia.
Qed.

Lemma size_base t l : okt t -> 0 <= l <= depth t ->
  get_ostensibly_implicit_bvh_size (cnt t l) = base t l + cnt t l.
Proof.
  intros H Hl. unfold base. destruct (Z.eqb_spec l 0) as [-> | N].
  - rewrite cnt_root by exact H. reflexivity.
  - pose proof (cnt_small t l H Hl). pose proof (cnt_ge2 t l H ltac:(lia)).
    rewrite size_rec by lia.
    rewrite (cnt_child t (l - 1) H) by lia. replace (l - 1 + 1) with l by lia. lia.
Qed.

Lemma mem_index_spec t l i :
  okt t -> 0 <= l <= depth t ->
  get_node_mem_index i (2 ^ l - 1) 0 (2 ^ l - 1 + cnt t l - 1) = base t l + (i - (2 ^ l - 1)).
Proof.
  intros H Hl. unfold get_node_mem_index.
  replace (2 ^ l - 1 + cnt t l - 1 - (2 ^ l - 1) + 1) with (cnt t l) by ring.
  rewrite size_base by assumption. ring.
Qed.

Lemma base_mono t l : okt t -> 0 <= l < depth t -> base t (l + 1) = base t l + cnt t l.
Proof.
  intros H Hl. rewrite <- size_base by (assumption || lia).
  unfold base at 1. destruct (Z.eqb_spec (l + 1) 0); [lia|]. f_equal. f_equal. lia.
Qed.

Lemma base_nonneg t l : okt t -> 0 <= l <= depth t -> 0 <= base t l.
Proof.
  intros H Hl. unfold base. destruct (Z.eqb_spec l 0); [lia|].
  pose proof (cnt_small t (l - 1) H ltac:(lia)).
  pose proof (size_pos (cnt t (l - 1)) ltac:(lia)). lia.
Qed.

Lemma base_le t l l' : okt t -> 0 <= l -> l < l' -> l' <= depth t -> base t l + cnt t l <= base t l'.
Proof.
  intros H H0 Hlt Hd.
  replace l' with (l + 1 + (l' - l - 1)) by lia.
  assert (Hk : 0 <= l' - l - 1) by lia.
  assert (Hb : l + 1 + (l' - l - 1) <= depth t) by lia.
  revert Hb. pattern (l' - l - 1). apply natlike_ind; [| |exact Hk].
  - intros Hb. rewrite Z.add_0_r. rewrite base_mono by (assumption || lia). lia.
  - intros k Hk0 IH Hb. specialize (IH ltac:(lia)).
    replace (l + 1 + Z.succ k) with (l + 1 + k + 1) by lia.
    rewrite base_mono by (assumption || lia).
    pose proof (cnt_small t (l + 1 + k) H ltac:(lia)). lia.
Qed.

Lemma size_total t : okt t -> get_ostensibly_implicit_bvh_size t = base t (depth t) + t.
Proof.
  intros H. pose proof (depth_bounds t H). rewrite <- (cnt_leaf t) at 1.
  rewrite size_base by (assumption || lia). rewrite cnt_leaf. reflexivity.
Qed.

Lemma slot_range t l j :
  okt t -> 0 <= l <= depth t -> 0 <= j < cnt t l ->
  0 <= base t l + j < get_ostensibly_implicit_bvh_size t.
Proof.
  intros H Hl Hj. pose proof (base_nonneg t l H Hl). split; [lia|].
  rewrite size_total by exact H.
  destruct (Z.eq_dec l (depth t)) as [-> | N]; [rewrite cnt_leaf in Hj; lia|].
  pose proof (base_le t l (depth t) H ltac:(lia) ltac:(lia) ltac:(lia)). unfold okt in H. lia.
Qed.

Lemma slot_inj t l j l' j' :
  okt t -> 0 <= l <= depth t -> 0 <= j < cnt t l -> 0 <= l' <= depth t -> 0 <= j' < cnt t l' ->
  base t l + j = base t l' + j' -> l = l' /\ j = j'.
Proof.
  intros H Hl Hj Hl' Hj' E.
  destruct (Z.lt_trichotomy l l') as [A | [A | A]].
  - pose proof (base_le t l l' H ltac:(lia) A ltac:(lia)). lia.
  - subst l'. lia.
  - pose proof (base_le t l' l H ltac:(lia) A ltac:(lia)). lia.
Qed.

Lemma slot_surj t s :
  okt t -> 0 <= s < get_ostensibly_implicit_bvh_size t ->
  exists l j, 0 <= l <= depth t /\ 0 <= j < cnt t l /\ base t l + j = s.
Proof.
  intros H Hs. pose proof (depth_bounds t H) as D.
  assert (G : forall n, 0 <= n -> n <= depth t -> s < base t n + cnt t n ->
    exists l j, 0 <= l <= depth t /\ 0 <= j < cnt t l /\ base t l + j = s).
  { intros n Hn. pattern n. apply natlike_ind; [| |exact Hn].
    - intros _ Hlt. exists 0, s. change (base t 0) with 0 in *. lia.
    - intros k Hk IH Hle Hlt. rewrite <- Z.add_1_r in *.
      destruct (Z_lt_le_dec s (base t k + cnt t k)) as [A | A].
      + apply IH; [lia | exact A].
      + exists (k + 1), (s - base t (k + 1)).
        rewrite base_mono in * by (assumption || lia). lia. }
  apply (G (depth t)); [lia | lia |]. rewrite cnt_leaf, <- size_total by exact H. lia.
Qed.
