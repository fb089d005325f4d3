(** Property theorems C07, C08, C11, C47 (parallel loops of the compute thread pool). *)
From Coq Require Import List ZArith Lia Bool Permutation.
From Verif Require Import Vec VecLemmas ParModel ParSpec ParProofs ParSumModel ParSumSpec ParSumProofs.
Import ListNotations.
Open Scope Z_scope.

(** C07.  For every non-empty range that fits the 32-bit length arithmetic, every pool size
    and every minimum grain: the call does hand out blocks (no undefined behaviour, no
    exception), uses at most the pool's workers plus the caller, and the blocks, in order,
    are exactly the range: every element once, none missed. *)
Theorem C07_blocks_partition_range : forall pool len mn,
  1 <= len -> 0 <= pool < 2 ^ 32 - 1 -> 1 <= mn -> len + mn - 1 < 2 ^ 32 ->
  exists workers master,
    parallel_for_plan pool len mn = PlanOk workers master /\
    zlen workers <= pool /\
    concat (map elements (workers ++ [master])) = zrange len /\
    (forall b, In b (workers ++ [master]) -> bfirst b < blast b).
Proof.
  intros pool len mn A B C D. destruct (plan_ok pool len mn A B C D) as (w & m & E & H1 & H2 & H3 & _).
  exists w, m. auto.
Qed.
Print Assumptions C07_blocks_partition_range.

(** C07.  Under the same conditions every interleaving of the threads of a loop whose
    bodies for different elements commute has the effect of the sequential loop. *)
Theorem C07_parallel_for_is_sequential : forall (S : Type) pool len mn (step : Z -> S -> S) (s : S),
  1 <= len -> 0 <= pool < 2 ^ 32 - 1 -> 1 <= mn -> len + mn - 1 < 2 ^ 32 ->
  independent step ->
  (exists s', parallel_execution pool len mn step s s') /\
  (forall s', parallel_execution pool len mn step s s' -> s' = sequential_loop step len s).
Proof.
  intros S pool len mn step s A B C D Ind. split.
  - apply parallel_execution_exists; assumption.
  - intros s' E. eapply parallel_eq_sequential; eassumption.
Qed.
Print Assumptions C07_parallel_for_is_sequential.

(** C07.  No thread gets less than its fair share: with [n] threads every block has at least
    [len / n] elements, and more than one thread is used only if the range holds more than
    one grain. *)
Theorem C07_small_ranges_stay_on_caller : forall pool len mn,
  1 <= len <= mn -> 0 <= pool < 2 ^ 32 - 1 -> len + mn - 1 < 2 ^ 32 ->
  parallel_for_plan pool len mn = PlanOk [] (Blk 0 len).
Proof.
  intros pool len mn A B D. unfold parallel_for_plan.
  assert (W1 : wrap32 len = len) by (unfold wrap32; apply Z.mod_small; lia).
  assert (W2 : wrap32 (pool + 1) = pool + 1) by (unfold wrap32; apply Z.mod_small; lia).
  rewrite W1, W2.
  destruct (sched_ok len (pool + 1) mn) as (n & b & E & Hn & Hb & Hnb & Q); [lia|lia|lia|lia|]. rewrite E.
  assert ((len + mn - 1) / mn = 1).
  { symmetry. apply Z.div_unique with (r := len - 1); lia. }
  assert (n = 1) as -> by lia. destruct (Z.ltb_spec pool (1 - 1)); [lia|]. reflexivity.
Qed.
Print Assumptions C07_small_ranges_stay_on_caller.

Example C07_instance :
  parallel_for_plan 3 5000 1024 = PlanOk [Blk 0 1250; Blk 1250 2500; Blk 2500 3750] (Blk 3750 5000).
Proof. vm_compute. reflexivity. Qed.
Example C07_commuting_body : independent (fun (i s : Z) => s + i * i).
Proof. intros i j s _. lia. Qed.

(** C08 is false: on an empty range [parallel_for] divides by zero, whatever the pool. *)
Theorem C08_empty_range_refuted : forall pool mn,
  0 <= pool < 2 ^ 32 - 1 -> 1 <= mn < 2 ^ 32 ->
  parallel_for_plan pool 0 mn = PlanUB.
Proof.
  intros pool mn Hp Hm. unfold parallel_for_plan, get_scheduling_parameters.
  change (wrap32 0) with 0. destruct (Z.eqb_spec mn 0); [lia|]. cbv zeta.
  assert (W1 : wrap32 (0 + mn - 1) = mn - 1) by (unfold wrap32; apply Z.mod_small; lia). rewrite W1.
  rewrite (Z.div_small (mn - 1) mn) by lia.
  assert (W2 : wrap32 (pool + 1) = pool + 1) by (unfold wrap32; apply Z.mod_small; lia). rewrite W2.
  destruct (Z.eqb_spec (pool + 1) 0); [lia|]. cbn [negb].
  replace (Z.min (pool + 1) 0) with 0 by lia. reflexivity.
Qed.
Print Assumptions C08_empty_range_refuted.

(** C08, the other end: a range so long that [length + min_per_thread - 1] wraps around also
    divides by zero, although the range is not empty. *)
Theorem C08_huge_range_refuted : forall pool mn,
  0 <= pool < 2 ^ 32 - 1 -> 2 <= mn < 2 ^ 32 ->
  parallel_for_plan pool (2 ^ 32 - 1) mn = PlanUB.
Proof.
  intros pool mn Hp Hm. unfold parallel_for_plan, get_scheduling_parameters.
  change (wrap32 (2 ^ 32 - 1)) with (2 ^ 32 - 1). destruct (Z.eqb_spec mn 0); [lia|]. cbv zeta.
  assert (W1 : wrap32 (2 ^ 32 - 1 + mn - 1) = mn - 2).
  { unfold wrap32. symmetry. apply Z.mod_unique with (q := 1); lia. } rewrite W1.
  rewrite (Z.div_small (mn - 2) mn) by lia.
  assert (W2 : wrap32 (pool + 1) = pool + 1) by (unfold wrap32; apply Z.mod_small; lia). rewrite W2.
  destruct (Z.eqb_spec (pool + 1) 0); [lia|]. cbn [negb].
  replace (Z.min (pool + 1) 0) with 0 by lia. reflexivity.
Qed.
Print Assumptions C08_huge_range_refuted.

(** C08, what does hold: undefined behaviour and exceptions occur for no other length. *)
Theorem C08_nonempty_range_partial : forall pool len mn,
  0 <= pool < 2 ^ 32 - 1 -> 1 <= mn -> 1 <= len -> len + mn - 1 < 2 ^ 32 ->
  exists workers master, parallel_for_plan pool len mn = PlanOk workers master.
Proof.
  intros pool len mn Hp Hm Hl Ho. destruct (plan_ok pool len mn Hl Hp Hm Ho) as (w & m & E & _). eauto.
Qed.
Print Assumptions C08_nonempty_range_partial.

(** C11, values: however the threads are scheduled, when all of them are done the vector
    holds the prefix sums. *)
Theorem C11_partial_sum_correct : forall pool v,
  1 <= zlen v -> zlen v + 1023 < 2 ^ 32 -> 0 <= pool < 2 ^ 32 - 1 -> all_u32 v ->
  exists c, sum_cfg pool (zlen v) = Some c /\ c_n c <= pool + 1 /\
    forall s, sreach c v s -> all_finished c s -> prefix_sums v (smem s).
Proof.
  intros pool v Hl Ho Hp HU. destruct (sum_cfg_good pool (zlen v) Hl Hp Ho) as (c & E & G & EL & N).
  exists c. split; [exact E|]. split; [exact N|]. intros s R A. eapply sfinal; eassumption.
Qed.
Print Assumptions C11_partial_sum_correct.

(** C11, no deadlock and termination: whatever has happened so far, either all threads are
    done or some thread can take a step; and the number of steps of any schedule is bounded. *)
Theorem C11_partial_sum_terminates : forall pool v,
  1 <= zlen v -> zlen v + 1023 < 2 ^ 32 -> 0 <= pool < 2 ^ 32 - 1 -> all_u32 v ->
  exists c, sum_cfg pool (zlen v) = Some c /\
    (forall s, sreach c v s -> all_finished c s \/ exists i s', 0 <= i < c_n c /\ sstep c s i = Some s') /\
    exists bound, forall sched s', (forall i, In i sched -> 0 <= i < c_n c) ->
      srun c sched (sinit v) = Some s' -> Z.of_nat (length sched) <= bound.
Proof.
  intros pool v Hl Ho Hp HU. destruct (sum_cfg_good pool (zlen v) Hl Hp Ho) as (c & E & G & EL & N).
  exists c. split; [exact E|]. split.
  - intros s R. eapply sprogress; eassumption.
  - exists (Mu c (sinit v)). intros sched s' Hs R. eapply srun_bounded; try eassumption. constructor.
Qed.
Print Assumptions C11_partial_sum_terminates.

(** C11, small vectors (one thread): the call itself returns with the prefix sums. *)
Theorem C11_small_vector_partial : forall pool v,
  1 <= zlen v <= 1024 -> 0 <= pool < 2 ^ 32 - 1 -> all_u32 v ->
  exists c, sum_cfg pool (zlen v) = Some c /\
    forall s, sreach c v s -> call_returned c s -> prefix_sums v (smem s).
Proof.
  intros pool v Hl Hp HU. destruct (sum_cfg_good pool (zlen v)) as (c & E & G & EL & N); [lia|lia|lia|].
  exists c. split; [exact E|]. intros s R A. eapply sfinal; try eassumption.
  assert (N1 : c_n c = 1).
  { unfold sum_cfg in E.
    assert (W1 : wrap32 (zlen v) = zlen v) by (unfold wrap32; apply Z.mod_small; lia).
    assert (W2 : wrap32 (pool + 1) = pool + 1) by (unfold wrap32; apply Z.mod_small; lia).
    rewrite W1, W2 in E.
    destruct (sched_ok (zlen v) (pool + 1) 1024) as (n & b & E' & Hn & Hb & Hnb & Q); [lia|lia|lia|lia|].
    rewrite E' in E. injection E as <-. cbn.
    assert ((zlen v + 1024 - 1) / 1024 = 1) by (symmetry; apply Z.div_unique with (r := zlen v - 1); lia). lia. }
  intros i Hi. assert (i = c_n c - 1) as -> by lia. exact A.
Qed.
Print Assumptions C11_small_vector_partial.

(** C11 fails at the point where the call returns: the caller does not wait for the workers,
    so it can return while an element still lacks the sum of the previous blocks.  The
    schedule below runs worker 0 completely, worker 1 up to its [set_value], then the caller
    to the end. *)
Definition race_vec : list Z := repeat 3 (Z.to_nat 2049).
Definition race_sched : list Z :=
  repeat 0 (Z.to_nat 685) ++ repeat 1 (Z.to_nat 687) ++ repeat 2 (Z.to_nat 1369).

Theorem C11_returns_before_done_refuted :
  exists pool v c s,
    all_u32 v /\ sum_cfg pool (zlen v) = Some c /\ sreach c v s /\ call_returned c s /\
    ~ prefix_sums v (smem s).
Proof.
  exists 2, race_vec, (Cfg 2049 3 683).
  destruct (srun (Cfg 2049 3 683) race_sched (sinit race_vec)) as [s|] eqn:E.
  2:{ exfalso. revert E. vm_compute. discriminate. }
  exists s. split; [|split; [vm_compute; reflexivity|split; [|split]]].
  - intros x Hx. apply repeat_spec in Hx. subst. lia.
  - eapply srun_reach; [|constructor|exact E]. unfold race_sched. intros i Hi.
    rewrite !in_app_iff in Hi. destruct Hi as [Hi|[Hi|Hi]]; apply repeat_spec in Hi; subst; cbn; lia.
  - assert (X : option_map (fun s => spc s 2) (srun (Cfg 2049 3 683) race_sched (sinit race_vec)) = Some Fin)
      by (vm_compute; reflexivity).
    rewrite E in X. injection X as X. exact X.
  - intros [_ P]. specialize (P 683).
    assert (X : obind (srun (Cfg 2049 3 683) race_sched (sinit race_vec)) (fun s => vget (smem s) 683) = Some 3)
      by (vm_compute; reflexivity).
    rewrite E in X. cbn [obind] in X. rewrite P in X.
    + revert X. vm_compute. discriminate.
    + vm_compute. split; [discriminate|reflexivity].
Qed.
Print Assumptions C11_returns_before_done_refuted.

(** C47 is false for the void [parallel_for]: whenever at least two threads are used, a body
    that throws on element 0 (run by a worker) leaves elements unprocessed, yet the call
    returns normally. *)
Theorem C47_worker_exception_lost_refuted : forall pool len mn,
  1 <= pool < 2 ^ 32 - 1 -> 1 <= mn -> mn < len -> len + mn - 1 < 2 ^ 32 ->
  exists processed,
    parallel_for_call pool len mn (fun i => i =? 0) = Some (processed, Finished) /\
    ~ In 0 (concat processed).
Proof.
  intros pool len mn Hp Hm Hl Ho. unfold parallel_for_call.
  destruct (plan_ok pool len mn) as (w & m & E & H1 & H2 & H3 & H4); [lia|lia|lia|lia|]. rewrite E.
  assert (W : exists b r, w = b :: r /\ bfirst b = 0).
  { unfold parallel_for_plan in E.
    assert (W1 : wrap32 len = len) by (unfold wrap32; apply Z.mod_small; lia).
    assert (W2 : wrap32 (pool + 1) = pool + 1) by (unfold wrap32; apply Z.mod_small; lia).
    rewrite W1, W2 in E.
    destruct (sched_ok len (pool + 1) mn) as (n & b & E' & Hn & Hb & Hnb & Q); [lia|lia|lia|lia|]. rewrite E' in E.
    assert (2 <= (len + mn - 1) / mn) by (apply Z.div_le_lower_bound; lia).
    assert (N2 : 2 <= n) by lia. destruct (Z.ltb_spec pool (n - 1)); [lia|].
    replace (Z.to_nat (n - 1)) with (S (Z.to_nat (n - 2))) in E by lia. cbn [submit_blocks] in E.
    destruct (submit_blocks (Z.to_nat (n - 2)) (0 + b) b) as [l s]. injection E as <- <-. cbn. eauto. }
  destruct W as (b & r & -> & B0).
  assert (Gen : forall l, ~ In 0 (fst (run_block (fun i => i =? 0) l)) /\
                          (~ In 0 l -> snd (run_block (fun i => i =? 0) l) = Finished)).
  { induction l as [|x l [I1 I2]]; cbn; [split; [tauto|reflexivity]|].
    destruct (Z.eqb_spec x 0) as [->|N]; cbn; [split; [tauto|intros X; exfalso; apply X; left; reflexivity]|].
    destruct (run_block (fun i => i =? 0) l) as [d o]. cbn in *. split; [intros [X|X]; [congruence|tauto]|].
    intros X. apply I2. tauto. }
  assert (Hm0 : ~ In 0 (elements m)).
  { intros X. pose proof (NoDup_zrange len) as Nd. rewrite <- H2 in Nd. cbn [app map concat] in Nd.
    assert (In 0 (elements b)) as Hb.
    { unfold elements. apply in_map_iff. exists 0%nat. split; [lia|]. apply in_seq.
      specialize (H3 b (or_introl eq_refl)). lia. }
    assert (In 0 (concat (map elements (r ++ [m])))) as Hr.
    { rewrite map_app, concat_app. apply in_app_iff. right. cbn. rewrite app_nil_r. exact X. }
    clear -Nd Hb Hr. induction (elements b) as [|y q IH]; [destruct Hb|]. cbn in Nd. inversion Nd; subst.
    destruct Hb as [->|Hb]; [|auto]. apply H1. apply in_app_iff. right. exact Hr. }
  eexists. split.
  - rewrite (proj2 (Gen (elements m)) Hm0). reflexivity.
  - rewrite concat_app, in_app_iff. cbn [concat]. rewrite app_nil_r. intros [X|X]; [|exact (proj1 (Gen _) X)].
    apply in_concat in X. destruct X as (d & Hd & X). rewrite map_map in Hd. apply in_map_iff in Hd.
    destruct Hd as (b' & <- & _). exact (proj1 (Gen _) X).
Qed.
Print Assumptions C47_worker_exception_lost_refuted.

(** C47, what does hold: if the call returns normally and no worker's body threw, every
    element was processed; an exception in the caller's own block is reported. *)
Theorem C47_normal_return_complete_partial : forall pool len mn throws processed o,
  1 <= len -> 0 <= pool < 2 ^ 32 - 1 -> 1 <= mn -> len + mn - 1 < 2 ^ 32 ->
  parallel_for_call pool len mn throws = Some (processed, o) ->
  ((forall i, 0 <= i < len -> throws i = false) -> o = Finished /\ concat processed = zrange len) /\
  (throws (len - 1) = true -> o = Threw).
Proof.
  intros pool len mn throws processed o Hl Hp Hm Ho E. unfold parallel_for_call in E.
  destruct (plan_ok pool len mn) as (w & m & E' & H1 & H2 & H3 & H4); [lia|lia|lia|lia|]. rewrite E' in E.
  injection E as <- <-.
  assert (Gen : forall l, (forall i, In i l -> throws i = false) -> run_block throws l = (l, Finished)).
  { induction l as [|x l IH]; intros H; cbn; [reflexivity|]. rewrite (H x (or_introl eq_refl)).
    rewrite IH; [reflexivity|]. intros i Hi. apply H. right. exact Hi. }
  split.
  - intros T. assert (A : forall b, In b (w ++ [m]) -> run_block throws (elements b) = (elements b, Finished)).
    { intros b Hb. apply Gen. intros i Hi. apply T. apply In_zrange. rewrite <- H2. apply in_concat.
      exists (elements b). split; [apply in_map; exact Hb|exact Hi]. }
    rewrite (A m) by (apply in_or_app; right; left; reflexivity). split; [reflexivity|]. rewrite <- H2.
    rewrite map_app. f_equal. f_equal. rewrite map_map. apply map_ext_in. intros b Hb. rewrite A; [reflexivity|].
    apply in_or_app. left. exact Hb.
  - intros T. assert (Hin : In (len - 1) (elements m)).
    { unfold parallel_for_plan in E'. destruct (get_scheduling_parameters _ _ _); try discriminate.
      destruct (pool <? _); [discriminate|]. destruct (submit_blocks _ 0 _) as [l s]. injection E' as <- <-.
      unfold elements. cbn. specialize (H3 (Blk s len)). cbn in H3.
      assert (s < len) by (apply H3; apply in_or_app; right; left; reflexivity).
      apply in_map_iff. exists (Z.to_nat (len - 1 - s)). split; [lia|]. apply in_seq. lia. }
    clear -T Hin. induction (elements m) as [|x l IH]; [destruct Hin|]. cbn.
    destruct Hin as [->|Hin]; [rewrite T; reflexivity|]. destruct (throws x); [reflexivity|].
    destruct (run_block throws l). cbn in *. auto.
Qed.
Print Assumptions C47_normal_return_complete_partial.
