(** Property theorems C09, C10, C46 (task queue). *)
From Coq Require Import List Arith Lia.
From Verif Require Import QueueModel QueueSpec QueueProofs QueueTrace.
Import ListNotations.

Ltac norm := cbn [set_pc set_hm set_tm set_data set_next set_tail set_head set_done new_node free_node
  head tail qdata qnext alive fresh hm tm done pcs bad init after_cmp Nat.eqb].

(** C09.  In every execution of any number of producers and consumers: no invalid memory
    access, and what has left the queue is a prefix of what has entered it (same order,
    nothing lost, nothing duplicated).  Each thread's pushes enter in the order of its
    calls and its pop calls return exactly what it took out, in order. *)
Theorem C09_queue_fifo : forall (V : Type) (tr : list (label V)) (s : state V),
  run tr s ->
  bad s = false /\
  (exists waiting, pushed tr = popped tr ++ waiting) /\
  forall t, same_or_one_ahead (push_calls t tr) (pushed_by t tr) /\
            same_or_one_ahead (popped_by t tr) (returned_to t tr) /\
            (idle s t -> push_calls t tr = pushed_by t tr /\ popped_by t tr = returned_to t tr).
Proof.
  intros V tr s R. destruct (run_inv _ _ R) as (q & I & E). split; [apply I|]. split; [eauto|].
  intros t. destruct (run_threads _ _ t R) as [A B]. rewrite A, B. unfold same_or_one_ahead, idle.
  repeat split.
  - destruct (pcs s t); cbn; rewrite ?app_nil_r; eauto.
  - destruct (pcs s t); cbn; try destruct r; rewrite ?app_nil_r; eauto.
  - rewrite H. apply app_nil_r.
  - rewrite H. apply app_nil_r.
Qed.
Print Assumptions C09_queue_fifo.

(** C09, failing pops: [try_pop] returns without an element only if the queue was empty at
    some instant of the call, [wait_and_pop] only after shutdown was requested; [empty]
    reports what was true at some instant of the call. *)
Theorem C09_pop_fails_only_if_empty : forall (V : Type) (tr : list (label V)) (s : state V) t,
  (run (tr ++ [LRet t MTry None]) s -> seen_empty t tr) /\
  (run (tr ++ [LRet t MWait None]) s -> done s = true) /\
  (run (tr ++ [LRetEmpty t true]) s -> seen_empty t tr) /\
  (run (tr ++ [LRetEmpty t false]) s -> seen_nonempty t tr).
Proof.
  intros V tr s t. repeat split; intros R.
  - exact (ret_none _ _ _ _ R).
  - exact (ret_none _ _ _ _ R).
  - exact (ret_empty _ _ _ _ R).
  - exact (ret_empty _ _ _ _ R).
Qed.
Print Assumptions C09_pop_fails_only_if_empty.

(** C10 is false: [push] does not take [head_mutex], so its notification can fall between
    the consumer's (false) predicate and its going to sleep.  There is an execution with a
    single consumer after which an element is in the queue, no thread is doing anything,
    the consumer sleeps, and nothing can happen except new calls or a spurious wake-up. *)
Theorem C10_lost_wakeup_refuted : forall (V : Type) (v : V),
  exists (tr : list (label V)) (s : state V),
    run tr s /\ single_consumer 0 tr /\ done s = false /\
    pushed tr = [v] /\ popped tr = [] /\
    pcs s 0 = Asleep /\ (forall t, t <> 0 -> idle s t) /\
    (forall l s', step s l s' -> is_call l \/ exists t, l = LSpurious t).
Proof.
  intros V v.
  set (tr := [LCallPop 0 MWait; LTau 0; LTau 0; LTau 0; LTau 0; LTau 0; LTau 0;
              LCallPush 1 v; LTau 1; LTau 1; LTau 1; LPushed 1 v; LTau 1; LPushRet 1 None; LSleep 0] : list (label V)).
  assert (R : exists s, run tr s /\ pcs s 0 = Asleep /\ done s = false /\ forall t, t <> 0 -> idle s t).
  { eexists. split.
    - unfold tr. apply run_from_init.
      eapply steps_cons; [apply s_call_pop; reflexivity|norm].
      eapply steps_cons; [eapply s_head_lock; reflexivity|norm].
      eapply steps_cons; [eapply s_wait_done; reflexivity|norm].
      eapply steps_cons; [eapply s_gt_lock; reflexivity|norm].
      eapply steps_cons; [eapply s_gt_read; reflexivity|norm].
      eapply steps_cons; [eapply s_gt_unlock; reflexivity|norm].
      eapply steps_cons; [eapply s_cmp; reflexivity|norm].
      eapply steps_cons; [eapply s_call_push; reflexivity|norm].
      eapply steps_cons; [eapply s_push_lock; reflexivity|norm].
      eapply steps_cons; [eapply s_push_data; reflexivity|norm].
      eapply steps_cons; [eapply s_push_next; reflexivity|norm].
      eapply steps_cons; [eapply s_push_tail; reflexivity|norm].
      eapply steps_cons; [eapply s_push_unlock; reflexivity|norm].
      eapply steps_cons; [eapply s_push_notify_none; [reflexivity | intros [|[|w]]; cbv; discriminate]|norm].
      eapply steps_cons; [eapply s_sleep; reflexivity|norm].
      apply steps_nil.
    - split; [reflexivity|]. split; [reflexivity|]. intros [|[|t]] H; [contradiction|reflexivity|reflexivity]. }
  destruct R as (s & R & A & D & I). exists tr, s. repeat split; auto.
  - intros t m H. cbn in H. repeat (destruct H as [H|H]; [try discriminate; congruence|]). destruct H.
  - intros l s' S. apply (quiet_state _ _ _ (fun t => match Nat.eq_dec t 0 with
      | left e => or_intror (eq_ind_r (fun u => pcs s u = Asleep) A e) | right n => or_introl (I t n) end) S).
Qed.
Print Assumptions C10_lost_wakeup_refuted.

Lemma run_prefix {V} (tr1 tr2 : list (label V)) s : run (tr1 ++ tr2) s -> exists s1, run tr1 s1.
Proof.
  revert s. induction tr2 as [|l r IH] using rev_ind; intros s R; [rewrite app_nil_r in R; eauto|].
  rewrite app_assoc in R. inversion R as [E|tr s0 l' s' R' S E]; subst.
  - destruct (tr1 ++ r); discriminate.
  - apply app_inj_tail in E. destruct E as [-> _]. eauto.
Qed.

Lemma wake_effect {V} c (tr : list (label V)) l s : run (tr ++ [l]) s -> is_wake c l -> pcs s c = Woken.
Proof.
  intros R W. inversion R as [E|tr' s0 l' s' R' S E]; subst; [destruct tr; discriminate|].
  apply app_inj_tail in E. destruct E as [_ ->].
  destruct W as [->|[[u ->]|[u ->]]]; inversion S; subst; cbn; unfold upd; rewrite Nat.eqb_refl; reflexivity.
Qed.

(** C10, what does hold (missing: pushes between the consumer's last look at the queue and
    its falling asleep): with a single consumer [c] per queue, as in the thread pool and in
    the API threads, when a push enters the queue after [c] fell asleep, then by the
    time all pushes have returned there has been a moment at which [c] was woken up. *)
Theorem C10_push_wakes_sleeper_partial : forall (V : Type) c (tr1 tr2 : list (label V)) (s : state V),
  run (tr1 ++ LSleep c :: tr2) s -> single_consumer c (tr1 ++ LSleep c :: tr2) ->
  (forall t, t <> c -> idle s t) ->
  pushed tr2 <> [] ->
  exists a l b s1, tr2 = a ++ l :: b /\ is_wake c l /\
    run (tr1 ++ LSleep c :: a ++ [l]) s1 /\ pcs s1 c = Woken.
Proof.
  intros V c tr1 tr2 s R SC Id P.
  assert (Goal' : exists l, In l tr2 /\ is_wake c l); [|
    destruct Goal' as (l & Hl & W); apply in_split in Hl; destruct Hl as (a & b & ->); exists a, l, b;
    destruct (run_prefix (tr1 ++ LSleep c :: a ++ [l]) b s) as (s1 & R1);
    [ rewrite <- app_assoc; cbn; rewrite <- app_assoc; exact R |];
    exists s1; split; [reflexivity|]; split; [exact W|]; split; [exact R1|];
    replace (tr1 ++ LSleep c :: a ++ [l]) with ((tr1 ++ LSleep c :: a) ++ [l]) in R1 by (rewrite <- app_assoc; reflexivity);
    exact (wake_effect c _ l s1 R1 W) ].
  assert (Dec : forall l : label V, is_wake c l \/ ~ is_wake c l).
  { intros l. unfold is_wake. destruct l; try (right; intros [K|[[u K]|[u K]]]; discriminate).
    - destruct woken as [w|]; [destruct (Nat.eq_dec w c) as [->|N]|].
      + left. right. left. eauto.
      + right. intros [K|[[u K]|[u K]]]; congruence.
      + right. intros [K|[[u K]|[u K]]]; congruence.
    - destruct (Nat.eq_dec t c) as [->|N]; [left; left; reflexivity|].
      right. intros [K|[[u K]|[u K]]]; congruence.
    - destruct woken as [w|]; [destruct (Nat.eq_dec w c) as [->|N]|].
      + left. right. right. eauto.
      + right. intros [K|[[u K]|[u K]]]; congruence.
      + right. intros [K|[[u K]|[u K]]]; congruence. }
  assert (Ex : (exists l, In l tr2 /\ is_wake c l) \/ forall l, In l tr2 -> ~ is_wake c l).
  { clear - Dec. induction tr2 as [|a r [ (l & H & W) | IH]]; [right; intros l []| |].
    - left. exists l. split; [right; exact H|exact W].
    - destruct (Dec a) as [W|W]; [left; exists a; split; [left; reflexivity|exact W]|].
      right. intros l [<-|H]; auto. }
  destruct Ex as [Ex|Ex]; [exact Ex|]. exfalso.
  destruct (sleeping_push c tr1 tr2 s R SC Ex) as [A Q].
  assert (K : exists t v, In (LPushed t v) tr2).
  { clear - P. induction tr2 as [|a r IH]; [contradiction|].
    destruct a; try (destruct IH as (t' & v' & H); [exact P | exists t', v'; right; exact H]).
    exists t, v. left. reflexivity. }
  destruct K as (t & v & K). specialize (Q t v K).
  destruct (Nat.eq_dec t c) as [->|N]; [destruct Q; congruence|]. specialize (Id t N). unfold idle in Id. destruct Q; congruence.
Qed.
Print Assumptions C10_push_wakes_sleeper_partial.

(** C46.  Shutdown (set the done flag, then [disrupt_wait_for_data], which takes
    [head_mutex]): from then on the worker of the queue is not asleep, and never falls
    asleep again. *)
Theorem C46_shutdown_wakes_worker : forall (V : Type) c d w (tr1 tr2 : list (label V)) (s : state V),
  run (tr1 ++ LDisrupted d w :: tr2) s -> single_consumer c (tr1 ++ LDisrupted d w :: tr2) ->
  done s = true /\ pcs s c <> Asleep /\ forall s', ~ step s (LSleep c) s'.
Proof.
  intros V c d w tr1 tr2 s R SC. destruct (after_shutdown c d w tr1 tr2 s R SC) as [D M].
  split; [exact D|]. split; [intros E; rewrite E in M; discriminate|].
  intros s' S. inversion S; subst. match goal with H : pcs s c = WSleep |- _ => rewrite H in M end. discriminate.
Qed.
Print Assumptions C46_shutdown_wakes_worker.

(** * Non-vacuity: an execution in which a consumer sleeps, is woken by a push and takes
    the element. *)
Example ex_sleep_push_pop : exists (s : state nat),
  run [LCallPop 0 MWait; LTau 0; LTau 0; LTau 0; LTau 0; LTau 0; LTau 0; LSleep 0;
       LCallPush 1 7; LTau 1; LTau 1; LTau 1; LPushed 1 7; LTau 1; LPushRet 1 (Some 0);
       LTau 0; LTau 0; LTau 0; LTau 0; LTau 0; LTau 0; LTau 0; LTau 0; LPopped 0 7; LTau 0; LRet 0 MWait (Some 7);
       LSetDone 2; LTau 2; LDisrupted 2 None] s.
Proof.
  eexists.
  apply run_from_init.
  eapply steps_cons; [apply s_call_pop; reflexivity|norm].
  eapply steps_cons; [eapply s_head_lock; reflexivity|norm].
  eapply steps_cons; [eapply s_wait_done; reflexivity|norm].
  eapply steps_cons; [eapply s_gt_lock; reflexivity|norm].
  eapply steps_cons; [eapply s_gt_read; reflexivity|norm].
  eapply steps_cons; [eapply s_gt_unlock; reflexivity|norm].
  eapply steps_cons; [eapply s_cmp; reflexivity|norm].
  eapply steps_cons; [eapply s_sleep; reflexivity|norm].
  eapply steps_cons; [eapply s_call_push; reflexivity|norm].
  eapply steps_cons; [eapply s_push_lock; reflexivity|norm].
  eapply steps_cons; [eapply s_push_data; reflexivity|norm].
  eapply steps_cons; [eapply s_push_next; reflexivity|norm].
  eapply steps_cons; [eapply s_push_tail; reflexivity|norm].
  eapply steps_cons; [eapply s_push_unlock; reflexivity|norm].
  eapply steps_cons; [eapply s_push_notify; reflexivity|norm].
  eapply steps_cons; [eapply s_rewake; reflexivity|norm].
  eapply steps_cons; [eapply s_wait_done; reflexivity|norm].
  eapply steps_cons; [eapply s_gt_lock; reflexivity|norm].
  eapply steps_cons; [eapply s_gt_read; reflexivity|norm].
  eapply steps_cons; [eapply s_gt_unlock; reflexivity|norm].
  eapply steps_cons; [eapply s_cmp; reflexivity|norm].
  eapply steps_cons; [eapply s_wait_done2; reflexivity|norm].
  eapply steps_cons; [eapply s_move; reflexivity|norm].
  eapply steps_cons; [eapply s_pop_head; reflexivity|norm].
  eapply steps_cons; [eapply s_head_unlock; reflexivity|norm].
  eapply steps_cons; [eapply s_ret_free; reflexivity|norm].
  eapply steps_cons; [eapply s_set_done; reflexivity|norm].
  eapply steps_cons; [eapply s_dis_lock; reflexivity|norm].
  eapply steps_cons; [eapply s_dis_notify_none; [reflexivity | intros [|[|[|w]]]; cbv; discriminate]|norm].
  apply steps_nil.
Qed.
