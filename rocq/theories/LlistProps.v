(** C78: the theorems. *)
From Coq Require Import List Arith Bool Lia.
From Verif Require Import LlistModel LlistSpec LlistBelt LlistInv LlistStep LlistEnd.
Import ListNotations.

Section props.
Context {T : Type}.
Implicit Types (progs : list (list (op T))) (st : state T).

(** However the steps of the threads are interleaved, the calls have happened one at a time, in the order [order st]: every call that has returned has given back what it gives back in that order, in which the calls of a
    thread are in the order of its program; and when no call is running, the list in memory holds what it holds then. *)
Theorem C78_linearizable progs k st : steps progs k st ->
  let r := one_by_one (order st) [] in
  (forall t, exists more, length more <= 1 /\ of_thread t (fst r) = results (threads st t) ++ more) /\
  (forall t, idle st t -> of_thread t (fst r) = results (threads st t) /\ of_thread t (order st) ++ todo (threads st t) = nth t progs []) /\
  ((forall t, idle st t) -> holds (heap st) 0 (snd r)).
Proof.
  intros H r. destruct (reach_inv _ _ _ H) as (B & I). split; [|split].
  - intros t. exists (pend st B t (at_ st t)). split; [|apply (i_res _ _ I)]. destruct (at_ st t); cbn; lia.
  - intros t E. change (at_ st t = Ready) in E. split.
    + pose proof (i_res _ _ I t) as R. rewrite E in R. cbn in R. rewrite app_nil_r in R. exact R.
    + rewrite (prog_order _ _ _ H t), E. reflexivity.
  - intros Id. assert (E : forall t, at_ st t = Ready) by exact Id. assert (NT : forall t, ~ In (K t) B) by (intros t X; apply (on_belt _ _ _ I) in X; rewrite E in X; apply X; reflexivity).
    change (snd r) with (content st). rewrite (i_content _ _ I). pose proof (i_data _ _ I) as D. pose proof (i_nodup _ _ I) as ND.
    assert (Ch : forall c, In (N c) B -> get_next st c = Some (succ (nodes B) c)) by (intros c C; destruct (i_chain _ _ I c C) as [(t & X) | X]; [rewrite E in X; contradiction|exact X]).
    destruct (head_split _ _ I) as (q & EB).
    assert (G : forall q p c, B = p ++ N c :: q -> holds (heap st) c (settle (get_data st) (opof st) q)).
    { clear q EB. induction q as [|i q IH]; intros p c EB.
      - assert (C : In (N c) B) by (rewrite EB; apply in_or_app; right; left; reflexivity). pose proof (Ch c C) as X. destruct (D c C) as [Y _]. unfold get_next in X. destruct (heap st c) as [[d n]|] eqn:F; [|contradiction]. cbn in X. injection X as X. apply holds_end with d. rewrite F, X.
        rewrite EB in ND |- *. apply nodup_nodes in ND. rewrite nodes_app in *. change (nodes [N c]) with [c] in *. rewrite succ_at; [reflexivity|]. apply NoDup_remove_2 in ND. intros Z. apply ND, in_or_app. left. exact Z.
      - destruct i as [y|u]; [|exfalso; apply (NT u); rewrite EB; apply in_or_app; right; right; left; reflexivity]. assert (C : In (N c) B) by (rewrite EB; apply in_or_app; right; left; reflexivity). assert (Cy : In (N y) B) by (rewrite EB; apply in_or_app; right; right; left; reflexivity).
        assert (IH' := IH (p ++ [N c]) y). rewrite <- app_assoc in IH'. specialize (IH' EB). pose proof (Ch c C) as X. destruct (D c C) as [Y _]. destruct (D y Cy) as [Y1 Y2]. cbn [settle].
        assert (y <> 0). { intros ->. pose proof (i_head _ _ I) as H0. rewrite EB in ND, H0. destruct p as [|j p]; cbn in H0; injection H0 as ->; cbn in ND; inversion ND; subst; match goal with Z : ~ In (N 0) _ |- _ => apply Z end; [left; reflexivity|apply in_or_app; right; right; left; reflexivity]. }
        unfold get_data in *. destruct (heap st y) as [[d n]|] eqn:Fy; [|contradiction]. cbn [data] in *. destruct d as [v|]; [|exfalso; apply H0, Y2; reflexivity]. unfold get_next in X. destruct (heap st c) as [[d' n']|] eqn:F; [|contradiction]. cbn in X. injection X as X. apply holds_next with d' y n; [|exact Fy|exact IH'].
        rewrite F, X. rewrite EB in ND |- *. apply nodup_nodes in ND. rewrite nodes_app in *. change (nodes (N c :: N y :: q)) with (c :: y :: nodes q) in *. rewrite succ_at; [reflexivity|]. apply NoDup_remove_2 in ND. intros Z. apply ND, in_or_app. left. exact Z. }
    assert (D0 : get_data st 0 = None) by (apply (D 0 (head_in _ _ I)); reflexivity). rewrite EB at 1. cbn [settle]. rewrite D0. apply (G q [] 0 EB).
Qed.

(** A call takes its place in the order between its beginning and its end, and keeps it: a call that has returned before another begins comes before it. *)
Theorem C78_real_time st st' t fresh : step st t fresh = Go st' ->
  order st' = order st \/ ~ idle st t /\ ~ idle st' t /\ exists o, order st' = order st ++ [(t, o)].
Proof.
  intros G. destruct (step_shape _ _ _ _ G) as [_ _ S]. destruct S as [(O & _) | (o & O & _ & _ & N1 & N2)]; [left; exact O|right]. split; [exact N1|]. split; [exact N2|]. exists o. exact O.
Qed.

(** No call reads or writes a node that has been destroyed, gives back a lock that it does not hold, or destroys a node that is locked. *)
Theorem C78_no_fault progs k st t fresh : steps progs k st -> step st t fresh <> Fault.
Proof. intros H. destruct (reach_inv _ _ _ H) as (B & I). apply (step_inv st B t fresh I). Qed.

(** A node that is in memory when no call is running is in the list: what has been removed is gone. *)
Theorem C78_no_leak progs k st x : steps progs k st -> (forall t, idle st t) -> heap st x <> None -> linked (heap st) 0 x.
Proof.
  intros H Id X. destruct (reach_inv _ _ _ H) as (B & I). assert (E : forall t, at_ st t = Ready) by exact Id. destruct (i_alloc _ _ I x X) as [InX | (t & P)]; [|rewrite E in P; discriminate].
  assert (Ch : forall c, In (N c) B -> get_next st c = Some (succ (nodes B) c)) by (intros c C; destruct (i_chain _ _ I c C) as [(t & Y) | Y]; [rewrite E in Y; contradiction|exact Y]).
  assert (ND := nodup_nodes _ (i_nodup _ _ I)). assert (HD : hd_error (nodes B) = Some 0) by (destruct (head_split _ _ I) as (q & ->); reflexivity).
  assert (Ch' : forall c, In c (nodes B) -> get_next st c = Some (succ (nodes B) c)) by (intros c C; apply Ch, nodes_in, C). apply nodes_in in InX. revert ND HD Ch' InX. generalize (nodes B) as l. clear.
  intros l ND HD Ch. assert (G : forall p q, l = p ++ q -> forall c, In c p -> linked (heap st) 0 c).
  { induction p as [|c p IH] using rev_ind; [intros q _ c []|]. intros q EL d Hd. rewrite <- app_assoc in EL. assert (IH' := IH _ EL). apply in_app_or in Hd. destruct Hd as [Hd | [<- | []]]; [apply IH', Hd|]. destruct p as [|a p] using rev_ind; [rewrite EL in HD; cbn in HD; injection HD as ->; constructor|]. clear IHp.
    assert (Ia : In a l) by (rewrite EL; apply in_or_app; left; apply in_or_app; right; left; reflexivity). pose proof (Ch a Ia) as X. rewrite EL in X. rewrite <- app_assoc in X. cbn [app] in X. rewrite succ_at in X; [|rewrite EL, <- app_assoc in ND; cbn in ND; apply NoDup_remove_2 in ND; intros Z; apply ND, in_or_app; left; exact Z].
    cbn in X. unfold get_next in X. destruct (heap st a) as [[d n]|] eqn:F; [|discriminate]. cbn in X. injection X as ->. apply linked_next with a d; [apply IH'; apply in_or_app; right; left; reflexivity|exact F]. }
  intros InX. apply (G l []); [symmetry; apply app_nil_r|exact InX].
Qed.

(** The threads never wait for each other for good, and there is no endless execution: at most 6 times the number of entries ever made and 5 more steps to a call. *)
Theorem C78_no_deadlock progs k st : steps progs k st -> (exists t fresh st', step st t fresh = Go st') \/ forall t, idle st t /\ todo (threads st t) = [].
Proof. apply goes_on. Qed.
Theorem C78_ends progs k st : steps progs k st -> k <= calls progs * (6 * pushes progs + 5).
Proof. intros H. destruct (bounded _ _ _ H) as (B & _ & L). lia. Qed.
(** When nothing is left to do, all calls have been made, and every thread has the results of its program. *)
Theorem C78_all_done progs k st : steps progs k st -> (forall t fresh st', step st t fresh <> Go st') ->
  forall t, of_thread t (order st) = nth t progs [] /\ length (results (threads st t)) = length (nth t progs []).
Proof.
  intros H N t. destruct (goes_on _ _ _ H) as [(u & f & st' & G) | D]; [exfalso; exact (N u f st' G)|]. destruct (C78_linearizable _ _ _ H) as (_ & L & _). destruct (D t) as [D1 D2]. destruct (L t D1) as [L1 L2]. rewrite D2, app_nil_r in L2. split; [exact L2|]. rewrite <- L1, <- L2. apply of_results.
Qed.
End props.

(** ** Find and then remove *)
(** The steps of the threads in a given order, with the addresses 1, 2, ... *)
Fixpoint run {T} (sched : list nat) (n : nat) (st : state T) : option (state T) :=
  match sched with
  | [] => Some st
  | t :: sched => match step st t n with Go st' => run sched (S n) st' | _ => None end
  end.
Lemma run_steps {T} (progs : list (list (op T))) sched : forall n k st st', steps progs k st -> run sched n st = Some st' -> exists k', steps progs k' st'.
Proof.
  induction sched as [|t sched IH]; intros n k st st' H R; cbn in R; [injection R as <-; exists k; exact H|]. destruct (step st t n) as [| |st1] eqn:G; try discriminate. apply (IH (S n) (S k) st1 st'); [apply steps_S with st t n; assumption|exact R].
Qed.
Lemma gone (h : nat) (b : list (nat * op nat)) : (forall w v, In (w, Push v) b -> v <> h) -> forall l, ~ In h l -> ~ In h (snd (one_by_one b l)).
Proof.
  induction b as [|[w o] b IH]; intros H l L; [exact L|]. cbn [one_by_one snd]. apply IH; [intros w' v X; apply (H w' v); right; exact X|]. destruct o as [v|p|p|]; cbn [call snd]; [|exact L| |exact L].
  - intros [X | X]; [apply (H w v); [left; reflexivity|exact X]|contradiction].
  - intros X. apply filter_In in X. apply L, X.
Qed.
(** A handle that has been removed is not found again, by any thread, unless it is put in again (which the library never does with a handle): a release that comes after another one fails. *)
Theorem C79_not_again_partial (progs : list (list (op nat))) k (st : state nat) (h t u : nat) a b c : steps progs k st -> idle st u -> order st = a ++ (t, Remove (Nat.eqb h)) :: b ++ (u, Find (Nat.eqb h)) :: c -> (forall w v, In (w, Push v) b -> v <> h) ->
  nth_error (results (threads st u)) (length (of_thread u (a ++ (t, Remove (Nat.eqb h)) :: b))) = Some (Found None).
Proof.
  intros H Id E NP. destruct (C78_linearizable _ _ _ H) as (_ & L & _). destruct (L u Id) as [L1 _]. rewrite <- L1. rewrite E. replace (a ++ (t, Remove (Nat.eqb h)) :: b ++ (u, Find (Nat.eqb h)) :: c) with ((a ++ (t, Remove (Nat.eqb h)) :: b) ++ (u, Find (Nat.eqb h)) :: c) by (rewrite <- app_assoc; reflexivity).
  rewrite one_app. cbn [fst]. rewrite of_app. rewrite nth_error_app2 by (rewrite of_results; apply Nat.le_refl). rewrite of_results, Nat.sub_diag. cbn [one_by_one fst]. rewrite of_thread_cons, Nat.eqb_refl. cbn [nth_error call fst]. apply f_equal, f_equal.
  rewrite one_app. cbn [snd one_by_one call].
  assert (G : ~ In h (snd (one_by_one b (filter (fun v => negb (Nat.eqb h v)) (snd (one_by_one a [])))))) by (apply gone; [exact NP|]; intros X; apply filter_In in X; destruct X as [_ X]; rewrite Nat.eqb_refl in X; discriminate).
  destruct (find (Nat.eqb h) _) as [v|] eqn:F; [|reflexivity]. exfalso. apply find_some in F. destruct F as [F1 F2]. apply Nat.eqb_eq in F2. subst v. exact (G F1).
Qed.
(** Two threads release the same handle; both find it, and so both calls succeed, but the handle was there once. *)
Theorem C79_double_release_refuted : exists k st, steps [[Push 7]; release 7; release 7] k st /\ (forall t, idle st t) /\
  results (threads st 1) = [Found (Some 7); Done] /\ results (threads st 2) = [Found (Some 7); Done] /\
  forall o, In o [[(0, Push 7); (1, Find (Nat.eqb 7)); (1, Remove (Nat.eqb 7)); (2, Find (Nat.eqb 7)); (2, Remove (Nat.eqb 7))]; [(0, Push 7); (2, Find (Nat.eqb 7)); (2, Remove (Nat.eqb 7)); (1, Find (Nat.eqb 7)); (1, Remove (Nat.eqb 7))]] ->
    ~ (of_thread 1 (fst (one_by_one o [])) = results (threads st 1) /\ of_thread 2 (fst (one_by_one o [])) = results (threads st 2)).
Proof.
  destruct (run (repeat 0 5 ++ repeat 1 7 ++ repeat 2 7 ++ repeat 1 10 ++ repeat 2 4) 1 (start [[Push 7]; release 7; release 7])) as [st|] eqn:R; [|vm_compute in R; discriminate].
  destruct (run_steps _ _ _ 0 _ _ (steps_0 _ _) R) as (k & H). exists k, st. split; [exact H|]. assert (T' : forall t, 3 <= t -> idle st t) by (intros t L; apply (outside _ _ _ t H); cbn; lia).
  vm_compute in R. injection R as <-. split; [|split; [reflexivity|split; [reflexivity|]]].
  - intros t. destruct t as [|[|[|t]]]; [reflexivity|reflexivity|reflexivity|apply T'; lia].
  - intros o [<- | [<- | []]]; intros [E1 E2]; vm_compute in E1, E2; discriminate.
Qed.

(** ** A concrete case: thread 1 removes the odd entries while thread 2 goes through the list behind it and thread 0 puts in another. *)
Theorem C78_case : exists k st, steps [[Push 1; Push 2; Push 3; Push 5]; [Remove Nat.odd]; [Each; Find Nat.even]] k st /\ (forall t, idle st t) /\
  order st = [(0, Push 1); (0, Push 2); (0, Push 3); (1, Remove Nat.odd); (2, Each); (0, Push 5); (2, Find Nat.even)] /\ results (threads st 2) = [Seen [2]; Found (Some 2)] /\ holds (heap st) 0 [5; 2].
Proof.
  set (progs := [[Push 1; Push 2; Push 3; Push 5]; [Remove Nat.odd]; [Each; Find Nat.even]]).
  destruct (run (repeat 0 15 ++ repeat 1 11 ++ repeat 2 3 ++ repeat 1 8 ++ repeat 2 2 ++ repeat 0 5 ++ repeat 2 3 ++ repeat 2 11) 1 (start progs)) as [st|] eqn:R; [|vm_compute in R; discriminate].
  destruct (run_steps _ _ _ 0 _ _ (steps_0 _ _) R) as (k & H). exists k, st. split; [exact H|]. assert (T' : forall t, 3 <= t -> idle st t) by (intros t L; apply (outside _ _ _ t H); cbn; lia).
  assert (Id : forall t, idle st t) by (intros t; destruct t as [|[|[|t]]]; [..|apply T'; lia]; clear H T'; vm_compute in R; injection R as <-; reflexivity).
  destruct (C78_linearizable _ _ _ H) as (_ & _ & L). specialize (L Id). split; [exact Id|]. clear H T' Id. vm_compute in R. injection R as <-. split; [reflexivity|]. split; [reflexivity|exact L].
Qed.
(** One after the other: the second release finds nothing. *)
Theorem C79_case : exists k st, steps [[Push 7]; release 7; release 7] k st /\ (forall t, idle st t) /\
  order st = [(0, Push 7); (1, Find (Nat.eqb 7)); (1, Remove (Nat.eqb 7)); (2, Find (Nat.eqb 7)); (2, Remove (Nat.eqb 7))] /\ results (threads st 1) = [Found (Some 7); Done] /\ results (threads st 2) = [Found None; Done].
Proof.
  destruct (run (repeat 0 5 ++ repeat 1 17 ++ repeat 2 8) 1 (start [[Push 7]; release 7; release 7])) as [st|] eqn:R; [|vm_compute in R; discriminate].
  destruct (run_steps _ _ _ 0 _ _ (steps_0 _ _) R) as (k & H). exists k, st. split; [exact H|]. assert (T' : forall t, 3 <= t -> idle st t) by (intros t L; apply (outside _ _ _ t H); cbn; lia).
  vm_compute in R. injection R as <-. split; [|split; [|split]]; try reflexivity. intros t. destruct t as [|[|[|t]]]; [reflexivity|reflexivity|reflexivity|apply T'; lia].
Qed.
