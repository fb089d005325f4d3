(** C76: a context without conflicting commands does not get stuck. *)
From Coq Require Import List Arith Lia Bool.
From Verif Require Import ShareModel ShareSpec ShareLocal ShareInv.
Import ListNotations.

Lemma helpers_two W c : 1 <= least c -> 2 <= helpers W c <-> two_helpers W c.
Proof.
  intros L. unfold helpers, two_helpers. set (q := (size c + least c - 1) / least c).
  assert (Q : 3 <= q <-> 2 * least c < size c).
  { unfold q. split; intros H.
    - assert (least c * 3 <= size c + least c - 1); [|lia]. apply Nat.le_trans with (least c * q); [apply Nat.mul_le_mono_l; exact H|apply Nat.mul_div_le; lia].
    - apply Nat.div_le_lower_bound; lia. }
  rewrite <- Q. lia.
Qed.

Section progress.
Variable W : nat.
Variable progs : list (list section).
Notation prog := (prog progs).
Notation helpers := (helpers W).
Hypothesis OK : sections_ok progs.

Lemma least_ok m s c : nth_error (prog m) s = Some c -> 1 <= least c.
Proof.
  intros E. apply nth_error_In in E. unfold ShareModel.prog in E. destruct (Nat.lt_ge_cases m (length progs)) as [L|L]; [apply (OK (nth m progs []) c); [apply nth_In; exact L|exact E]|]. rewrite nth_overflow in E by exact L. destruct E.
Qed.

Section stuck.
Variable st : state.
Hypothesis V : inv W progs st.
Hypothesis ST : stuck W progs st.

Definition waits (c : section) (h : shared) (p : pstate) : Prop := exists r, p = Running r /\ ops r <> [] /\ exec (helpers c) r h = None.

Lemma st_helper m s w : busy st w = Some (m, s) -> exists c, nth_error (prog m) s = Some c /\ w < helpers c /\ waits c (common st m s) (parts st m s w).
Proof.
  intros B. destruct (i_busy _ _ st V m s w B) as (c & r & NC & L & R). exists c. split; [exact NC|]. split; [exact L|]. exists r. split; [exact R|].
  specialize (ST (Helper w)). cbn [next] in ST. unfold helper in ST. rewrite B, NC, R in ST. destruct (ops r); [discriminate|]. split; [discriminate|]. destruct (exec _ _ _) as [[]|]; [discriminate|reflexivity].
Qed.
Lemma st_idle w : busy st w = None -> queue st w = [].
Proof.
  intros B. specialize (ST (Helper w)). cbn [next] in ST. unfold helper in ST. rewrite B in ST. destruct (queue st w) as [|[m s] q] eqn:Q; [reflexivity|]. destruct (i_queue _ _ st V m s w ltac:(rewrite Q; left; reflexivity)) as (c & NC & _). rewrite NC in ST. discriminate.
Qed.
Lemma st_manager m c : nth_error (prog m) (at_section st m) = Some c -> let s := at_section st m in
  in_phase st m <> Begin /\ (forall i, i < helpers c -> parts st m s i <> Later) /\
  (waits c (common st m s) (parts st m s (helpers c)) \/ parts st m s (helpers c) = Over /\ exists k, k < helpers c /\ parts st m s k <> Over).
Proof.
  intros NC s. pose proof (i_phase _ _ st V m c NC) as PO. specialize (ST (Manager m)). cbn [next] in ST. unfold manager in ST. rewrite NC in ST. fold s in ST, PO.
  destruct (in_phase st m) as [|k| |k] eqn:PH; cbn [phase_ok] in PO.
  - discriminate.
  - destruct (Nat.ltb k (helpers c)); discriminate.
  - destruct PO as ((r & R) & A). rewrite R in ST. split; [discriminate|]. split; [exact A|]. left. exists r. split; [exact R|]. destruct (ops r); [discriminate|]. split; [discriminate|]. destruct (exec _ _ _) as [[]|]; [discriminate|reflexivity].
  - destruct PO as (R & A & K & B). split; [discriminate|]. split; [exact A|]. right. split; [exact R|]. exists k. destruct (Nat.ltb_spec k (helpers c)) as [L|L]; [|discriminate]. split; [exact L|]. destruct (parts st m s k); (congruence || discriminate).
Qed.
Lemma st_sound m s w : busy st w = Some (m, s) -> forall c, nth_error (prog m) s = Some c -> sound (what c) (helpers c) (common st m s) (parts st m s).
Proof.
  intros B c NC. destruct (i_busy _ _ st V m s w B) as (c' & r & _ & _ & R). apply (i_sound _ _ st V m s c NC). destruct (begun_dec st m s) as [G|G]; [exact G|]. rewrite (i_later _ _ st V m s w G) in R. discriminate.
Qed.
Lemma st_now m s w : busy st w = Some (m, s) -> s = at_section st m.
Proof.
  intros B. destruct (st_helper m s w B) as (c & NC & L & (r & R & NE & X)). destruct (Nat.lt_trichotomy s (at_section st m)) as [LT|[E|GT]]; [exfalso|exact E|exfalso].
  - destruct (i_past _ _ st V m s c LT NC) as (PO & PA & _). pose proof (st_sound m s w B c NC) as SD. pose proof (blocked _ _ _ _ _ (s_legal _ _ _ _ SD w r ltac:(lia) R) NE X) as BL.
    destruct (what c) as [| |b] eqn:K; [exact BL| |rewrite PA in R by (discriminate || exact L); discriminate].
    destruct BL as [W1 NI]. destruct (s_sum _ _ _ _ SD eq_refl) as [_ S2]. destruct (S2 _ (le_n _) PO) as [_ [Z|Z]]; [lia|]. apply NI. eapply all_given; [exact SD|exact Z|lia].
  - rewrite (i_later _ _ st V m s w) in R by (intros [Y|[Y _]]; lia). discriminate.
Qed.
Lemma st_own m s w c : busy st w = Some (m, s) -> nth_error (prog m) s = Some c -> parts st m s (helpers c) = Over \/ waits c (common st m s) (parts st m s (helpers c)).
Proof.
  intros B NC. pose proof (st_now m s w B) as ->. destruct (st_manager m c NC) as (_ & _ & [X|[X _]]); auto.
Qed.
Lemma st_kind m s w c : busy st w = Some (m, s) -> nth_error (prog m) s = Some c -> 2 <= helpers c /\ (meeting c \/ what c = Sum /\ 1 <= w /\ ~ In (w - 1) (given (common st m s))).
Proof.
  intros B NC. destruct (st_helper m s w B) as (c' & NC' & L & (r & R & NE & X)). replace c' with c in * by congruence. clear NC' c'. pose proof (st_sound m s w B c NC) as SD.
  pose proof (blocked _ _ _ _ _ (s_legal _ _ _ _ SD w r ltac:(lia) R) NE X) as BL. unfold meeting. destruct (what c) as [| |b] eqn:K; [contradiction| |].
  - destruct BL as [W1 NI]. split; [lia|]. right. auto.
  - destruct BL as (j & _ & A & G). split; [|left; exists (b - 1); f_equal; lia]. destruct (Nat.le_gt_cases 2 (helpers c)) as [H|H]; [exact H|exfalso].
    assert (W0 : w = 0 /\ helpers c = 1) by lia. destruct W0 as [-> H1]. rewrite H1 in *. pose proof (not_all_wait b 1 _ _ SD) as NW. assert (Y : parts st m s 0 = Over); [|congruence]. apply NW; [|lia].
    intros i I. destruct i as [|[|i]]; [right; exists r; auto| |lia]. destruct (st_own m s 0 c B NC) as [Y|(r' & Y1 & Y2 & Y3)]; rewrite H1 in *; [left; exact Y|right; exists r'; auto].
Qed.

Hypothesis NOC : ~ conflict W progs.

Lemma st_no_meeting m s w c : busy st w = Some (m, s) -> nth_error (prog m) s = Some c -> meeting c -> False.
Proof.
  intros B NC ME. destruct (st_kind m s w c B NC) as [H2 _].
  assert (ALL : forall w' m' s', busy st w' = Some (m', s') -> (m', s') = (m, s)).
  { intros w' m' s' B'. destruct (Nat.eq_dec m' m) as [->|NM]; [rewrite (st_now m s w B), (st_now m s' w' B'); reflexivity|]. exfalso. destruct (st_helper m' s' w' B') as (c' & NC' & _). destruct (st_kind m' s' w' c' B' NC') as [H2' K']. apply NOC. exists m, m', c, c'.
    split; [auto|]. split; [eapply nth_error_In; exact NC|]. split; [eapply nth_error_In; exact NC'|]. split; [apply helpers_two; [eapply least_ok; exact NC|exact H2]|]. split; [apply helpers_two; [eapply least_ok; exact NC'|exact H2']|]. split; [exact ME|]. destruct K' as [K'|[K' _]]; auto. }
  pose proof (st_sound m s w B c NC) as SD. pose proof (st_now m s w B) as ES. destruct ME as [b ME]. rewrite ME in SD.
  assert (Y : parts st m s w = Over).
  { destruct (st_helper m s w B) as (c' & NC' & L & _). replace c' with c in L by congruence. apply (not_all_wait _ _ _ _ SD); [|lia]. intros i I. destruct (Nat.eq_dec i (helpers c)) as [->|NI].
    - destruct (st_own m s w c B NC) as [O|(r & Q1 & Q2 & Q3)]; [left; exact O|right; exists r; auto].
    - destruct (parts st m s i) as [| |r|] eqn:PI; [exfalso|exfalso|right|left; reflexivity].
      + subst s. destruct (st_manager m c NC) as (_ & A & _). apply (A i); [lia|exact PI].
      + pose proof (i_queued _ _ st V m s i PI) as IQ. destruct (busy st i) as [[m' s']|] eqn:BI; [|rewrite (st_idle i BI) in IQ; destruct IQ]. pose proof (ALL i m' s' BI) as E. injection E as -> ->. destruct (i_busy _ _ st V m s i BI) as (c1 & r1 & _ & _ & R1). congruence.
      + assert (BI : busy st i = Some (m, s)) by (eapply i_running; [exact V|exact NC|lia|exact PI]). destruct (st_helper m s i BI) as (c1 & NC1 & _ & (r1 & R1 & NE1 & X1)). replace c1 with c in X1 by congruence. exists r1. split; [congruence|auto]. }
  destruct (i_busy _ _ st V m s w B) as (c1 & r1 & _ & _ & R1). congruence.
Qed.

Lemma st_free w : busy st w = None.
Proof.
  induction w as [w IH] using lt_wf_ind. destruct (busy st w) as [[m s]|] eqn:B; [exfalso|reflexivity]. destruct (st_helper m s w B) as (c & NC & L & _). destruct (st_kind m s w c B NC) as [H2 [ME|(SU & W1 & NI)]]; [eapply st_no_meeting; eassumption|].
  pose proof (st_sound m s w B c NC) as SD. rewrite SU in SD. pose proof (IH (w - 1) ltac:(lia)) as BF. apply NI. destruct (parts st m s (w - 1)) as [| |r|] eqn:PI.
  - exfalso. pose proof (st_now m s w B) as ->. destruct (st_manager m c NC) as (_ & A & _). apply (A (w - 1)); [lia|exact PI].
  - exfalso. pose proof (i_queued _ _ st V m s _ PI) as IQ. rewrite (st_idle _ BF) in IQ. destruct IQ.
  - exfalso. assert (BI : busy st (w - 1) = Some (m, s)) by (eapply i_running; [exact V|exact NC|lia|exact PI]). congruence.
  - destruct (s_sum _ _ _ _ SD eq_refl) as [_ S2]. destruct (S2 (w - 1) ltac:(lia) PI) as [Z _]. apply Z. lia.
Qed.

Lemma stuck_ended : all_ended progs st.
Proof.
  split; [|intros w; split; [apply st_free|apply st_idle, st_free]]. intros m. change (nth m progs []) with (prog m). destruct (nth_error (prog m) (at_section st m)) as [c|] eqn:NC.
  2:{ apply nth_error_None in NC. pose proof (i_sec _ _ st V m). lia. }
  exfalso. destruct (st_manager m c NC) as (PB & A & ME). set (s := at_section st m) in *.
  assert (ALL : forall i, i < helpers c -> parts st m s i = Over).
  { intros i I. destruct (parts st m s i) as [| |r|] eqn:PI; [elim (A i I PI)| | |reflexivity].
    - pose proof (i_queued _ _ st V m s _ PI) as IQ. rewrite (st_idle _ (st_free i)) in IQ. destruct IQ.
    - assert (BI : busy st i = Some (m, s)) by (eapply i_running; [exact V|exact NC|lia|exact PI]). rewrite st_free in BI. discriminate. }
  destruct ME as [(r & R & NE & X)|(_ & k & K & NK)]; [|apply NK, ALL, K].
  assert (SD : sound (what c) (helpers c) (common st m s) (parts st m s)) by (apply (i_sound _ _ st V m s c NC); right; auto).
  pose proof (blocked _ _ _ _ _ (s_legal _ _ _ _ SD _ r (le_n _) R) NE X) as BL. destruct (what c) as [| |b] eqn:KC; [exact BL| |].
  - destruct BL as [N1 NI]. destruct (s_sum _ _ _ _ SD eq_refl) as [_ S2]. apply NI. destruct (S2 (helpers c - 1) ltac:(lia)) as [Z _]; [apply ALL; lia|apply Z; lia].
  - pose proof (not_all_wait _ _ _ _ SD) as NW. assert (Y : parts st m s (helpers c) = Over); [|congruence]. apply NW; [|lia]. intros i I. destruct (Nat.eq_dec i (helpers c)) as [->|NI]; [right; exists r; auto|left; apply ALL; lia].
Qed.
End stuck.
End progress.
