(** * C31, C32, C33: order of execution and propagation of errors *)

From Coq Require Import ZArith List Bool Arith Lia Sorting.Sorted.
From Verif Require Import EventModel EventSpec EventInv EventMono EventFate EventUser EventWait EventCb EventCb2 EventAll EventEmit.
Import ListNotations.

(** ** Lemmas *)

Lemma outcome_over s h e : outcome s h e -> over h e.
Proof. intros [(r & A & _)|[(A & _)|(A & _)]]; [left; eauto|right; left; exact A|right; right; exact A]. Qed.

Lemma over_app h a e : over h e -> over (h ++ a) e.
Proof.
  intros [(r & A)|[A|A]]; [left; exists r|right; left|right; right]; rewrite in_app_iff; now left.
Qed.

Lemma error_code_iff code : error_code code <-> is_error_code code = true.
Proof.
  unfold error_code, is_error_code. rewrite !orb_true_iff, !Z.eqb_eq. tauto.
Qed.

Lemma user_set s h w :
  InvA s h -> InvU s h -> w < s_n s -> o_kind (s_ev s w) = KUser -> o_ready (s_ev s w) = true ->
  exists code, In (OSet w code) h.
Proof.
  intros I U L K R. destruct (u_life _ _ U w L K) as [(t & A)|A].
  - pose proof (u_thr _ _ U t w A) as P.
    assert (exists code, usets h w = [OSet w code]) as (code & Q).
    { destruct (s_usr s t); try discriminate A; cbn in P, A; injection A as ->; [destruct P; eauto| | |]; destruct P as (cd & P & _); eauto. }
    exists code. apply (filter_In (uset w)). unfold usets in Q. rewrite Q. now left.
  - destruct A as [(_ & A & _)|[(code & A & _)|(code & t & A & _)]]; [congruence| |]; exists code;
      apply (filter_In (uset w)); unfold usets in A; rewrite A; now left.
Qed.

Lemma user_failed s h w :
  InvA s h -> InvU s h -> w < s_n s -> o_kind (s_ev s w) = KUser -> o_rt (s_ev s w) <> NO_ERROR -> failed h w.
Proof.
  intros I U L K R.
  assert (exists code, In (OSet w code) (usets h w) /\ good code /\ o_rt (s_ev s w) = result code) as (code & A & B & C).
  { destruct (u_life _ _ U w L K) as [(t & A)|A].
    - pose proof (u_thr _ _ U t w A) as P. destruct (s_usr s t); try discriminate A; cbn in P, A; injection A as ->.
      + destruct P as (_ & P & _). contradiction.
      + destruct P as (cd & _ & _ & _ & P & _). contradiction.
      + destruct P as (cd & _ & _ & _ & P & _). contradiction.
      + destruct P as (cd & P1 & P2 & P3 & P4 & _). exists cd. rewrite P1. split; [now left|]. split; [exact P2|congruence].
    - destruct A as [(_ & _ & A & _)|[(code & _ & _ & _ & A & _)|(code & t & A1 & A2 & _ & A3 & _)]]; [contradiction|contradiction|].
      exists code. rewrite A1. split; [now left|]. auto. }
  right. exists code. apply filter_In in A. split; [tauto|].
  apply error_code_iff. destruct B as [->|B]; [|exact B]. exfalso. apply R. rewrite C. reflexivity.
Qed.

(** An event the manager or a waiting thread got past. *)
Lemma passed_facts s h w :
  InvA s h -> InvU s h -> passed s w ->
  (forall c ws, accepted h w c ws -> over h w /\ forall r, In (ORan w r) h -> r = NO_ERROR) /\
  (In (OUser w) h -> exists code, In (OSet w code) h).
Proof.
  intros I U (L & P). split.
  - intros c ws A. apply (a_enq _ _ I) in A. destruct A as (_ & A1 & A2).
    destruct P as [P|(P1 & P2)]; [congruence|]. destruct P2 as [P2|P2]; [congruence|]. split.
    + apply (outcome_over s). exact (a_over _ _ I w c ws L A1 A2 P1).
    + intros r B. apply (a_ran _ _ I) in B. destruct B as (B & _). congruence.
  - intro A. apply (u_user _ _ U) in A. destruct A as (_ & A). destruct P as [P|(P & _)].
    + rewrite (a_user _ _ I w L A) in P. discriminate.
    + exact (user_set s h w I U L A P).
Qed.

(** An event that stops the manager or a waiting thread. *)
Lemma stuck_facts s h w : Inv s h -> stuck_on s w -> invalid h w \/ failed h w.
Proof.
  intros V [A|(A1 & A2 & A3)].
  - left. destruct (le_lt_dec (s_n s) w) as [L|L].
    + right. split.
      * intro B. apply (u_user _ _ (iU _ _ V)) in B. lia.
      * intros c ws B. apply (a_enq _ _ (iA _ _ V)) in B. lia.
    + left. apply (h_list _ _ (iH _ _ V)); [exact L|]. intro B. apply listed_iff in B. congruence.
  - right. assert (w < s_n s) as L.
    { destruct (le_lt_dec (s_n s) w) as [L|L]; [|exact L]. rewrite (a_dummy _ _ (iA _ _ V) w L) in A1. discriminate. }
    destruct (o_kind (s_ev s w)) as [|c ws] eqn:K.
    + exact (user_failed s h w (iA _ _ V) (iU _ _ V) L K A3).
    + destruct (a_over _ _ (iA _ _ V) w c ws L K A1 A2) as [(r & B & C)|[(_ & B)|(_ & B)]]; [|contradiction|contradiction].
      left. exists r. split; [exact B|congruence].
Qed.

(** What is observed of a command is observed after its acceptance. *)
Lemma fate_accepted ls s h1 o h2 e :
  schedule ls s (h1 ++ o :: h2) -> fate e o = true -> exists c ws, accepted h1 e c ws.
Proof.
  intros R Fo. destruct (schedule_split _ _ _ _ _ R) as (l & s1 & s2 & g1 & a1 & a2 & V & E & -> & V2 & _).
  assert (In o (fates ((g1 ++ a1) ++ o :: a2) e)) as B by (apply filter_In; split; [rewrite in_app_iff; right; now left|exact Fo]).
  assert (~ (s_n s2 <= e \/ o_kind (s_ev s2 e) = KUser \/ o_fut (s_ev s2 e) = false)) as N.
  { intro N. rewrite (f_out _ _ (iF _ _ V2) e N) in B. destruct B. }
  assert (exists c ws, e < s_n s2 /\ o_kind (s_ev s2 e) = KCmd c ws /\ o_fut (s_ev s2 e) = true) as (c & ws & P).
  { destruct (le_lt_dec (s_n s2) e); [tauto|]. destruct (o_kind (s_ev s2 e)) as [|c ws] eqn:K; [tauto|].
    destruct (o_fut (s_ev s2 e)) eqn:Fu; [|tauto]. eauto. }
  apply (a_enq _ _ (iA _ _ V2)) in P. exists c, ws. unfold accepted.
  rewrite <- app_assoc, in_app_iff in P. rewrite in_app_iff. destruct P as [P|P]; [auto|].
  exfalso. pose proof (step_source _ _ _ _ _ E P) as (_ & Q & _).
  symmetry in Q. apply one_split in Q. destruct Q as (_ & Q & _). subst o. discriminate.
Qed.

(** Every command is accepted once, under a new number. *)
Lemma enq_fresh ls s h1 e c ws h2 e' c' ws' :
  schedule ls s (h1 ++ OEnq e c ws :: h2) -> In (OEnq e' c' ws') h1 -> e' < e.
Proof.
  intros R A. destruct (schedule_split _ _ _ _ _ R) as (l & s1 & s2 & g1 & a1 & a2 & V & E & -> & V2 & _).
  assert (In (OEnq e c ws) (a1 ++ OEnq e c ws :: a2)) as B by (rewrite in_app_iff; right; now left).
  pose proof (step_source _ _ _ _ _ E B) as (Q1 & Q2 & _). symmetry in Q2. apply one_split in Q2.
  destruct Q2 as (-> & _ & _). rewrite app_nil_r in A. apply (a_enq _ _ (iA _ _ V)) in A. lia.
Qed.

Lemma enq_unique ls s h1 e c ws h2 g1 c' ws' g2 :
  schedule ls s (h1 ++ OEnq e c ws :: h2) -> h1 ++ OEnq e c ws :: h2 = g1 ++ OEnq e c' ws' :: g2 ->
  h1 = g1 /\ c = c' /\ ws = ws'.
Proof.
  intros R Q.
  assert (forall ca wa cb wb, ~ In (OEnq e ca wa) h1 /\ ~ In (OEnq e cb wb) g1) as N.
  { intros ca wa cb wb. split; intro A.
    - pose proof (enq_fresh _ _ _ _ _ _ _ _ _ _ R A). lia.
    - rewrite Q in R. pose proof (enq_fresh _ _ _ _ _ _ _ _ _ _ R A). lia. }
  clear R. revert g1 Q N. induction h1 as [|x h1 IH]; intros [|y g1] Q N; cbn in Q.
  - injection Q as -> -> _. auto.
  - exfalso. injection Q as <- _. destruct (N 0 [] c ws) as (_ & B). apply B. now left.
  - exfalso. injection Q as -> _. destruct (N c' ws' 0 []) as (B & _). apply B. now left.
  - injection Q as -> Q. destruct (IH g1 Q) as (-> & B).
    + intros ca wa cb wb. destruct (N ca wa cb wb) as (N1 & N2). split; intro A; [apply N1|apply N2]; now right.
    + auto.
Qed.

Lemma accepted_fun ls s h e c ws c' ws' :
  schedule ls s h -> accepted h e c ws -> accepted h e c' ws' -> c = c' /\ ws = ws'.
Proof.
  intros R A B. pose proof (iA _ _ (schedule_Inv _ _ _ R)) as I.
  apply (a_enq _ _ I) in A. apply (a_enq _ _ I) in B. destruct A as (_ & A & _), B as (_ & B & _).
  rewrite A in B. injection B as -> ->. auto.
Qed.

(** An event that exists at some step: what is known of its nature later was
    known then. *)
Lemma known_then s h s1 h1 w :
  Inv s h -> Inv s1 h1 -> w < s_n s1 -> o_kind (s_ev s w) = o_kind (s_ev s1 w) -> o_fut (s_ev s w) = o_fut (s_ev s1 w) ->
  (forall c ws, accepted h w c ws -> accepted h1 w c ws) /\ (In (OUser w) h -> In (OUser w) h1).
Proof.
  intros V V1 L K F. split.
  - intros c ws A. apply (a_enq _ _ (iA _ _ V)) in A. apply (a_enq _ _ (iA _ _ V1)). rewrite <- K, <- F. tauto.
  - intro A. apply (u_user _ _ (iU _ _ V)) in A. apply (u_user _ _ (iU _ _ V1)). rewrite <- K. tauto.
Qed.

(** ** C31 *)

(** A command starts (with its context or, when the context is gone, as an
    empty task) only after every event of its wait list: commands are over and
    did not fail, user events were set.  Released or unknown entries, and
    failed ones, never let it start. *)
Theorem C31_starts_after_waitlist :
  forall ls s h1 o h2 e c ws,
    schedule ls s (h1 ++ o :: h2) -> o = OStart e \/ o = ONoop e -> accepted (h1 ++ o :: h2) e c ws ->
    accepted h1 e c ws /\
    forall w, In w ws ->
      (forall c' ws', accepted (h1 ++ o :: h2) w c' ws' -> over h1 w /\ forall r, In (ORan w r) h1 -> r = NO_ERROR) /\
      (In (OUser w) (h1 ++ o :: h2) -> exists code, In (OSet w code) h1).
Proof.
  intros ls s h1 o h2 e c ws R Ho A. pose proof (schedule_Inv _ _ _ R) as Vf.
  assert (fate e o = true) as Fo by (destruct Ho as [-> | ->]; cbn; apply Nat.eqb_refl).
  destruct (fate_accepted _ _ _ _ _ _ R Fo) as (c0 & ws0 & B).
  assert (c0 = c /\ ws0 = ws) as (-> & ->).
  { apply (accepted_fun _ _ _ e _ _ _ _ R); [|exact A]. unfold accepted. rewrite in_app_iff. now left. }
  split; [exact B|].
  destruct (schedule_split _ _ _ _ _ R) as (l & s1 & s2 & g1 & a1 & a2 & V & E & -> & V2 & Kn & Kk & _).
  assert (In o (a1 ++ o :: a2)) as Oa by (rewrite in_app_iff; right; now left).
  pose proof (step_source _ _ _ _ _ E Oa) as Q.
  assert (exists ct i, s_mgr s1 ct i = MWait e [] /\ a1 ++ o :: a2 = [o]) as (ct & i & Q1 & Q2) by (destruct Ho as [-> | ->]; exact Q).
  symmetry in Q2. apply one_split in Q2. destruct Q2 as (-> & _ & ->). rewrite app_nil_r in *.
  pose proof (a_phase _ _ (iA _ _ V) ct i) as Ph. rewrite Q1 in Ph.
  destruct Ph as (_ & c1 & ws1 & pre & P1 & P2 & P3). rewrite app_nil_r in P2. subst pre.
  apply (a_enq _ _ (iA _ _ V)) in B. destruct B as (_ & B & _). rewrite B in P1. injection P1 as <- <-.
  intros w Hw. rewrite Forall_forall in P3. pose proof (P3 w Hw) as Pw.
  destruct (passed_facts s1 g1 w (iA _ _ V) (iU _ _ V) Pw) as (G1 & G2).
  destruct (step_keeps _ _ _ _ _ (iA _ _ V) E) as (Kn1 & Kk1). destruct Pw as (Lw & _).
  assert (w < s_n s2) as Lw2 by lia. destruct (Kk1 w Lw) as (K1 & K2 & _), (Kk w Lw2) as (K3 & K4 & _).
  destruct (known_then s _ s1 g1 w Vf V Lw) as (N1 & N2); [congruence|congruence|].
  split; [intros c' ws' G; exact (G1 c' ws' (N1 _ _ G))|intro G; exact (G2 (N2 G))].
Qed.

(** A command is skipped only because of an entry of its wait list that is not
    valid or has failed. *)
Theorem C31_skipped_for_cause_partial :
  forall ls s h1 e h2 c ws,
    schedule ls s (h1 ++ OSkip e :: h2) -> accepted (h1 ++ OSkip e :: h2) e c ws ->
    exists w, In w ws /\ (invalid h1 w \/ failed h1 w).
Proof.
  intros ls s h1 e h2 c ws R A.
  destruct (fate_accepted _ _ _ _ _ e R) as (c0 & ws0 & B); [cbn; apply Nat.eqb_refl|].
  assert (c0 = c /\ ws0 = ws) as (-> & ->).
  { apply (accepted_fun _ _ _ e _ _ _ _ R); [|exact A]. unfold accepted. rewrite in_app_iff. now left. }
  destruct (schedule_split _ _ _ _ _ R) as (l & s1 & s2 & g1 & a1 & a2 & V & E & -> & V2 & _).
  assert (In (OSkip e) (a1 ++ OSkip e :: a2)) as Oa by (rewrite in_app_iff; right; now left).
  destruct (step_source _ _ _ _ _ E Oa) as (ct & i & w & r & Q1 & Q2).
  assert (waiting s1 e (w :: r)) as W.
  { pose proof (a_phase _ _ (iA _ _ V) ct i) as Ph. destruct Q1 as [Q1|Q1]; rewrite Q1 in Ph; [exact Ph|exact (proj1 Ph)]. }
  destruct W as (_ & c1 & ws1 & pre & P1 & P2 & P3).
  assert (In (OEnq e c1 ws1) g1) as B'.
  { apply (a_enq _ _ (iA _ _ V)).
    assert (mev (s_mgr s1 ct i) = Some e) as Me by (destruct Q1 as [Q1|Q1]; rewrite Q1; reflexivity).
    destruct (a_mgr _ _ (iA _ _ V) ct i e Me) as (M1 & _ & M2 & _). auto. }
  assert (c1 = c /\ ws1 = ws) as (-> & ->).
  { apply (accepted_fun _ _ _ e _ _ _ _ R); [|exact A]. unfold accepted. rewrite !in_app_iff. auto. }
  exists w. split; [rewrite P2, in_app_iff; right; now left|].
  assert (forall o, In o g1 -> In o (g1 ++ a1)) as Mono by (intros; rewrite in_app_iff; auto).
  destruct (stuck_facts s1 g1 w V Q2) as [[G|(G1 & G2)]|[(x & G1 & G2)|(x & G1 & G2)]].
  - left. left. auto.
  - left. right. split.
    + rewrite in_app_iff. intros [G|G]; [exact (G1 G)|].
      assert (In (OUser w) (a1 ++ OSkip e :: a2)) as G' by (rewrite in_app_iff; now left).
      destruct (step_source _ _ _ _ _ E G') as (_ & Q). symmetry in Q. apply one_split in Q. destruct Q as (_ & Q & _). discriminate.
    + intros c' ws'. rewrite in_app_iff. intros [G|G]; [exact (G2 _ _ G)|].
      assert (In (OEnq w c' ws') (a1 ++ OSkip e :: a2)) as G' by (rewrite in_app_iff; now left).
      destruct (step_source _ _ _ _ _ E G') as (_ & Q & _). symmetry in Q. apply one_split in Q. destruct Q as (_ & Q & _). discriminate.
  - right. left. eauto.
  - right. right. eauto.
Qed.

(** The whole life of a command: it is started once, its function returns
    once, it is completed once with that result; or it is skipped; or it is
    discarded; never two of these. *)
Theorem C31_once :
  forall ls s h e, schedule ls s h ->
    fates h e = [] \/ fates h e = [OSkip e] \/ fates h e = [ODrop e] \/
    exists x, (x = OStart e \/ x = ONoop e) /\
      (fates h e = [x] \/ exists r, fates h e = [x; ODone e r] \/ fates h e = [x; ODone e r; ORan e r]).
Proof.
  intros ls s h e R. pose proof (schedule_Inv _ _ _ R) as V. pose proof (iA _ _ V) as I. pose proof (iF _ _ V) as F.
  assert (forall l, ran_through e l -> exists x, (x = OStart e \/ x = ONoop e) /\ (l = [x] \/ exists r, l = [x; ODone e r] \/ l = [x; ODone e r; ORan e r])) as Hr.
  { intros l (x & r & A & B). exists x. split; [exact A|]. right. exists r. auto. }
  destruct (le_lt_dec (s_n s) e) as [L|L]; [left; apply (f_out _ _ F); auto|].
  destruct (o_kind (s_ev s e)) as [|c ws] eqn:K; [left; apply (f_out _ _ F); auto|].
  destruct (o_fut (s_ev s e)) eqn:Fu; [|left; apply (f_out _ _ F); auto].
  destruct (o_ready (s_ev s e)) eqn:Re.
  - destruct (f_over _ _ F e c ws L K Fu Re) as [A|[A|A]]; auto.
  - destruct (a_loc _ _ I e c ws L K Fu Re) as (i & _ & [A|A]); [left; exact (f_queue _ _ F _ _ _ A)|].
    pose proof (f_mgr _ _ F _ _ _ A) as Lf. destruct (s_mgr s c i); cbn in A, Lf; try discriminate A; injection A as ->; auto.
    + right. right. right. exists (if locked then OStart e else ONoop e). split; [destruct locked; auto|auto].
    + destruct Lf as (x & B & C). right. right. right. exists x. split; [exact B|]. eauto.
    + destruct Lf as (x & B & C). right. right. right. exists x. split; [exact B|]. eauto.
    + destruct Lf as (x & B & C). right. right. right. exists x. split; [exact B|]. eauto.
    + destruct Lf as [B|B]; auto.
Qed.

(** ** C32 *)

Theorem C32_in_order :
  forall ls s h c e1 ws1 e2 ws2 x y z h1 o h2,
    schedule ls s h -> In (OContext c false) h ->
    h = x ++ OEnq e1 c ws1 :: y ++ OEnq e2 c ws2 :: z ->
    h = h1 ++ o :: h2 -> o = OStart e2 \/ o = ONoop e2 \/ o = OSkip e2 -> over h1 e1.
Proof.
  intros ls s h c e1 ws1 e2 ws2 x y z h1 o h2 R Hc Hh Hs Ho.
  assert (e1 < e2) as Lt.
  { apply (enq_fresh ls s (x ++ OEnq e1 c ws1 :: y) e2 c ws2 z e1 c ws1).
    - rewrite <- app_assoc. cbn. rewrite <- Hh. exact R.
    - rewrite in_app_iff. right. now left. }
  assert (fate e2 o = true) as Fo by (destruct Ho as [-> | [-> | ->]]; cbn; apply Nat.eqb_refl).
  pose proof (schedule_Inv _ _ _ R) as Vf.
  assert (In (OEnq e1 c ws1) h) as A1 by (rewrite Hh, in_app_iff; right; now left).
  assert (In (OEnq e2 c ws2) h) as A2 by (rewrite Hh, in_app_iff; right; right; rewrite in_app_iff; right; now left).
  rewrite Hs in R. destruct (schedule_split _ _ _ _ _ R) as (l & s1 & s2 & g1 & a1 & a2 & V & E & -> & V2 & Kn & Kk & Kc).
  assert (In o (a1 ++ o :: a2)) as Oa by (rewrite in_app_iff; right; now left).
  pose proof (step_source _ _ _ _ _ E Oa) as Q.
  assert (exists ct i, mev (s_mgr s1 ct i) = Some e2) as (ct & i & Me).
  { destruct Ho as [-> | [-> | ->]].
    - destruct Q as (ct & i & Q & _). exists ct, i. rewrite Q. reflexivity.
    - destruct Q as (ct & i & Q & _). exists ct, i. rewrite Q. reflexivity.
    - destruct Q as (ct & i & w & r & [Q|Q] & _); exists ct, i; rewrite Q; reflexivity. }
  destruct (step_keeps _ _ _ _ _ (iA _ _ V) E) as (Kn1 & Kk1).
  pose proof (a_mgr _ _ (iA _ _ V) ct i e2 Me) as (M1 & (wsm & M2) & M3 & M4 & M5 & M6).
  assert (forall w, w < s_n s1 -> o_kind (s_ev s w) = o_kind (s_ev s1 w) /\ o_fut (s_ev s w) = o_fut (s_ev s1 w)) as Kall.
  { intros w Lw. assert (w < s_n s2) as Lw2 by lia. destruct (Kk1 w Lw) as (K1 & K2 & _), (Kk w Lw2) as (K3 & K4 & _).
    split; congruence. }
  apply (a_enq _ _ (iA _ _ Vf)) in A1. destruct A1 as (_ & B1 & B1').
  apply (a_enq _ _ (iA _ _ Vf)) in A2. destruct A2 as (_ & B2 & _).
  assert (e1 < s_n s1) as L1 by lia.
  destruct (Kall e1 L1) as (C1 & C2). destruct (Kall e2 M1) as (C3 & _).
  assert (ct = c) as -> by congruence.
  assert (s_thr s1 c = 1) as Th.
  { pose proof Hc as Hc2. rewrite Hs in Hc. rewrite <- app_assoc, in_app_iff in Hc.
    destruct Hc as [Hc|Hc].
    - apply (a_thr _ _ (iA _ _ V)) in Hc. tauto.
    - assert (c < s_nctx s1) as Lc.
      { destruct (le_lt_dec (s_nctx s1) c) as [G|G]; [|exact G]. destruct (a_ctx _ _ (iA _ _ V) c G) as (G1 & _). lia. }
      apply (a_thr _ _ (iA _ _ Vf)) in Hc2. rewrite <- (proj2 Hc2). symmetry. apply Kc. exact Lc. }
  apply over_app. destruct (o_ready (s_ev s1 e1)) eqn:Re.
  - apply (outcome_over s1). apply (a_over _ _ (iA _ _ V) e1 c ws1); congruence.
  - exfalso. destruct (a_loc _ _ (iA _ _ V) e1 c ws1) as (i' & G1 & G2); try congruence.
    assert (i' = i) as -> by lia. destruct G2 as [G2|G2].
    + pose proof (a_order _ _ (iA _ _ V) c i e2 e1 Me G2). lia.
    + rewrite Me in G2. injection G2 as G2. lia.
Qed.

(** ** C33 *)

(** A command none of whose wait-list entries failed in front of it: direct
    propagation.  If a command completed with an error then no command that
    waits on it is ever executed. *)
Theorem C33_direct_partial :
  forall ls s h e c ws w r,
    schedule ls s h -> accepted h e c ws -> In w ws -> In (ORan w r) h -> r <> NO_ERROR ->
    ~ In (OStart e) h /\ ~ In (ONoop e) h.
Proof.
  intros ls s h e c ws w r R A Hw Hr Nr.
  assert (forall o, o = OStart e \/ o = ONoop e -> ~ In o h) as G.
  { intros o Ho B. pose proof B as B'. apply in_split in B'. destruct B' as (h1 & h2 & Q). rewrite Q in R, A.
    destruct (C31_starts_after_waitlist _ _ _ _ _ _ _ _ R Ho A) as (_ & P). specialize (P w Hw).
    rewrite <- Q in R.
    assert (In (ORan w r) (fates h w)) as F by (apply filter_In; split; [exact Hr|cbn; apply Nat.eqb_refl]).
    assert (exists c' ws', accepted h w c' ws') as (c' & ws' & Aw).
    { pose proof Hr as Hr'. apply in_split in Hr'. destruct Hr' as (x1 & x2 & Qx).
      rewrite Qx in R. destruct (fate_accepted _ _ _ _ _ w R) as (c' & ws' & Aw); [cbn; apply Nat.eqb_refl|].
      exists c', ws'. unfold accepted. rewrite Qx, in_app_iff. now left. }
    rewrite <- Q in P.
    destruct (proj1 P _ _ Aw) as (P1 & P2).
    assert (forall o', In o' h1 -> In o' h) as Mono by (intros; rewrite Q, in_app_iff; auto).
    assert (forall o', In o' h1 -> fate w o' = true -> In o' (fates h w)) as Mf by (intros; apply filter_In; auto).
    assert (fate w (OSkip w) = true /\ fate w (ODrop w) = true /\ forall r', fate w (ORan w r') = true) as (F1 & F2 & F3)
      by (cbn; rewrite Nat.eqb_refl; auto).
    destruct (C31_once ls s h w R) as [Z|[Z|[Z|(x & Hx & [Z|(r' & [Z|Z])])]]]; rewrite Z in F, Mf; cbn in F, Mf;
      try (intuition congruence; fail); try (destruct Hx as [-> | ->]; intuition congruence; fail).
    assert (r' = r) as -> by (destruct Hx as [-> | ->]; intuition congruence).
    destruct P1 as [(r' & P1)|[P1|P1]].
    - pose proof (P2 _ P1) as ->. apply Mf in P1; [|auto]. destruct Hx as [-> | ->]; intuition congruence.
    - apply Mf in P1; [|exact F1]. destruct Hx as [-> | ->]; intuition congruence.
    - apply Mf in P1; [|exact F2]. destruct Hx as [-> | ->]; intuition congruence. }
  split; apply G; auto.
Qed.

(** The same for a user event: when the call that set it to an error code has
    returned before the command is enqueued, the command is never executed. *)
Theorem C33_user_partial :
  forall ls s h1 e c ws h2 w t code,
    schedule ls s (h1 ++ OEnq e c ws :: h2) -> In w ws ->
    In (OSetRet t w code NO_ERROR) h1 -> code <> COMPLETE ->
    ~ In (OStart e) (h1 ++ OEnq e c ws :: h2) /\ ~ In (ONoop e) (h1 ++ OEnq e c ws :: h2).
Proof.
  intros ls s h1 e c ws h2 w t code R Hw Hs Nc.
  assert (forall o, o = OStart e \/ o = ONoop e -> ~ In o (h1 ++ OEnq e c ws :: h2)) as G.
  { intros o Ho B. apply in_split in B. destruct B as (g & g' & Q). pose proof R as R'. rewrite Q in R'.
    destruct (schedule_split _ _ _ _ _ R') as (l & s1 & s2 & g1 & a1 & a2 & V & E & -> & V2 & Kn & Kk & _).
    assert (In o (a1 ++ o :: a2)) as Oa by (rewrite in_app_iff; right; now left).
    pose proof (step_source _ _ _ _ _ E Oa) as Sc.
    assert (exists ct i, s_mgr s1 ct i = MWait e [] /\ a1 ++ o :: a2 = [o]) as (ct & i & Q1 & Q2) by (destruct Ho as [-> | ->]; exact Sc).
    symmetry in Q2. apply one_split in Q2. destruct Q2 as (-> & _ & ->). rewrite app_nil_r in *.
    pose proof (iM _ _ V ct i) as M. rewrite Q1 in M. destruct M as (c' & ws' & pre & hb & ha & M1 & M2 & M3).
    rewrite app_nil_r in M2. subst pre.
    destruct (enq_unique ls s h1 e c ws h2 hb c' ws' (ha ++ o :: g') R) as (-> & -> & ->).
    { rewrite Q, M1, <- app_assoc. reflexivity. }
    rewrite Forall_forall in M3. destruct (M3 w Hw) as (_ & M4). exact (Nc (M4 _ _ Hs)). }
  split; apply G; auto.
Qed.

(** ** Concrete runs *)

Definition run_obs (ls : list elabel) : option (list obs) :=
  match erun ls est0 with Some (_, h) => Some h | None => None end.

Lemma run_obs_schedule ls h : run_obs ls = Some h -> exists s, schedule ls s h.
Proof.
  unfold run_obs, schedule. destruct (erun ls est0) as [[s h']|]; [|discriminate]. intro H. injection H as ->. eauto.
Qed.

(** Not transitive: the skipped command counts as a success.  Command 0 fails,
    command 1 waits on it and is skipped, command 2 waits on command 1 and is
    executed; mcWaitForEvents on command 1 reports success. *)
Definition chain : list elabel :=
  [LContext false; LEnqueue 0 [] 0; LEnqueue 0 [0] 0; LEnqueue 0 [1] 0;
   LPop 0 0; LMgr 0 0; LFinish 0 0 INVALID_OPERATION; LMgr 0 0; LMgr 0 0; LMgr 0 0; LMgr 0 0; LMgr 0 0;
   LPop 0 0; LMgr 0 0; LMgr 0 0; LMgr 0 0;
   LPop 0 0; LMgr 0 0; LMgr 0 0; LMgr 0 0;
   LWaitFor 7 [1]; LUsr 7; LUsr 7; LUsr 7].

Definition chain_obs : list obs :=
  [OContext 0 false; OEnq 0 0 []; OEnq 1 0 [0]; OEnq 2 0 [1];
   OStart 0; ODone 0 INVALID_OPERATION; ORan 0 INVALID_OPERATION;
   OSkip 1; OStart 2; OWait 7 [1]; OWaitRet 7 NO_ERROR].

Theorem C33_transitive_refuted :
  exists ls s h,
    schedule ls s h /\ accepted h 1 0 [0] /\ accepted h 2 0 [1] /\
    In (ORan 0 INVALID_OPERATION) h /\ In (OSkip 1) h /\
    In (OStart 2) h /\ In (OWait 7 [1]) h /\ In (OWaitRet 7 NO_ERROR) h.
Proof.
  destruct (run_obs_schedule chain chain_obs) as (s & R); [vm_compute; reflexivity|].
  exists chain, s, chain_obs. split; [exact R|]. unfold accepted. cbn. intuition.
Qed.

(** The status of a user event is stored after its future became ready: a
    command can start although its wait list names a user event that was set
    to an error code. *)
Definition race : list elabel :=
  [LContext false; LUser; LEnqueue 0 [0] 0; LPop 0 0; LMgr 0 0;
   LStatus 7 0 OUT_OF_MEMORY; LMgr 0 0; LMgr 0 0; LUsr 7; LUsr 7; LUsr 7; LUsr 7].

Definition race_obs : list obs :=
  [OContext 0 false; OUser 0; OEnq 1 0 [0]; OSet 0 OUT_OF_MEMORY; OStart 1; OSetRet 7 0 OUT_OF_MEMORY NO_ERROR].

Theorem C31_user_error_race_refuted :
  exists ls s h1 h2,
    schedule ls s (h1 ++ OStart 1 :: h2) /\ accepted h1 1 0 [0] /\ In (OSet 0 OUT_OF_MEMORY) h1.
Proof.
  destruct (run_obs_schedule race race_obs) as (s & R); [vm_compute; reflexivity|].
  exists race, s, [OContext 0 false; OUser 0; OEnq 1 0 [0]; OSet 0 OUT_OF_MEMORY], [OSetRet 7 0 OUT_OF_MEMORY NO_ERROR].
  split; [exact R|]. unfold accepted. cbn. intuition.
Qed.

(** The hypotheses of the theorems are met. *)
Definition good_run : list elabel :=
  [LContext true; LUser; LEnqueue 0 [] 0; LEnqueue 0 [0; 1] 1;
   LPop 0 0; LMgr 0 0; LFinish 0 0 NO_ERROR; LMgr 0 0; LMgr 0 0; LMgr 0 0; LMgr 0 0; LMgr 0 0;
   LPop 0 0; LMgr 0 0; LStatus 7 0 COMPLETE; LUsr 7; LUsr 7; LUsr 7; LUsr 7;
   LMgr 0 0; LMgr 0 0; LMgr 0 0; LMgr 0 0].

Example C31_instance : exists s,
  schedule good_run s
    ([OContext 0 true; OUser 0; OEnq 1 0 []; OEnq 2 0 [0; 1]; OStart 1; ODone 1 NO_ERROR; ORan 1 NO_ERROR;
      OSet 0 COMPLETE; OSetRet 7 0 COMPLETE NO_ERROR] ++ OStart 2 :: []).
Proof. apply run_obs_schedule. vm_compute. reflexivity. Qed.

Example C31_instance_skip : exists s,
  schedule (firstn 15 chain) s
    ([OContext 0 false; OEnq 0 0 []; OEnq 1 0 [0]; OEnq 2 0 [1]; OStart 0; ODone 0 INVALID_OPERATION; ORan 0 INVALID_OPERATION]
     ++ OSkip 1 :: []).
Proof. apply run_obs_schedule. vm_compute. reflexivity. Qed.

Example C32_instance : exists s,
  schedule (firstn 20 chain) s
    ([OContext 0 false; OEnq 0 0 []; OEnq 1 0 [0]; OEnq 2 0 [1]; OStart 0; ODone 0 INVALID_OPERATION; ORan 0 INVALID_OPERATION;
      OSkip 1] ++ OStart 2 :: []).
Proof. apply run_obs_schedule. vm_compute. reflexivity. Qed.

Definition user_error : list elabel :=
  [LContext false; LUser; LStatus 7 0 OUT_OF_MEMORY; LUsr 7; LUsr 7; LUsr 7; LUsr 7;
   LEnqueue 0 [0] 0; LPop 0 0; LMgr 0 0; LMgr 0 0].
Example C33_instance : exists s,
  schedule user_error s
    ([OContext 0 false; OUser 0; OSet 0 OUT_OF_MEMORY; OSetRet 7 0 OUT_OF_MEMORY NO_ERROR] ++ OEnq 1 0 [0] :: [OSkip 1]).
Proof. apply run_obs_schedule. vm_compute. reflexivity. Qed.

Print Assumptions C31_starts_after_waitlist.
Print Assumptions C31_skipped_for_cause_partial.
Print Assumptions C31_once.
Print Assumptions C32_in_order.
Print Assumptions C33_direct_partial.
Print Assumptions C33_user_partial.
