(** * C57, C58: releasing contexts; programs that cannot crash the process *)

From Coq Require Import ZArith List Bool Arith Lia Sorting.Sorted.
From Verif Require Import EventModel EventSpec EventInv EventMono EventFate EventUser EventWait EventCb EventCb2 EventAll EventEmit EventProps EventLive EventFrame.
Import ListNotations.

(** ** Facts about the number of a thread and about released contexts *)

Definition InvX (s : est) : Prop :=
  forall e c ws, e < s_n s -> o_kind (s_ev s e) = KCmd c ws -> o_fut (s_ev s e) = true ->
    c < s_nctx s /\ o_thr (s_ev s e) < s_thr s c.

Lemma new_event s h l s' a e :
  Inv s h -> estep l s = Some (s', a) -> s_n s <= e -> e < s_n s' ->
  forall c ws, o_kind (s_ev s' e) = KCmd c ws -> o_fut (s_ev s' e) = true -> In (OEnq e c ws) a.
Proof.
  intros V E L L' c ws K Fu. pose proof (step_Inv _ _ _ _ _ V E) as V'.
  assert (In (OEnq e c ws) (h ++ a)) as A by (apply (a_enq _ _ (iA _ _ V')); auto).
  apply in_app_iff in A. destruct A as [A|A]; [|exact A]. apply (a_enq _ _ (iA _ _ V)) in A. lia.
Qed.

Lemma step_InvX s h l s' a : Inv s h -> InvX s -> estep l s = Some (s', a) -> InvX s'.
Proof.
  intros V X E e c ws L K Fu. pose proof (step_frame _ _ _ _ E) as F. destruct (step_ctx _ _ _ _ E) as (C1 & C2).
  destruct (le_lt_dec (s_n s) e) as [N|N].
  - pose proof (new_event _ _ _ _ _ _ V E N L c ws K Fu) as A. pose proof (step_source _ _ _ _ _ E A) as (_ & _ & S3).
    assert (c < s_nctx s) as Lc.
    { destruct (le_lt_dec (s_nctx s) c) as [Q|Q]; [|exact Q]. destruct (a_ctx _ _ (iA _ _ V) c Q). congruence. }
    split; [lia|]. rewrite C2 by exact Lc. exact (fr_enq _ _ _ _ F e c ws A).
  - destruct (step_keeps _ _ _ _ _ (iA _ _ V) E) as (_ & Kk). destruct (Kk e N) as (K1 & K2 & _).
    rewrite K1 in K. rewrite K2 in Fu. destruct (X e c ws N K Fu) as (B1 & B2).
    rewrite (fr_thr _ _ _ _ F e N), C2 by exact B1. split; [lia|exact B2].
Qed.

Lemma run_InvX ls : forall s h s' a, Inv s h -> InvX s -> erun ls s = Some (s', a) -> InvX s'.
Proof.
  induction ls as [|l ls IH]; intros s h s' a V X E; cbn in E; [now injection E as <- <-|].
  destruct (estep l s) as [[s1 b]|] eqn:E1; [|discriminate].
  destruct (erun ls s1) as [[s2 b2]|] eqn:E2; [|discriminate]. injection E as <- <-.
  apply (IH s1 (h ++ b) s2 b2); [exact (step_Inv _ _ _ _ _ V E1)|exact (step_InvX _ _ _ _ _ V X E1)|exact E2].
Qed.

Lemma InvX0 : InvX est0.
Proof. intros e c ws L. cbn in L. lia. Qed.

(** A context that was taken out of the list never comes back. *)
Lemma run_unlisted ls : forall s s' a c,
  erun ls s = Some (s', a) -> c < s_nctx s -> s_listed s c = false -> s_listed s' c = false.
Proof.
  induction ls as [|l ls IH]; intros s s' a c E Lc U; cbn in E; [now injection E as <- <-|].
  destruct (estep l s) as [[s1 b]|] eqn:E1; [|discriminate].
  destruct (erun ls s1) as [[s2 b2]|] eqn:E2; [|discriminate]. injection E as <- <-.
  destruct (step_ctx _ _ _ _ E1) as (C1 & _). apply (IH s1 s2 b2 c E2); [lia|].
  destruct (fr_list _ _ _ _ (step_frame _ _ _ _ E1) c) as [A|[(ooo & _ & A)|(t & ->)]]; [congruence|lia|].
  unfold estep in E1. destruct (s_crash s); [discriminate|]. unfold release_ctx in E1.
  destruct (s_usr s t); try discriminate E1. rewrite U in E1. cbn in E1. now injection E1 as <- <-.
Qed.

(** ** C57: what holds when mcReleaseContext returns *)

(** A thread is inside mcReleaseContext only for a context it took off the list. *)
Definition InvJ (s : est) : Prop :=
  forall t c, s_usr s t = UJoin c -> c < s_nctx s /\ s_listed s c = false /\ s_done s c = true.

Lemma step_InvJ s h l s' a : Inv s h -> InvJ s -> estep l s = Some (s', a) -> InvJ s'.
Proof.
  intros V J E t c U. pose proof (step_frame _ _ _ _ E) as F. destruct (step_ctx _ _ _ _ E) as (C1 & _).
  assert ((s_usr s t = UJoin c) \/ (l = LReleaseCtx t c /\ s_listed s c = true /\ s_listed s' c = false /\ s_done s' c = true)) as [O|(-> & O1 & O2 & O3)].
  { destruct (fr_usr _ _ _ _ F t) as [A|[->|A]]; [left; congruence| |].
    - unfold estep in E. destruct (s_crash s); [discriminate|]. left. unfold usr_step in E.
      destruct (s_usr s t) as [|ws|w r|e code|e r|e r|e r|x] eqn:Ut; try discriminate E; exfalso.
      + destruct ws as [|w r]; [|destruct (listed s w)]; injection E as <- <-; cbn in U; rewrite upd_eq in U; discriminate.
      + destruct (drop (HUsr t) w s) as [s1 b]. destruct (negb _); [|destruct (o_ready _); [destruct (_ =? _)%Z|discriminate E]];
          injection E as <- <-; cbn in U; rewrite upd_eq in U; discriminate.
      + destruct (drop (HUsr t) e s) as [s1 b]. destruct (_ =? _)%Z; [|destruct (is_error_code _)];
          injection E as <- <-; cbn in U; rewrite upd_eq in U; discriminate.
      + injection E as <- <-; cbn in U; rewrite upd_eq in U; discriminate.
      + injection E as <- <-; cbn in U; rewrite upd_eq in U; discriminate.
      + destruct (notify_callback e s) as [s1 b]. destruct (drop (HUsr t) e s1) as [s2 b2].
        injection E as <- <-; cbn in U; rewrite upd_eq in U; discriminate.
      + destruct (all_stopped _ _ _); [|discriminate]. destruct (break_queues _ _ _) as [s1 b].
        injection E as <- <-; cbn in U; rewrite upd_eq in U; discriminate.
    - destruct (s_usr s' t) eqn:U'; try discriminate U. injection U as ->. right. clear F C1 J V.
      unfold estep in E. destruct (s_crash s); [discriminate|].
      destruct l as [ooo| |c0 ws j|e|t0 e code|t0 ws|e|t0 c0|c0 i|c0 i|c0 i r|t0].
      + injection E as <- <-. cbn in U'. congruence.
      + injection E as <- <-. cbn in U'. congruence.
      + unfold enqueue in E. destruct (negb (s_listed s c0)); [injection E as <- <-; congruence|].
        destruct (responsible _ ws) as [r|]; [|injection E as <- <-; cbn in U'; congruence].
        destruct (match r with None => _ | Some _ => _ end); [discriminate|].
        destruct (_ <=? _); injection E as <- <-; cbn in U'; congruence.
      + destruct (listed s e); [|injection E as <- <-; congruence].
        destruct (set_callback e (s_nreg s) s) as [s1 b] eqn:C. injection E as <- <-.
        unfold set_callback in C. destruct (o_fin (s_ev s e)); injection C as <- <-; cbn in U'; congruence.
      + unfold set_status in E. destruct (s_usr s t0) eqn:Ut; try discriminate E.
        destruct (negb (listed s e)); [injection E as <- <-; congruence|].
        destruct (o_kind (s_ev s e)); [|injection E as <- <-; cbn in U'; congruence].
        destruct (o_ready (s_ev s e)); injection E as <- <-; cbn in U'; [congruence|].
        unfold upd in U'. destruct (t =? t0); congruence.
      + destruct (s_usr s t0); try discriminate E. injection E as <- <-. cbn in U'. unfold upd in U'. destruct (t =? t0); congruence.
      + destruct (listed s e); [|injection E as <- <-; congruence].
        destruct (drop HList e s) as [s1 b] eqn:D. injection E as <- <-. apply drop_facts in D. destruct D as (-> & _). cbn in U'. congruence.
      + unfold release_ctx in E. destruct (s_usr s t0); try discriminate E.
        destruct (s_listed s c0) eqn:Li; cbn [negb] in E; [|injection E as <- <-; congruence].
        destruct (some_running _ _ _); injection E as <- <-; cbn in U'; [congruence|]. unfold upd in U'.
        destruct (Nat.eqb_spec t t0) as [->|]; [|congruence]. injection U' as ->.
        split; [reflexivity|]. split; [exact Li|]. cbn. now rewrite !upd_eq.
      + destruct (i <? s_thr s c0); [|discriminate]. unfold pop in E. destruct (s_mgr s c0 i); try discriminate E.
        destruct (s_queue s c0 i); destruct (s_done s c0); try discriminate E; injection E as <- <-; cbn in U'; congruence.
      + unfold mgr_step in E. destruct (s_mgr s c0 i) as [|e ws|e w r|e lk|e r|e r|e r|e|e|]; try discriminate E.
        * destruct ws as [|w r].
          -- destruct (o_refs _); [injection E as <- <-; cbn in U'; congruence|].
             destruct (ctx_alive _ _); injection E as <- <-; cbn in U'; congruence.
          -- destruct (listed _ _); injection E as <- <-; cbn in U'; congruence.
        * destruct (drop (HMgr c0 i) w s) as [s1 b] eqn:D. apply drop_facts in D. destruct D as (-> & _).
          destruct (negb _); [injection E as <- <-; cbn in U'; congruence|].
          destruct (o_ready _); [|discriminate E]. destruct (_ =? _)%Z; injection E as <- <-; cbn in U'; congruence.
        * injection E as <- <-; cbn in U'; congruence.
        * injection E as <- <-; cbn in U'; congruence.
        * destruct (notify_callback e s) as [s1 b] eqn:D. injection E as <- <-.
          apply notify_facts in D. destruct D as [(-> & _)|(k & _ & _ & -> & _)]; cbn in U'; congruence.
        * destruct (drop (HMgr c0 i) e _) as [s1 b] eqn:D. injection E as <- <-. apply drop_facts in D. destruct D as (-> & _). cbn in U'; congruence.
        * injection E as <- <-; cbn in U'; congruence.
      + unfold finish in E. destruct (s_mgr s c0 i) as [| | |e lk| | | | | |]; try discriminate E. destruct lk.
        * destruct (ctx_alive _ _); injection E as <- <-; cbn in U'; congruence.
        * destruct (_ =? _)%Z; [|discriminate]. injection E as <- <-. cbn in U'; congruence.
      + unfold usr_step in E. destruct (Nat.eq_dec t0 t) as [->|N]; [rewrite A in E; discriminate E|].
        destruct (s_usr s t0) as [|ws|w r|e code|e r|e r|e r|x] eqn:Ut; try discriminate E; exfalso.
        * destruct ws as [|w r]; [|destruct (listed s w)]; injection E as <- <-; cbn in U'; rewrite upd_ne in U' by auto; congruence.
        * destruct (drop (HUsr t0) w s) as [s1 b] eqn:D. apply drop_facts in D. destruct D as (-> & _).
          destruct (negb _); [|destruct (o_ready _); [destruct (_ =? _)%Z|discriminate E]];
            injection E as <- <-; cbn in U'; rewrite upd_ne in U' by auto; congruence.
        * destruct (drop (HUsr t0) e s) as [s1 b] eqn:D. apply drop_facts in D. destruct D as (-> & _).
          destruct (_ =? _)%Z; [|destruct (is_error_code _)];
            injection E as <- <-; cbn in U'; rewrite upd_ne in U' by auto; congruence.
        * injection E as <- <-; cbn in U'; rewrite upd_ne in U' by auto; congruence.
        * injection E as <- <-; cbn in U'; rewrite upd_ne in U' by auto; congruence.
        * destruct (notify_callback e s) as [s1 b] eqn:Nc. destruct (drop (HUsr t0) e s1) as [s2 b2] eqn:D.
          apply drop_facts in D. destruct D as (-> & _). injection E as <- <-; cbn in U'; rewrite upd_ne in U' by auto.
          apply notify_facts in Nc. destruct Nc as [(-> & _)|(k & _ & _ & -> & _)]; cbn in U'; congruence.
        * destruct (all_stopped _ _ _); [|discriminate]. destruct (break_queues _ _ _) as [s1 b] eqn:D.
          injection E as <- <-; cbn in U'; rewrite upd_ne in U' by auto.
          apply break_queues_facts in D. destruct D as (_ & _ & _ & _ & _ & _ & D & _). congruence. }
  - destruct (J t c O) as (B1 & B2 & B3). split; [lia|]. split.
    + assert (erun [l] s = Some (s', a ++ [])) as R by (cbn; now rewrite E). exact (run_unlisted _ _ _ _ _ R B1 B2).
    + destruct (fr_done _ _ _ _ F c) as [A|(t' & ->)]; [congruence|].
      unfold estep in E. destruct (s_crash s); [discriminate|]. unfold release_ctx in E.
      destruct (s_usr s t'); try discriminate E. rewrite B2 in E. cbn in E. now injection E as <- <-.
  - split; [|auto]. destruct (le_lt_dec (s_nctx s) c) as [Q|Q]; [|lia]. destruct (a_ctx _ _ (iA _ _ V) c Q). congruence.
Qed.

Lemma run_InvJ ls : forall s h s' a, Inv s h -> InvJ s -> erun ls s = Some (s', a) -> InvJ s'.
Proof.
  induction ls as [|l ls IH]; intros s h s' a V X E; cbn in E; [now injection E as <- <-|].
  destruct (estep l s) as [[s1 b]|] eqn:E1; [|discriminate].
  destruct (erun ls s1) as [[s2 b2]|] eqn:E2; [|discriminate]. injection E as <- <-.
  apply (IH s1 (h ++ b) s2 b2); [exact (step_Inv _ _ _ _ _ V E1)|exact (step_InvJ _ _ _ _ _ V X E1)|exact E2].
Qed.

Lemma schedule_InvJ ls s h : schedule ls s h -> InvJ s.
Proof. intro E. apply (run_InvJ ls est0 [] s h Inv0); [|exact E]. intros t c U. discriminate U. Qed.

Lemma all_stopped_spec s c n : all_stopped s c n = true -> forall i, i < n -> s_mgr s c i = MStopped.
Proof.
  induction n as [|n IH]; cbn; [intros _ i L; lia|]. destruct (s_mgr s c n) eqn:M; try discriminate. intros A i L.
  destruct (Nat.eq_dec i n) as [->|N]; [exact M|apply IH; [exact A|lia]].
Qed.
Lemma some_running_spec s c n : some_running s c n = true -> exists i e, i < n /\ s_mgr s c i = MRun e true.
Proof.
  induction n as [|n IH]; cbn; [discriminate|]. destruct (s_mgr s c n) as [|e ws|e w r|e lk|e r|e r|e r|e|e|] eqn:M; try (intro A; destruct (IH A) as (i & e' & L & B); exists i, e'; split; [lia|exact B]).
  destruct lk; [intros _; exists n, e; split; [lia|exact M]|]. intro A; destruct (IH A) as (i & e' & L & B); exists i, e'; split; [lia|exact B].
Qed.

Lemma last_unique {A} (b : list A) x a1 a2 : ~ In x b -> a1 ++ x :: a2 = b ++ [x] -> a1 = b /\ a2 = [].
Proof.
  revert a1. induction b as [|y b IH]; intros a1 N H; cbn in H.
  - symmetry in H. apply one_split in H. tauto.
  - destruct a1 as [|z a1]; cbn in H; injection H as -> H; [exfalso; apply N; now left|].
    destruct (IH a1) as (-> & ->); [intro B; apply N; now right|exact H|auto].
Qed.

(** When mcReleaseContext has returned, either every command the context ever
    accepts was over by then, or one of them was executing at that moment. *)
Theorem C57_returned_partial :
  forall ls s h1 t c h2, schedule ls s (h1 ++ OJoined t c :: h2) ->
    (forall e ws, accepted (h1 ++ OJoined t c :: h2) e c ws -> over h1 e) \/
    (exists e ws, accepted h1 e c ws /\ In (OStart e) h1 /\ (forall r, ~ In (ODone e r) h1)).
Proof.
  intros ls s h1 t c h2 R. destruct (run_split _ _ _ _ _ _ R) as (l1 & l & l2 & s1 & s2 & g1 & a1 & a2 & g2 & -> & A & B & C & -> & ->).
  assert (Inv s1 g1) as V by exact (erun_Inv l1 est0 [] _ _ Inv0 A).
  pose proof (step_frame _ _ _ _ B) as F.
  assert (In (OJoined t c) (a1 ++ OJoined t c :: a2)) as IJ by (rewrite in_app_iff; right; now left).
  destruct (fr_joined _ _ _ _ F t c IJ) as [(-> & U & St & b & Q1 & Q2 & Q3)|(-> & Sr & Q)].
  - left. apply last_unique in Q1.
    2:{ intro D. apply Q2 in D. destruct D as (e & D). discriminate D. }
    destruct Q1 as (-> & ->). intros e ws Ac.
    destruct (schedule_InvJ _ _ _ A t c U) as (J1 & J2 & J3).
    assert (accepted g1 e c ws) as Ac1.
    { unfold accepted in Ac. rewrite !in_app_iff in Ac. destruct Ac as [[Ac|Ac]|Ac]; [exact Ac| |].
      - apply Q2 in Ac. destruct Ac as (x & Ac). discriminate Ac.
      - destruct Ac as [Ac|Ac]; [discriminate Ac|]. cbn in Ac. exfalso.
        apply in_split in Ac. destruct Ac as (k1 & k2 & ->).
        destruct (run_split _ _ _ _ _ _ C) as (m1 & m & m2 & s3 & s4 & k3 & k4 & k5 & k6 & -> & D1 & D2 & _).
        assert (In (OEnq e c ws) (k4 ++ OEnq e c ws :: k5)) as D3 by (rewrite in_app_iff; right; now left).
        pose proof (step_source _ _ _ _ _ D2 D3) as (_ & _ & D4).
        assert (erun (LUsr t :: m1) s1 = Some (s3, (b ++ [OJoined t c]) ++ k3)) as D5 by (cbn [erun]; rewrite B, D1; reflexivity).
        rewrite (run_unlisted _ _ _ _ _ D5 J1 J2) in D4. discriminate. }
    apply (a_enq _ _ (iA _ _ V)) in Ac1. destruct Ac1 as (P1 & P2 & P3).
    destruct (o_ready (s_ev s1 e)) eqn:Re.
    + apply over_app. exact (outcome_over s1 g1 e (a_over _ _ (iA _ _ V) e c ws P1 P2 P3 Re)).
    + destruct (a_loc _ _ (iA _ _ V) e c ws P1 P2 P3 Re) as (i & Li & [D|D]).
      * right. right. rewrite in_app_iff. right. exact (Q3 i e Li D).
      * rewrite (all_stopped_spec _ _ _ St i Li) in D. discriminate D.
  - right. symmetry in Q. apply one_split in Q. destruct Q as (-> & _ & ->). rewrite app_nil_r.
    apply some_running_spec in Sr. destruct Sr as (i & e & Li & M).
    assert (mev (s_mgr s1 c i) = Some e) as Me by now rewrite M.
    destruct (a_mgr _ _ (iA _ _ V) _ _ _ Me) as (P1 & (ws & P2) & P3 & _).
    exists e, ws. split; [apply (a_enq _ _ (iA _ _ V)); auto|].
    pose proof (f_mgr _ _ (iF _ _ V) c i e Me) as L. rewrite M in L. cbn in L. split.
    + assert (In (OStart e) (fates g1 e)) as D by (rewrite L; now left). apply filter_In in D. apply D.
    + intros r D. assert (In (ODone e r) (fates g1 e)) as D' by (apply filter_In; split; [exact D|cbn; apply Nat.eqb_refl]).
      rewrite L in D'. destruct D' as [D'|[]]. discriminate D'.
Qed.

(** After mcReleaseContext has returned the context accepts nothing. *)
Theorem C57_closed :
  forall ls s h1 t c h2 e ws, schedule ls s (h1 ++ OJoined t c :: h2) -> ~ accepted h2 e c ws.
Proof.
  intros ls s h1 t c h2 e ws R Ac. apply in_split in Ac. destruct Ac as (k1 & k2 & ->).
  destruct (run_split _ _ _ _ _ _ R) as (l1 & l & l2 & s1 & s2 & g1 & a1 & a2 & g2 & -> & A & B & C & -> & Q).
  assert (Inv s1 g1) as V by exact (erun_Inv l1 est0 [] _ _ Inv0 A).
  pose proof (step_frame _ _ _ _ B) as F. destruct (step_ctx _ _ _ _ B) as (C1 & _).
  assert (In (OJoined t c) (a1 ++ OJoined t c :: a2)) as IJ by (rewrite in_app_iff; right; now left).
  assert (In (OEnq e c ws) (a2 ++ g2)) as X by (rewrite <- Q, in_app_iff; right; now left).
  assert (c < s_nctx s2 /\ s_listed s2 c = false /\ ~ In (OEnq e c ws) a2) as (Y1 & Y2 & Y3).
  { destruct (fr_joined _ _ _ _ F t c IJ) as [(-> & U & St & b & Q1 & Q2 & Q3)|(-> & Sr & Q1)].
    - destruct (schedule_InvJ _ _ _ A t c U) as (J1 & J2 & J3).
      apply last_unique in Q1; [|intro D; apply Q2 in D; destruct D as (x & D); discriminate D]. destruct Q1 as (-> & ->).
      split; [lia|]. split; [|auto].
      assert (erun [LUsr t] s1 = Some (s2, (b ++ [OJoined t c]) ++ [])) as D5 by (cbn [erun]; rewrite B; reflexivity).
      exact (run_unlisted _ _ _ _ _ D5 J1 J2).
    - symmetry in Q1. apply one_split in Q1. destruct Q1 as (-> & _ & ->).
      unfold estep in B. destruct (s_crash s1); [discriminate|]. unfold release_ctx in B.
      destruct (s_usr s1 t); try discriminate B. destruct (s_listed s1 c) eqn:Li; cbn [negb] in B; [|discriminate B].
      rewrite Sr in B. injection B as <-. cbn. rewrite upd_eq. split; [|auto].
      destruct (le_lt_dec (s_nctx s1) c) as [Z|Z]; [|exact Z]. destruct (a_ctx _ _ (iA _ _ V) c Z). congruence. }
  rewrite in_app_iff in X. destruct X as [X|X]; [exact (Y3 X)|].
  apply in_split in X. destruct X as (q1 & q2 & ->).
  destruct (run_split _ _ _ _ _ _ C) as (m1 & m & m2 & s3 & s4 & k3 & k4 & k5 & k6 & -> & D1 & D2 & _).
  assert (In (OEnq e c ws) (k4 ++ OEnq e c ws :: k5)) as D3 by (rewrite in_app_iff; right; now left).
  pose proof (step_source _ _ _ _ _ D2 D3) as (_ & _ & D4).
  rewrite (run_unlisted _ _ _ _ _ D1 Y1 Y2) in D4. discriminate.
Qed.

(** mcReleaseContext called when every command of the context is over comes
    back: until it does, one of the context's own threads or the caller can take a
    step, and by C56_bounded the threads cannot take steps for ever. *)
Definition thread_of (c : nat) (l : elabel) : Prop :=
  match l with LPop c' _ | LMgr c' _ | LFinish c' _ _ => c' = c | _ => False end.

Lemma over_fates h e : over h e -> exists o, In o (fates h e) /\ match o with ORan _ _ | OSkip _ | ODrop _ => True | _ => False end.
Proof.
  intros [(r & A)|[A|A]]; eexists; (split; [apply filter_In; split; [exact A|cbn; apply Nat.eqb_refl]|exact Logic.I]).
Qed.

Lemma busy_over s h c i e :
  Inv s h -> mev (s_mgr s c i) = Some e -> over h e -> s_mgr s c i = MEnd e \/ s_mgr s c i = MExit e.
Proof.
  intros V M O. pose proof (f_mgr _ _ (iF _ _ V) c i e M) as L. destruct (over_fates h e O) as (o & O1 & O2).
  destruct (s_mgr s c i) as [|x ws|x w r|x lk|x r|x r|x r|x|x|] eqn:Mi; cbn in M; try discriminate M; injection M as ->; cbn in L; auto;
    exfalso; try (destruct L as (y & [->| ->] & L)); rewrite L in O1; cbn in O1.
  - destruct O1.
  - destruct O1.
  - destruct lk; destruct O1 as [<-|[]]; exact O2.
  - destruct O1 as [<-|[<-|[]]]; exact O2.
  - destruct O1 as [<-|[<-|[]]]; exact O2.
  - destruct O1 as [<-|[<-|[]]]; exact O2.
  - destruct O1 as [<-|[<-|[]]]; exact O2.
  - destruct O1 as [<-|[<-|[]]]; exact O2.
  - destruct O1 as [<-|[<-|[]]]; exact O2.
Qed.

Lemma run_usr ls : forall s s' a t, erun ls s = Some (s', a) -> s_usr s t <> UIdle -> ~ In (LUsr t) ls -> s_usr s' t = s_usr s t.
Proof.
  induction ls as [|l ls IH]; intros s s' a t E U N; cbn in E; [now injection E as <- <-|].
  destruct (estep l s) as [[s1 b]|] eqn:E1; [|discriminate].
  destruct (erun ls s1) as [[s2 b2]|] eqn:E2; [|discriminate]. injection E as <- <-.
  assert (s_usr s1 t = s_usr s t) as D.
  { destruct (fr_usr _ _ _ _ (step_frame _ _ _ _ E1) t) as [D|[->|D]]; [exact D|exfalso; apply N; now left|contradiction]. }
  rewrite (IH s1 s2 b2 t E2); [exact D|congruence|]. intro X. apply N. now right.
Qed.

Theorem C57_release_returns_partial :
  forall l1 t c l2 s1 h1 s h,
    schedule l1 s1 h1 -> (exists ooo, In (OContext c ooo) h1) ->
    (forall t', ~ In (LReleaseCtx t' c) l1) ->
    (forall e ws, accepted h1 e c ws -> over h1 e) ->
    schedule (l1 ++ LReleaseCtx t c :: l2) s h -> ~ In (LUsr t) l2 -> ~ In OCrash h ->
    exists l s' a, (thread_of c l \/ l = LUsr t /\ In (OJoined t c) a) /\ estep l s = Some (s', a).
Proof.
  intros l1 t c l2 s1 h1 s h R1 (ooo & Oc) Nr Ov R Nu Nc.
  pose proof (schedule_Inv _ _ _ R1) as V1. pose proof (schedule_Inv _ _ _ R) as V.
  apply erun_app in R as (s1' & g1 & g2 & A & B & ->).
  assert (s1' = s1 /\ g1 = h1) as (-> & ->) by (unfold schedule in R1; rewrite R1 in A; injection A as <- <-; auto). clear A.
  assert (s_crash s = false) as Cr.
  { destruct (s_crash s) eqn:Cr; [|reflexivity]. exfalso. apply Nc.
    apply (run_crash (l1 ++ LReleaseCtx t c :: l2) est0 s (h1 ++ g2)); [|reflexivity|exact Cr]. apply erun_app. eauto 8. }
  destruct (a_thr _ _ (iA _ _ V1) c ooo Oc) as (Lc & _).
  assert (s_listed s1 c = true) as Li.
  { clear -R1 Nr Oc. unfold schedule in R1. 
    assert (forall ls s s' a, erun ls s = Some (s', a) -> (forall t', ~ In (LReleaseCtx t' c) ls) ->
              s_listed s c = true \/ In (OContext c ooo) a -> s_listed s' c = true) as G.
    { clear. induction ls as [|l ls IH]; intros s s' a E N D; cbn in E.
      - injection E as <- <-. destruct D as [D|[]]. exact D.
      - destruct (estep l s) as [[s2 b]|] eqn:E1; [|discriminate].
        destruct (erun ls s2) as [[s3 b2]|] eqn:E2; [|discriminate]. injection E as <- <-.
        apply (IH s2 s3 b2 E2); [intros t' X; apply (N t'); now right|].
        rewrite in_app_iff in D.
        assert (s_listed s2 c = true \/ In (OContext c ooo) b2) as G; [|exact G].
        destruct D as [D|[D|D]]; [| |auto].
        + left. destruct (fr_list _ _ _ _ (step_frame _ _ _ _ E1) c) as [F|[(o2 & -> & F)|(t' & ->)]]; [congruence| |exfalso; apply (N t'); now left].
          unfold estep in E1. destruct (s_crash s); [discriminate|]. injection E1 as <- <-. subst c. cbn. apply upd_eq.
        + left. apply (fr_open _ _ _ _ (step_frame _ _ _ _ E1) c ooo D). }
    apply (G l1 est0 s1 h1 R1 Nr). now right. }
  cbn [erun] in B. destruct (estep (LReleaseCtx t c) s1) as [[s2 b]|] eqn:E1; [|discriminate].
  destruct (erun l2 s2) as [[s3 b2]|] eqn:E2; [|discriminate]. injection B as -> <-.
  pose proof E1 as E1'. unfold estep in E1. destruct (s_crash s1); [discriminate|]. unfold release_ctx in E1.
  destruct (s_usr s1 t) eqn:U; try discriminate E1. rewrite Li in E1. cbn [negb] in E1.
  destruct (some_running s1 c (s_thr s1 c)) eqn:Sr.
  { exfalso. apply some_running_spec in Sr. destruct Sr as (i & e & _ & M).
    assert (mev (s_mgr s1 c i) = Some e) as Me by now rewrite M.
    destruct (a_mgr _ _ (iA _ _ V1) _ _ _ Me) as (P1 & (ws & P2) & P3 & _).
    destruct (busy_over s1 h1 c i e V1 Me) as [X|X]; [|congruence|congruence].
    apply (Ov e ws). apply (a_enq _ _ (iA _ _ V1)). auto. }
  injection E1 as Es <-.
  assert (s_usr s2 t = UJoin c) as U2 by (rewrite <- Es; cbn; apply upd_eq).
  assert (s_usr s t = UJoin c) as U3 by (rewrite (run_usr l2 s2 s b2 t E2), U2; auto; rewrite U2; discriminate).
  assert (InvJ s) as J.
  { apply (schedule_InvJ (l1 ++ LReleaseCtx t c :: l2) s (h1 ++ [] ++ b2)). apply erun_app.
    exists s1, h1, ([] ++ b2). split; [exact R1|]. split; [|reflexivity]. cbn [erun]. rewrite E1', E2. reflexivity. }
  destruct (J t c U3) as (J1 & J2 & J3).
  (* every command of c known now was known then *)
  assert (forall e ws, accepted (h1 ++ [] ++ b2) e c ws -> over (h1 ++ [] ++ b2) e) as Ov2.
  { intros e ws Ac. unfold accepted in Ac. rewrite in_app_iff in Ac. destruct Ac as [Ac|Ac]; [apply over_app, (Ov e ws), Ac|].
    exfalso. cbn in Ac. apply in_split in Ac. destruct Ac as (k1 & k2 & ->).
    destruct (run_split _ _ _ _ _ _ E2) as (m1 & m & m2 & s4 & s5 & k3 & k4 & k5 & k6 & -> & D1 & D2 & _).
    assert (In (OEnq e c ws) (k4 ++ OEnq e c ws :: k5)) as D3 by (rewrite in_app_iff; right; now left).
    pose proof (step_source _ _ _ _ _ D2 D3) as (_ & _ & D4).
    assert (s_listed s2 c = false /\ s_nctx s2 = s_nctx s1) as (D6 & D7) by (rewrite <- Es; cbn; split; [apply upd_eq|reflexivity]).
    assert (c < s_nctx s2) as D8 by lia.
    rewrite (run_unlisted _ _ _ _ _ D1 D8 D6) in D4. discriminate. }
  clear Ov. set (hh := h1 ++ [] ++ b2) in *. clearbody hh.
  destruct (all_stopped s c (s_thr s c)) eqn:St.
  - destruct (break_queues c (s_thr s c) s) as [s4 b4] eqn:D.
    exists (LUsr t), (set_usr t UIdle s4), (b4 ++ [OJoined t c]). split; [right; split; [reflexivity|]; rewrite in_app_iff; right; now left|].
    unfold estep. rewrite Cr. unfold usr_step. rewrite U3, St, D. reflexivity.
  - assert (exists i, i < s_thr s c /\ s_mgr s c i <> MStopped) as (i & Li2 & Mi).
    { clear -St. revert St. generalize (s_thr s c) as n. induction n as [|n IH]; cbn; [discriminate|].
      destruct (s_mgr s c n) eqn:M; try (intros _; exists n; split; [lia|congruence]).
      intro A. destruct (IH A) as (i & B & C). exists i. split; [lia|exact C]. }
    destruct (mev (s_mgr s c i)) as [e|] eqn:Me.
    + destruct (a_mgr _ _ (iA _ _ V) _ _ _ Me) as (P1 & (ws & P2) & P3 & _).
      exists (LMgr c i).
      destruct (busy_over s hh c i e V Me) as [X|X]; [apply (Ov2 e ws), (a_enq _ _ (iA _ _ V)); auto| |].
      * destruct (drop (HMgr c i) e (on_ev e (o_set_cs COMPLETE) s)) as [s4 b4] eqn:D.
        eexists _, _. split; [left; reflexivity|]. unfold estep. rewrite Cr. unfold mgr_step. rewrite X, D. reflexivity.
      * eexists _, _. split; [left; reflexivity|]. unfold estep. rewrite Cr. unfold mgr_step. rewrite X. reflexivity.
    + destruct (s_mgr s c i) eqn:Mq; try discriminate Me; [|congruence]. exists (LPop c i).
      apply Nat.ltb_lt in Li2. unfold estep. rewrite Cr, Li2. unfold pop. rewrite Mq, J3.
      destruct (s_queue s c i) as [|e q]; eexists _, _; (split; [left; reflexivity|reflexivity]).
Qed.
