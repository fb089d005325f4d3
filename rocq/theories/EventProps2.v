(** * C34, C35: callbacks and waiting *)

From Coq Require Import ZArith List Bool Arith Lia.
From Verif Require Import EventModel EventSpec EventInv EventMono EventFate EventUser EventWait EventCb EventCb2 EventAll EventEmit EventProps.
Import ListNotations.

(** ** C34 *)

(** No registration is ever called twice. *)
Theorem C34_at_most_once :
  forall ls s h e k, schedule ls s h -> calls h e k <= 1.
Proof. intros ls s h e k R. exact (k_once _ _ _ (c_ev _ _ (iC _ _ (schedule_Inv _ _ _ R)) e) k). Qed.

(** A callback is called only after it was registered, and only when the
    command's function has returned, the user event was set, or the event was
    released. *)
Theorem C34_not_early :
  forall ls s h1 e k h2,
    schedule ls s (h1 ++ OCall e k :: h2) ->
    In (OReg e k) h1 /\
    ((exists r, In (ODone e r) h1) \/ (exists code, In (OSet e code) h1) \/ In (ORel e) h1).
Proof.
  intros ls s h1 e k h2 R.
  destruct (schedule_split _ _ _ _ _ R) as (l & s1 & s2 & g1 & a1 & a2 & V & E & -> & V2 & _).
  destruct (step_call _ _ _ _ _ _ _ _ (iA _ _ V) (iF _ _ V) (iU _ _ V) (iC _ _ V) E) as (N & Sc).
  split.
  - assert (0 < calls ((g1 ++ a1) ++ OCall e k :: a2) e k) as P.
    { rewrite calls_app. unfold calls at 2. cbn. rewrite !Nat.eqb_refl. cbn. lia. }
    apply (k_called _ _ _ (c_ev _ _ (iC _ _ V2) e)) in P. rewrite in_app_iff in P.
    destruct P as [P|[P|P]]; [exact P|discriminate|]. exfalso. exact (N k P).
  - assert (forall o, In o g1 -> In o (g1 ++ a1)) as Mono by (intros; rewrite in_app_iff; auto).
    destruct Sc as [A|[A|(A & B)]].
    + destruct (k_fin _ _ _ (c_ev _ _ (iC _ _ V) e) A) as [(r & C)|(code & C)]; eauto.
    + right. right. rewrite in_app_iff. auto.
    + right. right. apply Mono. apply (h_list _ _ (iH _ _ V)); [|exact B].
      destruct (le_lt_dec (s_n s1) e) as [L|L]; [|exact L]. rewrite (a_dummy _ _ (iA _ _ V) e L) in A. now destruct A.
Qed.

Lemma last_current s h e k : cbok s h e -> last_registration h e k -> o_cb (s_ev s e) = Some k.
Proof.
  intros K (A & B). destruct (k_reg _ _ _ K k A) as (_ & k' & C & D).
  pose proof (B k' (k_cur _ _ _ K k' C)). rewrite C. f_equal. lia.
Qed.

(** When a command is complete, the last callback registered on its event has
    been called exactly once. *)
Theorem C34_command_called_once_partial :
  forall ls s h e r k,
    schedule ls s h -> In (ORan e r) h -> last_registration h e k -> calls h e k = 1.
Proof.
  intros ls s h e r k R A B. pose proof (schedule_Inv _ _ _ R) as V. pose proof (c_ev _ _ (iC _ _ V) e) as K.
  pose proof (last_current _ _ _ _ K B) as C. pose proof (c_ran _ _ (iC _ _ V) e r A) as D.
  destruct (o_inv (s_ev s e)) eqn:Iv; [exact (k_done _ _ _ K k C Iv)|].
  exfalso. destruct (a_ran _ _ (iA _ _ V) e r A) as (_ & _ & (c & ws & Kd) & _).
  destruct (k_pend _ _ _ K k C D Iv) as [(c' & i & P)|(t & P)].
  - assert (mev (s_mgr s c' i) = Some e) as Me by (destruct P as (r' & [P|P]); rewrite P; reflexivity).
    pose proof (f_mgr _ _ (iF _ _ V) c' i e Me) as Lf.
    assert (exists x r', begins x e /\ fates h e = [x; ODone e r']) as (x & r' & P1 & P2).
    { destruct P as (r' & [P|P]); rewrite P in Lf; cbn in Lf; destruct Lf as (x & P1 & P2); eauto. }
    assert (In (ORan e r) (fates h e)) as F by (apply filter_In; split; [exact A|cbn; apply Nat.eqb_refl]).
    rewrite P2 in F. destruct F as [F|[F|[]]]; [|discriminate]. destruct P1 as [-> | ->]; discriminate.
  - assert (uev (s_usr s t) = Some e) as Ue by (destruct P as (r' & [P|P]); rewrite P; reflexivity).
    destruct (a_usr _ _ (iA _ _ V) t e Ue) as (_ & Ku & _). congruence.
Qed.

(** When mcSetUserEventStatus has returned successfully, the last callback
    registered on the user event has been called exactly once. *)
Theorem C34_user_called_once_partial :
  forall ls s h t e code k,
    schedule ls s h -> In (OSetRet t e code NO_ERROR) h -> last_registration h e k -> calls h e k = 1.
Proof.
  intros ls s h t e code k R A B. pose proof (schedule_Inv _ _ _ R) as V. pose proof (c_ev _ _ (iC _ _ V) e) as K.
  pose proof (last_current _ _ _ _ K B) as C.
  destruct (set_returned s h e t code (iA _ _ V) (iU _ _ V) A) as (L & Ku & _).
  assert (In (OSetRet t e code NO_ERROR) (usets h e)) as F by (apply filter_In; split; [exact A|cbn; now rewrite Nat.eqb_refl]).
  assert (forall t', uev (s_usr s t') <> Some e) as No.
  { intros t' Ue. pose proof (u_thr _ _ (iU _ _ V) t' e Ue) as P.
    assert (exists cd, usets h e = [OSet e cd]) as (cd & Q).
    { destruct (s_usr s t'); try discriminate Ue; cbn in P, Ue; injection Ue as ->; [destruct P; eauto| | |]; destruct P as (cd & P & _); eauto. }
    rewrite Q in F. destruct F as [F|[]]. discriminate. }
  assert (o_fin (s_ev s e) = true) as D.
  { destruct (u_life _ _ (iU _ _ V) e L Ku) as [(t' & P)|P]; [destruct (No t' P)|].
    destruct P as [(P & _)|[(cd & P & _)|(cd & t' & _ & _ & _ & _ & P)]]; [| |exact P]; rewrite P in F.
    - destruct F.
    - destruct F as [F|[]]. discriminate. }
  destruct (o_inv (s_ev s e)) eqn:Iv; [exact (k_done _ _ _ K k C Iv)|].
  exfalso. destruct (k_pend _ _ _ K k C D Iv) as [(c' & i & P)|(t' & P)].
  - assert (mev (s_mgr s c' i) = Some e) as Me by (destruct P as (r' & [P|P]); rewrite P; reflexivity).
    destruct (a_mgr _ _ (iA _ _ V) _ _ _ Me) as (_ & (ws & Kc) & _). congruence.
  - apply (No t'). destruct P as (r' & [P|P]); rewrite P; reflexivity.
Qed.

(** A command that is skipped never finishes for its callback: only releasing
    the event can make the callback run. *)
Theorem C34_skipped_never_called :
  forall ls s h e k, schedule ls s h -> In (OSkip e) h -> In (OCall e k) h -> In (ORel e) h.
Proof.
  intros ls s h e k R A B. pose proof (schedule_Inv _ _ _ R) as V.
  assert (fates h e = [OSkip e]) as F.
  { assert (In (OSkip e) (fates h e)) as F by (apply filter_In; split; [exact A|cbn; apply Nat.eqb_refl]).
    destruct (C31_once ls s h e R) as [Z|[Z|[Z|(x & Hx & [Z|(r & [Z|Z])])]]]; auto; exfalso; rewrite Z in F; cbn in F;
      try (intuition congruence; fail); destruct Hx as [-> | ->]; intuition congruence. }
  assert (usets h e = []) as U.
  { apply (u_none _ _ (iU _ _ V)). right.
    apply in_split in A. destruct A as (h1 & h2 & Q). pose proof R as R'. rewrite Q in R'.
    destruct (fate_accepted _ _ _ _ _ e R') as (c & ws & P); [cbn; apply Nat.eqb_refl|].
    assert (accepted h e c ws) as P' by (unfold accepted; rewrite Q, in_app_iff; now left).
    apply (a_enq _ _ (iA _ _ V)) in P'. destruct P' as (_ & P' & _). congruence. }
  apply in_split in B. destruct B as (h1 & h2 & Q). pose proof R as R'. rewrite Q in R'.
  assert (forall o, In o h1 -> In o h) as Mono by (intros; rewrite Q, in_app_iff; auto).
  destruct (C34_not_early _ _ _ _ _ _ R') as (_ & [(r & G)|[(code & G)|G]]); [| |auto].
  - assert (In (ODone e r) (fates h e)) as G' by (apply filter_In; split; [auto|cbn; apply Nat.eqb_refl]).
    rewrite F in G'. destruct G' as [G'|[]]. discriminate.
  - assert (In (OSet e code) (usets h e)) as G' by (apply filter_In; split; [auto|cbn; apply Nat.eqb_refl]).
    rewrite U in G'. destruct G'.
Qed.

(** Such a run: command 0 fails, command 1 is skipped and its thread is idle
    again, waiting on it returns, its callback was not called. *)
Definition skipped_run : list elabel :=
  [LContext false; LEnqueue 0 [] 0; LEnqueue 0 [0] 0; LCallback 1;
   LPop 0 0; LMgr 0 0; LFinish 0 0 INVALID_OPERATION; LMgr 0 0; LMgr 0 0; LMgr 0 0; LMgr 0 0; LMgr 0 0;
   LPop 0 0; LMgr 0 0; LMgr 0 0; LMgr 0 0;
   LWaitFor 7 [1]; LUsr 7; LUsr 7; LUsr 7].
Definition skipped_obs : list obs :=
  [OContext 0 false; OEnq 0 0 []; OEnq 1 0 [0]; OReg 1 0;
   OStart 0; ODone 0 INVALID_OPERATION; ORan 0 INVALID_OPERATION; OSkip 1;
   OWait 7 [1]; OWaitRet 7 NO_ERROR].

Theorem C34_skipped_refuted :
  exists ls s h,
    schedule ls s h /\ last_registration h 1 0 /\ In (OSkip 1) h /\
    (forall c i, s_queue s c i = [] /\ s_mgr s c i = MIdle) /\
    calls h 1 0 = 0 /\
    (* and it stays like this unless the event is released *)
    forall ls' s' h', schedule (ls ++ ls') s' h' -> ~ In (ORel 1) h' -> calls h' 1 0 = 0.
Proof.
  assert (match erun skipped_run est0 with Some (s, h) => h = skipped_obs /\ forall c i, s_queue s c i = [] /\ s_mgr s c i = MIdle | None => False end) as H.
  { vm_compute. split; [reflexivity|]. intros [|c] [|i]; split; reflexivity. }
  destruct (erun skipped_run est0) as [[s h]|] eqn:E; [|destruct H]. destruct H as (-> & H).
  exists skipped_run, s, skipped_obs. split; [exact E|].
  split. { split; [cbn; auto 10|]. intros k' A. cbn in A. repeat (destruct A as [A|A]; [first [discriminate A|injection A as <-; lia]|]). destruct A. }
  split; [cbn; auto 12|]. split; [exact H|]. split; [reflexivity|].
  intros ls' s' h' R N. destruct (calls h' 1 0) eqn:Cn; [reflexivity|]. exfalso. apply N.
  assert (In (OSkip 1) h') as Sk.
  { apply erun_app in R. destruct R as (s1 & b1 & b2 & R1 & _ & ->). rewrite E in R1. injection R1 as <- <-.
    rewrite in_app_iff. left. cbn. auto 12. }
  apply (C34_skipped_never_called _ _ _ 1 0 R Sk). apply calls_In. lia.
Qed.

(** And a callback can be called on release although nothing finished. *)
Theorem C34_called_unfinished_refuted :
  exists ls s h, schedule ls s h /\ accepted h 0 0 [] /\ calls h 0 0 = 1 /\ fates h 0 = [].
Proof.
  destruct (run_obs_schedule [LContext false; LEnqueue 0 [] 0; LCallback 0; LRelease 0]
             [OContext 0 false; OEnq 0 0 []; OReg 0 0; ORel 0; OCall 0 0]) as (s & R); [vm_compute; reflexivity|].
  eexists _, s, _. split; [exact R|]. unfold accepted. cbn. auto.
Qed.

(** ** C35 *)

Lemma last_wait_split t ws h1 h2 ws' hb ha (a1 : list obs) :
  h1 ++ OWait t ws :: h2 = (hb ++ OWait t ws' :: ha) ++ a1 ->
  (forall w, ~ In (OWait t w) h2) -> (forall w, ~ In (OWait t w) (ha ++ a1)) -> h1 = hb /\ ws = ws'.
Proof.
  rewrite <- app_assoc. cbn. revert hb. induction h1 as [|x h1 IH]; intros hb Q N1 N2.
  - destruct hb as [|y hb]; cbn in Q; [injection Q as -> _; auto|]. exfalso. injection Q as <- Q.
    apply (N1 ws'). rewrite Q, in_app_iff. right. now left.
  - destruct hb as [|y hb]; cbn in Q; injection Q as -> Q.
    + exfalso. apply (N2 ws). rewrite <- Q, in_app_iff. right. now left.
    + destruct (IH hb Q N1 N2) as (-> & ->). auto.
Qed.

(** The state of the waiting thread when its call returns. *)
Lemma wait_return ls s h1 t ws h2 r h3 :
  schedule ls s ((h1 ++ OWait t ws :: h2) ++ OWaitRet t r :: h3) -> (forall w, ~ In (OWait t w) h2) ->
  exists s1 g1 a1,
    Inv s1 g1 /\ h1 ++ OWait t ws :: h2 = g1 ++ a1 /\ (forall o, In o a1 -> exists x k, o = OCall x k) /\
    (forall w, w < s_n s1 -> o_kind (s_ev s w) = o_kind (s_ev s1 w) /\ o_fut (s_ev s w) = o_fut (s_ev s1 w)) /\
    ((r = NO_ERROR /\ Forall (wpassed s1 h1) ws) \/
     (r = INVALID_VALUE /\ exists w, In w ws /\ stuck_on s1 w)).
Proof.
  intros R N.
  destruct (schedule_split _ _ _ _ _ R) as (l & s1 & s2 & g1 & a1 & a2 & V & E & Q & V2 & Kn & Kk & _).
  assert (In (OWaitRet t r) (a1 ++ OWaitRet t r :: a2)) as Oa by (rewrite in_app_iff; right; now left).
  pose proof (step_source _ _ _ _ _ E Oa) as Sc.
  assert ((r = NO_ERROR /\ s_usr s1 t = UWait []) \/
     (r = INVALID_VALUE /\ exists w rest, wcalled s1 g1 t (w :: rest) /\ stuck_on s1 w)) as Sc'.
  { destruct Sc as [Sc|(Sc & w & rest & Su & St)]; [left; exact Sc|]. right. split; [exact Sc|]. exists w, rest. split; [|exact St].
    pose proof (iW _ _ V t) as W. unfold wstate in W. destruct Su as [Su|Su]; rewrite Su in W; [exact W|exact (proj1 W)]. }
  assert (forall o, In o a1 -> exists x k, o = OCall x k) as Ha.
  { intros o A.
    assert (exists l', a1 ++ OWaitRet t r :: a2 = l' ++ [OWaitRet t r] /\ forall o, In o l' -> exists x k, o = OCall x k) as (l' & L1 & L2).
    { clear Sc Sc' Q. destruct (step_owner _ _ _ _ E) as (_ & Nw).
      assert (owner l = Some t) as Ow.
      { destruct (owner l) as [t'|] eqn:O; [destruct (Nat.eq_dec t' t) as [->|Nt]; [reflexivity|]|]; exfalso;
          (destruct (Nw t) as (_ & Nr); [congruence|exact (Nr r Oa)]). }
      unfold estep in E. destruct (s_crash s1); [discriminate|].
      destruct l as [ooo| |c wl j|x|t0 x code|t0 wl|x|t0 c|c i|c i|c i r0|t0]; try discriminate Ow; cbn in Ow; injection Ow as ->.
      - exfalso. unfold set_status in E. destruct (s_usr s1 t) eqn:Ut; try discriminate E.
        destruct (listed s1 x) eqn:L; cbn [negb] in E; [|injection E as _ E; rewrite <- E in Oa; destruct Oa as [Oa|[]]; discriminate].
        destruct (o_kind (s_ev s1 x)) eqn:K; [|injection E as _ E; rewrite <- E in Oa; destruct Oa as [Oa|[]]; discriminate].
        destruct (o_ready (s_ev s1 x)) eqn:Rx; injection E as _ E; rewrite <- E in Oa; destruct Oa as [Oa|[]]; discriminate.
      - exfalso. destruct (s_usr s1 t) eqn:Ut; try discriminate E. injection E as _ E. rewrite <- E in Oa. destruct Oa as [Oa|[]]; discriminate.
      - exfalso. unfold release_ctx in E. destruct (s_usr s1 t) eqn:Ut; try discriminate E.
        destruct (negb (s_listed s1 c)) eqn:L; [injection E as _ E; rewrite <- E in Oa; destruct Oa|].
        destruct (some_running _ _ _); injection E as _ E; rewrite <- E in Oa; [destruct Oa as [Oa|[]]; discriminate|destruct Oa].
      - unfold usr_step in E.
        destruct (s_usr s1 t) as [|wl|w rw|x code|x rx|x rx|x rx|c] eqn:Ut; try discriminate E.
        + destruct wl as [|w rw].
          * injection E as _ E. rewrite <- E in Oa. exists []. rewrite <- E. destruct Oa as [<-|[]]. split; [reflexivity|intros ? []].
          * destruct (listed s1 w) eqn:L; injection E as _ E; rewrite <- E in Oa; [destruct Oa|].
            exists []. rewrite <- E. destruct Oa as [<-|[]]. split; [reflexivity|intros ? []].
        + destruct (drop (HUsr t) w s1) as [sx b] eqn:D. apply drop_facts in D. destruct D as (_ & _ & Hb & _).
          assert (~ In (OWaitRet t r) b) as Nb by (intro B; destruct (Hb _ B) as (k & B'); discriminate).
          destruct (negb (o_fut (s_ev s1 w))); [injection E as _ E; rewrite <- E in Oa; contradiction|].
          destruct (o_ready (s_ev s1 w)) eqn:Rw; [|discriminate E].
          destruct (_ =? _)%Z; injection E as _ E; rewrite <- E in Oa; [contradiction|].
          exists b. rewrite <- E. rewrite in_app_iff in Oa. destruct Oa as [Oa|[<-|[]]]; [contradiction|].
          split; [reflexivity|]. intros o' B. destruct (Hb _ B) as (k & ->). eauto.
        + exfalso. destruct (_ =? _)%Z; [|destruct (is_error_code code)].
          * injection E as _ E. rewrite <- E in Oa. destruct Oa.
          * injection E as _ E. rewrite <- E in Oa. destruct Oa.
          * destruct (drop (HUsr t) x s1) as [sx b] eqn:D. apply drop_facts in D. destruct D as (_ & _ & Hb & _).
            injection E as _ E. rewrite <- E in Oa. rewrite in_app_iff in Oa. destruct Oa as [Oa|[Oa|[]]]; [|discriminate].
            destruct (Hb _ Oa) as (k & B). discriminate.
        + exfalso. injection E as _ E. rewrite <- E in Oa. destruct Oa.
        + exfalso. injection E as _ E. rewrite <- E in Oa. destruct Oa.
        + exfalso. destruct (notify_callback x s1) as [sx b] eqn:Nc. destruct (drop (HUsr t) x sx) as [sy b2] eqn:D.
          apply drop_facts in D. destruct D as (_ & _ & Hb & _). injection E as _ E. rewrite <- E in Oa.
          rewrite !in_app_iff in Oa. destruct Oa as [Oa|[Oa|[Oa|[]]]]; [| |discriminate].
          * destruct (notify_calls _ _ _ _ Nc _ Oa) as (k & B). discriminate.
          * destruct (Hb _ Oa) as (k & B). discriminate.
        + exfalso. destruct (all_stopped s1 c (s_thr s1 c)); [|discriminate E].
          destruct (break_queues c (s_thr s1 c) s1) as [sx b] eqn:D. injection E as _ E. rewrite <- E in Oa.
          apply break_queues_facts in D. destruct D as (_ & _ & _ & _ & _ & _ & _ & _ & _ & _ & A11 & _).
          rewrite in_app_iff in Oa. destruct Oa as [Oa|[Oa|[]]]; [|discriminate]. apply A11 in Oa. destruct Oa as (x & k & B & _). discriminate. }
    assert (In o l') as B; [|exact (L2 o B)].
    symmetry in L1. clear -L1 A L2. revert a1 L1 A. induction l' as [|y l' IH]; intros a1 L1 A; cbn in L1.
    - apply one_split in L1. destruct L1 as (-> & _). destruct A.
    - destruct a1 as [|z a1]; [destruct A|]. cbn in L1. injection L1 as -> L1. destruct A as [->|A]; [now left|].
      right. apply (IH (fun o' B => L2 o' (or_intror B)) a1 L1 A). }
  assert (forall ws' hb ha, g1 = hb ++ OWait t ws' :: ha -> (forall w, ~ In (OWait t w) ha) -> h1 = hb /\ ws = ws') as Hl.
  { intros ws' hb ha Qg Nh. apply (last_wait_split t ws h1 h2 ws' hb ha a1).
    - rewrite <- Qg. exact Q.
    - exact N.
    - intros w. rewrite in_app_iff. intros [A|A]; [exact (Nh w A)|]. destruct (Ha _ A) as (x & k & B). discriminate. }
  exists s1, g1, a1. split; [exact V|]. split; [exact Q|]. split; [exact Ha|]. split.
  - intros w Lw. destruct (step_keeps _ _ _ _ _ (iA _ _ V) E) as (Kn1 & Kk1).
    assert (w < s_n s2) as Lw2 by lia. destruct (Kk1 w Lw) as (K1 & K2 & _), (Kk w Lw2) as (K3 & K4 & _). split; congruence.
  - destruct Sc' as [(-> & Su)|(-> & w & rest & Wc & St)].
    + left. split; [reflexivity|]. pose proof (iW _ _ V t) as W. unfold wstate in W. rewrite Su in W.
      destruct W as (hb & ws' & ha & pre & W1 & W2 & _ & W4 & W5). destruct (Hl _ _ _ W1 W2) as (-> & ->).
      rewrite app_nil_r in W4. subst. exact W5.
    + right. split; [reflexivity|]. exists w. split; [|exact St].
      destruct Wc as (hb & ws' & ha & pre & W1 & W2 & _ & W4 & _). destruct (Hl _ _ _ W1 W2) as (-> & ->).
      rewrite W4, in_app_iff. right. now left.
Qed.

(** mcWaitForEvents returns success only after every event it waits for: each
    command is over and did not fail, each user event was set, and a user event
    whose mcSetUserEventStatus had returned before the call was set to
    MC_COMPLETE. *)
Theorem C35_success_partial :
  forall ls s h1 t ws h2 h3,
    schedule ls s ((h1 ++ OWait t ws :: h2) ++ OWaitRet t NO_ERROR :: h3) -> (forall w, ~ In (OWait t w) h2) ->
    let before := h1 ++ OWait t ws :: h2 in
    let all := before ++ OWaitRet t NO_ERROR :: h3 in
    forall w, In w ws ->
      (forall c ws', accepted all w c ws' -> over before w /\ forall r, In (ORan w r) before -> r = NO_ERROR) /\
      (In (OUser w) all -> exists code, In (OSet w code) before) /\
      (forall t' code, In (OSetRet t' w code NO_ERROR) h1 -> code = COMPLETE).
Proof.
  intros ls s h1 t ws h2 h3 R N before all w Hw. pose proof (schedule_Inv _ _ _ R) as Vf.
  destruct (wait_return _ _ _ _ _ _ _ _ R N) as (s1 & g1 & a1 & V & Q & Ha & Kall & [(_ & F)|(F & _)]); [|discriminate].
  rewrite Forall_forall in F. destruct (F w Hw) as (Pw & Pc).
  destruct (passed_facts s1 g1 w (iA _ _ V) (iU _ _ V) Pw) as (G1 & G2). destruct Pw as (Lw & _).
  destruct (Kall w Lw) as (K1 & K2). destruct (known_then s _ s1 g1 w Vf V Lw K1 K2) as (N1 & N2).
  assert (forall o, In o g1 -> In o before) as Mono by (unfold before; rewrite Q; intros; rewrite in_app_iff; auto).
  split; [|split; [|exact Pc]].
  - intros c ws' A. destruct (G1 c ws' (N1 _ _ A)) as (G3 & G4). split.
    + unfold before. rewrite Q. apply over_app. exact G3.
    + intros r B. unfold before in B. rewrite Q, in_app_iff in B. destruct B as [B|B]; [exact (G4 r B)|].
      destruct (Ha _ B) as (x & k & B'). discriminate.
  - intro A. destruct (G2 (N2 A)) as (code & B). exists code. auto.
Qed.

(** It returns an error only for an entry that is not valid or has failed, and
    the error is always MC_INVALID_VALUE. *)
Theorem C35_failure_partial :
  forall ls s h1 t ws h2 r h3,
    schedule ls s ((h1 ++ OWait t ws :: h2) ++ OWaitRet t r :: h3) -> (forall w, ~ In (OWait t w) h2) ->
    r <> NO_ERROR ->
    r = INVALID_VALUE /\
    exists w, In w ws /\ (invalid (h1 ++ OWait t ws :: h2) w \/ failed (h1 ++ OWait t ws :: h2) w).
Proof.
  intros ls s h1 t ws h2 r h3 R N Nr.
  destruct (wait_return _ _ _ _ _ _ _ _ R N) as (s1 & g1 & a1 & V & Q & Ha & Kall & [(F & _)|(F & w & Hw & St)]); [contradiction|].
  split; [exact F|]. exists w. split; [exact Hw|]. rewrite Q.
  assert (forall o, In o g1 -> In o (g1 ++ a1)) as Mono by (intros; rewrite in_app_iff; auto).
  destruct (stuck_facts s1 g1 w V St) as [[G|(G1 & G2)]|[(x & G1 & G2)|(x & G1 & G2)]].
  - left. left. auto.
  - left. right. split.
    + rewrite in_app_iff. intros [G|G]; [exact (G1 G)|]. destruct (Ha _ G) as (x & k & B). discriminate.
    + intros c' ws'. rewrite in_app_iff. intros [G|G]; [exact (G2 _ _ G)|]. destruct (Ha _ G) as (x & k & B). discriminate.
  - right. left. eauto.
  - right. right. eauto.
Qed.

(** The two together, for a single user event that is set before the wait
    begins and never released. *)
Theorem C35_set_before_wait :
  forall ls s h1 t w h2 r h3 t' code,
    schedule ls s ((h1 ++ OWait t [w] :: h2) ++ OWaitRet t r :: h3) -> (forall x, ~ In (OWait t x) h2) ->
    In (OUser w) h1 -> In (OSetRet t' w code NO_ERROR) h1 -> ~ In (ORel w) (h1 ++ OWait t [w] :: h2) ->
    (code = COMPLETE -> r = NO_ERROR) /\ (code <> COMPLETE -> r = INVALID_VALUE).
Proof.
  intros ls s h1 t w h2 r h3 t' code R N Hu Hs Nr. pose proof (schedule_Inv _ _ _ R) as Vf.
  assert (In (OSetRet t' w code NO_ERROR) ((h1 ++ OWait t [w] :: h2) ++ OWaitRet t r :: h3)) as Hs' by (rewrite !in_app_iff; auto).
  destruct (set_returned _ _ _ _ _ (iA _ _ Vf) (iU _ _ Vf) Hs') as (Lw & Ku & Gc & _ & _).
  destruct (Z.eq_dec r NO_ERROR) as [->|Nz].
  - split; [reflexivity|]. intro Nc. exfalso.
    destruct (C35_success_partial _ _ _ _ _ _ _ R N w (or_introl eq_refl)) as (_ & _ & G). exact (Nc (G _ _ Hs)).
  - destruct (C35_failure_partial _ _ _ _ _ _ _ _ R N Nz) as (-> & w' & [<-|[]] & G). split; [|reflexivity].
    intros ->. exfalso. destruct G as [[G|(G & _)]|[(x & G & G')|(cd & G & G')]].
    + exact (Nr G).
    + apply G. rewrite in_app_iff. now left.
    + assert (In (ORan w x) ((h1 ++ OWait t [w] :: h2) ++ OWaitRet t INVALID_VALUE :: h3)) as G2 by (rewrite in_app_iff; auto).
      apply (a_ran _ _ (iA _ _ Vf)) in G2. destruct G2 as (_ & _ & (c & ws & G2) & _). congruence.
    + assert (In (OSet w cd) (usets ((h1 ++ OWait t [w] :: h2) ++ OWaitRet t INVALID_VALUE :: h3) w)) as G2.
      { apply filter_In. split; [rewrite in_app_iff; auto|cbn; apply Nat.eqb_refl]. }
      assert (In (OSetRet t' w COMPLETE NO_ERROR) (usets ((h1 ++ OWait t [w] :: h2) ++ OWaitRet t INVALID_VALUE :: h3) w)) as G3.
      { apply filter_In. split; [exact Hs'|cbn; now rewrite Nat.eqb_refl]. }
      set (all := (h1 ++ OWait t [w] :: h2) ++ OWaitRet t INVALID_VALUE :: h3) in *.
      destruct (u_life _ _ (iU _ _ Vf) w Lw Ku) as [(tt & P)|P].
      * pose proof (u_thr _ _ (iU _ _ Vf) tt w P) as Pu.
        assert (exists cd', usets all w = [OSet w cd']) as (cd' & Qu).
        { destruct (s_usr s tt); try discriminate P; cbn in Pu, P; injection P as ->; [destruct Pu; eauto| | |]; destruct Pu as (cd' & Pu & _); eauto. }
        rewrite Qu in G3. destruct G3 as [G3|[]]. discriminate.
      * destruct P as [(P & _)|[(cd' & P & _)|(cd' & tt & P & _)]]; rewrite P in G2, G3.
        -- destruct G2.
        -- destruct G3 as [G3|[]]. discriminate.
        -- destruct G3 as [G3|[G3|[]]]; [discriminate|]. destruct G2 as [G2|[G2|[]]]; [|discriminate].
           assert (cd = COMPLETE) as -> by congruence. destruct G' as [G'|[G'|G']]; discriminate.
Qed.

(** Without the order: a wait that overlaps the call can report success for a
    user event set to an error code. *)
Theorem C35_race_refuted :
  exists ls s h,
    schedule ls s h /\ In (OSet 0 OUT_OF_MEMORY) h /\ In (OSetRet 7 0 OUT_OF_MEMORY NO_ERROR) h /\
    In (OWait 8 [0]) h /\ In (OWaitRet 8 NO_ERROR) h.
Proof.
  destruct (run_obs_schedule [LUser; LStatus 7 0 OUT_OF_MEMORY; LWaitFor 8 [0]; LUsr 8; LUsr 8; LUsr 8; LUsr 7; LUsr 7; LUsr 7; LUsr 7]
    [OUser 0; OSet 0 OUT_OF_MEMORY; OWait 8 [0]; OWaitRet 8 NO_ERROR; OSetRet 7 0 OUT_OF_MEMORY NO_ERROR]) as (s & R); [vm_compute; reflexivity|].
  eexists _, s, _. split; [exact R|]. cbn. auto 10.
Qed.

(** And the code itself is not returned: the result is MC_INVALID_VALUE
    whatever error code the user gave. *)
Theorem C35_code_refuted :
  exists ls s h,
    schedule ls s ((h ++ OWait 8 [0] :: []) ++ OWaitRet 8 INVALID_VALUE :: []) /\
    In (OUser 0) h /\ In (OSetRet 7 0 OUT_OF_MEMORY NO_ERROR) h.
Proof.
  destruct (run_obs_schedule [LUser; LStatus 7 0 OUT_OF_MEMORY; LUsr 7; LUsr 7; LUsr 7; LUsr 7; LWaitFor 8 [0]; LUsr 8; LUsr 8]
    (([OUser 0; OSet 0 OUT_OF_MEMORY; OSetRet 7 0 OUT_OF_MEMORY NO_ERROR] ++ OWait 8 [0] :: []) ++ OWaitRet 8 INVALID_VALUE :: [])) as (s & R); [vm_compute; reflexivity|].
  eexists _, s, _. split; [exact R|]. cbn. auto 10.
Qed.

(** The hypotheses of the theorems are met. *)
Example C34_instance :
  exists s h,
    schedule [LContext false; LEnqueue 0 [] 0; LCallback 0; LPop 0 0; LMgr 0 0; LFinish 0 0 NO_ERROR; LMgr 0 0; LMgr 0 0; LMgr 0 0; LMgr 0 0; LMgr 0 0] s h /\
    In (ORan 0 NO_ERROR) h /\ last_registration h 0 0 /\ exists h1 h2, h = h1 ++ OCall 0 0 :: h2.
Proof.
  destruct (run_obs_schedule [LContext false; LEnqueue 0 [] 0; LCallback 0; LPop 0 0; LMgr 0 0; LFinish 0 0 NO_ERROR; LMgr 0 0; LMgr 0 0; LMgr 0 0; LMgr 0 0; LMgr 0 0]
    [OContext 0 false; OEnq 0 0 []; OReg 0 0; OStart 0; ODone 0 NO_ERROR; OCall 0 0; ORan 0 NO_ERROR]) as (s & R); [vm_compute; reflexivity|].
  exists s. eexists. split; [exact R|]. split; [cbn; auto 10|]. split.
  - split; [cbn; auto|]. intros k' A. cbn in A. repeat (destruct A as [A|A]; [first [discriminate A|injection A as <-; lia]|]). destruct A.
  - exists [OContext 0 false; OEnq 0 0 []; OReg 0 0; OStart 0; ODone 0 NO_ERROR], [ORan 0 NO_ERROR]. reflexivity.
Qed.

Example C34_user_instance :
  exists s h,
    schedule [LUser; LCallback 0; LCallback 0; LStatus 7 0 COMPLETE; LUsr 7; LUsr 7; LUsr 7; LUsr 7] s h /\
    In (OSetRet 7 0 COMPLETE NO_ERROR) h /\ last_registration h 0 1.
Proof.
  destruct (run_obs_schedule [LUser; LCallback 0; LCallback 0; LStatus 7 0 COMPLETE; LUsr 7; LUsr 7; LUsr 7; LUsr 7]
    [OUser 0; OReg 0 0; OReg 0 1; OSet 0 COMPLETE; OCall 0 1; OSetRet 7 0 COMPLETE NO_ERROR]) as (s & R); [vm_compute; reflexivity|].
  exists s. eexists. split; [exact R|]. split; [cbn; auto 10|].
  split; [cbn; auto|]. intros k' A. cbn in A. repeat (destruct A as [A|A]; [first [discriminate A|injection A as <-; lia]|]). destruct A.
Qed.

Example C35_instance :
  exists s,
    schedule [LUser; LStatus 7 0 COMPLETE; LUsr 7; LUsr 7; LUsr 7; LUsr 7; LWaitFor 8 [0]; LUsr 8; LUsr 8; LUsr 8] s
      (([OUser 0; OSet 0 COMPLETE; OSetRet 7 0 COMPLETE NO_ERROR] ++ OWait 8 [0] :: []) ++ OWaitRet 8 NO_ERROR :: []).
Proof. apply run_obs_schedule. vm_compute. reflexivity. Qed.

Print Assumptions C34_at_most_once.
Print Assumptions C34_not_early.
Print Assumptions C34_command_called_once_partial.
Print Assumptions C34_user_called_once_partial.
Print Assumptions C34_skipped_never_called.
Print Assumptions C34_skipped_refuted.
Print Assumptions C35_success_partial.
Print Assumptions C35_failure_partial.
Print Assumptions C35_set_before_wait.
