(** * C57, C58: programs that crash or hang the process, and programs that cannot *)

From Coq Require Import ZArith List Bool Arith Lia Sorting.Sorted.
From Verif Require Import EventModel EventSpec EventInv EventMono EventFate EventUser EventWait EventCb EventCb2 EventAll EventEmit EventProps EventLive EventFrame EventRel.
Import ListNotations.

(** ** C57 fails in three ways *)

(** A context released while one of its commands executes: mcReleaseContext
    returns at once, and the process ends when the command does. *)
Definition release_running : list elabel :=
  [LContext false; LEnqueue 0 [] 0; LPop 0 0; LMgr 0 0; LReleaseCtx 0 0; LFinish 0 0 NO_ERROR].
Theorem C57_release_running_refuted :
  exists s, schedule release_running s [OContext 0 false; OEnq 0 0 []; OStart 0; OJoined 0 0; OCrash].
Proof. apply run_obs_schedule. vm_compute. reflexivity. Qed.

(** An out-of-order context released while one of its threads waits for a
    command queued on the other one: that command is never executed and never
    discarded, mcReleaseContext never returns, no thread can take a step. *)
Definition release_hang : list elabel :=
  [LContext true; LEnqueue 0 [] 0; LEnqueue 0 [0] 0; LEnqueue 0 [] 1; LEnqueue 0 [2; 1] 1;
   LPop 0 1; LMgr 0 1; LFinish 0 1 NO_ERROR; LMgr 0 1; LMgr 0 1; LMgr 0 1; LMgr 0 1; LMgr 0 1;
   LPop 0 1; LMgr 0 1; LMgr 0 1; LMgr 0 1;
   LReleaseCtx 0 0; LPop 0 0].
Definition release_hang_obs : list obs :=
  [OContext 0 true; OEnq 0 0 []; OEnq 1 0 [0]; OEnq 2 0 []; OEnq 3 0 [2; 1];
   OStart 2; ODone 2 NO_ERROR; ORan 2 NO_ERROR; ODrop 0].
Theorem C57_release_hangs_refuted :
  exists s, schedule release_hang s release_hang_obs /\
    In (LReleaseCtx 0 0) release_hang /\ (forall t, ~ In (OJoined t 0) release_hang_obs) /\
    ~ over release_hang_obs 1 /\ ~ over release_hang_obs 3 /\
    forall l, manager_label l \/ (exists t, l = LUsr t) -> estep l s = None.
Proof.
  exists (match erun release_hang est0 with Some (s, _) => s | None => est0 end).
  split; [vm_compute; reflexivity|]. split; [unfold release_hang; cbn [In]; tauto|].
  split; [intros t A; cbn in A; repeat (destruct A as [A|A]; [discriminate A|]); exact A|].
  split; [intros [(r & A)|[A|A]]; cbn in A; repeat (destruct A as [A|A]; [discriminate A|]); exact A|].
  split; [intros [(r & A)|[A|A]]; cbn in A; repeat (destruct A as [A|A]; [discriminate A|]); exact A|].
  intros l L. destruct l as [| | | | | | | |c i|c i|c i r|t]; try (destruct L as [L|(t' & L)]; [destruct L|discriminate L]).
  - destruct c as [|c]; [destruct i as [|[|i]]; vm_compute; reflexivity|destruct i as [|[|i]]; reflexivity].
  - destruct c as [|c]; [destruct i as [|[|i]]; vm_compute; reflexivity|destruct i as [|[|i]]; reflexivity].
  - destruct c as [|c]; [destruct i as [|[|i]]; vm_compute; reflexivity|destruct i as [|[|i]]; reflexivity].
  - destruct t as [|t]; vm_compute; reflexivity.
Qed.

(** A command taken from the queue just before the release does nothing and
    is nevertheless reported complete without an error. *)
Definition release_noop : list elabel :=
  [LContext false; LEnqueue 0 [] 0; LPop 0 0; LReleaseCtx 0 0; LMgr 0 0; LFinish 0 0 NO_ERROR; LMgr 0 0; LMgr 0 0; LMgr 0 0].
Theorem C57_release_noop_refuted :
  exists s, schedule release_noop s [OContext 0 false; OEnq 0 0 []; ONoop 0; ODone 0 NO_ERROR; ORan 0 NO_ERROR].
Proof. apply run_obs_schedule. vm_compute. reflexivity. Qed.

(** ** C58 fails *)

(** Releasing the event of a command that is still queued. *)
Theorem C58_release_queued_refuted :
  exists s, schedule [LContext false; LEnqueue 0 [] 0; LRelease 0; LPop 0 0; LMgr 0 0] s
              [OContext 0 false; OEnq 0 0 []; ORel 0; OCrash].
Proof. apply run_obs_schedule. vm_compute. reflexivity. Qed.

(** A wait list that names a command of a context with more threads. *)
Theorem C58_foreign_waitlist_refuted :
  exists s, schedule [LContext true; LContext false; LEnqueue 0 [] 1; LEnqueue 1 [0] 0] s
              [OContext 0 true; OContext 1 false; OEnq 0 0 []; OCrash].
Proof. apply run_obs_schedule. vm_compute. reflexivity. Qed.

(** mcSetUserEventStatus on the event of a command. *)
Theorem C58_status_of_command_refuted :
  exists s, schedule [LContext false; LEnqueue 0 [] 0; LStatus 0 0 COMPLETE] s
              [OContext 0 false; OEnq 0 0 []; OCrash].
Proof. apply run_obs_schedule. vm_compute. reflexivity. Qed.

(** ** C58 for programs that avoid the four mistakes *)

(** [h] is what was observed before the call [l]. *)
Definition polite (h : list obs) (l : elabel) : Prop :=
  match l with
  | LEnqueue c ws _ => forall w c' ws', In w ws -> accepted h w c' ws' -> c' = c
  | LStatus _ e _ => In (OUser e) h
  | LRelease e => forall c ws, accepted h e c ws -> over h e
  | LReleaseCtx _ c => forall e ws, accepted h e c ws -> over h e
  | _ => True
  end.
Definition polite_run (ls : list elabel) : Prop :=
  forall l1 l l2 s1 h1, ls = l1 ++ l :: l2 -> schedule l1 s1 h1 -> polite h1 l.

Record InvP (s : est) (h : list obs) : Prop := {
  p_rel : forall e c ws, In (ORel e) h -> accepted h e c ws -> over h e;
  p_lt : forall e, In (ORel e) h -> e < s_n s;
  p_ctx : forall c e ws, s_listed s c = false -> accepted h e c ws -> over h e
}.

Lemma step_InvP s h l s' a : Inv s h -> InvP s h -> polite h l -> estep l s = Some (s', a) -> InvP s' (h ++ a).
Proof.
  intros V P Po E. pose proof (step_frame _ _ _ _ E) as F. pose proof (step_keeps _ _ _ _ _ (iA _ _ V) E) as (Kn & _).
  assert (forall e c ws, accepted (h ++ a) e c ws -> accepted h e c ws \/ (e = s_n s /\ a = [OEnq e c ws] /\ s_listed s c = true)) as Acc.
  { intros e c ws A. unfold accepted in A. rewrite in_app_iff in A. destruct A as [A|A]; [now left|right]. exact (step_source _ _ _ _ _ E A). }
  constructor.
  - intros e c ws R A. rewrite in_app_iff in R. destruct R as [R|R].
    + destruct (Acc e c ws A) as [A'|(-> & _)]; [apply over_app; exact (p_rel _ _ P e c ws R A')|].
      apply (p_lt _ _ P) in R. lia.
    + destruct (fr_rel _ _ _ _ F e R) as (-> & L). apply (listed_lt _ _ _ (iA _ _ V)) in L.
      destruct (Acc e c ws A) as [A'|(-> & _)]; [|lia]. apply over_app. exact (Po c ws A').
  - intros e R. rewrite in_app_iff in R. destruct R as [R|R]; [apply (p_lt _ _ P) in R; lia|].
    destruct (fr_rel _ _ _ _ F e R) as (-> & L). apply (listed_lt _ _ _ (iA _ _ V)) in L. lia.
  - intros c e ws L A. destruct (fr_list _ _ _ _ F c) as [B|[(ooo & -> & B)|(t & ->)]].
    + destruct (Acc e c ws A) as [A'|(_ & _ & A')]; [|congruence]. apply over_app. apply (p_ctx _ _ P c e ws); [congruence|exact A'].
    + exfalso. unfold estep in E. destruct (s_crash s); [discriminate|]. injection E as <- <-. subst c. cbn in L. rewrite upd_eq in L. discriminate.
    + destruct (Acc e c ws A) as [A'|(_ & A' & _)]; [apply over_app; exact (Po e ws A')|]. exfalso. subst a.
      unfold estep in E. destruct (s_crash s); [discriminate|]. unfold release_ctx in E.
      destruct (s_usr s t); try discriminate E. destruct (negb _); [discriminate E|]. destruct (some_running _ _ _); discriminate E.
Qed.

Lemma polite_cause s h l : Inv s h -> InvX s -> InvP s h -> polite h l -> ~ crash_cause s l.
Proof.
  intros V X P Po [(c & ws & j & w & c' & ws' & -> & A1 & A2 & A3 & A4)|[(t & e & code & c & ws & -> & A)|[(c & i & e & A1 & A2)|(c & i & e & A1 & A2)]]].
  - assert (w < s_n s) as L.
    { destruct (le_lt_dec (s_n s) w) as [L|L]; [|exact L]. rewrite (a_dummy _ _ (iA _ _ V) w L) in A2. discriminate. }
    assert (c' = c) as -> by (apply (Po w c' ws' A1); apply (a_enq _ _ (iA _ _ V)); auto).
    destruct (X w c ws' L A2 A3). lia.
  - apply (u_user _ _ (iU _ _ V)) in Po. destruct Po. congruence.
  - assert (mev (s_mgr s c i) = Some e) as Me by now rewrite A1.
    destruct (a_mgr _ _ (iA _ _ V) _ _ _ Me) as (P1 & (ws & P2) & P3 & _).
    destruct (busy_over s h c i e V Me) as [Y|Y]; [|congruence|congruence].
    apply (p_rel _ _ P e c ws); [|apply (a_enq _ _ (iA _ _ V)); auto].
    apply (h_list _ _ (iH _ _ V)); [exact P1|]. rewrite A2. intros [].
  - assert (mev (s_mgr s c i) = Some e) as Me by now rewrite A1.
    destruct (a_mgr _ _ (iA _ _ V) _ _ _ Me) as (P1 & (ws & P2) & P3 & _).
    destruct (busy_over s h c i e V Me) as [Y|Y]; [|congruence|congruence].
    apply (p_ctx _ _ P c e ws A2). apply (a_enq _ _ (iA _ _ V)); auto.
Qed.

(** A program that only waits for commands of the same context, sets the
    status of user events only, and releases a command's event and a context only
    when the commands concerned are over, never crashes the process, whatever
    the threads' timing. *)
Theorem C58_polite_no_crash_partial :
  forall ls s h, schedule ls s h -> polite_run ls -> ~ In OCrash h.
Proof.
  assert (forall l2 l1 s1 h1 s h, schedule l1 s1 h1 -> InvP s1 h1 -> InvX s1 -> polite_run (l1 ++ l2) ->
            erun l2 s1 = Some (s, h) -> ~ In OCrash h) as G.
  { induction l2 as [|l l2 IH]; intros l1 s1 h1 s h R P X Po E; cbn in E.
    - injection E as <- <-. intros [].
    - destruct (estep l s1) as [[s2 b]|] eqn:E1; [|discriminate].
      destruct (erun l2 s2) as [[s3 b2]|] eqn:E2; [|discriminate]. injection E as <- <-.
      pose proof (schedule_Inv _ _ _ R) as V. pose proof (Po l1 l l2 s1 h1 eq_refl R) as Pl.
      rewrite in_app_iff. intros [C|C].
      + exact (polite_cause _ _ _ V X P Pl (fr_crash _ _ _ _ (step_frame _ _ _ _ E1) (fr_ocrash _ _ _ _ (step_frame _ _ _ _ E1) C))).
      + revert C. apply (IH (l1 ++ [l]) s2 (h1 ++ b) s3 b2).
        * apply erun_app. exists s1, h1, b. split; [exact R|]. split; [|reflexivity]. cbn. rewrite E1. now rewrite app_nil_r.
        * exact (step_InvP _ _ _ _ _ V P Pl E1).
        * exact (step_InvX _ _ _ _ _ V X E1).
        * rewrite <- app_assoc. exact Po.
        * exact E2. }
  intros ls s h R Po. apply (G ls [] est0 [] s h); [reflexivity| |exact InvX0|exact Po|exact R].
  constructor.
  - intros e c ws [].
  - intros e [].
  - intros c e ws _ [].
Qed.

(** A polite program: two contexts, waiting, a user event, release of an event
    and of both contexts. *)
Definition polite_demo : list elabel :=
  [LContext false; LUser; LEnqueue 0 [0] 0; LStatus 0 0 COMPLETE; LUsr 0; LUsr 0; LUsr 0; LUsr 0;
   LPop 0 0; LMgr 0 0; LMgr 0 0; LMgr 0 0; LFinish 0 0 NO_ERROR; LMgr 0 0; LMgr 0 0; LMgr 0 0;
   LRelease 1; LReleaseCtx 0 0; LMgr 0 0; LMgr 0 0; LPop 0 0; LUsr 0].
Definition polite_demo_obs : list obs :=
  [OContext 0 false; OUser 0; OEnq 1 0 [0]; OSet 0 COMPLETE; OSetRet 0 0 COMPLETE NO_ERROR;
   OStart 1; ODone 1 NO_ERROR; ORan 1 NO_ERROR; ORel 1; OJoined 0 0].

Definition overb (h : list obs) (e : nat) : bool :=
  existsb (fun o => match o with ORan x _ | OSkip x | ODrop x => x =? e | _ => false end) h.
Lemma overb_sound h e : overb h e = true -> over h e.
Proof.
  intro A. apply existsb_exists in A. destruct A as (o & A & B). unfold over.
  destruct o; try discriminate B; apply Nat.eqb_eq in B; subst; eauto.
Qed.
Definition politeb (h : list obs) (l : elabel) : bool :=
  match l with
  | LEnqueue c ws _ => forallb (fun o => match o with OEnq w c' _ => negb (existsb (Nat.eqb w) ws) || (c' =? c) | _ => true end) h
  | LStatus _ e _ => existsb (fun o => match o with OUser x => x =? e | _ => false end) h
  | LRelease e => forallb (fun o => match o with OEnq x _ _ => negb (x =? e) || overb h e | _ => true end) h
  | LReleaseCtx _ c => forallb (fun o => match o with OEnq x c' _ => negb (c' =? c) || overb h x | _ => true end) h
  | _ => true
  end.
Lemma politeb_sound h l : politeb h l = true -> polite h l.
Proof.
  destruct l; cbn [politeb polite]; try (intros; exact Logic.I); intro A.
  - intros w c' ws' B C. rewrite forallb_forall in A. specialize (A _ C). cbn in A.
    apply orb_true_iff in A. destruct A as [A|A]; [|now apply Nat.eqb_eq].
    apply negb_true_iff in A. assert (existsb (Nat.eqb w) ws = true); [|congruence].
    apply existsb_exists. exists w. split; [exact B|apply Nat.eqb_refl].
  - apply existsb_exists in A. destruct A as (o & A & B). destruct o; try discriminate B. apply Nat.eqb_eq in B. now subst.
  - intros c ws B. rewrite forallb_forall in A. specialize (A _ B). cbn in A. rewrite Nat.eqb_refl in A. now apply overb_sound.
  - intros e ws B. rewrite forallb_forall in A. specialize (A _ B). cbn in A. rewrite Nat.eqb_refl in A. now apply overb_sound.
Qed.

Fixpoint polite_check (h : list obs) (ls : list elabel) (s : est) : bool :=
  match ls with
  | [] => true
  | l :: r => politeb h l && match estep l s with None => true | Some (s1, a) => polite_check (h ++ a) r s1 end
  end.
Lemma polite_check_run ls : forall l1 s1 h1,
  schedule l1 s1 h1 -> polite_check h1 ls s1 = true ->
  forall l2 l l3 s2 h2, ls = l2 ++ l :: l3 -> schedule (l1 ++ l2) s2 h2 -> polite h2 l.
Proof.
  induction ls as [|x ls IH]; intros l1 s1 h1 R C l2 l l3 s2 h2 Q R2; [destruct l2; discriminate|].
  cbn in C. apply andb_true_iff in C.
  destruct C as (C1 & C2). destruct l2 as [|y l2]; cbn in Q; injection Q as -> ->.
  - rewrite app_nil_r in R2. unfold schedule in *. rewrite R in R2. injection R2 as <- <-. now apply politeb_sound.
  - destruct (estep y s1) as [[s3 a]|] eqn:E.
    + apply (IH (l1 ++ [y]) s3 (h1 ++ a)) with (l2 := l2) (l3 := l3) (s2 := s2); [|exact C2|reflexivity|rewrite <- app_assoc; exact R2].
      apply erun_app. exists s1, h1, a. split; [exact R|]. split; [|reflexivity]. cbn. rewrite E. now rewrite app_nil_r.
    + exfalso. apply erun_app in R2. destruct R2 as (s4 & a1 & a2 & A & B & _). unfold schedule in R. rewrite R in A. injection A as <- <-.
      cbn in B. rewrite E in B. discriminate.
Qed.

Example C58_hypotheses_met :
  (exists s, schedule polite_demo s polite_demo_obs) /\ polite_run polite_demo.
Proof.
  split; [apply run_obs_schedule; vm_compute; reflexivity|].
  intros l1 l l2 s1 h1 Q R. apply (polite_check_run polite_demo [] est0 [] eq_refl) with (l2 := l1) (l3 := l2) (s2 := s1); [|exact Q|exact R].
  vm_compute. reflexivity.
Qed.

(** C57_release_returns_partial on the same program, up to the release and with
    one thread of the context still on its way out. *)
Example C57_hypotheses_met :
  exists s1 h1 s h,
    schedule (firstn 17 polite_demo) s1 h1 /\ In (OContext 0 false) h1 /\
    (forall t', ~ In (LReleaseCtx t' 0) (firstn 17 polite_demo)) /\
    (forall e ws, accepted h1 e 0 ws -> over h1 e) /\
    schedule (firstn 17 polite_demo ++ LReleaseCtx 0 0 :: [LMgr 0 0]) s h /\ ~ In (LUsr 0) [LMgr 0 0] /\ ~ In OCrash h.
Proof.
  destruct (run_obs_schedule (firstn 17 polite_demo) (firstn 9 polite_demo_obs)) as (s1 & R1); [vm_compute; reflexivity|].
  destruct (run_obs_schedule (firstn 17 polite_demo ++ LReleaseCtx 0 0 :: [LMgr 0 0]) (firstn 9 polite_demo_obs)) as (s & R); [vm_compute; reflexivity|].
  exists s1, (firstn 9 polite_demo_obs), s, (firstn 9 polite_demo_obs).
  split; [exact R1|]. split; [now left|]. clear R1.
  split; [intros t' A; cbn in A; repeat (destruct A as [A|A]; [discriminate A|]); exact A|].
  split.
  { intros e ws A. unfold accepted in A. cbn in A. repeat (destruct A as [A|A]; [try discriminate A|]); [|destruct A].
    injection A as <- <-. apply overb_sound. reflexivity. }
  split; [exact R|]. split; [intros [A|[]]; discriminate A|].
  intro A. cbn in A. repeat (destruct A as [A|A]; [discriminate A|]). exact A.
Qed.

Print Assumptions C57_returned_partial.
Print Assumptions C57_closed.
Print Assumptions C57_release_returns_partial.
Print Assumptions C57_release_running_refuted.
Print Assumptions C57_release_hangs_refuted.
Print Assumptions C57_release_noop_refuted.
Print Assumptions C58_release_queued_refuted.
Print Assumptions C58_foreign_waitlist_refuted.
Print Assumptions C58_status_of_command_refuted.
Print Assumptions C58_polite_no_crash_partial.
