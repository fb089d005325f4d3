(** * All the invariants, for every schedule *)

From Coq Require Import ZArith List Bool Arith Lia Sorting.Sorted.
From Verif Require Import EventModel EventSpec EventInv EventMono EventFate EventUser EventWait EventCb EventCb2.
Import ListNotations.

(** ** What a waiting manager has seen so far *)

Definition mcalled (s : est) (h : list obs) (e : nat) (rest : list nat) : Prop :=
  exists c ws pre hb ha,
    h = hb ++ OEnq e c ws :: ha /\ ws = pre ++ rest /\ Forall (wpassed s hb) pre.

Definition mgrstate (s : est) (h : list obs) (m : mstate) : Prop :=
  match m with
  | MWait e rest => mcalled s h e rest
  | MWaitOn e w rest => mcalled s h e (w :: rest)
  | MRun e _ => mcalled s h e []
  | _ => True
  end.

Definition InvM (s : est) (h : list obs) : Prop := forall c i, mgrstate s h (s_mgr s c i).

Lemma mcalled_mono s h s' a e rest :
  (forall w, passed s w -> passed s' w) -> mcalled s h e rest -> mcalled s' (h ++ a) e rest.
Proof.
  intros HP (c & ws & pre & hb & ha & A & B & F). exists c, ws, pre, hb, (ha ++ a).
  split; [rewrite A, <- app_assoc; reflexivity|]. split; [exact B|].
  eapply Forall_impl; [|exact F]. intros w (G1 & G2). split; auto.
Qed.

Lemma mgrstate_mono s h s' a m :
  (forall w, passed s w -> passed s' w) -> mgrstate s h m -> mgrstate s' (h ++ a) m.
Proof. intros HP. destruct m; cbn; auto; apply mcalled_mono; exact HP. Qed.

Lemma InvM_move s h s' a c i m' :
  (forall w, passed s w -> passed s' w) -> InvM s h ->
  (forall c' i', s_mgr s' c' i' = upd2 (s_mgr s) c i m' c' i') -> mgrstate s' (h ++ a) m' -> InvM s' (h ++ a).
Proof.
  intros HP M Hm Hn c' i'. rewrite Hm. destruct (upd2_cases (s_mgr s) c i m' c' i') as [(-> & -> & ->)|(_ & ->)]; [exact Hn|].
  apply (mgrstate_mono s); auto.
Qed.

Lemma InvM_same s h s' a :
  (forall w, passed s w -> passed s' w) -> InvM s h -> s_mgr s' = s_mgr s -> InvM s' (h ++ a).
Proof. intros HP M Hm c i. rewrite Hm. apply (mgrstate_mono s); auto. Qed.

Theorem step_InvM s h l s' a :
  InvA s h -> InvU s h -> InvM s h -> estep l s = Some (s', a) -> InvM s' (h ++ a).
Proof.
  intros I U M E. pose proof (step_keeps _ _ _ _ _ I E) as (Kn & Kk).
  assert (forall w, passed s w -> passed s' w) as HP.
  { intros w A. apply (keeps_passed s); [exact Kn| |exact A]. apply Kk. apply A. }
  unfold estep in E. destruct (s_crash s); [discriminate|].
  destruct l as [ooo| |c ws j|e|t e code|t ws|e|t c|c i|c i|c i r|t].
  - injection E as <- <-. apply (InvM_same s); auto.
  - injection E as <- <-. apply (InvM_same s); auto.
  - unfold enqueue in E. destruct (negb (s_listed s c)); [injection E as <- <-; apply (InvM_same s); auto|].
    destruct (responsible _ ws) as [r|]; [|injection E as <- <-; apply (InvM_same s); auto].
    destruct (match r with None => _ | Some _ => _ end); [discriminate|].
    destruct (_ <=? _); injection E as <- <-; apply (InvM_same s); auto.
  - destruct (listed s e) eqn:L; [|injection E as <- <-; apply (InvM_same s); auto].
    destruct (set_callback e (s_nreg s) s) as [s1 b] eqn:C. injection E as <- <-.
    unfold set_callback in C. destruct (o_fin (s_ev s e)); injection C as <- <-; apply (InvM_same s); auto.
  - unfold set_status in E. destruct (s_usr s t) eqn:Ut; try discriminate E.
    destruct (listed s e) eqn:L; cbn [negb] in E; [|injection E as <- <-; apply (InvM_same s); auto].
    destruct (o_kind (s_ev s e)) eqn:K; [|injection E as <- <-; apply (InvM_same s); auto].
    destruct (o_ready (s_ev s e)) eqn:R; injection E as <- <-; apply (InvM_same s); auto.
  - destruct (s_usr s t) eqn:Ut; try discriminate E. injection E as <- <-. apply (InvM_same s); auto.
  - destruct (listed s e) eqn:L; [|injection E as <- <-; apply (InvM_same s); auto].
    destruct (drop HList e s) as [s1 b] eqn:D. injection E as <- <-.
    apply drop_facts in D. destruct D as (-> & _). apply (InvM_same s); auto.
  - unfold release_ctx in E. destruct (s_usr s t) eqn:Ut; try discriminate E.
    destruct (negb (s_listed s c)) eqn:L; [injection E as <- <-; apply (InvM_same s); auto|].
    destruct (some_running _ _ _); injection E as <- <-; apply (InvM_same s); auto.
  - destruct (i <? s_thr s c) eqn:Hi; [|discriminate]. unfold pop in E.
    destruct (s_mgr s c i) eqn:Mi; try discriminate E.
    destruct (s_queue s c i) as [|e q] eqn:Q; destruct (s_done s c); try discriminate E; injection E as <- <-.
    + apply (InvM_move s _ _ _ c i MStopped); try exact Logic.I; auto.
    + apply (InvM_move s _ _ _ c i MStopped); try exact Logic.I; auto.
    + assert (In e (s_queue s c i)) as Qe by (rewrite Q; now left).
      destruct (a_queue _ _ I c i e Qe) as (G1 & (ws & G2) & G3 & _). rewrite G2 in *.
      apply (InvM_move s _ _ _ c i (MWait e ws)); auto. change (mcalled (set_mgr c i (MWait e ws) (set_queue c i q s)) (h ++ []) e ws).
      assert (In (OEnq e c ws) h) as En by (apply (a_enq _ _ I); auto).
      apply in_split in En. destruct En as (hb & ha & ->).
      exists c, ws, [], hb, (ha ++ []). split; [rewrite <- app_assoc; reflexivity|]. split; [reflexivity|constructor].
  - unfold mgr_step in E.
    pose proof (M c i) as Mc. pose proof (a_phase _ _ I c i) as Ph.
    destruct (s_mgr s c i) as [|e ws|e w r|e lk|e r|e r|e r|e|e|] eqn:Mi; try discriminate E; cbn in Mc.
    + destruct ws as [|w r].
      * destruct (o_refs (s_ev s e)); [injection E as <- <-; apply (InvM_same s); auto|].
        destruct (ctx_alive s c); injection E as <- <-.
        -- apply (InvM_move s _ _ _ c i (MRun e true)); auto. apply (mcalled_mono s); auto.
        -- apply (InvM_move s _ _ _ c i (MRun e false)); auto. apply (mcalled_mono s); auto.
      * destruct (listed s w) eqn:L; injection E as <- <-.
        -- apply (InvM_move s _ _ _ c i (MWaitOn e w r)); auto. apply (mcalled_mono s); auto.
        -- apply (InvM_move s _ _ _ c i (MExit e)); try exact Logic.I; auto.
    + destruct (drop (HMgr c i) w s) as [s1 b] eqn:D. apply drop_facts in D. destruct D as (D & _ & Hb & _).
      destruct Ph as (Ph1 & Ph2).
      assert (passed s w -> (forall t code, In (OSetRet t w code NO_ERROR) h -> code = COMPLETE) ->
              forall a', mcalled s (h ++ a') e r) as Hnext.
      { intros Pw Hw a'. destruct Mc as (c0 & ws & pre & hb & ha & A1 & A2 & A3).
        exists c0, ws, (pre ++ [w]), hb, (ha ++ a'). split; [rewrite A1, <- app_assoc; reflexivity|].
        split; [rewrite A2, <- app_assoc; reflexivity|]. apply Forall_app. split; [exact A3|].
        constructor; [|constructor]. split; [exact Pw|]. intros t code B. apply (Hw t). rewrite A1, in_app_iff. now left. }
      assert (s_mgr s1 = s_mgr s) as Hm1 by (rewrite D; reflexivity).
      destruct (o_fut (s_ev s w)) eqn:Fw; cbn [negb] in E.
      * destruct (o_ready (s_ev s w)) eqn:R; [|discriminate E].
        destruct (Z.eqb_spec (o_rt (s_ev s w)) NO_ERROR) as [Z|Z]; injection E as <- <-.
        -- apply (InvM_move s _ _ _ c i (MWait e r)); auto; [cbn; now rewrite Hm1|]. cbn.
           rewrite <- (app_nil_r (h ++ b)). apply (mcalled_mono s); [exact HP|].
           apply Hnext; [split; [exact Ph2|]; right; auto|].
           intros t code A. destruct (set_returned s h w t code I U A) as (_ & _ & B1 & _ & B2).
           apply result_zero; [exact B1|congruence].
        -- apply (InvM_move s _ _ _ c i (MExit e)); auto; [cbn; now rewrite Hm1|]. exact Logic.I.
      * injection E as <- <-. apply (InvM_move s _ _ _ c i (MWait e r)); auto; [cbn; now rewrite Hm1|]. cbn.
        rewrite <- (app_nil_r (h ++ b)). apply (mcalled_mono s); [exact HP|].
        apply Hnext; [split; [exact Ph2|]; left; exact Fw|].
        intros t code A. exfalso. destruct (set_returned s h w t code I U A) as (B1 & B2 & _).
        rewrite (a_user _ _ I w B1 B2) in Fw. discriminate.
    + injection E as <- <-. apply (InvM_move s _ _ _ c i (MNote2 e r)); auto.
    + injection E as <- <-. apply (InvM_move s _ _ _ c i (MNote3 e r)); auto.
    + destruct (notify_callback e s) as [s1 b] eqn:D. injection E as <- <-.
      apply notify_refs in D. destruct D as (_ & D2 & _).
      apply (InvM_move s _ _ _ c i (MEnd e)); try exact Logic.I; auto. cbn. now rewrite D2.
    + destruct (drop (HMgr c i) e (on_ev e (o_set_cs COMPLETE) s)) as [s1 b] eqn:D. injection E as <- <-.
      apply drop_facts in D. destruct D as (-> & _). apply (InvM_move s _ _ _ c i (MExit e)); try exact Logic.I; auto.
    + injection E as <- <-. apply (InvM_move s _ _ _ c i MIdle); try exact Logic.I; auto.
  - unfold finish in E. destruct (s_mgr s c i) as [| | |e lk| | | | | |] eqn:Mi; try discriminate E. destruct lk.
    + destruct (ctx_alive _ _); injection E as <- <-; [|apply (InvM_same s); auto].
      apply (InvM_move s _ _ _ c i (MNote1 e r)); try exact Logic.I; auto.
    + destruct (_ =? _)%Z; [|discriminate]. injection E as <- <-.
      apply (InvM_move s _ _ _ c i (MNote1 e r)); try exact Logic.I; auto.
  - apply (InvM_same s); auto. unfold usr_step in E.
    destruct (s_usr s t) as [|ws|w r|e code|e r|e r|e r|c] eqn:Ut; try discriminate E.
    + destruct ws as [|w r]; [injection E as <- <-; reflexivity|].
      destruct (listed s w) eqn:L; injection E as <- <-; reflexivity.
    + destruct (drop (HUsr t) w s) as [s1 b] eqn:D. apply drop_facts in D. destruct D as (-> & _).
      destruct (negb (o_fut (s_ev s w))); [injection E as <- <-; reflexivity|].
      destruct (o_ready (s_ev s w)) eqn:R; [|discriminate E].
      destruct (_ =? _)%Z; injection E as <- <-; reflexivity.
    + destruct (_ =? _)%Z; [|destruct (is_error_code code)].
      * injection E as <- <-. reflexivity.
      * injection E as <- <-. reflexivity.
      * destruct (drop (HUsr t) e s) as [s1 b] eqn:D. apply drop_facts in D. destruct D as (-> & _).
        injection E as <- <-. reflexivity.
    + injection E as <- <-. reflexivity.
    + injection E as <- <-. reflexivity.
    + destruct (notify_callback e s) as [s1 b] eqn:N. destruct (drop (HUsr t) e s1) as [s2 b2] eqn:D.
      apply drop_facts in D. destruct D as (-> & _). injection E as <- <-.
      apply notify_refs in N. destruct N as (_ & N2 & _). cbn. exact N2.
    + destruct (all_stopped s c (s_thr s c)); [|discriminate E].
      destruct (break_queues c (s_thr s c) s) as [s1 b] eqn:D. injection E as <- <-.
      apply break_queues_facts in D. destruct D as (_ & _ & _ & _ & _ & A6 & _). exact A6.
Qed.

(** ** Contexts never change their number of threads *)

Definition keeps_ctx (s s' : est) : Prop :=
  s_nctx s <= s_nctx s' /\ forall c, c < s_nctx s -> s_thr s' c = s_thr s c.

Lemma kctx_same s s' : s_nctx s' = s_nctx s -> s_thr s' = s_thr s -> keeps_ctx s s'.
Proof. intros A B. split; [lia|]. intros c _. now rewrite B. Qed.

Lemma notify_ctx e s s1 b : notify_callback e s = (s1, b) -> s_nctx s1 = s_nctx s /\ s_thr s1 = s_thr s.
Proof. intro H. apply notify_facts in H. destruct H as [(-> & _)|(k & _ & _ & -> & _)]; auto. Qed.

Theorem step_ctx s l s' a : estep l s = Some (s', a) -> keeps_ctx s s'.
Proof.
  intros E. unfold estep in E. destruct (s_crash s); [discriminate|].
  destruct l as [ooo| |c ws j|e|t e code|t ws|e|t c|c i|c i|c i r|t].
  - injection E as <- <-. split; [cbn; lia|]. intros c A. cbn. apply upd_ne. lia.
  - injection E as <- <-. apply kctx_same; reflexivity.
  - unfold enqueue in E. destruct (negb (s_listed s c)); [injection E as <- <-; apply kctx_same; reflexivity|].
    destruct (responsible _ ws) as [r|]; [|injection E as <- <-; apply kctx_same; reflexivity].
    destruct (match r with None => _ | Some _ => _ end); [discriminate|].
    destruct (_ <=? _); injection E as <- <-; apply kctx_same; reflexivity.
  - destruct (listed s e) eqn:L; [|injection E as <- <-; apply kctx_same; reflexivity].
    destruct (set_callback e (s_nreg s) s) as [s1 b] eqn:C. injection E as <- <-.
    unfold set_callback in C. destruct (o_fin (s_ev s e)); injection C as <- <-; apply kctx_same; reflexivity.
  - unfold set_status in E. destruct (s_usr s t) eqn:Ut; try discriminate E.
    destruct (listed s e) eqn:L; cbn [negb] in E; [|injection E as <- <-; apply kctx_same; reflexivity].
    destruct (o_kind (s_ev s e)) eqn:K; [|injection E as <- <-; apply kctx_same; reflexivity].
    destruct (o_ready (s_ev s e)) eqn:R; injection E as <- <-; apply kctx_same; reflexivity.
  - destruct (s_usr s t) eqn:Ut; try discriminate E. injection E as <- <-. apply kctx_same; reflexivity.
  - destruct (listed s e) eqn:L; [|injection E as <- <-; apply kctx_same; reflexivity].
    destruct (drop HList e s) as [s1 b] eqn:D. injection E as <- <-.
    apply drop_facts in D. destruct D as (-> & _). apply kctx_same; reflexivity.
  - unfold release_ctx in E. destruct (s_usr s t) eqn:Ut; try discriminate E.
    destruct (negb (s_listed s c)) eqn:L; [injection E as <- <-; apply kctx_same; reflexivity|].
    destruct (some_running _ _ _); injection E as <- <-; apply kctx_same; reflexivity.
  - destruct (i <? s_thr s c) eqn:Hi; [|discriminate]. unfold pop in E.
    destruct (s_mgr s c i) eqn:Mi; try discriminate E.
    destruct (s_queue s c i) as [|e q] eqn:Q; destruct (s_done s c); try discriminate E; injection E as <- <-; apply kctx_same; reflexivity.
  - unfold mgr_step in E.
    destruct (s_mgr s c i) as [|e ws|e w r|e lk|e r|e r|e r|e|e|] eqn:Mi; try discriminate E.
    + destruct ws as [|w r].
      * destruct (o_refs (s_ev s e)); [injection E as <- <-; apply kctx_same; reflexivity|].
        destruct (ctx_alive s c); injection E as <- <-; apply kctx_same; reflexivity.
      * destruct (listed s w) eqn:L; injection E as <- <-; apply kctx_same; reflexivity.
    + destruct (drop (HMgr c i) w s) as [s1 b] eqn:D. apply drop_facts in D. destruct D as (-> & _).
      destruct (negb (o_fut (s_ev s w))); [injection E as <- <-; apply kctx_same; reflexivity|].
      destruct (o_ready (s_ev s w)) eqn:R; [|discriminate E].
      destruct (_ =? _)%Z; injection E as <- <-; apply kctx_same; reflexivity.
    + injection E as <- <-. apply kctx_same; reflexivity.
    + injection E as <- <-. apply kctx_same; reflexivity.
    + destruct (notify_callback e s) as [s1 b] eqn:D. injection E as <- <-. apply notify_ctx in D. apply kctx_same; apply D.
    + destruct (drop (HMgr c i) e (on_ev e (o_set_cs COMPLETE) s)) as [s1 b] eqn:D. injection E as <- <-.
      apply drop_facts in D. destruct D as (-> & _). apply kctx_same; reflexivity.
    + injection E as <- <-. apply kctx_same; reflexivity.
  - unfold finish in E. destruct (s_mgr s c i) as [| | |e lk| | | | | |] eqn:Mi; try discriminate E. destruct lk.
    + destruct (ctx_alive _ _); injection E as <- <-; apply kctx_same; reflexivity.
    + destruct (_ =? _)%Z; [|discriminate]. injection E as <- <-. apply kctx_same; reflexivity.
  - unfold usr_step in E.
    destruct (s_usr s t) as [|ws|w r|e code|e r|e r|e r|c] eqn:Ut; try discriminate E.
    + destruct ws as [|w r]; [injection E as <- <-; apply kctx_same; reflexivity|].
      destruct (listed s w) eqn:L; injection E as <- <-; apply kctx_same; reflexivity.
    + destruct (drop (HUsr t) w s) as [s1 b] eqn:D. apply drop_facts in D. destruct D as (-> & _).
      destruct (negb (o_fut (s_ev s w))); [injection E as <- <-; apply kctx_same; reflexivity|].
      destruct (o_ready (s_ev s w)) eqn:R; [|discriminate E].
      destruct (_ =? _)%Z; injection E as <- <-; apply kctx_same; reflexivity.
    + destruct (_ =? _)%Z; [|destruct (is_error_code code)].
      * injection E as <- <-. apply kctx_same; reflexivity.
      * injection E as <- <-. apply kctx_same; reflexivity.
      * destruct (drop (HUsr t) e s) as [s1 b] eqn:D. apply drop_facts in D. destruct D as (-> & _).
        injection E as <- <-. apply kctx_same; reflexivity.
    + injection E as <- <-. apply kctx_same; reflexivity.
    + injection E as <- <-. apply kctx_same; reflexivity.
    + destruct (notify_callback e s) as [s1 b] eqn:N. destruct (drop (HUsr t) e s1) as [s2 b2] eqn:D.
      apply drop_facts in D. destruct D as (-> & _). injection E as <- <-.
      apply notify_ctx in N. apply kctx_same; apply N.
    + destruct (all_stopped s c (s_thr s c)); [|discriminate E].
      destruct (break_queues c (s_thr s c) s) as [s1 b] eqn:D. injection E as <- <-.
      apply break_queues_facts in D. destruct D as (_ & A2 & A3 & A4 & _). apply kctx_same; cbn; congruence.
Qed.

(** ** Everything together *)

Record Inv (s : est) (h : list obs) : Prop := {
  iA : InvA s h; iF : InvF s h; iU : InvU s h; iW : InvW s h; iH : InvH s h; iC : InvC s h; iM : InvM s h
}.

Lemma Inv0 : Inv est0 [].
Proof.
  constructor.
  - constructor; cbn; try (intros; first [contradiction | lia | discriminate | reflexivity | constructor]; fail).
  - constructor; cbn; try (intros; first [contradiction | lia | discriminate | reflexivity]; fail).
  - constructor; cbn; try (intros; first [contradiction | lia | discriminate | reflexivity]; fail).
  - intro t. exact Logic.I.
  - constructor; cbn; try reflexivity. intros; lia.
  - constructor; cbn.
    + intro e. constructor; cbn; try (intros; first [contradiction | lia | discriminate | reflexivity]; fail).
    + intros c i e [(r & [A|A])|A]; discriminate.
    + intros e r [].
  - intros c i. exact Logic.I.
Qed.

Lemma step_Inv s h l s' a : Inv s h -> estep l s = Some (s', a) -> Inv s' (h ++ a).
Proof.
  intros [A F U W H C M] E. constructor.
  - exact (step_InvA _ _ _ _ _ A E).
  - exact (step_InvF _ _ _ _ _ A F E).
  - exact (step_InvU _ _ _ _ _ A U E).
  - exact (step_InvW _ _ _ _ _ A U W E).
  - exact (step_InvH _ _ _ _ _ A H E).
  - exact (step_InvC _ _ _ _ _ A F U H C E).
  - exact (step_InvM _ _ _ _ _ A U M E).
Qed.

Lemma erun_Inv ls : forall s h s' a, Inv s h -> erun ls s = Some (s', a) -> Inv s' (h ++ a).
Proof.
  induction ls as [|l ls IH]; intros s h s' a V E; cbn in E.
  - injection E as <- <-. now rewrite app_nil_r.
  - destruct (estep l s) as [[s1 b]|] eqn:E1; [|discriminate].
    destruct (erun ls s1) as [[s2 b2]|] eqn:E2; [|discriminate]. injection E as <- <-.
    rewrite app_assoc. apply (IH s1); [|exact E2]. exact (step_Inv _ _ _ _ _ V E1).
Qed.

Lemma schedule_Inv ls s h : schedule ls s h -> Inv s h.
Proof. intro E. exact (erun_Inv ls est0 [] s h Inv0 E). Qed.

Lemma erun_app l1 : forall l2 s s' a,
  erun (l1 ++ l2) s = Some (s', a) <->
  exists s1 a1 a2, erun l1 s = Some (s1, a1) /\ erun l2 s1 = Some (s', a2) /\ a = a1 ++ a2.
Proof.
  induction l1 as [|l l1 IH]; intros l2 s s' a; cbn.
  - split.
    + intro E. exists s, [], a. auto.
    + intros (s1 & a1 & a2 & A & B & ->). injection A as <- <-. exact B.
  - destruct (estep l s) as [[s1 b]|].
    2:{ split; [discriminate|]. intros (s1 & a1 & a2 & A & _). discriminate. }
    split.
    + destruct (erun (l1 ++ l2) s1) as [[s2 b2]|] eqn:E; [|discriminate]. intro H. injection H as <- <-.
      apply IH in E. destruct E as (s3 & a1 & a2 & A & B & ->). rewrite A.
      exists s3, (b ++ a1), a2. split; [reflexivity|]. split; [exact B|apply app_assoc].
    + intros (s2 & a1 & a2 & A & B & ->). destruct (erun l1 s1) as [[s3 b3]|] eqn:E; [|discriminate].
      injection A as <- <-. assert (erun (l1 ++ l2) s1 = Some (s', b3 ++ a2)) as G by (apply IH; eauto 6).
      rewrite G. rewrite app_assoc. reflexivity.
Qed.

(** The step that makes an observation. *)
Lemma run_split ls : forall s s' h1 o h2,
  erun ls s = Some (s', h1 ++ o :: h2) ->
  exists l1 l l2 s1 s2 g1 a1 a2 g2,
    ls = l1 ++ l :: l2 /\ erun l1 s = Some (s1, g1) /\ estep l s1 = Some (s2, a1 ++ o :: a2) /\
    erun l2 s2 = Some (s', g2) /\ h1 = g1 ++ a1 /\ h2 = a2 ++ g2.
Proof.
  induction ls as [|l ls IH]; intros s s' h1 o h2 E; cbn in E.
  - exfalso. injection E as _ E. destruct h1; discriminate.
  - destruct (estep l s) as [[s1 b]|] eqn:E1; [|discriminate].
    destruct (erun ls s1) as [[s2 b2]|] eqn:E2; [|discriminate]. injection E as <- E.
    assert ((exists a2, b = h1 ++ o :: a2 /\ h2 = a2 ++ b2) \/ exists g, h1 = b ++ g /\ b2 = g ++ o :: h2) as [(a2 & -> & ->)|(g & -> & ->)].
    { clear -E. revert h1 E. induction b as [|x b IHb]; intros h1 E; cbn in E.
      - right. exists h1. auto.
      - destruct h1 as [|y h1]; cbn in E; injection E as -> E; [left; exists b; auto|].
        destruct (IHb h1 E) as [(a2 & -> & ->)|(g & -> & ->)]; [left; exists a2|right; exists g]; cbn; auto. }
    + exists [], l, ls, s, s1, [], h1, a2, b2. cbn. auto 10.
    + destruct (IH _ _ _ _ _ E2) as (l1 & l0 & l2 & s3 & s4 & g1 & a1 & a2 & g2 & -> & A & B & C & -> & ->).
      exists (l :: l1), l0, l2, s3, s4, (b ++ g1), a1, a2, g2. cbn. rewrite E1, A.
      repeat (split; [first [reflexivity|assumption]|]). split; [apply app_assoc|reflexivity].
Qed.

Lemma schedule_split ls s h1 o h2 :
  schedule ls s (h1 ++ o :: h2) ->
  exists l s1 s2 g1 a1 a2,
    Inv s1 g1 /\ estep l s1 = Some (s2, a1 ++ o :: a2) /\ h1 = g1 ++ a1 /\ Inv s2 (h1 ++ o :: a2) /\
    (s_n s2 <= s_n s /\ (forall e, e < s_n s2 -> keeps s2 s e) /\ forall c, c < s_nctx s1 -> s_thr s c = s_thr s1 c).
Proof.
  intro E. destruct (run_split _ _ _ _ _ _ E) as (l1 & l & l2 & s1 & s2 & g1 & a1 & a2 & g2 & _ & A & B & C & -> & ->).
  assert (Inv s1 g1) as V by exact (erun_Inv l1 est0 [] _ _ Inv0 A).
  exists l, s1, s2, g1, a1, a2. split; [exact V|]. split; [exact B|]. split; [reflexivity|].
  assert (Inv s2 ((g1 ++ a1) ++ o :: a2)) as V2 by (rewrite <- app_assoc; exact (step_Inv _ _ _ _ _ V B)).
  split; [exact V2|].
  assert (keeps_ctx s2 s) as (_ & Kc).
  { clear -C. revert s2 g2 C. induction l2 as [|l l2 IH]; intros s2 g2 C; cbn in C.
    - injection C as <- <-. now apply kctx_same.
    - destruct (estep l s2) as [[s3 b]|] eqn:E1; [|discriminate].
      destruct (erun l2 s3) as [[s4 b2]|] eqn:E2; [|discriminate]. injection C as <- <-.
      destruct (step_ctx _ _ _ _ E1) as (K1 & K2), (IH _ _ E2) as (K3 & K4). split; [lia|].
      intros c A. rewrite K4 by lia. auto. }
  destruct (step_ctx _ _ _ _ B) as (Kc1 & Kc2).
  assert (s_n s2 <= s_n s /\ forall e, e < s_n s2 -> keeps s2 s e) as (G1 & G2).
  2:{ split; [exact G1|]. split; [exact G2|]. intros c Lc. rewrite Kc by lia. auto. }
  clear -C V2. set (h := (g1 ++ a1) ++ o :: a2) in *. clearbody h. revert s2 h g2 V2 C.
  induction l2 as [|l l2 IH]; intros s2 h g2 V C; cbn in C.
  - injection C as <- <-. split; [lia|]. intros e _. now apply keeps_refl.
  - destruct (estep l s2) as [[s3 b]|] eqn:E1; [|discriminate].
    destruct (erun l2 s3) as [[s4 b2]|] eqn:E2; [|discriminate]. injection C as <- <-.
    destruct (step_keeps _ _ _ _ _ (iA _ _ V) E1) as (K1 & K2).
    destruct (IH s3 (h ++ b) b2 (step_Inv _ _ _ _ _ V E1) E2) as (K3 & K4). split; [lia|].
    intros e A. assert (e < s_n s3) as B by lia. specialize (K2 e A). specialize (K4 e B).
    destruct K2 as (P1 & P2 & P3 & P4), K4 as (Q1 & Q2 & Q3 & Q4). unfold keeps.
    split; [congruence|]. split; [congruence|]. split; [auto|].
    destruct (o_ready (s_ev s2 e)) eqn:R; [|auto]. destruct P4 as [P4|[P4|P4]]; [|auto|discriminate].
    destruct Q4 as [Q4|[Q4|Q4]]; [left; congruence|right; left; congruence|]. rewrite P3 in Q4 by reflexivity. discriminate.
Qed.
