(** * C56: commands come to an end *)

From Coq Require Import ZArith List Bool Arith Lia.
From Verif Require Import EventModel EventSpec EventInv EventMono EventFate EventUser EventWait EventCb EventCb2 EventAll EventEmit EventProps.
Import ListNotations.

(** Steps of the library's own threads, and of nobody else. *)
Definition manager_label (l : elabel) : Prop :=
  match l with LPop _ _ | LMgr _ _ | LFinish _ _ _ => True | _ => False end.

(** ** No context was released *)

Definition InvN (s : est) : Prop :=
  (forall c, s_done s c = false) /\ (forall c i, s_mgr s c i <> MStopped).

Lemma InvN_same s s' : InvN s -> s_done s' = s_done s -> s_mgr s' = s_mgr s -> InvN s'.
Proof. intros (A & B) C D. split; [intro c; rewrite C; apply A|intros c i; rewrite D; apply B]. Qed.

Lemma InvN_move s s' c i m' :
  InvN s -> s_done s' = s_done s -> s_mgr s' = upd2 (s_mgr s) c i m' -> m' <> MStopped -> InvN s'.
Proof.
  intros (A & B) C D N. split; [intro c'; rewrite C; apply A|intros c' i'; rewrite D].
  destruct (upd2_cases (s_mgr s) c i m' c' i') as [(-> & -> & ->)|(_ & ->)]; auto.
Qed.

Lemma notify_done e s s1 b : notify_callback e s = (s1, b) -> s_done s1 = s_done s /\ s_mgr s1 = s_mgr s.
Proof. intro H. apply notify_facts in H. destruct H as [(-> & _)|(k & _ & _ & -> & _)]; auto. Qed.

Lemma step_InvN s l s' a :
  InvN s -> (forall t c, l <> LReleaseCtx t c) -> estep l s = Some (s', a) -> InvN s'.
Proof.
  intros N Nl E. unfold estep in E. destruct (s_crash s); [discriminate|].
  destruct l as [ooo| |c ws j|e|t e code|t ws|e|t c|c i|c i|c i r|t].
  - injection E as <- <-. apply (InvN_same s); auto.
  - injection E as <- <-. apply (InvN_same s); auto.
  - unfold enqueue in E. destruct (negb (s_listed s c)); [injection E as <- <-; exact N|].
    destruct (responsible _ ws) as [r|]; [|injection E as <- <-; apply (InvN_same s); auto].
    destruct (match r with None => _ | Some _ => _ end); [discriminate|].
    destruct (_ <=? _); injection E as <- <-; apply (InvN_same s); auto.
  - destruct (listed s e) eqn:L; [|injection E as <- <-; exact N].
    destruct (set_callback e (s_nreg s) s) as [s1 b] eqn:C. injection E as <- <-.
    unfold set_callback in C. destruct (o_fin (s_ev s e)); injection C as <- <-; apply (InvN_same s); auto.
  - unfold set_status in E. destruct (s_usr s t) eqn:Ut; try discriminate E.
    destruct (listed s e) eqn:L; cbn [negb] in E; [|injection E as <- <-; exact N].
    destruct (o_kind (s_ev s e)) eqn:K; [|injection E as <- <-; apply (InvN_same s); auto].
    destruct (o_ready (s_ev s e)) eqn:R; injection E as <- <-; apply (InvN_same s); auto.
  - destruct (s_usr s t) eqn:Ut; try discriminate E. injection E as <- <-. apply (InvN_same s); auto.
  - destruct (listed s e) eqn:L; [|injection E as <- <-; exact N].
    destruct (drop HList e s) as [s1 b] eqn:D. injection E as <- <-.
    apply drop_facts in D. destruct D as (-> & _). apply (InvN_same s); auto.
  - exfalso. exact (Nl t c eq_refl).
  - destruct (i <? s_thr s c) eqn:Hi; [|discriminate]. unfold pop in E.
    destruct (s_mgr s c i) eqn:Mi; try discriminate E. rewrite (proj1 N c) in E.
    destruct (s_queue s c i) as [|e q] eqn:Q; try discriminate E; injection E as <- <-.
    eapply (InvN_move s _ c i); try reflexivity; [exact N|discriminate].
  - unfold mgr_step in E.
    destruct (s_mgr s c i) as [|e ws|e w r|e lk|e r|e r|e r|e|e|] eqn:Mi; try discriminate E.
    + destruct ws as [|w r].
      * destruct (o_refs (s_ev s e)); [injection E as <- <-; apply (InvN_same s); auto|].
        destruct (ctx_alive s c); injection E as <- <-; (eapply (InvN_move s _ c i); try reflexivity; [exact N|discriminate]).
      * destruct (listed s w) eqn:L; injection E as <- <-; (eapply (InvN_move s _ c i); try reflexivity; [exact N|discriminate]).
    + destruct (drop (HMgr c i) w s) as [s1 b] eqn:D. apply drop_facts in D. destruct D as (-> & _).
      destruct (negb (o_fut (s_ev s w))); [injection E as <- <-; (eapply (InvN_move s _ c i); try reflexivity; [exact N|discriminate])|].
      destruct (o_ready (s_ev s w)) eqn:R; [|discriminate E].
      destruct (_ =? _)%Z; injection E as <- <-; (eapply (InvN_move s _ c i); try reflexivity; [exact N|discriminate]).
    + injection E as <- <-. eapply (InvN_move s _ c i); try reflexivity; [exact N|discriminate].
    + injection E as <- <-. eapply (InvN_move s _ c i); try reflexivity; [exact N|discriminate].
    + destruct (notify_callback e s) as [s1 b] eqn:D. injection E as <- <-. apply notify_done in D. destruct D as (D1 & D2).
      apply (InvN_move s _ c i (MEnd e)); [exact N|exact D1|cbn; now rewrite D2|discriminate].
    + destruct (drop (HMgr c i) e (on_ev e (o_set_cs COMPLETE) s)) as [s1 b] eqn:D. injection E as <- <-.
      apply drop_facts in D. destruct D as (-> & _). eapply (InvN_move s _ c i); try reflexivity; [exact N|discriminate].
    + injection E as <- <-. eapply (InvN_move s _ c i); try reflexivity; [exact N|discriminate].
  - unfold finish in E. destruct (s_mgr s c i) as [| | |e lk| | | | | |] eqn:Mi; try discriminate E. destruct lk.
    + destruct (ctx_alive _ _); injection E as <- <-; [|apply (InvN_same s); auto].
      eapply (InvN_move s _ c i); try reflexivity; [exact N|discriminate].
    + destruct (_ =? _)%Z; [|discriminate]. injection E as <- <-. eapply (InvN_move s _ c i); try reflexivity; [exact N|discriminate].
  - unfold usr_step in E.
    destruct (s_usr s t) as [|ws|w r|e code|e r|e r|e r|c] eqn:Ut; try discriminate E.
    + destruct ws as [|w r]; [injection E as <- <-; apply (InvN_same s); auto|].
      destruct (listed s w) eqn:L; injection E as <- <-; apply (InvN_same s); auto.
    + destruct (drop (HUsr t) w s) as [s1 b] eqn:D. apply drop_facts in D. destruct D as (-> & _).
      destruct (negb (o_fut (s_ev s w))); [injection E as <- <-; apply (InvN_same s); auto|].
      destruct (o_ready (s_ev s w)) eqn:R; [|discriminate E].
      destruct (_ =? _)%Z; injection E as <- <-; apply (InvN_same s); auto.
    + destruct (_ =? _)%Z; [|destruct (is_error_code code)].
      * injection E as <- <-. apply (InvN_same s); auto.
      * injection E as <- <-. apply (InvN_same s); auto.
      * destruct (drop (HUsr t) e s) as [s1 b] eqn:D. apply drop_facts in D. destruct D as (-> & _).
        injection E as <- <-. apply (InvN_same s); auto.
    + injection E as <- <-. apply (InvN_same s); auto.
    + injection E as <- <-. apply (InvN_same s); auto.
    + destruct (notify_callback e s) as [s1 b] eqn:Nc. destruct (drop (HUsr t) e s1) as [s2 b2] eqn:D.
      apply drop_facts in D. destruct D as (-> & _). injection E as <- <-.
      apply notify_done in Nc. apply (InvN_same s); [exact N|apply Nc|apply Nc].
    + destruct (all_stopped s c (s_thr s c)); [|discriminate E].
      destruct (break_queues c (s_thr s c) s) as [s1 b] eqn:D. injection E as <- <-.
      apply break_queues_facts in D. destruct D as (A1 & A2 & A3 & A4 & A5 & A6 & A7 & _).
      apply (InvN_same s); [exact N|exact A5|exact A6].
Qed.

Lemma run_InvN ls : forall s s' a,
  InvN s -> (forall t c, ~ In (LReleaseCtx t c) ls) -> erun ls s = Some (s', a) -> InvN s'.
Proof.
  induction ls as [|l ls IH]; intros s s' a N Nl E; cbn in E.
  - now injection E as <- <-.
  - destruct (estep l s) as [[s1 b]|] eqn:E1; [|discriminate].
    destruct (erun ls s1) as [[s2 b2]|] eqn:E2; [|discriminate]. injection E as <- <-.
    apply (IH s1 s2 b2); [|intros t c A; apply (Nl t c); now right|exact E2].
    apply (step_InvN s l s1 b); auto. intros t c ->. apply (Nl t c). now left.
Qed.

(** ** A manager can move while a command is pending *)

Lemma least_pending (P : nat -> Prop) (dec : forall n, {P n} + {~ P n}) n :
  P n -> exists m, P m /\ forall k, k < m -> ~ P k.
Proof.
  induction n as [n IH] using (well_founded_induction lt_wf). intro Pn.
  destruct (in_dec Nat.eq_dec 0 []) as [[]|_].
  assert ({exists k, k < n /\ P k} + {forall k, k < n -> ~ P k}) as [(k & A & B)|A].
  { clear -dec. induction n as [|n [IH|IH]].
    - right. intros k A. lia.
    - left. destruct IH as (k & A & B). exists k. split; [lia|exact B].
    - destruct (dec n) as [D|D]; [left; exists n; split; [lia|exact D]|].
      right. intros k A. destruct (Nat.eq_dec k n) as [->|]; [exact D|apply IH; lia]. }
  - exact (IH k A B).
  - exists n. auto.
Qed.

Definition pending (s : est) (e : nat) : Prop :=
  e < s_n s /\ o_kind (s_ev s e) <> KUser /\ o_fut (s_ev s e) = true /\ o_ready (s_ev s e) = false.

Lemma pending_dec s e : {pending s e} + {~ pending s e}.
Proof.
  unfold pending. destruct (le_lt_dec (s_n s) e); [right; intros (A & _); lia|].
  destruct (o_kind (s_ev s e)); [right; tauto|]. destruct (o_fut (s_ev s e)); [|right; intros (_ & _ & A & _); discriminate].
  destruct (o_ready (s_ev s e)); [right; intros (_ & _ & _ & A); discriminate|left]. repeat split; auto; discriminate.
Qed.

Lemma progress s h e :
  Inv s h -> InvN s -> s_crash s = false ->
  (forall x c ws, accepted h x c ws -> forall w, In w ws -> w < x) ->
  (forall x, In (OUser x) h -> exists code, In (OSet x code) h) ->
  pending s e -> exists l s' a, manager_label l /\ estep l s = Some (s', a).
Proof.
  intros V N Cr Hw Hu Pe. destruct (least_pending (pending s) (pending_dec s) e Pe) as (m & Pm & Lm). clear e Pe.
  pose proof (iA _ _ V) as I. destruct Pm as (P1 & P2 & P3 & P4).
  destruct (o_kind (s_ev s m)) as [|c ws] eqn:K; [congruence|].
  destruct (a_loc _ _ I m c ws P1 K P3 P4) as (i & Hi & [Q|Q]).
  - (* queued: the thread is idle *)
    assert (s_mgr s c i = MIdle) as Mi.
    { destruct (mev (s_mgr s c i)) as [x|] eqn:Me.
      - exfalso. destruct (a_mgr _ _ I _ _ _ Me) as (M1 & (wx & M2) & M3 & M4 & _).
        apply (Lm x); [exact (a_order _ _ I _ _ _ _ Me Q)|]. unfold pending. rewrite M2. repeat split; auto; discriminate.
      - destruct (s_mgr s c i) eqn:Mi; try discriminate Me; [reflexivity|]. exfalso. exact (proj2 N c i Mi). }
    destruct (s_queue s c i) as [|x q] eqn:Qc; [destruct Q|].
    apply Nat.ltb_lt in Hi. eexists (LPop c i), _, _. split; [exact Logic.I|].
    unfold estep. rewrite Cr, Hi. unfold pop. rewrite Mi, Qc, (proj1 N c). reflexivity.
  - destruct (s_mgr s c i) as [|x wl|x w r|x lk|x r|x r|x r|x|x|] eqn:Mi; cbn in Q; try discriminate Q; injection Q as ->.
    + eexists (LMgr c i). unfold estep. rewrite Cr. unfold mgr_step. rewrite Mi. destruct wl as [|w r].
      * destruct (o_refs (s_ev s m)); [eexists _, _; split; [exact Logic.I|reflexivity]|].
        destruct (ctx_alive s c); eexists _, _; (split; [exact Logic.I|reflexivity]).
      * destruct (listed s w); eexists _, _; (split; [exact Logic.I|reflexivity]).
    + (* waiting on w *)
      pose proof (a_phase _ _ I c i) as Ph. rewrite Mi in Ph. destruct Ph as ((_ & c0 & ws0 & pre & Ph1 & Ph2 & _) & Ph3).
      assert (w < m) as Lw.
      { apply (Hw m c0 ws0); [apply (a_enq _ _ I); auto|]. rewrite Ph2, in_app_iff. right. now left. }
      assert (o_fut (s_ev s w) = false \/ o_ready (s_ev s w) = true) as St.
      { destruct (o_fut (s_ev s w)) eqn:Fw; [|auto]. right. destruct (o_ready (s_ev s w)) eqn:Rw; [reflexivity|]. exfalso.
        destruct (o_kind (s_ev s w)) eqn:Kw.
        - destruct (Hu w) as (code & A); [apply (u_user _ _ (iU _ _ V)); auto|].
          assert (In (OSet w code) (usets h w)) as B by (apply filter_In; split; [exact A|cbn; apply Nat.eqb_refl]).
          destruct (u_life _ _ (iU _ _ V) w Ph3 Kw) as [(t & C)|C].
          + destruct (a_usr _ _ I t w C) as (_ & _ & D). congruence.
          + destruct C as [(C & _)|[(cd & _ & _ & C & _)|(cd & t & _ & _ & C & _)]]; [|congruence|congruence].
            rewrite C in B. destruct B.
        - apply (Lm w Lw). unfold pending. rewrite Kw. repeat split; auto; discriminate. }
      eexists (LMgr c i). unfold estep. rewrite Cr. unfold mgr_step. rewrite Mi.
      destruct (drop (HMgr c i) w s) as [s1 b].
      destruct (o_fut (s_ev s w)); cbn [negb]; [|eexists _, _; split; [exact Logic.I|reflexivity]].
      destruct St as [St|St]; [discriminate|]. rewrite St.
      destruct (_ =? _)%Z; eexists _, _; (split; [exact Logic.I|reflexivity]).
    + (* running *)
      eexists (LFinish c i NO_ERROR). unfold estep. rewrite Cr. unfold finish. rewrite Mi. destruct lk.
      * destruct (ctx_alive _ c); eexists _, _; (split; [exact Logic.I|reflexivity]).
      * eexists _, _; split; [exact Logic.I|reflexivity].
    + eexists (LMgr c i), _, _. split; [exact Logic.I|]. unfold estep. rewrite Cr. unfold mgr_step. rewrite Mi. reflexivity.
    + eexists (LMgr c i), _, _. split; [exact Logic.I|]. unfold estep. rewrite Cr. unfold mgr_step. rewrite Mi. reflexivity.
    + eexists (LMgr c i). unfold estep. rewrite Cr. unfold mgr_step. rewrite Mi.
      destruct (notify_callback m s) as [s1 b]. eexists _, _. split; [exact Logic.I|reflexivity].
    + eexists (LMgr c i). unfold estep. rewrite Cr. unfold mgr_step. rewrite Mi.
      destruct (drop (HMgr c i) m (on_ev m (o_set_cs COMPLETE) s)) as [s1 b]. eexists _, _. split; [exact Logic.I|reflexivity].
    + eexists (LMgr c i), _, _. split; [exact Logic.I|]. unfold estep. rewrite Cr. unfold mgr_step. rewrite Mi. reflexivity.
Qed.

(** ** The work left *)

Fixpoint sumto (f : nat -> nat) (n : nat) : nat :=
  match n with O => 0 | S k => f k + sumto f k end.

Lemma sumto_le f g n : (forall i, i < n -> f i <= g i) -> sumto f n <= sumto g n.
Proof.
  induction n as [|n IH]; intro H; cbn; [lia|]. pose proof (H n ltac:(lia)). assert (sumto f n <= sumto g n) by (apply IH; intros; apply H; lia). lia.
Qed.
Lemma sumto_lt f g n j : (forall i, i < n -> f i <= g i) -> j < n -> f j < g j -> sumto f n < sumto g n.
Proof.
  induction n as [|n IH]; intros H L D; cbn; [lia|].
  destruct (Nat.eq_dec j n) as [->|N].
  - assert (sumto f n <= sumto g n) by (apply sumto_le; intros; apply H; lia). lia.
  - assert (sumto f n < sumto g n) by (apply IH; [intros; apply H; lia|lia|exact D]). pose proof (H n ltac:(lia)). lia.
Qed.
Lemma sumto_eq f g n : (forall i, i < n -> f i = g i) -> sumto f n = sumto g n.
Proof.
  induction n as [|n IH]; intro H; cbn; [reflexivity|]. rewrite (H n) by lia. rewrite IH; [reflexivity|]. intros; apply H; lia.
Qed.

Definition pot (m : mstate) : nat :=
  match m with
  | MStopped => 0
  | MIdle => 1
  | MExit _ => 2
  | MEnd _ => 3
  | MNote3 _ _ => 4
  | MNote2 _ _ => 5
  | MNote1 _ _ => 6
  | MRun _ _ => 7
  | MWait _ ws => 8 + (length ws + length ws)
  | MWaitOn _ _ r => 9 + (length r + length r)
  end.

Definition cost (s : est) (e : nat) : nat :=
  match o_kind (s_ev s e) with KCmd _ ws => 10 + (length ws + length ws) | KUser => 10 end.

Definition load (s : est) (c i : nat) : nat := pot (s_mgr s c i) + list_sum (map (cost s) (s_queue s c i)).

Definition work (s : est) : nat :=
  (if s_crash s then 0 else 1) + sumto (fun c => sumto (load s c) (s_thr s c)) (s_nctx s).

Lemma work_down s s' c i :
  s_nctx s' = s_nctx s -> s_thr s' = s_thr s -> s_crash s = false -> s_crash s' = false ->
  c < s_nctx s -> i < s_thr s c ->
  (forall c' i', c' <> c \/ i' <> i -> load s' c' i' = load s c' i') ->
  load s' c i < load s c i -> work s' < work s.
Proof.
  intros A B C D Lc Li Ho Hd. unfold work. rewrite A, B, C, D.
  apply Nat.add_lt_mono_l. apply (sumto_lt _ _ _ c); [|exact Lc|].
  - intros c' L. apply sumto_le. intros i' L'. destruct (Nat.eq_dec c' c) as [->|N]; [|rewrite Ho by auto; lia].
    destruct (Nat.eq_dec i' i) as [->|N]; [lia|rewrite Ho by auto; lia].
  - apply (sumto_lt _ _ _ i); [|exact Li|exact Hd]. intros i' L'. destruct (Nat.eq_dec i' i) as [->|N]; [lia|rewrite Ho by auto; lia].
Qed.

Lemma work_crash s : s_crash s = false -> work (crash s) < work s.
Proof.
  intro C. unfold work. cbn [crash s_crash s_thr s_nctx]. rewrite C.
  assert (sumto (fun c => sumto (load (crash s) c) (s_thr s c)) (s_nctx s) = sumto (fun c => sumto (load s c) (s_thr s c)) (s_nctx s)) as ->; [|lia].
  apply sumto_eq. intros c _. apply sumto_eq. intros i _. reflexivity.
Qed.

Lemma cost_same s s' e : o_kind (s_ev s' e) = o_kind (s_ev s e) -> cost s' e = cost s e.
Proof. intro H. unfold cost. now rewrite H. Qed.

Lemma load_same s h s' c i :
  InvA s h -> (forall e, e < s_n s -> o_kind (s_ev s' e) = o_kind (s_ev s e)) ->
  forall m q, (forall x, In x q -> In x (s_queue s c i)) -> s_mgr s' c i = m -> s_queue s' c i = q ->
  load s' c i = pot m + list_sum (map (cost s) q).
Proof.
  intros I Hk m q Hq A B. unfold load. rewrite A, B. f_equal. f_equal. apply map_ext_in. intros e C. apply cost_same, Hk.
  apply Hq in C. destruct (a_queue _ _ I _ _ _ C) as (D & _). exact D.
Qed.

(** One step of a manager, with the same queues. *)
Lemma work_mgr s h s' c i m' :
  InvA s h -> (s_n s <= s_n s' /\ forall e, e < s_n s -> keeps s s' e) -> s_crash s = false -> s_crash s' = false ->
  s_nctx s' = s_nctx s -> s_thr s' = s_thr s ->
  s_mgr s' = upd2 (s_mgr s) c i m' -> s_queue s' = s_queue s ->
  i < s_thr s c -> pot m' < pot (s_mgr s c i) -> work s' < work s.
Proof.
  intros I (_ & Kk) C1 C2 Hn Ht Hm Hq Li Hp.
  assert (forall e, e < s_n s -> o_kind (s_ev s' e) = o_kind (s_ev s e)) as Hk by (intros e L; apply (Kk e L)).
  assert (c < s_nctx s) as Lc.
  { destruct (le_lt_dec (s_nctx s) c) as [L|L]; [|exact L]. destruct (a_ctx _ _ I c L) as (A & _). lia. }
  apply (work_down s s' c i); auto.
  - intros c' i' N. rewrite (load_same s h s' c' i' I Hk (s_mgr s c' i') (s_queue s c' i')); auto.
    + rewrite Hm. now apply upd2_ne.
    + now rewrite Hq.
  - rewrite (load_same s h s' c i I Hk m' (s_queue s c i)); auto.
    + unfold load. lia.
    + rewrite Hm. apply upd2_eq.
    + now rewrite Hq.
Qed.

Theorem work_decreases s h l s' a :
  Inv s h -> manager_label l -> estep l s = Some (s', a) -> work s' < work s.
Proof.
  intros V Ml E. pose proof (iA _ _ V) as I. pose proof (step_keeps _ _ _ _ _ I E) as K. pose proof E as E0.
  unfold estep in E. destruct (s_crash s) eqn:Cr; [discriminate|].
  destruct l as [ooo| |c ws j|e|t e code|t ws|e|t c|c i|c i|c i r|t]; try destruct Ml.
  - destruct (i <? s_thr s c) eqn:Hi; [|discriminate]. apply Nat.ltb_lt in Hi. unfold pop in E.
    destruct (s_mgr s c i) eqn:Mi; try discriminate E.
    assert (c < s_nctx s) as Lc.
    { destruct (le_lt_dec (s_nctx s) c) as [L|L]; [|exact L]. destruct (a_ctx _ _ I c L) as (A & _). lia. }
    destruct K as (_ & Kk).
    assert (forall e, e < s_n s -> o_kind (s_ev s' e) = o_kind (s_ev s e)) as Hk by (intros e L; apply (Kk e L)).
    destruct (s_queue s c i) as [|e q] eqn:Q; destruct (s_done s c) eqn:Dn; try discriminate E; injection E as <- <-.
    + apply (work_mgr s h _ c i MStopped); try (split; [cbn; lia|exact Kk]); auto. rewrite Mi. cbn. lia.
    + apply (work_down s _ c i); auto.
      * intros c' i' N. rewrite (load_same s h _ c' i' I Hk (s_mgr s c' i') (s_queue s c' i')); auto; cbn; rewrite upd2_ne; auto.
      * rewrite (load_same s h _ c i I Hk MStopped q); auto.
        -- unfold load. rewrite Mi, Q. cbn [map list_sum fold_right pot]. unfold list_sum. lia.
        -- rewrite Q. intros x A. now right.
        -- cbn. apply upd2_eq.
        -- cbn. apply upd2_eq.
    + assert (In e (s_queue s c i)) as Qe by (rewrite Q; now left).
      destruct (a_queue _ _ I c i e Qe) as (_ & (wl & Ke) & _). rewrite Ke in *.
      apply (work_down s _ c i); auto.
      * intros c' i' N. rewrite (load_same s h _ c' i' I Hk (s_mgr s c' i') (s_queue s c' i')); auto; cbn; rewrite upd2_ne; auto.
      * rewrite (load_same s h _ c i I Hk (MWait e wl) q); auto.
        -- unfold load. rewrite Mi, Q. cbn [map list_sum fold_right pot]. assert (cost s e = 10 + (length wl + length wl)) by (unfold cost; now rewrite Ke). unfold list_sum. lia.
        -- rewrite Q. intros x A. now right.
        -- cbn. apply upd2_eq.
        -- cbn. apply upd2_eq.
  - unfold mgr_step in E.
    assert (forall x, mev (s_mgr s c i) = Some x -> i < s_thr s c) as Hth by (intros x A; apply (a_mgr _ _ I c i x A)).
    destruct (s_mgr s c i) as [|e ws|e w r|e lk|e r|e r|e r|e|e|] eqn:Mi; try discriminate E;
      (assert (i < s_thr s c) as Li by (apply (Hth e); reflexivity)).
    + destruct ws as [|w r].
      * destruct (o_refs (s_ev s e)); [injection E as <- <-; now apply work_crash|].
        destruct (ctx_alive s c); injection E as <- <-.
        -- apply (work_mgr s h _ c i (MRun e true)); auto. rewrite Mi. cbn. lia.
        -- apply (work_mgr s h _ c i (MRun e false)); auto. rewrite Mi. cbn. lia.
      * destruct (listed s w) eqn:L; injection E as <- <-.
        -- apply (work_mgr s h _ c i (MWaitOn e w r)); auto. rewrite Mi. cbn. lia.
        -- apply (work_mgr s h _ c i (MExit e)); auto. rewrite Mi. cbn. lia.
    + destruct (drop (HMgr c i) w s) as [s1 b] eqn:D. apply drop_facts in D. destruct D as (-> & _).
      destruct (negb (o_fut (s_ev s w))).
      { injection E as <- <-. apply (work_mgr s h _ c i (MWait e r)); auto. rewrite Mi. cbn. lia. }
      destruct (o_ready (s_ev s w)) eqn:R; [|discriminate E].
      destruct (_ =? _)%Z; injection E as <- <-.
      * apply (work_mgr s h _ c i (MWait e r)); auto. rewrite Mi. cbn. lia.
      * apply (work_mgr s h _ c i (MExit e)); auto. rewrite Mi. cbn. lia.
    + injection E as <- <-. apply (work_mgr s h _ c i (MNote2 e r)); auto. rewrite Mi. cbn. lia.
    + injection E as <- <-. apply (work_mgr s h _ c i (MNote3 e r)); auto. rewrite Mi. cbn. lia.
    + destruct (notify_callback e s) as [s1 b] eqn:D. injection E as <- <-.
      pose proof (notify_refs _ _ _ _ D) as (D1 & D2 & D3 & D4 & _). pose proof (notify_ctx _ _ _ _ D) as (D5 & D6).
      assert (s_crash s1 = false) as D7.
      { apply notify_facts in D. destruct D as [(-> & _)|(k & _ & _ & -> & _)]; exact Cr. }
      apply (work_mgr s h _ c i (MEnd e)); cbn; auto; [now rewrite D2|]. rewrite Mi. cbn. lia.
    + destruct (drop (HMgr c i) e (on_ev e (o_set_cs COMPLETE) s)) as [s1 b] eqn:D. injection E as <- <-.
      apply drop_facts in D. destruct D as (-> & _). apply (work_mgr s h _ c i (MExit e)); auto. rewrite Mi. cbn. lia.
    + injection E as <- <-. apply (work_mgr s h _ c i MIdle); auto. rewrite Mi. cbn. lia.
  - unfold finish in E.
    assert (forall x, mev (s_mgr s c i) = Some x -> i < s_thr s c) as Hth by (intros x A; apply (a_mgr _ _ I c i x A)).
    destruct (s_mgr s c i) as [| | |e lk| | | | | |] eqn:Mi; try discriminate E.
    assert (i < s_thr s c) as Li by (apply (Hth e); reflexivity). destruct lk.
    + destruct (ctx_alive _ _); injection E as <- <-; [|now apply work_crash].
      apply (work_mgr s h _ c i (MNote1 e r)); auto. rewrite Mi. cbn. lia.
    + destruct (_ =? _)%Z; [|discriminate]. injection E as <- <-.
      apply (work_mgr s h _ c i (MNote1 e r)); auto. rewrite Mi. cbn. lia.
Qed.

Lemma break_all_crash es : forall s, s_crash (break_all es s) = s_crash s.
Proof. induction es as [|e es IH]; intro s; cbn; [reflexivity|now rewrite IH]. Qed.
Lemma break_queues_crash c n : forall s s1 b, break_queues c n s = (s1, b) -> s_crash s1 = s_crash s.
Proof.
  induction n as [|n IH]; intros s s1 b E; cbn in E; [now injection E as <- <-|].
  destruct (break_queues c n _) as [s2 b2] eqn:D. injection E as <- <-. rewrite (IH _ _ _ D). cbn. apply break_all_crash.
Qed.

(** A crash is observed. *)
Lemma step_crash s l s' a : estep l s = Some (s', a) -> s_crash s = false /\ (s_crash s' = true -> In OCrash a).
Proof.
  intro E. unfold estep in E. destruct (s_crash s) eqn:Cr; [discriminate|]. split; [reflexivity|].
  assert (forall x, s_crash x = s_crash s -> s_crash x = true -> In OCrash a) as Same by (intros x A B; congruence).
  destruct l as [ooo| |c ws j|e|t e code|t ws|e|t c|c i|c i|c i r|t].
  - injection E as <- <-. now apply Same.
  - injection E as <- <-. now apply Same.
  - unfold enqueue in E. destruct (negb (s_listed s c)); [injection E as <- <-; now apply Same|].
    destruct (responsible _ ws) as [r|]; [|injection E as <- <-; now apply Same].
    destruct (match r with None => _ | Some _ => _ end); [discriminate|].
    destruct (_ <=? _); injection E as <- <-; [intros _; now left|now apply Same].
  - destruct (listed s e) eqn:L; [|injection E as <- <-; now apply Same].
    destruct (set_callback e (s_nreg s) s) as [s1 b] eqn:C. injection E as <- <-.
    unfold set_callback in C. destruct (o_fin (s_ev s e)); injection C as <- <-; now apply Same.
  - unfold set_status in E. destruct (s_usr s t) eqn:Ut; try discriminate E.
    destruct (listed s e) eqn:L; cbn [negb] in E; [|injection E as <- <-; now apply Same].
    destruct (o_kind (s_ev s e)) eqn:K; [|injection E as <- <-; intros _; now left].
    destruct (o_ready (s_ev s e)) eqn:R; injection E as <- <-; now apply Same.
  - destruct (s_usr s t) eqn:Ut; try discriminate E. injection E as <- <-. now apply Same.
  - destruct (listed s e) eqn:L; [|injection E as <- <-; now apply Same].
    destruct (drop HList e s) as [s1 b] eqn:D. injection E as <- <-.
    apply drop_facts in D. destruct D as (-> & _). now apply Same.
  - unfold release_ctx in E. destruct (s_usr s t) eqn:Ut; try discriminate E.
    destruct (negb (s_listed s c)); [injection E as <- <-; now apply Same|].
    destruct (some_running s c (s_thr s c)); injection E as <- <-; now apply Same.
  - destruct (i <? s_thr s c) eqn:Hi; [|discriminate]. unfold pop in E.
    destruct (s_mgr s c i) eqn:Mi; try discriminate E.
    destruct (s_queue s c i) as [|e q] eqn:Q; destruct (s_done s c); try discriminate E; injection E as <- <-; now apply Same.
  - unfold mgr_step in E.
    destruct (s_mgr s c i) as [|e ws|e w r|e lk|e r|e r|e r|e|e|] eqn:Mi; try discriminate E.
    + destruct ws as [|w r].
      * destruct (o_refs (s_ev s e)); [injection E as <- <-; intros _; now left|].
        destruct (ctx_alive s c); injection E as <- <-; now apply Same.
      * destruct (listed s w) eqn:L; injection E as <- <-; now apply Same.
    + destruct (drop (HMgr c i) w s) as [s1 b] eqn:D. apply drop_facts in D. destruct D as (-> & _).
      destruct (negb (o_fut (s_ev s w))); [injection E as <- <-; now apply Same|].
      destruct (o_ready (s_ev s w)) eqn:R; [|discriminate E].
      destruct (_ =? _)%Z; injection E as <- <-; now apply Same.
    + injection E as <- <-. now apply Same.
    + injection E as <- <-. now apply Same.
    + destruct (notify_callback e s) as [s1 b] eqn:D. injection E as <- <-.
      apply notify_facts in D. destruct D as [(-> & _)|(k & _ & _ & -> & _)]; now apply Same.
    + destruct (drop (HMgr c i) e (on_ev e (o_set_cs COMPLETE) s)) as [s1 b] eqn:D. injection E as <- <-.
      apply drop_facts in D. destruct D as (-> & _). now apply Same.
    + injection E as <- <-. now apply Same.
  - unfold finish in E. destruct (s_mgr s c i) as [| | |e lk| | | | | |] eqn:Mi; try discriminate E. destruct lk.
    + destruct (ctx_alive _ _); injection E as <- <-; [now apply Same|intros _; now left].
    + destruct (_ =? _)%Z; [|discriminate]. injection E as <- <-. now apply Same.
  - unfold usr_step in E.
    destruct (s_usr s t) as [|ws|w r|e code|e r|e r|e r|c] eqn:Ut; try discriminate E.
    + destruct ws as [|w r]; [injection E as <- <-; now apply Same|].
      destruct (listed s w) eqn:L; injection E as <- <-; now apply Same.
    + destruct (drop (HUsr t) w s) as [s1 b] eqn:D. apply drop_facts in D. destruct D as (-> & _).
      destruct (negb (o_fut (s_ev s w))); [injection E as <- <-; now apply Same|].
      destruct (o_ready (s_ev s w)) eqn:R; [|discriminate E].
      destruct (_ =? _)%Z; injection E as <- <-; now apply Same.
    + destruct (_ =? _)%Z; [|destruct (is_error_code code)].
      * injection E as <- <-. now apply Same.
      * injection E as <- <-. now apply Same.
      * destruct (drop (HUsr t) e s) as [s1 b] eqn:D. apply drop_facts in D. destruct D as (-> & _).
        injection E as <- <-. now apply Same.
    + injection E as <- <-. now apply Same.
    + injection E as <- <-. now apply Same.
    + destruct (notify_callback e s) as [s1 b] eqn:Nc. destruct (drop (HUsr t) e s1) as [s2 b2] eqn:D.
      apply drop_facts in D. destruct D as (-> & _). injection E as <- <-.
      apply notify_facts in Nc. destruct Nc as [(-> & _)|(k & _ & _ & -> & _)]; now apply Same.
    + destruct (all_stopped s c (s_thr s c)); [|discriminate E].
      destruct (break_queues c (s_thr s c) s) as [s1 b] eqn:D. injection E as <- <-.
      assert (s_crash s1 = s_crash s) as A by (exact (break_queues_crash _ _ _ _ _ D)).
      intro B. apply (Same s1 A) in B. exact B.
Qed.

Lemma run_crash ls : forall s s' a, erun ls s = Some (s', a) -> s_crash s = false -> s_crash s' = true -> In OCrash a.
Proof.
  induction ls as [|l ls IH]; intros s s' a E C C'; cbn in E.
  - injection E as <- <-. congruence.
  - destruct (estep l s) as [[s1 b]|] eqn:E1; [|discriminate].
    destruct (erun ls s1) as [[s2 b2]|] eqn:E2; [|discriminate]. injection E as <- <-.
    apply in_app_iff. destruct (s_crash s1) eqn:C1.
    + left. exact (proj2 (step_crash _ _ _ _ E1) C1).
    + right. exact (IH _ _ _ E2 C1 C').
Qed.

(** ** C56 *)

(** The library's threads cannot run for ever on their own: after any history,
    the number of steps they can take without another API call is bounded. *)
Theorem C56_bounded :
  forall ls s h, schedule ls s h ->
    exists n, forall ls' s' a, Forall manager_label ls' -> erun ls' s = Some (s', a) -> length ls' <= n.
Proof.
  intros ls s h R. exists (work s). intros ls' s' a F E. pose proof (schedule_Inv _ _ _ R) as V. clear R.
  revert s h s' a V E. induction F as [|l ls' Ml F IH]; intros s h s' a V E; cbn in E; cbn [length]; [lia|].
  destruct (estep l s) as [[s1 b]|] eqn:E1; [|discriminate].
  destruct (erun ls' s1) as [[s2 b2]|] eqn:E2; [|discriminate].
  pose proof (work_decreases _ _ _ _ _ V Ml E1). pose proof (IH s1 (h ++ b) s2 b2 (step_Inv _ _ _ _ _ V E1) E2). lia.
Qed.

(** No deadlock: when every user event has been set, wait lists name earlier
    events only, no context was released and the process is alive, then some
    manager thread can take a step as long as a command is not over. *)
Theorem C56_no_deadlock :
  forall ls s h e c ws,
    schedule ls s h -> (forall t c', ~ In (LReleaseCtx t c') ls) -> ~ In OCrash h ->
    (forall x c' ws', accepted h x c' ws' -> forall w, In w ws' -> w < x) ->
    (forall x, In (OUser x) h -> exists code, In (OSet x code) h) ->
    accepted h e c ws -> ~ over h e ->
    exists l s' a, manager_label l /\ estep l s = Some (s', a).
Proof.
  intros ls s h e c ws R Nl Nc Hw Hu A No. pose proof (schedule_Inv _ _ _ R) as V.
  assert (InvN s) as N.
  { apply (run_InvN ls est0 s h); [|exact Nl|exact R]. split; [reflexivity|discriminate]. }
  assert (s_crash s = false) as Cr.
  { destruct (s_crash s) eqn:Cr; [|reflexivity]. exfalso. apply Nc. exact (run_crash _ _ _ _ R eq_refl Cr). }
  apply (progress s h e V N Cr Hw Hu). apply (a_enq _ _ (iA _ _ V)) in A. destruct A as (A1 & A2 & A3).
  unfold pending. rewrite A2. split; [exact A1|]. split; [discriminate|]. split; [exact A3|].
  destruct (o_ready (s_ev s e)) eqn:Re; [|reflexivity]. exfalso. apply No.
  exact (outcome_over s h e (a_over _ _ (iA _ _ V) e c ws A1 A2 A3 Re)).
Qed.

(** Hence whenever the library's threads have come to rest, every command that
    was accepted is over. *)
Theorem C56_rest_all_over :
  forall ls s h,
    schedule ls s h -> (forall t c, ~ In (LReleaseCtx t c) ls) -> ~ In OCrash h ->
    (forall x c ws, accepted h x c ws -> forall w, In w ws -> w < x) ->
    (forall x, In (OUser x) h -> exists code, In (OSet x code) h) ->
    (forall l, manager_label l -> estep l s = None) ->
    forall e c ws, accepted h e c ws -> over h e.
Proof.
  intros ls s h R Nl Nc Hw Hu Rest e c ws A.
  assert ({over h e} + {~ over h e}) as [O|O].
  { pose proof (schedule_Inv _ _ _ R) as V. pose proof A as A'. apply (a_enq _ _ (iA _ _ V)) in A'. destruct A' as (A1 & A2 & A3).
    unfold over. assert (forall x y : obs, {x = y} + {x <> y}) as dec.
    { decide equality; try apply Nat.eq_dec; try apply Z.eq_dec; try apply bool_dec; apply list_eq_dec, Nat.eq_dec. }
    destruct (in_dec dec (OSkip e) h); [left; auto|]. destruct (in_dec dec (ODrop e) h); [left; auto|].
    destruct (existsb (fun o => match o with ORan x _ => x =? e | _ => false end) h) eqn:X.
    - left. left. apply existsb_exists in X. destruct X as (o & X1 & X2). destruct o; try discriminate X2.
      apply Nat.eqb_eq in X2. subst. eexists. exact X1.
    - right. intros [(r & B)|[B|B]]; auto. assert (existsb (fun o => match o with ORan x _ => x =? e | _ => false end) h = true); [|congruence].
      apply existsb_exists. eexists. split; [exact B|]. apply Nat.eqb_refl. }
  - exact O.
  - exfalso. destruct (C56_no_deadlock ls s h e c ws R Nl Nc Hw Hu A O) as (l & s' & a & L & E). rewrite (Rest l L) in E. discriminate.
Qed.

(** The hypotheses are needed.  A user event that nobody sets: the command
    waiting for it stays, and with it every later one. *)
Definition rest_demo : list elabel :=
  [LContext false; LUser; LEnqueue 0 [0] 0; LEnqueue 0 [] 0; LPop 0 0; LMgr 0 0].
Definition rest_demo_set : list elabel :=
  rest_demo ++ [LStatus 0 0 COMPLETE; LUsr 0; LUsr 0; LUsr 0; LUsr 0;
                LMgr 0 0; LMgr 0 0; LFinish 0 0 NO_ERROR; LMgr 0 0; LMgr 0 0; LMgr 0 0; LMgr 0 0; LMgr 0 0;
                LPop 0 0; LMgr 0 0; LFinish 0 0 OUT_OF_MEMORY; LMgr 0 0; LMgr 0 0; LMgr 0 0; LMgr 0 0; LMgr 0 0].
Definition rest_demo_obs : list obs :=
  [OContext 0 false; OUser 0; OEnq 1 0 [0]; OEnq 2 0 []; OSet 0 COMPLETE; OSetRet 0 0 COMPLETE NO_ERROR;
   OStart 1; ODone 1 NO_ERROR; ORan 1 NO_ERROR; OStart 2; ODone 2 OUT_OF_MEMORY; ORan 2 OUT_OF_MEMORY].

Example C56_hypotheses_met :
  (exists s, schedule rest_demo_set s rest_demo_obs) /\
  (forall t c, ~ In (LReleaseCtx t c) rest_demo_set) /\ ~ In OCrash rest_demo_obs /\
  (forall x c ws, accepted rest_demo_obs x c ws -> forall w, In w ws -> w < x) /\
  (forall x, In (OUser x) rest_demo_obs -> exists code, In (OSet x code) rest_demo_obs).
Proof.
  split; [|split; [|split; [|split]]].
  - apply run_obs_schedule. reflexivity.
  - intros t c A. cbn in A. repeat (destruct A as [A|A]; [discriminate A|]). exact A.
  - intro A. cbn in A. repeat (destruct A as [A|A]; [discriminate A|]). exact A.
  - intros x c ws A w B. unfold accepted in A. cbn in A.
    repeat (destruct A as [A|A]; [try discriminate A; injection A as <- <- <-; cbn in B; repeat (destruct B as [B|B]; [lia|]); destruct B|]). destruct A.
  - intros x A. cbn in A. exists COMPLETE. repeat (destruct A as [A|A]; [try discriminate A; injection A as <-; cbn; auto 10|]); destruct A.
Qed.

Example C56_unset_event_blocks :
  exists s h, schedule rest_demo s h /\ accepted h 1 0 [0] /\ accepted h 2 0 [] /\ ~ over h 1 /\ ~ over h 2 /\
    forall l, manager_label l -> estep l s = None.
Proof.
  exists (match erun rest_demo est0 with Some (s, _) => s | None => est0 end),
    [OContext 0 false; OUser 0; OEnq 1 0 [0]; OEnq 2 0 []].
  split; [reflexivity|]. unfold accepted, over. cbn [In].
  split; [tauto|]. split; [tauto|].
  split; [intros [(r & A)|[A|A]]; cbn in A; intuition discriminate|].
  split; [intros [(r & A)|[A|A]]; cbn in A; intuition discriminate|].
  intros l L. destruct l as [| | | | | | | |c i|c i|c i r|]; try destruct L.
  - destruct c as [|c]; [destruct i as [|i]; reflexivity|]. destruct i; reflexivity.
  - destruct c as [|c]; [destruct i as [|i]; reflexivity|]. destruct i; reflexivity.
  - destruct c as [|c]; [destruct i as [|i]; reflexivity|]. destruct i; reflexivity.
Qed.

Print Assumptions C56_bounded.
Print Assumptions C56_no_deadlock.
Print Assumptions C56_rest_all_over.
