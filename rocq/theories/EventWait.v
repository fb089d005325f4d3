(** * Calls of mcWaitForEvents *)

From Coq Require Import ZArith List Bool Arith Lia.
From Verif Require Import EventModel EventSpec EventInv EventMono EventUser.
Import ListNotations.

Definition owner (l : elabel) : option nat :=
  match l with
  | LStatus t _ _ | LWaitFor t _ | LReleaseCtx t _ | LUsr t => Some t
  | _ => None
  end.

(** Observations about waiting of threads other than [o]. *)
Definition nowait (p : option nat) (a : list obs) : Prop :=
  forall t, p <> Some t -> (forall ws, ~ In (OWait t ws) a) /\ forall r, ~ In (OWaitRet t r) a.

Lemma nowait_nil p : nowait p [].
Proof. intros t _. split; intros ? []. Qed.
Lemma nowait_app p a b : nowait p a -> nowait p b -> nowait p (a ++ b).
Proof.
  intros A B t N. destruct (A t N) as (A1 & A2), (B t N) as (B1 & B2).
  split; intros x H; rewrite in_app_iff in H; destruct H as [H|H].
  - exact (A1 _ H).
  - exact (B1 _ H).
  - exact (A2 _ H).
  - exact (B2 _ H).
Qed.
Definition waitless (o : obs) : Prop :=
  match o with OWait _ _ | OWaitRet _ _ => False | _ => True end.
Lemma nowait_less p a : Forall waitless a -> nowait p a.
Proof.
  intros F t _. rewrite Forall_forall in F. split; intros x H; exact (F _ H).
Qed.
Lemma nowait_own t o : (forall t' ws, o = OWait t' ws -> t' = t) -> (forall t' r, o = OWaitRet t' r -> t' = t) ->
  nowait (Some t) [o].
Proof.
  intros A B t' N. split; intros x [H|[]]; [apply A in H|apply B in H]; congruence.
Qed.
Lemma waitless_calls e a : (forall o, In o a -> exists k, o = OCall e k) -> Forall waitless a.
Proof. intro H. apply Forall_forall. intros o A. destruct (H o A) as (k & ->). exact Logic.I. Qed.

Local Ltac nw :=
  first [ apply nowait_nil
        | apply nowait_less; repeat constructor; fail
        | apply nowait_less; eapply waitless_calls; eassumption
        | apply nowait_own; congruence
        | apply nowait_app; nw ].

Lemma notify_waitless e s s1 b : notify_callback e s = (s1, b) -> Forall waitless b /\ s_usr s1 = s_usr s.
Proof.
  intro H. apply notify_facts in H. destruct H as [(-> & ->)|(k & _ & _ & -> & ->)]; split; repeat constructor.
Qed.

Lemma step_owner l s s' a :
  estep l s = Some (s', a) ->
  (forall t, owner l <> Some t -> s_usr s' t = s_usr s t) /\ nowait (owner l) a.
Proof.
  intros E. unfold estep in E. destruct (s_crash s); [discriminate|].
  destruct l as [ooo| |c ws j|e|t e code|t ws|e|t c|c i|c i|c i r|t]; cbn [owner].
  - injection E as <- <-. split; [reflexivity|nw].
  - injection E as <- <-. split; [reflexivity|nw].
  - unfold enqueue in E. destruct (negb (s_listed s c)); [injection E as <- <-; split; [reflexivity|nw]|].
    destruct (responsible _ ws) as [r|]; [|injection E as <- <-; split; [reflexivity|nw]].
    destruct (match r with None => _ | Some _ => _ end); [discriminate|].
    destruct (_ <=? _); injection E as <- <-; (split; [reflexivity|nw]).
  - destruct (listed s e) eqn:L; [|injection E as <- <-; split; [reflexivity|nw]].
    destruct (set_callback e (s_nreg s) s) as [s1 b] eqn:C. injection E as <- <-.
    unfold set_callback in C. destruct (o_fin (s_ev s e)); injection C as <- <-; (split; [reflexivity|nw]).
  - unfold set_status in E. destruct (s_usr s t) eqn:U; try discriminate E.
    destruct (listed s e) eqn:L; cbn [negb] in E; [|injection E as <- <-; split; [reflexivity|nw]].
    destruct (o_kind (s_ev s e)) eqn:K; [|injection E as <- <-; split; [reflexivity|nw]].
    destruct (o_ready (s_ev s e)) eqn:R; injection E as <- <-; (split; [|nw]); [reflexivity|].
    intros t' N. cbn. apply upd_ne. congruence.
  - destruct (s_usr s t) eqn:U; try discriminate E. injection E as <- <-. split; [|nw].
    intros t' N. cbn. apply upd_ne. congruence.
  - destruct (listed s e) eqn:L; [|injection E as <- <-; split; [reflexivity|nw]].
    destruct (drop HList e s) as [s1 b] eqn:D. injection E as <- <-.
    apply drop_facts in D. destruct D as (-> & _ & Hb & _). split; [reflexivity|].
    apply (nowait_app None [ORel e]); nw.
  - unfold release_ctx in E. destruct (s_usr s t) eqn:U; try discriminate E.
    destruct (negb (s_listed s c)) eqn:L; [injection E as <- <-; split; [reflexivity|nw]|].
    destruct (some_running _ _ _); injection E as <- <-; (split; [|nw]); [reflexivity|].
    intros t' N. cbn. apply upd_ne. congruence.
  - destruct (i <? s_thr s c) eqn:Hi; [|discriminate]. unfold pop in E.
    destruct (s_mgr s c i) eqn:M; try discriminate E.
    destruct (s_queue s c i) as [|e q] eqn:Q; destruct (s_done s c); try discriminate E; injection E as <- <-; (split; [reflexivity|nw]).
  - unfold mgr_step in E.
    destruct (s_mgr s c i) as [|e ws|e w r|e lk|e r|e r|e r|e|e|] eqn:M; try discriminate E.
    + destruct ws as [|w r].
      * destruct (o_refs (s_ev s e)); [injection E as <- <-; split; [reflexivity|nw]|].
        destruct (ctx_alive s c); injection E as <- <-; (split; [reflexivity|nw]).
      * destruct (listed s w) eqn:L; injection E as <- <-; (split; [reflexivity|nw]).
    + destruct (drop (HMgr c i) w s) as [s1 b] eqn:D. apply drop_facts in D. destruct D as (-> & _ & Hb & _).
      destruct (negb (o_fut (s_ev s w))); [injection E as <- <-; split; [reflexivity|nw]|].
      destruct (o_ready (s_ev s w)) eqn:R; [|discriminate E].
      destruct (_ =? _)%Z; injection E as <- <-; (split; [reflexivity|nw]).
    + injection E as <- <-. split; [reflexivity|nw].
    + injection E as <- <-. split; [reflexivity|nw].
    + destruct (notify_callback e s) as [s1 b] eqn:D. injection E as <- <-. apply notify_waitless in D. destruct D as (D1 & D2).
      split; [intros; cbn; now rewrite D2|]. apply nowait_app; [now apply nowait_less|nw].
    + destruct (drop (HMgr c i) e (on_ev e (o_set_cs COMPLETE) s)) as [s1 b] eqn:D. injection E as <- <-.
      apply drop_facts in D. destruct D as (-> & _ & Hb & _). split; [reflexivity|nw].
    + injection E as <- <-. split; [reflexivity|nw].
  - unfold finish in E. destruct (s_mgr s c i) as [| | |e lk| | | | | |] eqn:M; try discriminate E. destruct lk.
    + destruct (ctx_alive _ _); injection E as <- <-; (split; [reflexivity|nw]).
    + destruct (_ =? _)%Z; [|discriminate]. injection E as <- <-. split; [reflexivity|nw].
  - unfold usr_step in E.
    assert (forall u t', Some t <> Some t' -> upd (s_usr s) t u t' = s_usr s t') as Hu by (intros u t' N; apply upd_ne; congruence).
    destruct (s_usr s t) as [|ws|w r|e code|e r|e r|e r|c] eqn:U; try discriminate E.
    + destruct ws as [|w r]; [injection E as <- <-; split; [apply Hu|nw]|].
      destruct (listed s w) eqn:L; injection E as <- <-; (split; [apply Hu|nw]).
    + destruct (drop (HUsr t) w s) as [s1 b] eqn:D. apply drop_facts in D. destruct D as (-> & _ & Hb & _).
      destruct (negb (o_fut (s_ev s w))); [injection E as <- <-; split; [apply Hu|nw]|].
      destruct (o_ready (s_ev s w)) eqn:R; [|discriminate E].
      destruct (_ =? _)%Z; injection E as <- <-; (split; [apply Hu|nw]).
    + destruct (_ =? _)%Z; [|destruct (is_error_code code)].
      * injection E as <- <-. split; [apply Hu|nw].
      * injection E as <- <-. split; [apply Hu|nw].
      * destruct (drop (HUsr t) e s) as [s1 b] eqn:D. apply drop_facts in D. destruct D as (-> & _ & Hb & _).
        injection E as <- <-. split; [apply Hu|nw].
    + injection E as <- <-. split; [apply Hu|nw].
    + injection E as <- <-. split; [apply Hu|nw].
    + destruct (notify_callback e s) as [s1 b] eqn:N. destruct (drop (HUsr t) e s1) as [s2 b2] eqn:D.
      apply drop_facts in D. destruct D as (-> & _ & Hb & _). injection E as <- <-.
      apply notify_waitless in N. destruct N as (N1 & N2).
      split; [intros; cbn; rewrite N2; now apply Hu|]. apply nowait_app; [now apply nowait_less|nw].
    + destruct (all_stopped s c (s_thr s c)); [|discriminate E].
      destruct (break_queues c (s_thr s c) s) as [s1 b] eqn:D. injection E as <- <-.
      apply break_queues_facts in D. destruct D as (_ & _ & _ & _ & _ & _ & A7 & _ & _ & _ & A11 & _).
      split; [intros; cbn; rewrite A7; now apply Hu|]. apply nowait_app; [|nw]. apply nowait_less.
      apply Forall_forall. intros o B. apply A11 in B. destruct B as (x & k & -> & _). exact Logic.I.
Qed.

(** ** What a call of mcWaitForEvents has seen so far *)

Definition wpassed (s : est) (hb : list obs) (w : nat) : Prop :=
  passed s w /\ forall t code, In (OSetRet t w code NO_ERROR) hb -> code = COMPLETE.

Definition wcalled (s : est) (h : list obs) (t : nat) (rest : list nat) : Prop :=
  exists hb ws ha pre,
    h = hb ++ OWait t ws :: ha /\ (forall ws', ~ In (OWait t ws') ha) /\ (forall r, ~ In (OWaitRet t r) ha) /\
    ws = pre ++ rest /\ Forall (wpassed s hb) pre.

Definition wstate (s : est) (h : list obs) (t : nat) : Prop :=
  match s_usr s t with
  | UWait rest => wcalled s h t rest
  | UWaitOn w rest => wcalled s h t (w :: rest) /\ w < s_n s
  | _ => True
  end.

Definition InvW (s : est) (h : list obs) : Prop := forall t, wstate s h t.

Lemma wcalled_mono s h s' a t rest :
  (forall w, passed s w -> passed s' w) ->
  (forall ws', ~ In (OWait t ws') a) -> (forall r, ~ In (OWaitRet t r) a) ->
  wcalled s h t rest -> wcalled s' (h ++ a) t rest.
Proof.
  intros HP N1 N2 (hb & ws & ha & pre & A & B & C & D & F). exists hb, ws, (ha ++ a), pre.
  split; [rewrite A, <- app_assoc; reflexivity|].
  split; [intros x H; rewrite in_app_iff in H; destruct H as [H|H]; [exact (B _ H)|exact (N1 _ H)]|].
  split; [intros x H; rewrite in_app_iff in H; destruct H as [H|H]; [exact (C _ H)|exact (N2 _ H)]|].
  split; [exact D|]. eapply Forall_impl; [|exact F]. intros w (G1 & G2). split; auto.
Qed.

(** The result of a user event whose setting call has returned. *)
Lemma set_returned s h w t code :
  InvA s h -> InvU s h -> In (OSetRet t w code NO_ERROR) h ->
  w < s_n s /\ o_kind (s_ev s w) = KUser /\ good code /\ o_ready (s_ev s w) = true /\ o_rt (s_ev s w) = result code.
Proof.
  intros I U A.
  assert (In (OSetRet t w code NO_ERROR) (usets h w)) as B.
  { apply filter_In. split; [exact A|]. cbn. now rewrite Nat.eqb_refl. }
  assert (w < s_n s) as L.
  { destruct (le_lt_dec (s_n s) w) as [C|C]; [|exact C]. rewrite (u_none _ _ U) in B by auto. destruct B. }
  assert (o_kind (s_ev s w) = KUser) as K.
  { destruct (o_kind (s_ev s w)) eqn:K; [reflexivity|]. rewrite (u_none _ _ U) in B by (right; congruence). destruct B. }
  split; [exact L|]. split; [exact K|]. destruct (u_life _ _ U w L K) as [(t' & C)|C].
  - exfalso. pose proof (u_thr _ _ U t' w C) as P.
    destruct (s_usr s t'); try discriminate C; cbn in P, C.
    + destruct P as (P & _). rewrite P in B. destruct B as [B|[]]. discriminate.
    + destruct P as (cd & P & _). rewrite P in B. destruct B as [B|[]]. discriminate.
    + destruct P as (cd & P & _). rewrite P in B. destruct B as [B|[]]. discriminate.
    + destruct P as (cd & P & _). rewrite P in B. destruct B as [B|[]]. discriminate.
  - destruct C as [(C & _)|[(cd & C & _)|(cd & t' & C & C2 & C3 & C4 & _)]]; rewrite C in B.
    + destruct B.
    + destruct B as [B|[]]. discriminate.
    + destruct B as [B|[B|[]]]; [discriminate|]. assert (cd = code) as -> by congruence. auto.
Qed.

Lemma result_zero code : good code -> result code = NO_ERROR -> code = COMPLETE.
Proof.
  intros G H. unfold result in H. destruct (Z.eqb_spec code COMPLETE) as [->|N]; [reflexivity|].
  destruct G as [G|G]; [exact G|]. subst code. discriminate.
Qed.

Theorem step_InvW s h l s' a :
  InvA s h -> InvU s h -> InvW s h -> estep l s = Some (s', a) -> InvW s' (h ++ a).
Proof.
  intros I U W E. pose proof (step_keeps _ _ _ _ _ I E) as (Kn & Kk).
  assert (forall w, passed s w -> passed s' w) as HP.
  { intros w A. apply (keeps_passed s); [exact Kn| |exact A]. apply Kk. apply A. }
  pose proof (step_owner _ _ _ _ E) as (Hu & Hw).
  intro t.
  assert (owner l <> Some t -> wstate s' (h ++ a) t) as Hother.
  { intro N. destruct (Hw t N) as (N1 & N2). pose proof (W t) as Wt. unfold wstate in *. rewrite (Hu t N).
    destruct (s_usr s t); auto.
    - apply (wcalled_mono s); assumption.
    - destruct Wt as (W1 & W2). split; [apply (wcalled_mono s); assumption|lia]. }
  destruct (owner l) as [t'|] eqn:O; [|apply Hother; congruence].
  destruct (Nat.eq_dec t' t) as [->|N]; [|apply Hother; congruence]. clear Hother.
  unfold estep in E. destruct (s_crash s); [discriminate|].
  destruct l as [ooo| |c ws j|e|t0 e code|t0 ws|e|t0 c|c i|c i|c i r|t0]; try discriminate O; cbn in O; injection O as ->.
  - unfold set_status in E. destruct (s_usr s t) eqn:Ut; try discriminate E. unfold wstate.
    destruct (listed s e) eqn:L; cbn [negb] in E; [|injection E as <- <-; now rewrite Ut].
    destruct (o_kind (s_ev s e)) eqn:K; [|injection E as <- <-; cbn; now rewrite Ut].
    destruct (o_ready (s_ev s e)) eqn:R; injection E as <- <-; cbn; [now rewrite Ut|]. now rewrite upd_eq.
  - destruct (s_usr s t) eqn:Ut; try discriminate E. injection E as <- <-. unfold wstate. cbn. rewrite upd_eq.
    exists h, ws, [], []. split; [reflexivity|]. split; [intros ? []|]. split; [intros ? []|]. split; [reflexivity|constructor].
  - unfold release_ctx in E. destruct (s_usr s t) eqn:Ut; try discriminate E. unfold wstate.
    destruct (negb (s_listed s c)) eqn:L; [injection E as <- <-; now rewrite Ut|].
    destruct (some_running _ _ _); injection E as <- <-; cbn; [now rewrite Ut|now rewrite upd_eq].
  - unfold usr_step in E. pose proof (W t) as Wt. unfold wstate in Wt |- *.
    destruct (s_usr s t) as [|ws|w r|e code|e r|e r|e r|c] eqn:Ut; try discriminate E.
    + destruct ws as [|w r].
      * injection E as <- <-. cbn. now rewrite upd_eq.
      * destruct (listed s w) eqn:L; injection E as <- <-; cbn; rewrite upd_eq; [|exact Logic.I].
        split; [|exact (listed_lt _ _ _ I L)]. apply (wcalled_mono s); auto.
    + destruct Wt as (Wt & Lw).
      destruct (drop (HUsr t) w s) as [s1 b] eqn:D. apply drop_facts in D. destruct D as (-> & _ & Hb & _).
      assert (passed s w -> (o_fut (s_ev s w) = false \/ o_rt (s_ev s w) = NO_ERROR) ->
              a = b -> (forall w, passed s w -> passed (set_usr t (UWait r) (on_ev w (fun o => o_set_refs (remove holder_dec (HUsr t) (o_refs o)) o) s)) w) -> wcalled s (h ++ b) t r) as Hgo.
      { intros P1 P2 -> _. destruct Wt as (hb & ws & ha & pre & A & B & C & F & G).
        pose proof (waitless_calls _ _ Hb) as Wb. rewrite Forall_forall in Wb.
        exists hb, ws, (ha ++ b), (pre ++ [w]).
        split; [rewrite A, <- app_assoc; reflexivity|].
        split; [intros x H; rewrite in_app_iff in H; destruct H as [H|H]; [exact (B _ H)|exact (Wb _ H)]|].
        split; [intros x H; rewrite in_app_iff in H; destruct H as [H|H]; [exact (C _ H)|exact (Wb _ H)]|].
        split; [rewrite <- app_assoc; exact F|]. apply Forall_app. split; [exact G|]. constructor; [|constructor].
        split; [exact P1|]. intros t' code H.
        assert (In (OSetRet t' w code NO_ERROR) h) as H' by (rewrite A, in_app_iff; auto).
        destruct (set_returned _ _ _ _ _ I U H') as (K1 & K2 & K3 & K4 & K5).
        apply result_zero; [exact K3|]. destruct P2 as [P2|P2]; [|congruence].
        rewrite (a_user _ _ I _ K1 K2) in P2. discriminate. }
      assert (a = b -> wcalled s (h ++ b) t r -> wcalled s' (h ++ a) t r) as Hm.
      { intros -> (hb & ws & ha & pre & A & B & C & F & G). exists hb, ws, ha, pre.
        repeat (split; [assumption|]). eapply Forall_impl; [|exact G]. intros x (G1 & G2). split; auto. }
      destruct (negb (o_fut (s_ev s w))) eqn:Fu.
      * injection E as <- <-. cbn. rewrite upd_eq. apply negb_true_iff in Fu. apply Hm; [reflexivity|].
        apply Hgo; auto; [split; auto|]. intros x A. apply (passed_mono s); [cbn; lia| |exact A]. apply (on_ev_core x). reflexivity.
      * destruct (o_ready (s_ev s w)) eqn:R; [|discriminate E].
        destruct (Z.eqb_spec (o_rt (s_ev s w)) NO_ERROR) as [T|T]; injection E as <- <-; cbn; rewrite upd_eq; [|exact Logic.I].
        apply Hm; [reflexivity|]. apply Hgo; auto; [split; auto|].
        intros x A. apply (passed_mono s); [cbn; lia| |exact A]. apply (on_ev_core x). reflexivity.
    + destruct (_ =? _)%Z; [|destruct (is_error_code code)].
      * injection E as <- <-. cbn. now rewrite upd_eq.
      * injection E as <- <-. cbn. now rewrite upd_eq.
      * destruct (drop (HUsr t) e s) as [s1 b]. injection E as <- <-. cbn. now rewrite upd_eq.
    + injection E as <- <-. cbn. now rewrite upd_eq.
    + injection E as <- <-. cbn. now rewrite upd_eq.
    + destruct (notify_callback e s) as [s1 b]. destruct (drop (HUsr t) e s1) as [s2 b2]. injection E as <- <-. cbn. now rewrite upd_eq.
    + destruct (all_stopped s c (s_thr s c)); [|discriminate E].
      destruct (break_queues c (s_thr s c) s) as [s1 b]. injection E as <- <-. cbn. now rewrite upd_eq.
Qed.
