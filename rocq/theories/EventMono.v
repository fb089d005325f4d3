(** * What never changes about an event *)

From Coq Require Import ZArith List Bool Arith Lia.
From Verif Require Import EventModel EventSpec EventInv.
Import ListNotations.

(** Event [e] keeps its nature; once a command is ready its result is fixed. *)
Definition keeps (s s' : est) (e : nat) : Prop :=
  o_kind (s_ev s' e) = o_kind (s_ev s e) /\ o_fut (s_ev s' e) = o_fut (s_ev s e) /\
  (o_ready (s_ev s e) = true -> o_ready (s_ev s' e) = true) /\
  (o_rt (s_ev s' e) = o_rt (s_ev s e) \/ o_kind (s_ev s e) = KUser \/ o_ready (s_ev s e) = false).

Lemma keeps_refl s s' e : s_ev s' e = s_ev s e -> keeps s s' e.
Proof. intros H. unfold keeps. rewrite H. auto. Qed.

Lemma keeps_upd s s' x o' :
  (forall e, s_ev s' e = upd (s_ev s) x o' e) ->
  o_kind o' = o_kind (s_ev s x) -> o_fut o' = o_fut (s_ev s x) ->
  (o_ready (s_ev s x) = true -> o_ready o' = true) ->
  (o_rt o' = o_rt (s_ev s x) \/ o_kind (s_ev s x) = KUser \/ o_ready (s_ev s x) = false) ->
  forall e, keeps s s' e.
Proof.
  intros H H1 H2 H3 H4 e. unfold keeps. rewrite H. destruct (Nat.eq_dec e x) as [->|N].
  - rewrite upd_eq. auto.
  - rewrite upd_ne by exact N. auto.
Qed.

Lemma keeps_core s s' e : same_core s s' -> keeps s s' e.
Proof.
  intro H. unfold keeps. rewrite (sc_kind _ _ _ H), (sc_fut _ _ _ H), (sc_ready _ _ _ H), (sc_rt _ _ _ H). auto.
Qed.

Local Ltac kr := intros; apply keeps_refl; reflexivity.
Local Ltac kc := intros; apply keeps_core; first [apply on_ev_core; reflexivity | intro; reflexivity].

Lemma notify_core e s s1 b : notify_callback e s = (s1, b) -> same_core s s1 /\ s_n s1 = s_n s.
Proof.
  intro H. apply notify_facts in H. destruct H as [(-> & _)|(k & _ & _ & -> & _)]; [split; [intro; reflexivity|reflexivity]|].
  split; [apply on_ev_core; reflexivity|reflexivity].
Qed.

Lemma same_core_trans s1 s2 s3 : same_core s1 s2 -> same_core s2 s3 -> same_core s1 s3.
Proof. intros A B e. rewrite B. apply A. Qed.

Theorem step_keeps s h l s' a :
  InvA s h -> estep l s = Some (s', a) -> s_n s <= s_n s' /\ forall e, e < s_n s -> keeps s s' e.
Proof.
  intros I E. unfold estep in E. destruct (s_crash s); [discriminate|].
  assert (s_n s <= s_n s /\ forall e, e < s_n s -> keeps s s e) as K0 by (split; [lia|kr]).
  assert (s_n s <= s_n (crash s) /\ forall e, e < s_n s -> keeps s (crash s) e) as Kc by (split; [cbn; lia|kr]).
  assert (forall o, forall e, e < s_n s -> s_ev (add_ev o s) e = s_ev s e) as Ha.
  { intros o e A. cbn. apply upd_ne. lia. }
  destruct l as [ooo| |c ws j|e|t e code|t ws|e|t c|c i|c i|c i r|t].
  - injection E as <- <-. split; [cbn; lia|kr].
  - injection E as <- <-. split; [cbn; lia|]. intros e A. apply keeps_refl, Ha, A.
  - unfold enqueue in E. destruct (negb (s_listed s c)); [injection E as <- <-; exact K0|].
    destruct (responsible _ ws) as [r|].
    2:{ injection E as <- <-. split; [cbn; lia|]. intros e A. apply keeps_refl, Ha, A. }
    destruct (match r with None => _ | Some _ => _ end); [discriminate|].
    destruct (_ <=? _); injection E as <- <-; [exact Kc|].
    split; [cbn; lia|]. intros e A. apply keeps_refl. cbn. apply upd_ne. lia.
  - destruct (listed s e) eqn:L; [|injection E as <- <-; exact K0].
    destruct (set_callback e (s_nreg s) s) as [s1 b] eqn:C. injection E as <- <-.
    unfold set_callback in C. destruct (o_fin (s_ev s e)); injection C as <- <-; (split; [cbn; lia|]); intros;
      apply keeps_core; apply (on_ev_core e (o_set_cb _ _)); reflexivity.
  - unfold set_status in E. destruct (s_usr s t) eqn:U; try discriminate E.
    destruct (listed s e) eqn:L; cbn [negb] in E; [|injection E as <- <-; exact K0].
    destruct (o_kind (s_ev s e)) eqn:K; [|injection E as <- <-; exact Kc].
    destruct (o_ready (s_ev s e)) eqn:R; [injection E as <- <-; exact K0|]. injection E as <- <-.
    split; [cbn; lia|]. intros x _.
    apply (keeps_upd s _ e (o_set_ready (o_set_cs RUNNING (o_set_refs (HUsr t :: o_refs (s_ev s e)) (s_ev s e))))); auto.
    intro y. unfold on_ev, acquire, on_ev, set_ev, set_usr. cbn. rewrite upd_eq. apply upd_upd.
  - destruct (s_usr s t) eqn:U; try discriminate E. injection E as <- <-. split; [cbn; lia|kr].
  - destruct (listed s e) eqn:L; [|injection E as <- <-; exact K0].
    destruct (drop HList e s) as [s1 b] eqn:D. injection E as <- <-.
    apply drop_facts in D. destruct D as (-> & _). split; [cbn; lia|kc].
  - unfold release_ctx in E. destruct (s_usr s t) eqn:U; try discriminate E.
    destruct (negb (s_listed s c)) eqn:L; [injection E as <- <-; exact K0|].
    destruct (some_running _ _ _); injection E as <- <-; (split; [cbn; lia|kr]).
  - destruct (i <? s_thr s c) eqn:Hi; [|discriminate]. unfold pop in E.
    destruct (s_mgr s c i) eqn:M; try discriminate E.
    destruct (s_queue s c i) as [|e q] eqn:Q; destruct (s_done s c); try discriminate E; injection E as <- <-;
      try (split; [cbn; lia|kr]).
    split; [cbn; lia|]. intros x _. apply (keeps_upd s _ e (o_set_ready (s_ev s e))); auto.
  - unfold mgr_step in E.
    destruct (s_mgr s c i) as [|e ws|e w r|e lk|e r|e r|e r|e|e|] eqn:M; try discriminate E;
      (assert (mev (s_mgr s c i) = Some e) as Me by (rewrite M; reflexivity));
      destruct (a_mgr _ _ I _ _ _ Me) as (G1 & (wse & G2) & G3 & G4 & G5 & G6).
    + destruct ws as [|w r].
      * destruct (o_refs (s_ev s e)); [injection E as <- <-; exact Kc|].
        assert (forall m, s_n s <= s_n (set_mgr c i m (on_ev e (o_set_cs RUNNING) (acquire (HMgr c i) e s))) /\
           (forall x, x < s_n s -> keeps s (set_mgr c i m (on_ev e (o_set_cs RUNNING) (acquire (HMgr c i) e s))) x)) as Hgo.
        { intro m. split; [cbn; lia|]. intros x _. apply keeps_core.
          apply (same_core_trans s (acquire (HMgr c i) e s)); [apply on_ev_core; reflexivity|].
          apply (on_ev_core e (o_set_cs RUNNING)). reflexivity. }
        destruct (ctx_alive s c); injection E as <- <-; apply Hgo.
      * destruct (listed s w) eqn:L; injection E as <- <-; (split; [cbn; lia|]); [kc|kr].
    + destruct (drop (HMgr c i) w s) as [s1 b] eqn:D. apply drop_facts in D. destruct D as (-> & _).
      destruct (negb (o_fut (s_ev s w))); [injection E as <- <-; split; [cbn; lia|kc]|].
      destruct (o_ready (s_ev s w)) eqn:R; [|discriminate E].
      destruct (_ =? _)%Z; injection E as <- <-; (split; [cbn; lia|kc]).
    + injection E as <- <-. split; [cbn; lia|kc].
    + injection E as <- <-. split; [cbn; lia|]. intros x _. apply (keeps_upd s _ e (o_set_rt r (s_ev s e))); auto.
    + destruct (notify_callback e s) as [s1 b] eqn:D. injection E as <- <-. apply notify_core in D. destruct D as (D & N).
      split; [cbn; lia|]. intros x _. apply keeps_core. exact D.
    + destruct (drop (HMgr c i) e (on_ev e (o_set_cs COMPLETE) s)) as [s1 b] eqn:D. injection E as <- <-.
      apply drop_facts in D. destruct D as (-> & _). split; [cbn; lia|]. intros x _. apply keeps_core.
      apply (same_core_trans s (on_ev e (o_set_cs COMPLETE) s)); [apply on_ev_core; reflexivity|].
      apply (on_ev_core e (fun o => o_set_refs (remove holder_dec (HMgr c i) (o_refs o)) o)). reflexivity.
    + injection E as <- <-. split; [cbn; lia|]. intros x _. apply (keeps_upd s _ e (o_set_ready (s_ev s e))); auto.
  - unfold finish in E. destruct (s_mgr s c i) as [| | |e lk| | | | | |] eqn:M; try discriminate E. destruct lk.
    + destruct (ctx_alive _ _); injection E as <- <-; [split; [cbn; lia|kr]|exact Kc].
    + destruct (_ =? _)%Z; [|discriminate]. injection E as <- <-. split; [cbn; lia|kr].
  - unfold usr_step in E.
    destruct (s_usr s t) as [|ws|w r|e code|e r|e r|e r|c] eqn:U; try discriminate E.
    + destruct ws as [|w r]; [injection E as <- <-; split; [cbn; lia|kr]|].
      destruct (listed s w) eqn:L; injection E as <- <-; (split; [cbn; lia|]); [kc|kr].
    + destruct (drop (HUsr t) w s) as [s1 b] eqn:D. apply drop_facts in D. destruct D as (-> & _).
      destruct (negb (o_fut (s_ev s w))); [injection E as <- <-; split; [cbn; lia|kc]|].
      destruct (o_ready (s_ev s w)) eqn:R; [|discriminate E].
      destruct (_ =? _)%Z; injection E as <- <-; (split; [cbn; lia|kc]).
    + destruct (_ =? _)%Z; [|destruct (is_error_code code)].
      * injection E as <- <-. split; [cbn; lia|kc].
      * injection E as <- <-. split; [cbn; lia|kr].
      * destruct (drop (HUsr t) e s) as [s1 b] eqn:D. apply drop_facts in D. destruct D as (-> & _).
        injection E as <- <-. split; [cbn; lia|kc].
    + injection E as <- <-. split; [cbn; lia|kc].
    + injection E as <- <-. split; [cbn; lia|]. intros x _. apply (keeps_upd s _ e (o_set_rt r (s_ev s e))); auto.
      right. left. apply (a_usr _ _ I t e). rewrite U. reflexivity.
    + destruct (notify_callback e s) as [s1 b] eqn:N. destruct (drop (HUsr t) e s1) as [s2 b2] eqn:D.
      apply drop_facts in D. destruct D as (-> & _). injection E as <- <-. apply notify_core in N. destruct N as (N & N').
      split; [cbn; lia|]. intros x _. apply keeps_core. apply (same_core_trans s s1); [exact N|].
      apply (on_ev_core e (fun o => o_set_refs (remove holder_dec (HUsr t) (o_refs o)) o)). reflexivity.
    + destruct (all_stopped s c (s_thr s c)); [|discriminate E].
      destruct (break_queues c (s_thr s c) s) as [s1 b] eqn:D. injection E as <- <-.
      apply break_queues_facts in D. destruct D as (A1 & _ & _ & _ & _ & _ & _ & _ & _ & _ & _ & A12).
      split; [cbn; lia|]. intros x _. unfold keeps. cbn [set_usr s_ev].
      destruct (A12 x) as [(k & _ & _ & ->)|(_ & ->)]; cbn; auto.
Qed.

Lemma keeps_passed s s' w : s_n s <= s_n s' -> keeps s s' w -> passed s w -> passed s' w.
Proof.
  intros Hn (K1 & K2 & K3 & K4) (A & B). split; [lia|]. rewrite K1, K2.
  destruct B as [B|(B & C)]; [auto|]. right. split; [auto|]. destruct K4 as [->|[K4|K4]]; [exact C|auto|congruence].
Qed.
