(** * Shared pointers and callbacks *)

From Coq Require Import ZArith List Bool Arith Lia.
From Verif Require Import EventModel EventSpec EventInv EventMono EventFate EventUser.
Import ListNotations.

(** ** Who holds which event *)

Definition holds_m (m : mstate) (e : nat) : Prop :=
  match m with
  | MWaitOn _ w _ => w = e
  | MRun x _ | MNote1 x _ | MNote2 x _ | MNote3 x _ | MEnd x => x = e
  | _ => False
  end.

Definition holds_u (u : ustate) (e : nat) : Prop :=
  match u with
  | UWaitOn w _ => w = e
  | USwitch x _ | UNote1 x _ | UNote2 x _ | UNote3 x _ => x = e
  | _ => False
  end.

Record InvH (s : est) (h : list obs) : Prop := {
  h_mgr : forall e c i, In (HMgr c i) (o_refs (s_ev s e)) <-> holds_m (s_mgr s c i) e;
  h_usr : forall e t, In (HUsr t) (o_refs (s_ev s e)) <-> holds_u (s_usr s t) e;
  h_list : forall e, e < s_n s -> ~ In HList (o_refs (s_ev s e)) -> In (ORel e) h
}.

Lemma listed_iff s e : listed s e = true <-> In HList (o_refs (s_ev s e)).
Proof.
  unfold listed. rewrite existsb_exists. split.
  - intros (x & A & B). destruct (holder_dec x HList) as [->|]; [exact A|discriminate].
  - intro A. exists HList. split; [exact A|]. destruct (holder_dec HList HList); congruence.
Qed.

Lemma InvH_frame s h s' a :
  InvH s h -> (forall e, s_n s <= e -> s_ev s e = dummy) -> s_n s <= s_n s' ->
  (forall e, e < s_n s -> forall hd, In hd (o_refs (s_ev s' e)) <-> In hd (o_refs (s_ev s e))) ->
  (forall e, s_n s <= e -> e < s_n s' -> o_refs (s_ev s' e) = [HList]) ->
  (forall e, s_n s' <= e -> s_ev s' e = dummy) ->
  (forall c i e, holds_m (s_mgr s' c i) e <-> holds_m (s_mgr s c i) e) ->
  (forall t e, holds_u (s_usr s' t) e <-> holds_u (s_usr s t) e) ->
  InvH s' (h ++ a).
Proof.
  intros H D Hn Hr Hw D' Hm Hu.
  assert (forall e hd, hd <> HList -> In hd (o_refs (s_ev s' e)) <-> In hd (o_refs (s_ev s e))) as K.
  { intros e hd N. destruct (le_lt_dec (s_n s) e) as [A|A]; [|apply Hr; exact A]. rewrite (D e A).
    destruct (le_lt_dec (s_n s') e) as [B|B]; [rewrite (D' e B); reflexivity|].
    rewrite (Hw e A B). cbn. split; [intros [C|[]]; congruence|intros []]. }
  constructor.
  - intros e c i. rewrite K by discriminate. rewrite Hm. apply (h_mgr _ _ H).
  - intros e t. rewrite K by discriminate. rewrite Hu. apply (h_usr _ _ H).
  - intros e A B. rewrite in_app_iff. left. destruct (le_lt_dec (s_n s) e) as [C|C].
    + exfalso. apply B. rewrite (Hw e C A). now left.
    + apply (h_list _ _ H); [exact C|]. intro F. apply B. apply Hr; auto.
Qed.

(** A manager takes or gives up events. *)
Lemma InvH_m s h s' a c i m' :
  InvH s h -> s_n s' = s_n s ->
  s_mgr s' = upd2 (s_mgr s) c i m' -> s_usr s' = s_usr s ->
  (forall e hd, hd <> HMgr c i -> In hd (o_refs (s_ev s' e)) <-> In hd (o_refs (s_ev s e))) ->
  (forall e, In (HMgr c i) (o_refs (s_ev s' e)) <-> holds_m m' e) ->
  InvH s' (h ++ a).
Proof.
  intros H Hn Hm Hu K1 K2. constructor; rewrite ?Hn, ?Hu.
  - intros e c' i'. rewrite Hm. destruct (upd2_cases (s_mgr s) c i m' c' i') as [(-> & -> & ->)|(N & ->)]; [apply K2|].
    rewrite K1; [apply (h_mgr _ _ H)|]. intro F. injection F as -> ->. tauto.
  - intros e t. rewrite K1 by discriminate. apply (h_usr _ _ H).
  - intros e A B. rewrite in_app_iff. left. apply (h_list _ _ H); [exact A|]. intro F. apply B. apply K1; [discriminate|exact F].
Qed.

Lemma InvH_u s h s' a t u' :
  InvH s h -> s_n s' = s_n s ->
  s_mgr s' = s_mgr s -> s_usr s' = upd (s_usr s) t u' ->
  (forall e hd, hd <> HUsr t -> In hd (o_refs (s_ev s' e)) <-> In hd (o_refs (s_ev s e))) ->
  (forall e, In (HUsr t) (o_refs (s_ev s' e)) <-> holds_u u' e) ->
  InvH s' (h ++ a).
Proof.
  intros H Hn Hm Hu K1 K2. constructor; rewrite ?Hn, ?Hm.
  - intros e c i. rewrite K1 by discriminate. apply (h_mgr _ _ H).
  - intros e t'. rewrite Hu. destruct (Nat.eq_dec t' t) as [->|N]; [rewrite upd_eq; apply K2|rewrite upd_ne by exact N].
    rewrite K1; [apply (h_usr _ _ H)|]. congruence.
  - intros e A B. rewrite in_app_iff. left. apply (h_list _ _ H); [exact A|]. intro F. apply B. apply K1; [discriminate|exact F].
Qed.

(** The changes of the reference list. *)
Lemma refs_acquire (f : nat -> eobj) x hd0 (g : eobj -> eobj) e hd :
  (forall o, o_refs (g o) = o_refs o) ->
  In hd (o_refs (upd f x (g (o_set_refs (hd0 :: o_refs (f x)) (f x))) e)) <-> (hd = hd0 /\ e = x) \/ In hd (o_refs (f e)).
Proof.
  intro G. destruct (Nat.eq_dec e x) as [->|N].
  - rewrite upd_eq, G. cbn. intuition congruence.
  - rewrite upd_ne by exact N. tauto.
Qed.

Lemma refs_drop (f : nat -> eobj) x hd0 (o0 : eobj) e hd :
  o_refs o0 = o_refs (f x) ->
  In hd (o_refs (upd f x (o_set_refs (remove holder_dec hd0 (o_refs o0)) o0) e)) <->
  In hd (o_refs (f e)) /\ ~ (hd = hd0 /\ e = x).
Proof.
  intro G. destruct (Nat.eq_dec e x) as [->|N].
  - rewrite upd_eq. cbn. rewrite G. split.
    + intro A. apply in_remove in A. tauto.
    + intros (A & B). apply in_in_remove; [|exact A]. tauto.
  - rewrite upd_ne by exact N. tauto.
Qed.

Lemma refs_same (f : nat -> eobj) x o0 e : o_refs o0 = o_refs (f x) -> o_refs (upd f x o0 e) = o_refs (f e).
Proof. intro G. destruct (Nat.eq_dec e x) as [->|N]; [rewrite upd_eq; exact G|now rewrite upd_ne]. Qed.

Lemma notify_refs e s s1 b :
  notify_callback e s = (s1, b) ->
  s_n s1 = s_n s /\ s_mgr s1 = s_mgr s /\ s_usr s1 = s_usr s /\ s_queue s1 = s_queue s /\ s_nreg s1 = s_nreg s /\
  forall x, o_refs (s_ev s1 x) = o_refs (s_ev s x).
Proof.
  intro H. apply notify_facts in H. destruct H as [(-> & _)|(k & _ & _ & -> & _)].
  - repeat (split; [reflexivity|]). reflexivity.
  - repeat (split; [reflexivity|]). intro x. cbn. apply refs_same. reflexivity.
Qed.

Theorem step_InvH s h l s' a :
  InvA s h -> InvH s h -> estep l s = Some (s', a) -> InvH s' (h ++ a).
Proof.
  intros I H E. unfold estep in E. destruct (s_crash s); [discriminate|].
  pose proof (a_dummy _ _ I) as Dm.
  assert (forall b, InvH s (h ++ b)) as H0.
  { intro b. apply (InvH_frame s h); auto; [reflexivity|intros; lia|reflexivity|reflexivity]. }
  assert (forall b, InvH (crash s) (h ++ b)) as Hcr.
  { intro b. apply (InvH_frame s h); auto; [reflexivity|cbn; intros; lia|reflexivity|reflexivity]. }
  (* refs unchanged, nobody moves *)
  destruct l as [ooo| |c ws j|e|t e code|t ws|e|t c|c i|c i|c i r|t].
  - injection E as <- <-. apply (InvH_frame s h); cbn; auto; [reflexivity|intros; lia|reflexivity|reflexivity].
  - injection E as <- <-. apply (InvH_frame s h); cbn; auto.
    + intros e A hd. rewrite upd_ne by lia. reflexivity.
    + intros e A B. assert (e = s_n s) as -> by lia. now rewrite upd_eq.
    + intros e A. rewrite upd_ne by lia. apply Dm. lia.
    + reflexivity.
    + reflexivity.
  - unfold enqueue in E. destruct (negb (s_listed s c)); [injection E as <- <-; apply H0|].
    assert (forall o st, o_refs o = [HList] -> s_n st = S (s_n s) -> s_ev st = upd (s_ev s) (s_n s) o -> s_mgr st = s_mgr s -> s_usr st = s_usr s ->
            forall b, InvH st (h ++ b)) as Hadd.
    { intros o st R1 R2 R3 R4 R5 b. apply (InvH_frame s h); rewrite ?R2, ?R3, ?R4, ?R5; auto.
      - intros e A hd. rewrite upd_ne by lia. reflexivity.
      - intros e A B. assert (e = s_n s) as -> by lia. now rewrite upd_eq.
      - intros e A. rewrite upd_ne by lia. apply Dm. lia.
      - reflexivity.
      - reflexivity. }
    destruct (responsible _ ws) as [r|]; [|injection E as <- <-; apply (Hadd (new_cmd c ws false j)); reflexivity].
    destruct (match r with None => _ | Some _ => _ end); [discriminate|].
    destruct (_ <=? _); injection E as <- <-; [apply Hcr|apply (Hadd (new_cmd c ws true (match r with Some k => k | None => j end))); reflexivity].
  - destruct (listed s e) eqn:L; [|injection E as <- <-; apply H0].
    pose proof (listed_lt _ _ _ I L) as Le.
    destruct (set_callback e (s_nreg s) s) as [s1 b] eqn:C. injection E as <- <-.
    unfold set_callback in C. destruct (o_fin (s_ev s e)); injection C as <- <-;
      (apply (InvH_frame s h); cbn; auto; [| | |reflexivity|reflexivity]).
    + intros x A hd. rewrite refs_same by reflexivity. reflexivity.
    + intros; lia.
    + intros x A. rewrite upd_ne by lia. auto.
    + intros x A hd. rewrite refs_same by reflexivity. reflexivity.
    + intros; lia.
    + intros x A. rewrite upd_ne by lia. auto.
  - unfold set_status in E. destruct (s_usr s t) eqn:Ut; try discriminate E.
    destruct (listed s e) eqn:L; cbn [negb] in E; [|injection E as <- <-; apply H0].
    destruct (o_kind (s_ev s e)) eqn:K; [|injection E as <- <-; apply Hcr].
    destruct (o_ready (s_ev s e)) eqn:R; injection E as <- <-; [apply H0|].
    apply (InvH_u s h _ _ t (USwitch e code)); cbn; auto.
    + intros x hd N. rewrite upd_upd, upd_eq.
      rewrite (refs_acquire (s_ev s) e (HUsr t) (fun o => o_set_ready (o_set_cs RUNNING o))) by reflexivity. tauto.
    + intro x. rewrite upd_upd, upd_eq.
      rewrite (refs_acquire (s_ev s) e (HUsr t) (fun o => o_set_ready (o_set_cs RUNNING o))) by reflexivity.
      rewrite (h_usr _ _ H), Ut. cbn. intuition congruence.
  - destruct (s_usr s t) eqn:Ut; try discriminate E. injection E as <- <-.
    apply (InvH_u s h _ _ t (UWait ws)); cbn; auto; [reflexivity|].
    intro x. rewrite (h_usr _ _ H), Ut. reflexivity.
  - destruct (listed s e) eqn:L; [|injection E as <- <-; apply H0].
    destruct (drop HList e s) as [s1 b] eqn:D. injection E as <- <-.
    apply drop_facts in D. destruct D as (-> & _ & Hb & _). constructor; cbn.
    + intros x c i. rewrite refs_drop by reflexivity. rewrite (h_mgr _ _ H). intuition discriminate.
    + intros x t. rewrite refs_drop by reflexivity. rewrite (h_usr _ _ H). intuition discriminate.
    + intros x A. rewrite refs_drop by reflexivity. intro B. rewrite in_app_iff. cbn.
      destruct (Nat.eq_dec x e) as [->|N]; [auto|]. left. apply (h_list _ _ H); [exact A|]. intro F. apply B. split; [exact F|tauto].
  - unfold release_ctx in E. destruct (s_usr s t) eqn:Ut; try discriminate E.
    destruct (negb (s_listed s c)) eqn:L; [injection E as <- <-; apply H0|].
    destruct (some_running _ _ _); injection E as <- <-.
    + apply (InvH_frame s h); cbn; auto; [reflexivity|intros; lia|reflexivity|reflexivity].
    + apply (InvH_u s h _ _ t (UJoin c)); cbn; auto; [reflexivity|]. intro x. rewrite (h_usr _ _ H), Ut. reflexivity.
  - destruct (i <? s_thr s c) eqn:Hi; [|discriminate]. unfold pop in E.
    destruct (s_mgr s c i) eqn:M; try discriminate E.
    destruct (s_queue s c i) as [|e q] eqn:Q; destruct (s_done s c); try discriminate E; injection E as <- <-.
    + apply (InvH_m s h _ _ c i MStopped); cbn; auto; [reflexivity|]. intro x. rewrite (h_mgr _ _ H), M. reflexivity.
    + apply (InvH_m s h _ _ c i MStopped); cbn; auto.
      * intros x hd N. rewrite refs_same by reflexivity. reflexivity.
      * intro x. rewrite refs_same by reflexivity. rewrite (h_mgr _ _ H), M. reflexivity.
    + apply (InvH_m s h _ _ c i (MWait e match o_kind (s_ev s e) with KUser => [] | KCmd _ ws => ws end)); cbn; auto; [reflexivity|]. intro x. rewrite (h_mgr _ _ H), M. reflexivity.
  - unfold mgr_step in E.
    destruct (s_mgr s c i) as [|e ws|e w r|e lk|e r|e r|e r|e|e|] eqn:M; try discriminate E.
    + destruct ws as [|w r].
      * destruct (o_refs (s_ev s e)); [injection E as <- <-; apply Hcr|].
        assert (forall lk b, InvH (set_mgr c i (MRun e lk) (on_ev e (o_set_cs RUNNING) (acquire (HMgr c i) e s))) (h ++ b)) as Hgo.
        { intros lk b. apply (InvH_m s h _ _ c i (MRun e lk)); cbn; auto.
          - intros x hd N. rewrite upd_upd, upd_eq. rewrite (refs_acquire (s_ev s) e (HMgr c i) (o_set_cs RUNNING)) by reflexivity. tauto.
          - intro x. rewrite upd_upd, upd_eq. rewrite (refs_acquire (s_ev s) e (HMgr c i) (o_set_cs RUNNING)) by reflexivity.
            rewrite (h_mgr _ _ H), M. cbn. intuition congruence. }
        destruct (ctx_alive s c); injection E as <- <-; apply Hgo.
      * destruct (listed s w) eqn:L; injection E as <- <-.
        -- apply (InvH_m s h _ _ c i (MWaitOn e w r)); cbn; auto.
           ++ intros x hd N. rewrite (refs_acquire (s_ev s) w (HMgr c i) (fun o => o)) by reflexivity. tauto.
           ++ intro x. rewrite (refs_acquire (s_ev s) w (HMgr c i) (fun o => o)) by reflexivity.
              rewrite (h_mgr _ _ H), M. cbn. intuition congruence.
        -- apply (InvH_m s h _ _ c i (MExit e)); cbn; auto; [reflexivity|]. intro x. rewrite (h_mgr _ _ H), M. reflexivity.
    + destruct (drop (HMgr c i) w s) as [s1 b] eqn:D. apply drop_facts in D. destruct D as (-> & _ & Hb & _).
      assert (forall m b', (forall x, ~ holds_m m x) -> InvH (set_mgr c i m (on_ev w (fun o => o_set_refs (remove holder_dec (HMgr c i) (o_refs o)) o) s)) (h ++ b')) as Hgo.
      { intros m b' Nm. apply (InvH_m s h _ _ c i m); cbn; auto.
        - intros x hd N. rewrite refs_drop by reflexivity. tauto.
        - intro x. rewrite refs_drop by reflexivity. rewrite (h_mgr _ _ H), M. cbn. specialize (Nm x). intuition congruence. }
      destruct (negb (o_fut (s_ev s w))); [injection E as <- <-; apply Hgo; intros x []|].
      destruct (o_ready (s_ev s w)) eqn:R; [|discriminate E].
      destruct (_ =? _)%Z; injection E as <- <-; apply Hgo; intros x [].
    + injection E as <- <-. apply (InvH_m s h _ _ c i (MNote2 e r)); cbn; auto.
      * intros x hd N. rewrite refs_same by reflexivity. reflexivity.
      * intro x. rewrite refs_same by reflexivity. rewrite (h_mgr _ _ H), M. reflexivity.
    + injection E as <- <-. apply (InvH_m s h _ _ c i (MNote3 e r)); cbn; auto.
      * intros x hd N. rewrite refs_same by reflexivity. reflexivity.
      * intro x. rewrite refs_same by reflexivity. rewrite (h_mgr _ _ H), M. reflexivity.
    + destruct (notify_callback e s) as [s1 b] eqn:D. injection E as <- <-. apply notify_refs in D. destruct D as (D1 & D2 & D3 & _ & _ & D4).
      apply (InvH_m s h _ _ c i (MEnd e)); cbn; auto.
      * congruence.
      * intros x hd N. rewrite D4. reflexivity.
      * intro x. rewrite D4, (h_mgr _ _ H), M. reflexivity.
    + destruct (drop (HMgr c i) e (on_ev e (o_set_cs COMPLETE) s)) as [s1 b] eqn:D. injection E as <- <-.
      apply drop_facts in D. destruct D as (-> & _ & Hb & _).
      apply (InvH_m s h _ _ c i (MExit e)); cbn; auto.
      * intros x hd N. rewrite upd_upd, upd_eq. rewrite (refs_drop (s_ev s) e (HMgr c i) (o_set_cs COMPLETE (s_ev s e))) by reflexivity. tauto.
      * intro x. rewrite upd_upd, upd_eq. rewrite (refs_drop (s_ev s) e (HMgr c i) (o_set_cs COMPLETE (s_ev s e))) by reflexivity.
        rewrite (h_mgr _ _ H), M. cbn. intuition congruence.
    + injection E as <- <-. apply (InvH_m s h _ _ c i MIdle); cbn; auto.
      * intros x hd N. rewrite refs_same by reflexivity. reflexivity.
      * intro x. rewrite refs_same by reflexivity. rewrite (h_mgr _ _ H), M. reflexivity.
  - unfold finish in E. destruct (s_mgr s c i) as [| | |e lk| | | | | |] eqn:M; try discriminate E.
    assert (InvH (set_mgr c i (MNote1 e r) s) (h ++ [ODone e r])) as Hgo.
    { apply (InvH_m s h _ _ c i (MNote1 e r)); cbn; auto; [reflexivity|]. intro x. rewrite (h_mgr _ _ H), M. reflexivity. }
    destruct lk.
    + destruct (ctx_alive _ _); injection E as <- <-; [exact Hgo|apply Hcr].
    + destruct (_ =? _)%Z; [|discriminate]. injection E as <- <-. exact Hgo.
  - unfold usr_step in E.
    destruct (s_usr s t) as [|ws|w r|e code|e r|e r|e r|c] eqn:Ut; try discriminate E.
    + destruct ws as [|w r].
      * injection E as <- <-. apply (InvH_u s h _ _ t UIdle); cbn; auto; [reflexivity|]. intro x. rewrite (h_usr _ _ H), Ut. reflexivity.
      * destruct (listed s w) eqn:L; injection E as <- <-.
        -- apply (InvH_u s h _ _ t (UWaitOn w r)); cbn; auto.
           ++ intros x hd N. rewrite (refs_acquire (s_ev s) w (HUsr t) (fun o => o)) by reflexivity. tauto.
           ++ intro x. rewrite (refs_acquire (s_ev s) w (HUsr t) (fun o => o)) by reflexivity.
              rewrite (h_usr _ _ H), Ut. cbn. intuition congruence.
        -- apply (InvH_u s h _ _ t UIdle); cbn; auto; [reflexivity|]. intro x. rewrite (h_usr _ _ H), Ut. reflexivity.
    + destruct (drop (HUsr t) w s) as [s1 b] eqn:D. apply drop_facts in D. destruct D as (-> & _ & Hb & _).
      assert (forall u b', (forall x, ~ holds_u u x) -> InvH (set_usr t u (on_ev w (fun o => o_set_refs (remove holder_dec (HUsr t) (o_refs o)) o) s)) (h ++ b')) as Hgo.
      { intros u b' Nm. apply (InvH_u s h _ _ t u); cbn; auto.
        - intros x hd N. rewrite refs_drop by reflexivity. tauto.
        - intro x. rewrite refs_drop by reflexivity. rewrite (h_usr _ _ H), Ut. cbn. specialize (Nm x). intuition congruence. }
      destruct (negb (o_fut (s_ev s w))); [injection E as <- <-; apply Hgo; intros x []|].
      destruct (o_ready (s_ev s w)) eqn:R; [|discriminate E].
      destruct (_ =? _)%Z; injection E as <- <-; apply Hgo; intros x [].
    + destruct (_ =? _)%Z; [|destruct (is_error_code code)].
      * injection E as <- <-. apply (InvH_u s h _ _ t (UNote1 e NO_ERROR)); cbn; auto.
        -- intros x hd N. rewrite refs_same by reflexivity. reflexivity.
        -- intro x. rewrite refs_same by reflexivity. rewrite (h_usr _ _ H), Ut. reflexivity.
      * injection E as <- <-. apply (InvH_u s h _ _ t (UNote1 e code)); cbn; auto; [reflexivity|].
        intro x. rewrite (h_usr _ _ H), Ut. reflexivity.
      * destruct (drop (HUsr t) e s) as [s1 b] eqn:D. apply drop_facts in D. destruct D as (-> & _ & Hb & _).
        injection E as <- <-. apply (InvH_u s h _ _ t UIdle); cbn; auto.
        -- intros x hd N. rewrite refs_drop by reflexivity. tauto.
        -- intro x. rewrite refs_drop by reflexivity. rewrite (h_usr _ _ H), Ut. cbn. intuition congruence.
    + injection E as <- <-. apply (InvH_u s h _ _ t (UNote2 e r)); cbn; auto.
      * intros x hd N. rewrite refs_same by reflexivity. reflexivity.
      * intro x. rewrite refs_same by reflexivity. rewrite (h_usr _ _ H), Ut. reflexivity.
    + injection E as <- <-. apply (InvH_u s h _ _ t (UNote3 e r)); cbn; auto.
      * intros x hd N. rewrite refs_same by reflexivity. reflexivity.
      * intro x. rewrite refs_same by reflexivity. rewrite (h_usr _ _ H), Ut. reflexivity.
    + destruct (notify_callback e s) as [s1 b] eqn:N. destruct (drop (HUsr t) e s1) as [s2 b2] eqn:D.
      apply drop_facts in D. destruct D as (-> & _ & Hb & _). injection E as <- <-.
      apply notify_refs in N. destruct N as (D1 & D2 & D3 & _ & _ & D4).
      apply (InvH_u s h _ _ t UIdle); cbn; auto.
      * congruence.
      * intros x hd N. rewrite refs_drop by reflexivity. rewrite D4. tauto.
      * intro x. rewrite refs_drop by reflexivity. rewrite D4, (h_usr _ _ H), Ut. cbn. intuition congruence.
    + destruct (all_stopped s c (s_thr s c)); [|discriminate E].
      destruct (break_queues c (s_thr s c) s) as [s1 b] eqn:D. injection E as <- <-.
      apply break_queues_facts in D. destruct D as (A1 & _ & _ & _ & _ & A6 & A7 & _ & _ & _ & _ & A12).
      assert (forall x, o_refs (s_ev s1 x) = o_refs (s_ev s x)) as R.
      { intro x. destruct (A12 x) as [(k & _ & _ & ->)|(_ & ->)]; reflexivity. }
      apply (InvH_u s h _ _ t UIdle); cbn; auto.
      * congruence.
      * intros x hd N. rewrite R. reflexivity.
      * intro x. rewrite R, (h_usr _ _ H), Ut. reflexivity.
Qed.
