(** * Invariants of the event system: where commands are and what is known of them *)

From Coq Require Import ZArith List Bool Arith Lia Sorting.Sorted.
From Verif Require Import EventModel EventSpec.
Import ListNotations.

(** ** Updates *)

Lemma upd_eq {A} (f : nat -> A) k v : upd f k v k = v.
Proof. unfold upd. now rewrite Nat.eqb_refl. Qed.
Lemma upd_ne {A} (f : nat -> A) k v x : x <> k -> upd f k v x = f x.
Proof. unfold upd. intro H. apply Nat.eqb_neq in H. now rewrite H. Qed.
Lemma upd2_eq {A} (f : nat -> nat -> A) c i v : upd2 f c i v c i = v.
Proof. unfold upd2. now rewrite !Nat.eqb_refl. Qed.
Lemma upd2_ne {A} (f : nat -> nat -> A) c i v x y : x <> c \/ y <> i -> upd2 f c i v x y = f x y.
Proof.
  unfold upd2. intro H. destruct (Nat.eqb_spec x c), (Nat.eqb_spec y i); cbn; auto. destruct H; congruence.
Qed.
Lemma upd2_cases {A} (f : nat -> nat -> A) c i v x y :
  (x = c /\ y = i /\ upd2 f c i v x y = v) \/ ((x <> c \/ y <> i) /\ upd2 f c i v x y = f x y).
Proof.
  destruct (Nat.eq_dec x c) as [->|H]; [destruct (Nat.eq_dec y i) as [->|H]|].
  - left. now rewrite upd2_eq.
  - right. rewrite upd2_ne; auto.
  - right. rewrite upd2_ne; auto.
Qed.

(** ** Notions *)

(** The part of an event that matters for the order of execution. *)
Definition core (o : eobj) := (o_kind o, o_fut o, o_ready o, o_rt o, o_thr o).

Definition mev (m : mstate) : option nat :=
  match m with
  | MIdle | MStopped => None
  | MWait e _ | MWaitOn e _ _ | MRun e _ | MNote1 e _ | MNote2 e _ | MNote3 e _
  | MEnd e | MExit e => Some e
  end.

(** The thread has begun to execute the command. *)
Definition begun (m : mstate) (e : nat) : Prop :=
  match m with
  | MRun e' _ | MNote1 e' _ | MNote2 e' _ | MNote3 e' _ | MEnd e' => e' = e
  | _ => False
  end.

Definition ending (m : mstate) (e : nat) : Prop := m = MEnd e \/ m = MExit e.

Definition outcome (s : est) (h : list obs) (e : nat) : Prop :=
  (exists r, In (ORan e r) h /\ o_rt (s_ev s e) = r)
  \/ (In (OSkip e) h /\ o_rt (s_ev s e) = NO_ERROR)
  \/ (In (ODrop e) h /\ o_rt (s_ev s e) = NO_ERROR).

Definition passed (s : est) (w : nat) : Prop :=
  w < s_n s /\
  (o_fut (s_ev s w) = false \/
   (o_ready (s_ev s w) = true /\ (o_kind (s_ev s w) = KUser \/ o_rt (s_ev s w) = NO_ERROR))).

Definition waiting (s : est) (e : nat) (rest : list nat) : Prop :=
  o_rt (s_ev s e) = NO_ERROR /\
  exists c ws pre, o_kind (s_ev s e) = KCmd c ws /\ ws = pre ++ rest /\ Forall (passed s) pre.

Definition mphase (s : est) (h : list obs) (m : mstate) : Prop :=
  match m with
  | MWait e r => waiting s e r
  | MWaitOn e w r => waiting s e (w :: r) /\ w < s_n s
  | MRun e _ => waiting s e []
  | MNote3 e r => o_rt (s_ev s e) = r
  | MEnd e => exists r, In (ORan e r) h /\ o_rt (s_ev s e) = r
  | MExit e => outcome s h e
  | _ => True
  end.

(** The user event a call of mcSetUserEventStatus works on. *)
Definition uev (u : ustate) : option nat :=
  match u with
  | USwitch e _ | UNote1 e _ | UNote2 e _ | UNote3 e _ => Some e
  | _ => None
  end.

Record InvA (s : est) (h : list obs) : Prop := {
  a_dummy : forall e, s_n s <= e -> s_ev s e = dummy;
  a_enq : forall e c ws, In (OEnq e c ws) h <->
            e < s_n s /\ o_kind (s_ev s e) = KCmd c ws /\ o_fut (s_ev s e) = true;
  a_mgr : forall c i e, mev (s_mgr s c i) = Some e ->
            e < s_n s /\ (exists ws, o_kind (s_ev s e) = KCmd c ws) /\ o_fut (s_ev s e) = true /\
            o_ready (s_ev s e) = false /\ o_thr (s_ev s e) = i /\ i < s_thr s c;
  a_queue : forall c i e, In e (s_queue s c i) ->
            e < s_n s /\ (exists ws, o_kind (s_ev s e) = KCmd c ws) /\ o_fut (s_ev s e) = true /\
            o_ready (s_ev s e) = false /\ o_thr (s_ev s e) = i /\ i < s_thr s c /\
            o_rt (s_ev s e) = NO_ERROR;
  a_sorted : forall c i, StronglySorted lt (s_queue s c i);
  a_order : forall c i e e', mev (s_mgr s c i) = Some e -> In e' (s_queue s c i) -> e < e';
  a_loc : forall e c ws, e < s_n s -> o_kind (s_ev s e) = KCmd c ws -> o_fut (s_ev s e) = true ->
            o_ready (s_ev s e) = false ->
            exists i, i < s_thr s c /\ (In e (s_queue s c i) \/ mev (s_mgr s c i) = Some e);
  a_phase : forall c i, mphase s h (s_mgr s c i);
  a_over : forall e c ws, e < s_n s -> o_kind (s_ev s e) = KCmd c ws -> o_fut (s_ev s e) = true ->
            o_ready (s_ev s e) = true -> outcome s h e;
  a_ran : forall e r, In (ORan e r) h ->
            o_rt (s_ev s e) = r /\ e < s_n s /\ (exists c ws, o_kind (s_ev s e) = KCmd c ws) /\
            o_fut (s_ev s e) = true /\
            (o_ready (s_ev s e) = true \/ exists c i, ending (s_mgr s c i) e);
  a_start : forall e, In (OStart e) h ->
            (exists r, In (ORan e r) h) \/ exists c i, begun (s_mgr s c i) e;
  a_user : forall e, e < s_n s -> o_kind (s_ev s e) = KUser -> o_fut (s_ev s e) = true;
  a_ctx : forall c, s_nctx s <= c -> s_thr s c = 0 /\ s_listed s c = false;
  a_thr : forall c b, In (OContext c b) h -> c < s_nctx s /\ s_thr s c = if b then 2 else 1;
  a_usr : forall t e, uev (s_usr s t) = Some e ->
            e < s_n s /\ o_kind (s_ev s e) = KUser /\ o_ready (s_ev s e) = true
}.

(** ** Steps that touch no manager, no queue and no core *)

(** Observations that say nothing about the order of execution. *)
Definition quiet (o : obs) : Prop :=
  match o with
  | OEnq _ _ _ | ORan _ _ | OStart _ | OContext _ _ => False
  | _ => True
  end.

Lemma quiet_not_enq a e c ws : Forall quiet a -> ~ In (OEnq e c ws) a.
Proof. intros F H. rewrite Forall_forall in F. exact (F _ H). Qed.
Lemma quiet_not_ran a e r : Forall quiet a -> ~ In (ORan e r) a.
Proof. intros F H. rewrite Forall_forall in F. exact (F _ H). Qed.
Lemma quiet_not_start a e : Forall quiet a -> ~ In (OStart e) a.
Proof. intros F H. rewrite Forall_forall in F. exact (F _ H). Qed.
Lemma quiet_not_ctx a c b : Forall quiet a -> ~ In (OContext c b) a.
Proof. intros F H. rewrite Forall_forall in F. exact (F _ H). Qed.

Ltac cores H e :=
  let K := fresh in
  pose proof (H e) as K; unfold core in K; injection K; clear K; intros.

Definition same_core (s s' : est) : Prop := forall e, core (s_ev s' e) = core (s_ev s e).

Lemma sc_kind s s' e : same_core s s' -> o_kind (s_ev s' e) = o_kind (s_ev s e).
Proof. intro H. specialize (H e). unfold core in H. congruence. Qed.
Lemma sc_fut s s' e : same_core s s' -> o_fut (s_ev s' e) = o_fut (s_ev s e).
Proof. intro H. specialize (H e). unfold core in H. congruence. Qed.
Lemma sc_ready s s' e : same_core s s' -> o_ready (s_ev s' e) = o_ready (s_ev s e).
Proof. intro H. specialize (H e). unfold core in H. congruence. Qed.
Lemma sc_rt s s' e : same_core s s' -> o_rt (s_ev s' e) = o_rt (s_ev s e).
Proof. intro H. specialize (H e). unfold core in H. congruence. Qed.
Lemma sc_thr s s' e : same_core s s' -> o_thr (s_ev s' e) = o_thr (s_ev s e).
Proof. intro H. specialize (H e). unfold core in H. congruence. Qed.

Ltac sc H := rewrite ?(sc_kind _ _ _ H), ?(sc_fut _ _ _ H), ?(sc_ready _ _ _ H),
                     ?(sc_rt _ _ _ H), ?(sc_thr _ _ _ H) in *.

Lemma passed_mono s s' w :
  s_n s <= s_n s' -> core (s_ev s' w) = core (s_ev s w) -> passed s w -> passed s' w.
Proof.
  intros Hn Hc (A & B). unfold core in Hc. unfold passed.
  assert (o_kind (s_ev s' w) = o_kind (s_ev s w)) as -> by congruence.
  assert (o_fut (s_ev s' w) = o_fut (s_ev s w)) as -> by congruence.
  assert (o_ready (s_ev s' w) = o_ready (s_ev s w)) as -> by congruence.
  assert (o_rt (s_ev s' w) = o_rt (s_ev s w)) as -> by congruence.
  split; [lia|auto].
Qed.

(** [waiting] survives changes that keep the event's kind and result and do not
    lose a passed entry. *)
Lemma waiting_mono s s' e r :
  o_rt (s_ev s' e) = o_rt (s_ev s e) -> o_kind (s_ev s' e) = o_kind (s_ev s e) ->
  (forall w, passed s w -> passed s' w) -> waiting s e r -> waiting s' e r.
Proof.
  intros H1 H2 H3 (A & c & ws & pre & B & C & D). unfold waiting. rewrite H1, H2.
  split; [exact A|]. exists c, ws, pre. split; [exact B|]. split; [exact C|].
  eapply Forall_impl; [exact H3|exact D].
Qed.

Lemma outcome_mono s s' h a e :
  o_rt (s_ev s' e) = o_rt (s_ev s e) -> outcome s h e -> outcome s' (h ++ a) e.
Proof.
  intros H [(r & A & B)|[(A & B)|(A & B)]]; unfold outcome; rewrite H.
  - left. exists r. rewrite in_app_iff. auto.
  - right. left. rewrite in_app_iff. auto.
  - right. right. rewrite in_app_iff. auto.
Qed.

Lemma mphase_mono s s' h a m :
  s_n s <= s_n s' ->
  (forall e, mev m = Some e -> o_rt (s_ev s' e) = o_rt (s_ev s e) /\ o_kind (s_ev s' e) = o_kind (s_ev s e)) ->
  (forall w, passed s w -> passed s' w) -> mphase s h m -> mphase s' (h ++ a) m.
Proof.
  intros Hn H1 H2 H. destruct m; cbn [mphase mev] in *; auto;
    try (destruct (H1 _ eq_refl) as [R K]).
  - eapply waiting_mono; eauto.
  - destruct H as (W & L). split; [eapply waiting_mono; eauto|lia].
  - eapply waiting_mono; eauto.
  - congruence.
  - destruct H as (r & A & B). exists r. rewrite in_app_iff, R. auto.
  - eapply outcome_mono; eauto.
Qed.

(** The frame: nothing relevant changes. *)
Lemma InvA_frame s h s' a :
  InvA s h -> s_n s' = s_n s -> same_core s s' -> (forall e, s_n s <= e -> s_ev s' e = s_ev s e) ->
  s_nctx s' = s_nctx s -> s_thr s' = s_thr s ->
  (forall c, s_listed s' c = true -> s_listed s c = true) ->
  s_queue s' = s_queue s -> s_mgr s' = s_mgr s ->
  (forall t e, uev (s_usr s' t) = Some e -> uev (s_usr s t) = Some e) ->
  Forall quiet a -> InvA s' (h ++ a).
Proof.
  intros I Hn Hc Hd Hx Ht Hl Hq Hm Hu Qa.
  assert (forall w, passed s w -> passed s' w) as HP.
  { intros w. apply passed_mono; [lia|apply Hc]. }
  constructor; rewrite ?Hn, ?Hx, ?Ht, ?Hq, ?Hm.
  - intros e He. rewrite Hd by exact He. apply (a_dummy _ _ I); exact He.
  - intros e c ws. rewrite in_app_iff. sc Hc. rewrite <- (a_enq _ _ I).
    split; [intros [A|A]; [exact A|exfalso; exact (quiet_not_enq _ _ _ _ Qa A)]|auto].
  - intros c i e He. sc Hc. exact (a_mgr _ _ I c i e He).
  - intros c i e He. sc Hc. exact (a_queue _ _ I c i e He).
  - exact (a_sorted _ _ I).
  - exact (a_order _ _ I).
  - intros e c ws. sc Hc. exact (a_loc _ _ I e c ws).
  - intros c i. eapply (mphase_mono s); [lia| |exact HP|exact (a_phase _ _ I c i)].
    intros e _. sc Hc. auto.
  - intros e c ws A1 A2 A3 A4. sc Hc. apply (outcome_mono s); [apply sc_rt; exact Hc|].
    exact (a_over _ _ I e c ws A1 A2 A3 A4).
  - intros e r A. rewrite in_app_iff in A. destruct A as [A|A]; [|exfalso; exact (quiet_not_ran _ _ _ Qa A)].
    sc Hc. exact (a_ran _ _ I e r A).
  - intros e A. rewrite in_app_iff in A. destruct A as [A|A]; [|exfalso; exact (quiet_not_start _ _ Qa A)].
    destruct (a_start _ _ I e A) as [(r & B)|B]; [left; exists r; rewrite in_app_iff; auto|right; exact B].
  - intros e. sc Hc. exact (a_user _ _ I e).
  - intros c A. destruct (a_ctx _ _ I c A) as (B & C). split; [exact B|].
    apply not_true_iff_false. intro K. apply Hl in K. congruence.
  - intros c b A. rewrite in_app_iff in A. destruct A as [A|A]; [|exfalso; exact (quiet_not_ctx _ _ _ Qa A)].
    exact (a_thr _ _ I c b A).
  - intros t e A. sc Hc. exact (a_usr _ _ I t e (Hu t e A)).
Qed.

(** ** A manager goes on with its command; no core changes *)

Lemma InvA_move s h s' a c i m' e :
  InvA s h -> s_n s' = s_n s -> same_core s s' -> (forall x, s_n s <= x -> s_ev s' x = s_ev s x) ->
  s_nctx s' = s_nctx s -> s_thr s' = s_thr s -> s_listed s' = s_listed s ->
  s_queue s' = s_queue s -> s_mgr s' = upd2 (s_mgr s) c i m' -> s_usr s' = s_usr s ->
  mev (s_mgr s c i) = Some e -> mev m' = Some e ->
  mphase s (h ++ a) m' ->
  (forall x c' ws, ~ In (OEnq x c' ws) a) -> (forall x b, ~ In (OContext x b) a) ->
  (forall x r, In (ORan x r) a -> x = e /\ o_rt (s_ev s e) = r /\ ending m' e) ->
  (forall x, In (OStart x) a -> begun m' x) ->
  (ending (s_mgr s c i) e -> ending m' e) ->
  (begun (s_mgr s c i) e -> begun m' e \/ exists r, In (ORan e r) (h ++ a)) ->
  InvA s' (h ++ a).
Proof.
  intros I Hn Hc Hd Hx Ht Hl Hq Hm Hu He He' Hp N1 N2 N3 N4 N5 N6.
  assert (forall w, passed s w -> passed s' w) as HP.
  { intros w. apply passed_mono; [lia|apply Hc]. }
  assert (forall c' i' x, mev (s_mgr s' c' i') = Some x -> mev (s_mgr s c' i') = Some x) as HM.
  { intros c' i' x. rewrite Hm. destruct (upd2_cases (s_mgr s) c i m' c' i') as [(-> & -> & ->)|(_ & ->)]; [|auto].
    congruence. }
  assert (forall c' i' x, mev (s_mgr s c' i') = Some x -> mev (s_mgr s' c' i') = Some x) as HM'.
  { intros c' i' x. rewrite Hm. destruct (upd2_cases (s_mgr s) c i m' c' i') as [(-> & -> & ->)|(_ & ->)]; [|auto].
    congruence. }
  constructor; rewrite ?Hn, ?Hx, ?Ht, ?Hq, ?Hu, ?Hl.
  - intros x Hxx. rewrite Hd by exact Hxx. apply (a_dummy _ _ I); exact Hxx.
  - intros x c' ws. rewrite in_app_iff. sc Hc. rewrite <- (a_enq _ _ I).
    split; [intros [A|A]; [exact A|exfalso; exact (N1 _ _ _ A)]|auto].
  - intros c' i' x A. sc Hc. apply HM in A. exact (a_mgr _ _ I c' i' x A).
  - intros c' i' x A. sc Hc. exact (a_queue _ _ I c' i' x A).
  - exact (a_sorted _ _ I).
  - intros c' i' x y A. apply HM in A. exact (a_order _ _ I c' i' x y A).
  - intros x c' ws A1 A2 A3 A4. sc Hc. destruct (a_loc _ _ I x c' ws A1 A2 A3 A4) as (j & B & [C|C]); exists j; auto.
  - intros c' i'. rewrite Hm.
    destruct (upd2_cases (s_mgr s) c i m' c' i') as [(-> & -> & ->)|(_ & ->)].
    + assert (mphase s' ((h ++ a) ++ []) m') as K; [|now rewrite app_nil_r in K].
      eapply (mphase_mono s); [lia| |exact HP|exact Hp]. intros x _. sc Hc. auto.
    + eapply (mphase_mono s); [lia| |exact HP|exact (a_phase _ _ I c' i')]. intros x _. sc Hc. auto.
  - intros x c' ws A1 A2 A3 A4. sc Hc. apply (outcome_mono s); [apply sc_rt; exact Hc|].
    exact (a_over _ _ I x c' ws A1 A2 A3 A4).
  - intros x r A. rewrite in_app_iff in A. sc Hc. destruct A as [A|A].
    + destruct (a_ran _ _ I x r A) as (B1 & B2 & B3 & B4 & B5). repeat (split; [assumption|]).
      destruct B5 as [B5|(c' & i' & B5)]; [auto|]. right. exists c', i'. rewrite Hm.
      destruct (upd2_cases (s_mgr s) c i m' c' i') as [(-> & -> & ->)|(_ & ->)]; [|exact B5].
      assert (x = e) as -> by (destruct B5 as [B5|B5]; rewrite B5 in He; cbn in He; congruence). auto.
    + destruct (N3 x r A) as (-> & B & C). destruct (a_mgr _ _ I _ _ _ He) as (D1 & (ws & D2) & D3 & D4 & D5 & D6).
      split; [exact B|]. split; [exact D1|]. split; [eauto|]. split; [exact D3|].
      right. exists c, i. rewrite Hm, upd2_eq. exact C.
  - intros x A. rewrite in_app_iff in A. destruct A as [A|A].
    + destruct (a_start _ _ I x A) as [(r & B)|(c' & i' & B)]; [left; exists r; rewrite in_app_iff; auto|].
      destruct (upd2_cases (s_mgr s) c i m' c' i') as [(-> & -> & K)|(_ & K)].
      * assert (x = e) as ->.
        { destruct (s_mgr s c i); cbn in B, He; try contradiction; congruence. }
        destruct (N6 B) as [C|C]; [right; exists c, i; rewrite Hm, K; exact C|left; exact C].
      * right. exists c', i'. rewrite Hm, K. exact B.
    + right. exists c, i. rewrite Hm, upd2_eq. apply N4. exact A.
  - intros x. sc Hc. exact (a_user _ _ I x).
  - intros x A. exact (a_ctx _ _ I x A).
  - intros x b A. rewrite in_app_iff in A. destruct A as [A|A]; [|exfalso; exact (N2 _ _ A)].
    exact (a_thr _ _ I x b A).
  - intros t x A. sc Hc. exact (a_usr _ _ I t x A).
Qed.

(** ** Commands are taken out of queues and discarded *)

Lemma InvA_dropped s h s' a :
  InvA s h -> s_n s' = s_n s -> s_nctx s' = s_nctx s -> s_thr s' = s_thr s ->
  s_listed s' = s_listed s ->
  (forall e, s_ev s' e = s_ev s e \/
     (s_ev s' e = o_set_ready (s_ev s e) /\ In (ODrop e) a /\ exists c i, In e (s_queue s c i))) ->
  (forall c i, StronglySorted lt (s_queue s' c i)) ->
  (forall c i e, In e (s_queue s' c i) -> In e (s_queue s c i) /\ s_ev s' e = s_ev s e) ->
  (forall c i e, In e (s_queue s c i) -> In e (s_queue s' c i) \/ s_ev s' e = o_set_ready (s_ev s e)) ->
  (forall c i, s_mgr s' c i = s_mgr s c i \/ (mev (s_mgr s c i) = None /\ mev (s_mgr s' c i) = None)) ->
  (forall t e, uev (s_usr s' t) = Some e -> uev (s_usr s t) = Some e) ->
  Forall quiet a -> InvA s' (h ++ a).
Proof.
  intros I Hn Hx Ht Hl He Hs Hq1 Hq2 Hm Hu Qa.
  assert (forall e, o_kind (s_ev s' e) = o_kind (s_ev s e)) as Hk.
  { intro e. destruct (He e) as [->|(-> & _)]; reflexivity. }
  assert (forall e, o_fut (s_ev s' e) = o_fut (s_ev s e)) as Hf.
  { intro e. destruct (He e) as [->|(-> & _)]; reflexivity. }
  assert (forall e, o_rt (s_ev s' e) = o_rt (s_ev s e)) as Hr.
  { intro e. destruct (He e) as [->|(-> & _)]; reflexivity. }
  assert (forall e, o_thr (s_ev s' e) = o_thr (s_ev s e)) as Hth.
  { intro e. destruct (He e) as [->|(-> & _)]; reflexivity. }
  assert (forall e, o_ready (s_ev s e) = true -> o_ready (s_ev s' e) = true) as Hrd.
  { intro e. destruct (He e) as [->|(-> & _)]; auto. }
  assert (forall w, passed s w -> passed s' w) as HP.
  { intros w (A & B). split; [lia|]. rewrite Hf, Hk, Hr. destruct B as [B|(B & C)]; auto. }
  assert (forall c i e, mev (s_mgr s c i) = Some e -> s_ev s' e = s_ev s e) as Hme.
  { intros c i e A. destruct (He e) as [B|(B & _ & c' & i' & C)]; [exact B|exfalso].
    destruct (a_mgr _ _ I _ _ _ A) as (_ & (ws & D1) & _ & _ & D2 & _).
    destruct (a_queue _ _ I _ _ _ C) as (_ & (ws' & E1) & _ & _ & E2 & _).
    assert (c' = c) as -> by congruence. assert (i' = i) as -> by congruence.
    pose proof (a_order _ _ I _ _ _ _ A C). lia. }
  assert (forall c i e, mev (s_mgr s' c i) = Some e -> s_mgr s c i = s_mgr s' c i) as HM.
  { intros c i e A. destruct (Hm c i) as [B|(_ & B)]; congruence. }
  assert (forall c i, mev (s_mgr s c i) <> None -> s_mgr s' c i = s_mgr s c i) as HM'.
  { intros c i A. destruct (Hm c i) as [B|(B & _)]; [exact B|congruence]. }
  constructor; rewrite ?Hn, ?Hx, ?Ht, ?Hl.
  - intros e A. destruct (He e) as [B|(_ & _ & c & i & C)]; [rewrite B; apply (a_dummy _ _ I); exact A|].
    destruct (a_queue _ _ I _ _ _ C). lia.
  - intros e c ws. rewrite in_app_iff, Hk, Hf. rewrite <- (a_enq _ _ I).
    split; [intros [A|A]; [exact A|exfalso; exact (quiet_not_enq _ _ _ _ Qa A)]|auto].
  - intros c i e A. pose proof (HM _ _ _ A) as B. rewrite <- B in A.
    rewrite (Hme _ _ _ A). exact (a_mgr _ _ I c i e A).
  - intros c i e A. destruct (Hq1 _ _ _ A) as (B & ->). exact (a_queue _ _ I c i e B).
  - exact Hs.
  - intros c i e e' A B. pose proof (HM _ _ _ A) as K. rewrite <- K in A.
    apply Hq1 in B. exact (a_order _ _ I c i e e' A (proj1 B)).
  - intros e c ws A1 A2 A3 A4. rewrite Hk in A2. rewrite Hf in A3.
    assert (o_ready (s_ev s e) = false) as A5.
    { apply not_true_iff_false. intro K. apply Hrd in K. congruence. }
    destruct (a_loc _ _ I e c ws A1 A2 A3 A5) as (i & B & [C|C]); exists i; (split; [exact B|]).
    + destruct (Hq2 _ _ _ C) as [D|D]; [auto|]. rewrite D in A4. discriminate.
    + right. rewrite HM' by congruence. exact C.
  - intros c i. destruct (Hm c i) as [->|(A & B)].
    + eapply (mphase_mono s); [lia| |exact HP|exact (a_phase _ _ I c i)]. intros e _. auto.
    + destruct (s_mgr s' c i); try discriminate B; exact Logic.I.
  - intros e c ws A1 A2 A3 A4. rewrite Hk in A2. rewrite Hf in A3.
    destruct (He e) as [B|(B & C & c' & i' & D)].
    + rewrite B in A4. apply (outcome_mono s); [apply Hr|]. exact (a_over _ _ I e c ws A1 A2 A3 A4).
    + right. right. split; [rewrite in_app_iff; auto|]. rewrite Hr.
      destruct (a_queue _ _ I _ _ _ D) as (_ & _ & _ & _ & _ & _ & E). exact E.
  - intros e r A. rewrite in_app_iff in A. destruct A as [A|A]; [|exfalso; exact (quiet_not_ran _ _ _ Qa A)].
    rewrite Hr, Hk, Hf. destruct (a_ran _ _ I e r A) as (B1 & B2 & B3 & B4 & B5).
    repeat (split; [assumption|]). destruct B5 as [B5|(c & i & B5)]; [auto|].
    right. exists c, i. rewrite HM'; [exact B5|]. destruct B5 as [->| ->]; discriminate.
  - intros e A. rewrite in_app_iff in A. destruct A as [A|A]; [|exfalso; exact (quiet_not_start _ _ Qa A)].
    destruct (a_start _ _ I e A) as [(r & B)|(c & i & B)]; [left; exists r; rewrite in_app_iff; auto|].
    right. exists c, i. rewrite HM'; [exact B|]. destruct (s_mgr s c i); try contradiction; discriminate.
  - intros e. rewrite Hk, Hf. exact (a_user _ _ I e).
  - exact (a_ctx _ _ I).
  - intros c b A. rewrite in_app_iff in A. destruct A as [A|A]; [|exfalso; exact (quiet_not_ctx _ _ _ Qa A)].
    exact (a_thr _ _ I c b A).
  - intros t e A. rewrite Hk. destruct (a_usr _ _ I t e (Hu t e A)) as (B1 & B2 & B3). auto.
Qed.

(** ** Changes of one event *)

(** The result of a user event changes, or it becomes ready. *)
Lemma InvA_user_change s h s' a x o' :
  InvA s h -> s_n s' = s_n s -> s_nctx s' = s_nctx s -> s_thr s' = s_thr s ->
  s_listed s' = s_listed s -> s_queue s' = s_queue s -> s_mgr s' = s_mgr s ->
  (forall e, s_ev s' e = upd (s_ev s) x o' e) ->
  x < s_n s -> o_kind (s_ev s x) = KUser -> o_kind o' = KUser -> o_fut o' = o_fut (s_ev s x) ->
  o_ready o' = true ->
  (forall t e, uev (s_usr s' t) = Some e -> uev (s_usr s t) = Some e \/ e = x) ->
  Forall quiet a -> InvA s' (h ++ a).
Proof.
  intros I Hn Hx Ht Hl Hq Hm He Lx Kx Ko Fo Ro Hu Qa.
  assert (forall e, (e = x /\ s_ev s' e = o') \/ (e <> x /\ s_ev s' e = s_ev s e)) as Hev.
  { intro e. rewrite He. destruct (Nat.eq_dec e x) as [->|N]; [left; rewrite upd_eq; auto|right; rewrite upd_ne; auto]. }
  assert (forall e c ws, o_kind (s_ev s e) = KCmd c ws -> s_ev s' e = s_ev s e) as Hc.
  { intros e c ws A. destruct (Hev e) as [(-> & _)|(_ & B)]; [congruence|exact B]. }
  assert (forall e, o_kind (s_ev s' e) = o_kind (s_ev s e)) as Hk.
  { intros e. destruct (Hev e) as [(-> & ->)|(_ & ->)]; congruence. }
  assert (forall e, o_fut (s_ev s' e) = o_fut (s_ev s e)) as Hf.
  { intros e. destruct (Hev e) as [(-> & ->)|(_ & ->)]; congruence. }
  assert (forall w, passed s w -> passed s' w) as HP.
  { intros w (A & B). split; [lia|]. rewrite Hf, Hk. destruct (Hev w) as [(-> & ->)|(_ & ->)]; [|auto].
    destruct B as [B|B]; auto. }
  constructor; rewrite ?Hn, ?Hx, ?Ht, ?Hl, ?Hq, ?Hm.
  - intros e A. destruct (Hev e) as [(-> & _)|(_ & ->)]; [lia|]. apply (a_dummy _ _ I); exact A.
  - intros e c ws. rewrite in_app_iff, Hk, Hf. rewrite <- (a_enq _ _ I).
    split; [intros [A|A]; [exact A|exfalso; exact (quiet_not_enq _ _ _ _ Qa A)]|auto].
  - intros c i e A. pose proof (a_mgr _ _ I c i e A) as B. destruct B as (B1 & (ws & B2) & B3).
    rewrite (Hc _ _ _ B2). eauto.
  - intros c i e A. pose proof (a_queue _ _ I c i e A) as B. destruct B as (B1 & (ws & B2) & B3).
    rewrite (Hc _ _ _ B2). eauto.
  - exact (a_sorted _ _ I).
  - exact (a_order _ _ I).
  - intros e c ws A1 A2 A3 A4. rewrite Hk in A2. rewrite (Hc _ _ _ A2) in A3, A4. exact (a_loc _ _ I e c ws A1 A2 A3 A4).
  - intros c i. eapply (mphase_mono s); [lia| |exact HP|exact (a_phase _ _ I c i)].
    intros e A. destruct (a_mgr _ _ I c i e A) as (_ & (ws & B) & _). rewrite (Hc _ _ _ B). auto.
  - intros e c ws A1 A2 A3 A4. rewrite Hk in A2. rewrite (Hc _ _ _ A2) in A3, A4.
    apply (outcome_mono s); [now rewrite (Hc _ _ _ A2)|]. exact (a_over _ _ I e c ws A1 A2 A3 A4).
  - intros e r A. rewrite in_app_iff in A. destruct A as [A|A]; [|exfalso; exact (quiet_not_ran _ _ _ Qa A)].
    pose proof (a_ran _ _ I e r A) as B. destruct B as (B1 & B2 & (c & ws & B3) & B4). rewrite (Hc _ _ _ B3). eauto 10.
  - intros e A. rewrite in_app_iff in A. destruct A as [A|A]; [|exfalso; exact (quiet_not_start _ _ Qa A)].
    destruct (a_start _ _ I e A) as [(r & B)|B]; [left; exists r; rewrite in_app_iff; auto|right; exact B].
  - intros e. rewrite Hk, Hf. exact (a_user _ _ I e).
  - exact (a_ctx _ _ I).
  - intros c b A. rewrite in_app_iff in A. destruct A as [A|A]; [|exfalso; exact (quiet_not_ctx _ _ _ Qa A)].
    exact (a_thr _ _ I c b A).
  - intros t e A. rewrite Hk. destruct (Hu t e A) as [B| ->].
    + destruct (a_usr _ _ I t e B) as (C1 & C2 & C3). split; [exact C1|]. split; [exact C2|].
      destruct (Hev e) as [(-> & ->)|(_ & ->)]; auto.
    + split; [exact Lx|]. split; [exact Kx|]. destruct (Hev x) as [(_ & ->)|(N & _)]; [exact Ro|congruence].
Qed.

(** A manager changes its own command: the result is stored, or the future
    becomes ready. *)
Lemma InvA_own_change s h s' c i e m' o' :
  InvA s h -> s_n s' = s_n s -> s_nctx s' = s_nctx s -> s_thr s' = s_thr s ->
  s_listed s' = s_listed s -> s_queue s' = s_queue s -> s_mgr s' = upd2 (s_mgr s) c i m' ->
  s_usr s' = s_usr s -> (forall x, s_ev s' x = upd (s_ev s) e o' x) ->
  mev (s_mgr s c i) = Some e ->
  o_kind o' = o_kind (s_ev s e) -> o_fut o' = o_fut (s_ev s e) -> o_thr o' = o_thr (s_ev s e) ->
  (exists r, s_mgr s c i = MNote2 e r /\ m' = MNote3 e r /\ o_rt o' = r /\ o_ready o' = false) \/
  (s_mgr s c i = MExit e /\ m' = MIdle /\ o_rt o' = o_rt (s_ev s e) /\ o_ready o' = true) ->
  InvA s' h.
Proof.
  intros I Hn Hx Ht Hl Hq Hm Hu He Me Ko Fo To Hcase.
  destruct (a_mgr _ _ I _ _ _ Me) as (G1 & (wse & G2) & G3 & G4 & G5 & G6).
  assert (forall x, (x = e /\ s_ev s' x = o') \/ (x <> e /\ s_ev s' x = s_ev s x)) as Hev.
  { intro x. rewrite He. destruct (Nat.eq_dec x e) as [->|N]; [left; rewrite upd_eq; auto|right; rewrite upd_ne; auto]. }
  assert (forall x, o_kind (s_ev s' x) = o_kind (s_ev s x)) as Hk.
  { intros x. destruct (Hev x) as [(-> & ->)|(_ & ->)]; congruence. }
  assert (forall x, o_fut (s_ev s' x) = o_fut (s_ev s x)) as Hf.
  { intros x. destruct (Hev x) as [(-> & ->)|(_ & ->)]; congruence. }
  assert (forall x, o_thr (s_ev s' x) = o_thr (s_ev s x)) as Hth.
  { intros x. destruct (Hev x) as [(-> & ->)|(_ & ->)]; congruence. }
  assert (~ passed s e) as NP.
  { intros (_ & [A|(A & _)]); congruence. }
  assert (forall w, passed s w -> passed s' w) as HP.
  { intros w A. destruct (Nat.eq_dec w e) as [->|N]; [exfalso; exact (NP A)|].
    destruct A as (A & B). split; [lia|]. destruct (Hev w) as [(W & _)|(_ & ->)]; [congruence|exact B]. }
  (* the command is nowhere else *)
  assert (forall c' i', mev (s_mgr s c' i') = Some e -> c' = c /\ i' = i) as Huniq.
  { intros c' i' A. destruct (a_mgr _ _ I _ _ _ A) as (_ & (w2 & B) & _ & _ & C & _).
    split; congruence. }
  assert (forall c' i', ~ In e (s_queue s c' i')) as Hnq.
  { intros c' i' A. destruct (a_queue _ _ I _ _ _ A) as (_ & (w2 & B) & _ & _ & C & _).
    assert (c' = c) as -> by congruence. assert (i' = i) as -> by congruence.
    pose proof (a_order _ _ I _ _ _ _ Me A). lia. }
  assert (forall c' i' x, mev (s_mgr s' c' i') = Some x -> mev (s_mgr s c' i') = Some x) as HM.
  { intros c' i' x. rewrite Hm. destruct (upd2_cases (s_mgr s) c i m' c' i') as [(-> & -> & ->)|(_ & ->)]; [|auto].
    destruct Hcase as [(r & A & -> & _)|(A & -> & _)]; rewrite A; cbn; auto; discriminate. }
  constructor; rewrite ?Hn, ?Hx, ?Ht, ?Hl, ?Hq, ?Hu.
  - intros x A. destruct (Hev x) as [(-> & _)|(_ & ->)]; [lia|]. apply (a_dummy _ _ I); exact A.
  - intros x c' ws. rewrite Hk, Hf. exact (a_enq _ _ I x c' ws).
  - intros c' i' x A. pose proof (HM _ _ _ A) as B. destruct (a_mgr _ _ I _ _ _ B) as (D1 & D2 & D3 & D4 & D5 & D6).
    rewrite Hk, Hf, Hth. destruct (Hev x) as [(-> & E)|(_ & E)]; rewrite E; [|auto 10].
    repeat (split; [assumption|]).
    destruct (Huniq _ _ B) as [-> ->]. rewrite Hm, upd2_eq in A.
    destruct Hcase as [(r & C1 & C2 & C3 & C4)|(C1 & C2 & C3 & C4)]; [auto|]. subst m'. discriminate.
  - intros c' i' x A. destruct (Hev x) as [(-> & E)|(_ & ->)]; [exfalso; exact (Hnq _ _ A)|].
    exact (a_queue _ _ I _ _ _ A).
  - exact (a_sorted _ _ I).
  - intros c' i' x y A. apply HM in A. exact (a_order _ _ I c' i' x y A).
  - intros x c' ws A1 A2 A3 A4. rewrite Hk in A2. rewrite Hf in A3.
    destruct (Hev x) as [(-> & E)|(N & E)]; rewrite E in A4.
    + exists i. assert (c' = c) as -> by congruence. split; [exact G6|].
      right. rewrite Hm, upd2_eq. destruct Hcase as [(r & C1 & C2 & C3 & C4)|(C1 & C2 & C3 & C4)]; [subst; reflexivity|congruence].
    + destruct (a_loc _ _ I x c' ws A1 A2 A3 A4) as (j & B & [C|C]); exists j; (split; [exact B|]); [auto|].
      right. rewrite Hm. destruct (upd2_cases (s_mgr s) c i m' c' j) as [(-> & -> & _)|(_ & ->)]; [congruence|exact C].
  - intros c' i'. rewrite Hm. destruct (upd2_cases (s_mgr s) c i m' c' i') as [(-> & -> & ->)|(N & ->)].
    + destruct Hcase as [(r & C1 & C2 & C3 & C4)|(C1 & C2 & C3 & C4)]; subst m'; [|exact Logic.I].
      cbn. rewrite He, upd_eq. exact C3.
    + rewrite <- (app_nil_r h). eapply (mphase_mono s); [lia| |exact HP|exact (a_phase _ _ I c' i')].
      intros x A. rewrite Hk. split; [|reflexivity]. destruct (Hev x) as [(-> & _)|(_ & ->)]; [|reflexivity].
      destruct (Huniq _ _ A). destruct N; congruence.
  - intros x c' ws A1 A2 A3 A4. rewrite Hk in A2. rewrite Hf in A3.
    destruct (Hev x) as [(-> & E)|(_ & E)]; rewrite E in A4.
    + destruct Hcase as [(r & C1 & C2 & C3 & C4)|(C1 & C2 & C3 & C4)]; [congruence|].
      pose proof (a_phase _ _ I c i) as P. rewrite C1 in P. cbn in P.
      rewrite <- (app_nil_r h). apply (outcome_mono s); [|exact P]. rewrite He, upd_eq. exact C3.
    + rewrite <- (app_nil_r h). apply (outcome_mono s); [rewrite E; reflexivity|].
      exact (a_over _ _ I x c' ws A1 A2 A3 A4).
  - intros x r A. destruct (a_ran _ _ I x r A) as (B1 & B2 & B3 & B4 & B5). rewrite Hk, Hf.
    destruct Hcase as [(r2 & C1 & C2 & C3 & C4)|(C1 & C2 & C3 & C4)].
    + assert (x <> e) as N.
      { intros ->. destruct B5 as [B5|(c' & i' & B5)]; [congruence|].
        destruct (Huniq c' i') as [-> ->]; [destruct B5 as [-> | ->]; reflexivity|].
        rewrite C1 in B5. destruct B5; discriminate. }
      destruct (Hev x) as [(X & _)|(_ & ->)]; [congruence|]. repeat (split; [assumption|]).
      destruct B5 as [B5|(c' & i' & B5)]; [auto|]. right. exists c', i'. rewrite Hm.
      destruct (upd2_cases (s_mgr s) c i m' c' i') as [(-> & -> & _)|(_ & ->)]; [|exact B5].
      rewrite C1 in B5. destruct B5; discriminate.
    + destruct (Hev x) as [(-> & ->)|(N & ->)].
      * rewrite C3. auto 10.
      * repeat (split; [assumption|]).
        destruct B5 as [B5|(c' & i' & B5)]; [auto|]. right. exists c', i'. rewrite Hm.
        destruct (upd2_cases (s_mgr s) c i m' c' i') as [(-> & -> & _)|(_ & ->)]; [|exact B5].
        rewrite C1 in B5. destruct B5; congruence.
  - intros x A. destruct (a_start _ _ I x A) as [B|(c' & i' & B)]; [auto|]. right. exists c', i'. rewrite Hm.
    destruct (upd2_cases (s_mgr s) c i m' c' i') as [(-> & -> & ->)|(_ & ->)]; [|exact B].
    destruct Hcase as [(r2 & C1 & C2 & _)|(C1 & C2 & _)]; rewrite C1 in B; cbn in B; [subst; reflexivity|contradiction].
  - intros x. rewrite Hk, Hf. exact (a_user _ _ I x).
  - exact (a_ctx _ _ I).
  - exact (a_thr _ _ I).
  - intros t x A. destruct (a_usr _ _ I t x A) as (B1 & B2 & B3). rewrite Hk.
    destruct (Hev x) as [(-> & _)|(_ & ->)]; [congruence|auto].
Qed.

(** ** New events *)

(** A new event that is not a waiting command. *)
Lemma InvA_add s h o a :
  InvA s h -> (o_kind o = KUser /\ o_fut o = true \/ o_fut o = false /\ exists c ws, o_kind o = KCmd c ws) ->
  Forall quiet a -> InvA (add_ev o s) (h ++ a).
Proof.
  intros I Ho Qa. set (n := s_n s).
  assert (forall e, (e = n /\ s_ev (add_ev o s) e = o) \/ (e <> n /\ s_ev (add_ev o s) e = s_ev s e)) as Hev.
  { intro e. cbn. fold n. destruct (Nat.eq_dec e n) as [->|N]; [left; rewrite upd_eq; auto|right; rewrite upd_ne; auto]. }
  assert (forall e, e < n -> s_ev (add_ev o s) e = s_ev s e) as Hold.
  { intros e A. destruct (Hev e) as [(-> & _)|(_ & B)]; [lia|exact B]. }
  assert (forall w, passed s w -> passed (add_ev o s) w) as HP.
  { intros w A. pose proof A as (B & _). apply (passed_mono s); [cbn; lia| |exact A].
    rewrite Hold by exact B. reflexivity. }
  assert (s_ev s n = dummy) as Hd by (apply (a_dummy _ _ I); unfold n; lia).
  constructor; cbn [add_ev s_n s_nctx s_thr s_listed s_done s_queue s_mgr s_usr]; fold n.
  - intros e A. destruct (Hev e) as [(-> & _)|(_ & B)]; [lia|]. rewrite B. apply (a_dummy _ _ I). fold n. lia.
  - intros e c ws. rewrite in_app_iff. rewrite (a_enq _ _ I). fold n.
    split.
    + intros [(A1 & A2 & A3)|A]; [|exfalso; exact (quiet_not_enq _ _ _ _ Qa A)].
      rewrite Hold by exact A1. split; [lia|auto].
    + intros (A1 & A2 & A3). left. destruct (Hev e) as [(-> & B)|(N & B)]; rewrite B in A2, A3.
      * exfalso. destruct Ho as [(Ho & _)|(Ho & _)]; congruence.
      * split; [lia|auto].
  - intros c i e A. pose proof (a_mgr _ _ I _ _ _ A) as B. fold n in B. rewrite Hold by tauto.
    destruct B as (B1 & B). split; [lia|exact B].
  - intros c i e A. pose proof (a_queue _ _ I _ _ _ A) as B. fold n in B. rewrite Hold by tauto.
    destruct B as (B1 & B). split; [lia|exact B].
  - exact (a_sorted _ _ I).
  - exact (a_order _ _ I).
  - intros e c ws A1 A2 A3 A4. destruct (Hev e) as [(-> & B)|(N & B)]; rewrite B in A2, A3, A4.
    + exfalso. destruct Ho as [(Ho & _)|(Ho & _)]; congruence.
    + apply (a_loc _ _ I e c ws); auto. fold n. lia.
  - intros c i. eapply (mphase_mono s); [cbn; lia| |exact HP|exact (a_phase _ _ I c i)].
    intros e A. pose proof (a_mgr _ _ I _ _ _ A) as B. fold n in B. rewrite Hold by tauto. auto.
  - intros e c ws A1 A2 A3 A4. destruct (Hev e) as [(-> & B)|(N & B)]; rewrite B in A2, A3, A4.
    + exfalso. destruct Ho as [(Ho & _)|(Ho & _)]; congruence.
    + apply (outcome_mono s); [now rewrite B|]. apply (a_over _ _ I e c ws); auto. fold n. lia.
  - intros e r A. rewrite in_app_iff in A. destruct A as [A|A]; [|exfalso; exact (quiet_not_ran _ _ _ Qa A)].
    pose proof (a_ran _ _ I e r A) as B. fold n in B. rewrite Hold by tauto. destruct B as (B1 & B2 & B3).
    split; [exact B1|]. split; [lia|exact B3].
  - intros e A. rewrite in_app_iff in A. destruct A as [A|A]; [|exfalso; exact (quiet_not_start _ _ Qa A)].
    destruct (a_start _ _ I e A) as [(r & B)|B]; [left; exists r; rewrite in_app_iff; auto|right; exact B].
  - intros e A1 A2. destruct (Hev e) as [(-> & B)|(N & B)]; rewrite B in *.
    + destruct Ho as [(_ & Ho)|(_ & c & ws & Ho)]; [exact Ho|congruence].
    + apply (a_user _ _ I); [fold n; lia|exact A2].
  - exact (a_ctx _ _ I).
  - intros c b A. rewrite in_app_iff in A. destruct A as [A|A]; [|exfalso; exact (quiet_not_ctx _ _ _ Qa A)].
    exact (a_thr _ _ I c b A).
  - intros t e A. pose proof (a_usr _ _ I t e A) as B. fold n in B. rewrite Hold by tauto.
    destruct B as (B1 & B). split; [lia|exact B].
Qed.

Lemma sorted_snoc q (e : nat) : StronglySorted lt q -> (forall x, In x q -> x < e) -> StronglySorted lt (q ++ [e]).
Proof.
  induction q as [|x q IH]; intros S B; cbn; [repeat constructor|].
  inversion_clear S. constructor.
  - apply IH; [assumption|]. intros y A. apply B. now right.
  - apply Forall_app. split; [assumption|]. constructor; [|constructor]. apply B. now left.
Qed.

(** A command is accepted. *)
Lemma InvA_enqueue s h c ws j o :
  InvA s h -> j < s_thr s c ->
  o_kind o = KCmd c ws -> o_fut o = true -> o_ready o = false -> o_rt o = NO_ERROR -> o_thr o = j ->
  InvA (set_queue c j (s_queue s c j ++ [s_n s]) (add_ev o s)) (h ++ [OEnq (s_n s) c ws]).
Proof.
  intros I Hj K1 K2 K3 K4 K5. set (n := s_n s). set (s' := set_queue _ _ _ _).
  assert (forall e, (e = n /\ s_ev s' e = o) \/ (e <> n /\ s_ev s' e = s_ev s e)) as Hev.
  { intro e. cbn. fold n. destruct (Nat.eq_dec e n) as [->|N]; [left; rewrite upd_eq; auto|right; rewrite upd_ne; auto]. }
  assert (forall e, e < n -> s_ev s' e = s_ev s e) as Hold.
  { intros e A. destruct (Hev e) as [(-> & _)|(_ & B)]; [lia|exact B]. }
  assert (s_ev s' n = o) as Hnew.
  { destruct (Hev n) as [(_ & B)|(N & _)]; [exact B|congruence]. }
  assert (forall w, passed s w -> passed s' w) as HP.
  { intros w A. pose proof A as (B & _). apply (passed_mono s); [cbn; lia| |exact A].
    rewrite Hold by exact B. reflexivity. }
  assert (forall c' i e, In e (s_queue s' c' i) <-> (In e (s_queue s c' i) \/ (c' = c /\ i = j /\ e = n))) as Hq.
  { intros c' i e. cbn. destruct (upd2_cases (s_queue s) c j (s_queue s c j ++ [n]) c' i) as [(-> & -> & E)|(N & E)].
    - fold n. rewrite E, in_app_iff. cbn. intuition.
    - fold n. rewrite E. intuition. }
  assert (s_n s' = S n) as Hn by reflexivity.
  constructor; rewrite ?Hn; cbn [s_nctx s_thr s_listed s_mgr s_usr s' set_queue add_ev].
  - intros e A. destruct (Hev e) as [(-> & _)|(_ & B)]; [lia|]. rewrite B. apply (a_dummy _ _ I). fold n. lia.
  - intros e c' ws'. rewrite in_app_iff. rewrite (a_enq _ _ I). fold n. split.
    + intros [(A1 & A2 & A3)|[A|[]]].
      * rewrite Hold by exact A1. split; [lia|auto].
      * injection A as <- <- <-. rewrite Hnew. split; [lia|auto].
    + intros (A1 & A2 & A3). destruct (Hev e) as [(-> & B)|(N & B)]; rewrite B in A2, A3.
      * right. left. congruence.
      * left. split; [lia|auto].
  - intros c' i e A. pose proof (a_mgr _ _ I _ _ _ A) as B. fold n in B. rewrite Hold by tauto.
    destruct B as (B1 & B). split; [lia|exact B].
  - intros c' i e A. apply Hq in A. destruct A as [A|(-> & -> & ->)].
    + pose proof (a_queue _ _ I _ _ _ A) as B. fold n in B. rewrite Hold by tauto.
      destruct B as (B1 & B). split; [lia|exact B].
    + rewrite Hnew. split; [lia|]. split; [eauto|]. auto 10.
  - intros c' i. cbn. destruct (upd2_cases (s_queue s) c j (s_queue s c j ++ [n]) c' i) as [(-> & -> & E)|(N & E)]; fold n; rewrite E.
    + apply sorted_snoc; [exact (a_sorted _ _ I c j)|]. intros x A. destruct (a_queue _ _ I _ _ _ A). fold n in H. lia.
    + exact (a_sorted _ _ I c' i).
  - intros c' i e e' A B. apply Hq in B. destruct B as [B|(-> & -> & ->)]; [exact (a_order _ _ I _ _ _ _ A B)|].
    destruct (a_mgr _ _ I _ _ _ A). fold n in H. lia.
  - intros e c' ws' A1 A2 A3 A4. destruct (Hev e) as [(-> & B)|(N & B)]; rewrite B in A2, A3, A4.
    + exists j. assert (c' = c) as -> by congruence. split; [exact Hj|]. left. apply Hq. auto.
    + destruct (a_loc _ _ I e c' ws') as (i & C & D); auto; [fold n; lia|]. exists i. split; [exact C|].
      destruct D as [D|D]; [left; apply Hq; auto|auto].
  - intros c' i. eapply (mphase_mono s); [cbn; lia| |exact HP|exact (a_phase _ _ I c' i)].
    intros e A. pose proof (a_mgr _ _ I _ _ _ A) as B. fold n in B. rewrite Hold by tauto. auto.
  - intros e c' ws' A1 A2 A3 A4. destruct (Hev e) as [(-> & B)|(N & B)]; rewrite B in A2, A3, A4; [congruence|].
    apply (outcome_mono s); [now rewrite B|]. apply (a_over _ _ I e c' ws'); auto. fold n. lia.
  - intros e r A. rewrite in_app_iff in A. destruct A as [A|[A|[]]]; [|discriminate].
    pose proof (a_ran _ _ I e r A) as B. fold n in B. rewrite Hold by tauto. destruct B as (B1 & B2 & B3).
    split; [exact B1|]. split; [lia|exact B3].
  - intros e A. rewrite in_app_iff in A. destruct A as [A|[A|[]]]; [|discriminate].
    destruct (a_start _ _ I e A) as [(r & B)|B]; [left; exists r; rewrite in_app_iff; auto|right; exact B].
  - intros e A1 A2. destruct (Hev e) as [(-> & B)|(N & B)]; rewrite B in *; [congruence|].
    apply (a_user _ _ I); [fold n; lia|exact A2].
  - exact (a_ctx _ _ I).
  - intros x b A. rewrite in_app_iff in A. destruct A as [A|[A|[]]]; [|discriminate]. exact (a_thr _ _ I x b A).
  - intros t e A. pose proof (a_usr _ _ I t e A) as B. fold n in B. rewrite Hold by tauto.
    destruct B as (B1 & B). split; [lia|exact B].
Qed.

(** ** A manager takes the next command *)

Lemma InvA_pop s h c i e q :
  InvA s h -> s_mgr s c i = MIdle -> s_queue s c i = e :: q ->
  InvA (set_mgr c i (MWait e match o_kind (s_ev s e) with KCmd _ ws => ws | KUser => [] end)
                (set_queue c i q s)) h.
Proof.
  intros I Hm Hq. set (m' := MWait _ _). set (s' := set_mgr _ _ _ _).
  assert (In e (s_queue s c i)) as Hin by (rewrite Hq; now left).
  destruct (a_queue _ _ I _ _ _ Hin) as (G1 & (ws & G2) & G3 & G4 & G5 & G6 & G7).
  pose proof (a_sorted _ _ I c i) as GS. rewrite Hq in GS. inversion_clear GS as [|? ? GS1 GS2].
  rewrite Forall_forall in GS2.
  assert (forall c' i', (c' = c /\ i' = i /\ s_queue s' c' i' = q /\ s_mgr s' c' i' = m') \/
                        ((c' <> c \/ i' <> i) /\ s_queue s' c' i' = s_queue s c' i' /\ s_mgr s' c' i' = s_mgr s c' i')) as Hc.
  { intros c' i'. cbn. destruct (upd2_cases (s_queue s) c i q c' i') as [(-> & -> & E)|(N & E)].
    - left. rewrite E, upd2_eq. auto.
    - right. rewrite E, upd2_ne by exact N. auto. }
  constructor; cbn [s_n s_ev s_nctx s_thr s_listed s_usr s' set_mgr set_queue].
  - exact (a_dummy _ _ I).
  - exact (a_enq _ _ I).
  - intros c' i' x A. destruct (Hc c' i') as [(-> & -> & _ & E)|(_ & _ & E)]; fold s' in A; rewrite E in A.
    + cbn in A. injection A as <-. rewrite G2. eauto 10.
    + exact (a_mgr _ _ I _ _ _ A).
  - intros c' i' x A. destruct (Hc c' i') as [(-> & -> & E & _)|(_ & E & _)]; fold s' in A; rewrite E in A.
    + apply (a_queue _ _ I). rewrite Hq. now right.
    + exact (a_queue _ _ I _ _ _ A).
  - intros c' i'. destruct (Hc c' i') as [(-> & -> & E & _)|(_ & E & _)]; fold s'; rewrite E; [exact GS1|exact (a_sorted _ _ I c' i')].
  - intros c' i' x y A B. fold s' in A, B. destruct (Hc c' i') as [(-> & -> & E & F)|(_ & E & F)]; rewrite E in B; rewrite F in A.
    + cbn in A. injection A as <-. apply GS2. exact B.
    + exact (a_order _ _ I _ _ _ _ A B).
  - intros x c' ws' A1 A2 A3 A4. destruct (a_loc _ _ I x c' ws' A1 A2 A3 A4) as (j & B & C). exists j. split; [exact B|].
    fold s'. destruct (Hc c' j) as [(-> & -> & E & F)|(_ & E & F)]; rewrite E, F; [|exact C].
    destruct C as [C|C].
    + rewrite Hq in C. destruct C as [<-|C]; [right; reflexivity|left; exact C].
    + rewrite Hm in C. discriminate.
  - intros c' i'. fold s'. destruct (Hc c' i') as [(-> & -> & _ & ->)|(_ & _ & ->)].
    + unfold m'. cbn. rewrite G2. split; [exact G7|]. exists c, ws, []. cbn. auto.
    + rewrite <- (app_nil_r h). eapply (mphase_mono s); [cbn; lia| | |exact (a_phase _ _ I c' i')]; auto.
  - exact (a_over _ _ I).
  - intros x r A. destruct (a_ran _ _ I x r A) as (B1 & B2 & B3 & B4 & B5). repeat (split; [assumption|]).
    destruct B5 as [B5|(c' & i' & B5)]; [auto|]. right. exists c', i'. fold s'.
    destruct (Hc c' i') as [(-> & -> & _)|(_ & _ & ->)]; [|exact B5]. rewrite Hm in B5. destruct B5; discriminate.
  - intros x A. destruct (a_start _ _ I x A) as [B|(c' & i' & B)]; [auto|]. right. exists c', i'. fold s'.
    destruct (Hc c' i') as [(-> & -> & _)|(_ & _ & ->)]; [|exact B]. rewrite Hm in B. destruct B.
  - exact (a_user _ _ I).
  - exact (a_ctx _ _ I).
  - exact (a_thr _ _ I).
  - exact (a_usr _ _ I).
Qed.

(** ** Every step *)

Lemma listed_lt s h e : InvA s h -> listed s e = true -> e < s_n s.
Proof.
  intros I H. destruct (le_lt_dec (s_n s) e) as [A|A]; [|exact A].
  unfold listed in H. rewrite (a_dummy _ _ I e A) in H. discriminate.
Qed.

(** One event changes, outside of its core. *)
Lemma on_ev_core e f s : core (f (s_ev s e)) = core (s_ev s e) -> same_core s (on_ev e f s).
Proof.
  intros H x. unfold on_ev, set_ev. cbn. destruct (Nat.eq_dec x e) as [->|N]; [rewrite upd_eq; exact H|].
  now rewrite upd_ne.
Qed.

Lemma on_ev_high e f s x : e < s_n s -> s_n s <= x -> s_ev (on_ev e f s) x = s_ev s x.
Proof. intros A B. unfold on_ev, set_ev. cbn. apply upd_ne. lia. Qed.

Lemma destroy_quiet e o : Forall quiet (destroy e o).
Proof. unfold destroy. destruct (o_cb o); [|constructor]. destruct (_ && _); repeat constructor. Qed.

Lemma drop_facts hd e s s1 a :
  drop hd e s = (s1, a) ->
  s1 = on_ev e (fun o => o_set_refs (remove holder_dec hd (o_refs o)) o) s /\ Forall quiet a /\
  (forall o, In o a -> exists k, o = OCall e k) /\
  (s_ev s e = dummy -> s_ev s1 e = dummy).
Proof.
  unfold drop. intro H. injection H as <- <-.
  split; [reflexivity|]. split; [|split].
  - destruct (o_refs _); [constructor|]. destruct (remove _ _ _); [apply destroy_quiet|constructor].
  - intros o A. destruct (o_refs _); [destruct A|]. destruct (remove _ _ _); [|destruct A].
    unfold destroy in A. destruct (o_cb _) as [k|]; [|destruct A]. destruct (_ && _); [|destruct A].
    destruct A as [<-|[]]. eauto.
  - intro D. cbn. rewrite upd_eq, D. reflexivity.
Qed.

Lemma notify_facts e s s1 a :
  notify_callback e s = (s1, a) ->
  (s1 = s /\ a = []) \/ exists k, o_cb (s_ev s e) = Some k /\ o_inv (s_ev s e) = false /\
                         s1 = on_ev e (o_set_cb (Some k) true) s /\ a = [OCall e k].
Proof.
  unfold notify_callback. intro H. destruct (o_cb (s_ev s e)) as [k|]; [|injection H as <- <-; auto].
  destruct (o_inv (s_ev s e)) eqn:V; injection H as <- <-; [auto|]. right. exists k. auto.
Qed.

Lemma break_all_facts es s :
  let s1 := break_all es s in
  s_n s1 = s_n s /\ s_nctx s1 = s_nctx s /\ s_thr s1 = s_thr s /\ s_listed s1 = s_listed s /\
  s_done s1 = s_done s /\ s_queue s1 = s_queue s /\ s_mgr s1 = s_mgr s /\ s_usr s1 = s_usr s /\
  s_nreg s1 = s_nreg s /\ s_crash s1 = s_crash s /\
  forall e, (In e es /\ s_ev s1 e = o_set_ready (s_ev s e)) \/ (~ In e es /\ s_ev s1 e = s_ev s e).
Proof.
  cbn. revert s. induction es as [|x es IH]; intro s.
  - cbn. repeat (split; [reflexivity|]). intro e. right. auto.
  - cbn [break_all]. destruct (IH (on_ev x o_set_ready s)) as (A1 & A2 & A3 & A4 & A5 & A6 & A7 & A8 & A9 & A10 & A11).
    repeat (split; [assumption|]). intro e. specialize (A11 e).
    change (s_ev (on_ev x o_set_ready s) e) with (upd (s_ev s) x (o_set_ready (s_ev s x)) e) in A11.
    destruct (Nat.eq_dec e x) as [->|N].
    + rewrite upd_eq in A11. left. split; [now left|]. destruct A11 as [(_ & ->)|(_ & ->)]; reflexivity.
    + rewrite upd_ne in A11 by exact N. destruct A11 as [(B & ->)|(B & ->)]; [left|right].
      * split; [now right|reflexivity].
      * split; [intros [C|C]; [congruence|exact (B C)]|reflexivity].
Qed.

Lemma break_queues_facts c n s s1 a :
  break_queues c n s = (s1, a) ->
  s_n s1 = s_n s /\ s_nctx s1 = s_nctx s /\ s_thr s1 = s_thr s /\ s_listed s1 = s_listed s /\
  s_done s1 = s_done s /\ s_mgr s1 = s_mgr s /\ s_usr s1 = s_usr s /\
  s_nreg s1 = s_nreg s /\ s_crash s1 = s_crash s /\
  (forall c' i, s_queue s1 c' i = if (c' =? c) && (i <? n) then [] else s_queue s c' i) /\
  (forall o, In o a <-> exists e k, o = ODrop e /\ k < n /\ In e (s_queue s c k)) /\
  (forall e, (exists k, k < n /\ In e (s_queue s c k) /\ s_ev s1 e = o_set_ready (s_ev s e)) \/
             ((forall k, k < n -> ~ In e (s_queue s c k)) /\ s_ev s1 e = s_ev s e)).
Proof.
  revert s s1 a. induction n as [|n IH]; intros s s1 a H; cbn [break_queues] in H.
  - injection H as <- <-. repeat (split; [reflexivity|]). split; [|split].
    + intros c' i. rewrite andb_false_r. reflexivity.
    + intro o. split; [intros []|intros (e & k & _ & A & _); lia].
    + intro e. right. split; [intros; lia|reflexivity].
  - destruct (break_queues c n _) as [s2 a2] eqn:E. injection H as <- <-.
    apply IH in E. destruct E as (A1 & A2 & A3 & A4 & A5 & A6 & A7 & A8 & A9 & A10 & A11 & A12).
    pose proof (break_all_facts (s_queue s c n) s) as B. cbn zeta in B.
    destruct B as (B1 & B2 & B3 & B4 & B5 & B6 & B7 & B8 & B9 & B10 & B11).
    cbn in A1, A2, A3, A4, A5, A6, A7, A8, A9, A11, A12. cbn [set_queue s_queue] in A10.
    assert (forall k, k < n -> upd2 (s_queue (break_all (s_queue s c n) s)) c n [] c k = s_queue s c k) as Hq.
    { intros k Hk. rewrite upd2_ne by lia. now rewrite B6. }
    split; [congruence|]. split; [congruence|]. split; [congruence|]. split; [congruence|].
    split; [congruence|]. split; [congruence|]. split; [congruence|]. split; [congruence|]. split; [congruence|].
    split; [|split].
    + intros c' i. rewrite A10. unfold upd2. rewrite B6.
      destruct (Nat.eqb_spec c' c) as [->|N]; cbn [andb]; [|reflexivity].
      clear -i. destruct (i <? n) eqn:F1, (i <? S n) eqn:F2, (i =? n) eqn:F3; try reflexivity; exfalso;
        rewrite ?Nat.ltb_lt, ?Nat.ltb_ge, ?Nat.eqb_eq, ?Nat.eqb_neq in *; lia.
    + intro o. rewrite in_app_iff, A11, in_map_iff. split.
      * intros [(e & <- & C)|(e & k & -> & C & D)]; [exists e, n; auto|].
        rewrite Hq in D by exact C. exists e, k. auto.
      * intros (e & k & -> & C & D). destruct (Nat.eq_dec k n) as [->|N]; [left; eauto|].
        right. exists e, k. rewrite Hq by lia. split; [reflexivity|]. split; [lia|exact D].
    + intro e. destruct (A12 e) as [(k & C & D & F)|(C & F)].
      * left. exists k. rewrite Hq in D by exact C. split; [lia|]. split; [exact D|]. rewrite F.
        destruct (B11 e) as [(_ & ->)|(_ & ->)]; reflexivity.
      * destruct (B11 e) as [(D & G)|(D & G)].
        -- left. exists n. split; [lia|]. split; [exact D|]. congruence.
        -- right. split; [|congruence]. intros k K. destruct (Nat.eq_dec k n) as [->|N]; [exact D|].
           rewrite <- (Hq k) by lia. apply C. lia.
Qed.

Local Ltac framed :=
  try reflexivity; try assumption; try (repeat constructor; fail).

Lemma usr_same t u s :
  (forall x, uev u = Some x -> uev (s_usr s t) = Some x) ->
  forall t' e, uev (upd (s_usr s) t u t') = Some e -> uev (s_usr s t') = Some e.
Proof.
  intros H t' e A. destruct (Nat.eq_dec t' t) as [->|N]; [rewrite upd_eq in A; auto|now rewrite upd_ne in A].
Qed.

Lemma upd_upd {A} (f : nat -> A) k v w x : upd (upd f k v) k w x = upd f k w x.
Proof. unfold upd. now destruct (x =? k). Qed.

Local Ltac noobs :=
  let NO := fresh "NO" in
  match goal with
  | |- forall x c' ws, ~ In (OEnq x c' ws) _ => intros ? ? ? NO
  | |- forall x b, ~ In (OContext x b) _ => intros ? ? NO
  | |- forall x r, In (ORan x r) _ -> _ => intros ? ? NO
  | |- forall x, In (OStart x) _ -> _ => intros ? NO
  end;
  first [ destruct NO; fail
        | destruct NO as [NO|[]]; first [discriminate | injection NO as <-; reflexivity] ].

Lemma quiet_out a o : Forall quiet a -> In o a -> quiet o.
Proof. intros F H. rewrite Forall_forall in F. auto. Qed.

Local Ltac mv M := rewrite M; first [intros [K|K]; discriminate | intros []; fail | intros _; left; reflexivity | intros _; right; reflexivity].

Lemma mgr_InvA s h c i s' a :
  InvA s h -> InvA (crash s) (h ++ [OCrash]) -> mgr_step c i s = Some (s', a) -> InvA s' (h ++ a).
Proof.
  intros I Icr E. unfold mgr_step in E. pose proof (a_phase _ _ I c i) as P.
  destruct (s_mgr s c i) as [|e ws|e w r|e lk|e r|e r|e r|e|e|] eqn:M; try discriminate E;
    (assert (mev (s_mgr s c i) = Some e) as Me by (rewrite M; reflexivity));
    destruct (a_mgr _ _ I _ _ _ Me) as (G1 & (wse & G2) & G3 & G4 & G5 & G6).
  - (* at the wait list *)
    destruct ws as [|w r].
    + destruct (o_refs (s_ev s e)); [injection E as <- <-; exact Icr|].
      set (s1 := on_ev e (o_set_cs RUNNING) (acquire (HMgr c i) e s)) in *.
      assert (same_core s s1) as Hc.
      { intro x. unfold s1, acquire, on_ev, set_ev. cbn. destruct (Nat.eq_dec x e) as [->|N]; [rewrite !upd_eq; reflexivity|].
        rewrite !upd_ne by exact N. reflexivity. }
      assert (forall x, s_n s <= x -> s_ev s1 x = s_ev s x) as Hh.
      { intros x A. unfold s1, acquire, on_ev, set_ev. cbn. rewrite !upd_ne by lia. reflexivity. }
      destruct (ctx_alive s c); injection E as <- <-.
      * apply (InvA_move s h _ _ c i (MRun e true) e); framed; try noobs; try mv M; auto.
      * apply (InvA_move s h _ _ c i (MRun e false) e); framed; try noobs; try mv M; auto.
    + destruct (listed s w) eqn:L; injection E as <- <-.
      * pose proof (listed_lt _ _ _ I L) as Lw.
        apply (InvA_move s h _ _ c i (MWaitOn e w r) e); framed; try noobs; try mv M; auto.
        -- apply on_ev_core. reflexivity.
        -- intros x A. apply on_ev_high; assumption.
        -- cbn. auto.
      * apply (InvA_move s h _ _ c i (MExit e) e); framed; try noobs; try mv M; try (intro; reflexivity); auto.
        -- cbn. right. left. rewrite in_app_iff. cbn. destruct P. auto.
  - (* blocked on an entry *)
    cbn in P. destruct P as (P & Lw).
    assert (forall rt, passed s w -> waiting s e (w :: rt) -> waiting s e rt) as Hadv.
    { intros rt A (B & c' & ws & pre & C1 & C2 & C3). split; [exact B|]. exists c', ws, (pre ++ [w]).
      split; [exact C1|]. split; [rewrite <- app_assoc; exact C2|]. apply Forall_app. auto. }
    assert (same_core s (on_ev w (fun o => o_set_refs (remove holder_dec (HMgr c i) (o_refs o)) o) s)) as Hc
      by (apply on_ev_core; reflexivity).
    destruct (drop (HMgr c i) w s) as [s1 b] eqn:D. apply drop_facts in D. destruct D as (-> & Qb & _ & _).
    assert (passed s w -> InvA (set_mgr c i (MWait e r) (on_ev w (fun o => o_set_refs (remove holder_dec (HMgr c i) (o_refs o)) o) s)) (h ++ b)) as Hgo.
    { intro A. apply (InvA_move s h _ _ c i (MWait e r) e); framed; try mv M; auto.
      - intros x B. apply on_ev_high; assumption.
      - cbn. auto.
      - intros x c' ws. apply quiet_not_enq. exact Qb.
      - intros x c'. apply quiet_not_ctx. exact Qb.
      - intros x z B. exfalso. exact (quiet_not_ran _ _ _ Qb B).
      - intros x B. exfalso. exact (quiet_not_start _ _ Qb B). }
    destruct (negb (o_fut (s_ev s w))) eqn:F.
    + injection E as <- <-. apply Hgo. split; [exact Lw|]. left. now apply negb_true_iff.
    + destruct (o_ready (s_ev s w)) eqn:R; [|discriminate E].
      destruct (Z.eqb_spec (o_rt (s_ev s w)) NO_ERROR) as [T|T]; injection E as <- <-.
      * apply Hgo. split; [exact Lw|]. right. auto.
      * assert (Forall quiet (b ++ [OSkip e])) as Qb2 by (apply Forall_app; split; [exact Qb|repeat constructor]).
        apply (InvA_move s h _ _ c i (MExit e) e); framed; try mv M; auto.
        -- intros x B. apply on_ev_high; assumption.
        -- cbn. right. left. rewrite !in_app_iff. cbn. destruct P. auto.
        -- intros x c' ws. apply quiet_not_enq. exact Qb2.
        -- intros x c'. apply quiet_not_ctx. exact Qb2.
        -- intros x z B. exfalso. exact (quiet_not_ran _ _ _ Qb2 B).
        -- intros x B. exfalso. exact (quiet_not_start _ _ Qb2 B).
  - injection E as <- <-.
    apply (InvA_move s h _ _ c i (MNote2 e r) e); framed; try noobs; try mv M; auto.
    + apply on_ev_core. reflexivity.
    + intros x B. apply on_ev_high; assumption.
  - injection E as <- <-. rewrite app_nil_r.
    apply (InvA_own_change s h _ c i e (MNote3 e r) (o_set_rt r (s_ev s e))); framed; try reflexivity; auto.
    left. exists r. auto.
  - destruct (notify_callback e s) as [s1 b] eqn:D. injection E as <- <-. cbn in P.
    assert (same_core s s1 /\ (forall x, s_n s <= x -> s_ev s1 x = s_ev s x) /\ Forall quiet b /\
            s_n s1 = s_n s /\ s_nctx s1 = s_nctx s /\ s_thr s1 = s_thr s /\ s_listed s1 = s_listed s /\
            s_queue s1 = s_queue s /\ s_mgr s1 = s_mgr s /\ s_usr s1 = s_usr s)
      as (Hc & Hh & Qb & H1 & H2 & H3 & H4 & H5 & H6 & H7).
    { apply notify_facts in D. destruct D as [(-> & ->)|(k & _ & _ & -> & ->)].
      - repeat (split; [solve [reflexivity|intro; reflexivity|intros; reflexivity|constructor]|]). reflexivity.
      - split; [apply on_ev_core; reflexivity|]. split; [intros x B; apply on_ev_high; assumption|].
        split; [repeat constructor|]. repeat (split; [reflexivity|]). reflexivity. }
    apply (InvA_move s h _ _ c i (MEnd e) e); framed; try mv M; auto.
    + cbn. congruence.
    + cbn. exists r. rewrite !in_app_iff. cbn. auto.
    + intros x c' ws B. rewrite in_app_iff in B. destruct B as [B|[B|[]]]; [|discriminate]. exact (quiet_not_enq _ _ _ _ Qb B).
    + intros x c' B. rewrite in_app_iff in B. destruct B as [B|[B|[]]]; [|discriminate]. exact (quiet_not_ctx _ _ _ Qb B).
    + intros x z B. rewrite in_app_iff in B. destruct B as [B|[B|[]]]; [exfalso; exact (quiet_not_ran _ _ _ Qb B)|].
      injection B as <- <-. split; [reflexivity|]. split; [exact P|]. left. reflexivity.
    + intros x B. rewrite in_app_iff in B. destruct B as [B|[B|[]]]; [|discriminate]. exfalso; exact (quiet_not_start _ _ Qb B).
  - destruct (drop (HMgr c i) e (on_ev e (o_set_cs COMPLETE) s)) as [s1 b] eqn:D. injection E as <- <-.
    apply drop_facts in D. destruct D as (-> & Qb & _ & _). cbn in P. destruct P as (r & P1 & P2).
    apply (InvA_move s h _ _ c i (MExit e) e); framed; try mv M;
      try (intros _; right; exists r; rewrite in_app_iff; auto; fail); auto.
    + intro x. unfold on_ev, set_ev. cbn. destruct (Nat.eq_dec x e) as [->|N]; [rewrite !upd_eq; reflexivity|].
      rewrite !upd_ne by exact N. reflexivity.
    + intros x A. unfold on_ev, set_ev. cbn. rewrite !upd_ne by lia. reflexivity.
    + cbn. left. exists r. rewrite in_app_iff. auto.
    + intros x c' ws. apply quiet_not_enq. exact Qb.
    + intros x c'. apply quiet_not_ctx. exact Qb.
    + intros x z B. exfalso. exact (quiet_not_ran _ _ _ Qb B).
    + intros x B. exfalso. exact (quiet_not_start _ _ Qb B).
  - injection E as <- <-. rewrite app_nil_r.
    apply (InvA_own_change s h _ c i e MIdle (o_set_ready (s_ev s e))); framed; try reflexivity; auto.
Qed.

Lemma usr_InvA s h t s' a :
  InvA s h -> usr_step t s = Some (s', a) -> InvA s' (h ++ a).
Proof.
  intros I E. unfold usr_step in E.
  assert (forall u, uev u = None \/ uev u = uev (s_usr s t) ->
          forall t' e, uev (upd (s_usr s) t u t') = Some e -> uev (s_usr s t') = Some e) as Hu.
  { intros u A. apply usr_same. intros x B. destruct A as [A|A]; congruence. }
  assert (forall e, uev (s_usr s t) = Some e -> e < s_n s /\ o_kind (s_ev s e) = KUser /\ o_ready (s_ev s e) = true) as Hue.
  { intros e A. exact (a_usr _ _ I t e A). }
  destruct (s_usr s t) as [|ws|w r|e code|e r|e r|e r|c] eqn:U; try discriminate E.
  - destruct ws as [|w r].
    + injection E as <- <-. apply (InvA_frame s h); framed; try (intro; reflexivity); auto. apply Hu. auto.
    + destruct (listed s w) eqn:L; injection E as <- <-.
      * pose proof (listed_lt _ _ _ I L) as Lw.
        apply (InvA_frame s h); framed; auto.
        -- apply on_ev_core. reflexivity.
        -- intros x B. apply (on_ev_high w _ s x Lw B).
        -- apply Hu. auto.
      * apply (InvA_frame s h); framed; try (intro; reflexivity); auto. apply Hu. auto.
  - assert (forall u, uev u = None -> forall b, Forall quiet b ->
       InvA (set_usr t u (on_ev w (fun o => o_set_refs (remove holder_dec (HUsr t) (o_refs o)) o) s)) (h ++ b)) as Hgo.
    { intros u Nu b Qb. apply (InvA_frame s h); framed; auto.
      - apply on_ev_core. reflexivity.
      - intros x B. cbn. destruct (Nat.eq_dec x w) as [->|N]; [|now rewrite upd_ne].
        rewrite upd_eq, (a_dummy _ _ I _ B). reflexivity.
      - apply Hu. auto. }
    destruct (drop (HUsr t) w s) as [s1 b] eqn:D. apply drop_facts in D. destruct D as (-> & Qb & _ & _).
    destruct (negb (o_fut (s_ev s w))).
    + injection E as <- <-. apply Hgo; auto.
    + destruct (o_ready (s_ev s w)); [|discriminate E]. destruct (_ =? _)%Z; injection E as <- <-; apply Hgo; auto.
      apply Forall_app. split; [exact Qb|repeat constructor].
  - destruct (Hue e eq_refl) as (L1 & L2 & L3). destruct (_ =? _)%Z; [|destruct (is_error_code code)].
    + injection E as <- <-. apply (InvA_frame s h); framed; auto.
      * apply on_ev_core. reflexivity.
      * intros x B. apply (on_ev_high e _ s x L1 B).
      * apply Hu. auto.
    + injection E as <- <-. apply (InvA_frame s h); framed; try (intro; reflexivity); auto. apply Hu. auto.
    + destruct (drop (HUsr t) e s) as [s1 b] eqn:D. apply drop_facts in D. destruct D as (-> & Qb & _ & _).
      injection E as <- <-. apply (InvA_frame s h); framed; auto.
      * apply on_ev_core. reflexivity.
      * intros x B. apply (on_ev_high e _ s x L1 B).
      * apply Hu. auto.
      * apply Forall_app. split; [exact Qb|repeat constructor].
  - destruct (Hue e eq_refl) as (L1 & L2 & L3). injection E as <- <-.
    apply (InvA_frame s h); framed; auto.
    + apply on_ev_core. reflexivity.
    + intros x B. apply (on_ev_high e _ s x L1 B).
    + apply Hu. auto.
  - destruct (Hue e eq_refl) as (L1 & L2 & L3). injection E as <- <-.
    apply (InvA_user_change s h _ _ e (o_set_rt r (s_ev s e))); framed; try reflexivity.
    intros t' x B. left. apply Hu in B; auto.
  - destruct (Hue e eq_refl) as (L1 & L2 & L3).
    destruct (notify_callback e s) as [s1 b] eqn:N. destruct (drop (HUsr t) e s1) as [s2 b2] eqn:D.
    apply drop_facts in D. destruct D as (-> & Qb & _ & _). injection E as <- <-.
    assert (same_core s s1 /\ (forall x, s_n s <= x -> s_ev s1 x = s_ev s x) /\ Forall quiet b /\
            s_n s1 = s_n s /\ s_nctx s1 = s_nctx s /\ s_thr s1 = s_thr s /\ s_listed s1 = s_listed s /\
            s_queue s1 = s_queue s /\ s_mgr s1 = s_mgr s /\ s_usr s1 = s_usr s)
      as (Hc & Hh & Qb1 & H1 & H2 & H3 & H4 & H5 & H6 & H7).
    { apply notify_facts in N. destruct N as [(-> & ->)|(k & _ & _ & -> & ->)].
      - repeat (split; [solve [reflexivity|intro; reflexivity|intros; reflexivity|constructor]|]). reflexivity.
      - split; [apply on_ev_core; reflexivity|]. split; [intros x B; apply on_ev_high; assumption|].
        split; [repeat constructor|]. repeat (split; [reflexivity|]). reflexivity. }
    apply (InvA_frame s h); cbn [set_usr on_ev set_ev s_n s_nctx s_thr s_listed s_queue s_mgr]; framed; auto.
    + intro x. transitivity (core (s_ev s1 x)); [|apply Hc]. apply (on_ev_core e). reflexivity.
    + intros x B. rewrite <- (Hh x B). cbn. apply upd_ne. lia.
    + rewrite H4. auto.
    + cbn. rewrite H7. apply Hu. auto.
    + rewrite !Forall_app. split; [exact Qb1|]. split; [exact Qb|repeat constructor].
  - destruct (all_stopped s c (s_thr s c)); [|discriminate E].
    destruct (break_queues c (s_thr s c) s) as [s1 b] eqn:D. injection E as <- <-.
    apply break_queues_facts in D. destruct D as (A1 & A2 & A3 & A4 & A5 & A6 & A7 & A8 & A9 & A10 & A11 & A12).
    apply (InvA_dropped s h); cbn [set_usr s_n s_nctx s_thr s_listed s_queue s_mgr s_ev]; framed; auto.
    + intro e. destruct (A12 e) as [(k & B1 & B2 & ->)|(_ & ->)]; [right|left; reflexivity].
      split; [reflexivity|]. split; [|eauto]. rewrite in_app_iff. left. apply A11. exists e, k. auto.
    + intros c' i. rewrite A10. destruct (_ && _); [constructor|exact (a_sorted _ _ I c' i)].
    + intros c' i e B. rewrite A10 in B. destruct ((c' =? c) && (i <? s_thr s c)) eqn:F; [destruct B|].
      split; [exact B|]. destruct (A12 e) as [(k & B1 & B2 & _)|(_ & F2)]; [exfalso|exact F2].
      destruct (a_queue _ _ I _ _ _ B) as (_ & (w1 & C1) & _ & _ & C2 & _).
      destruct (a_queue _ _ I _ _ _ B2) as (_ & (w2 & C3) & _ & _ & C4 & _).
      assert (c' = c) as -> by congruence. assert (i = k) as -> by congruence.
      rewrite Nat.eqb_refl in F. cbn [andb] in F. apply Nat.ltb_ge in F. lia.
    + intros c' i e B. rewrite A10. destruct ((c' =? c) && (i <? s_thr s c)) eqn:F; [|auto]. right.
      apply andb_true_iff in F. destruct F as [F1 F2]. apply Nat.eqb_eq in F1. apply Nat.ltb_lt in F2. subst c'.
      destruct (A12 e) as [(k & _ & _ & F3)|(F3 & _)]; [exact F3|]. exfalso. exact (F3 i F2 B).
    + intros c' i. left. now rewrite A6.
    + cbn. rewrite A7. apply Hu. auto.
    + apply Forall_app. split; [|repeat constructor]. apply Forall_forall. intros o B. apply A11 in B.
      destruct B as (e & k & -> & _). exact Logic.I.
Qed.

Theorem step_InvA s h l s' a :
  InvA s h -> estep l s = Some (s', a) -> InvA s' (h ++ a).
Proof.
  intros I E. unfold estep in E. destruct (s_crash s); [discriminate|].
  assert (InvA s (h ++ [])) as I0 by (now rewrite app_nil_r).
  assert (forall b, Forall quiet b -> InvA s (h ++ b)) as Iq.
  { intros b Qb. apply (InvA_frame s h); framed; try (intro; reflexivity); auto. }
  assert (InvA (crash s) (h ++ [OCrash])) as Icr.
  { apply (InvA_frame s h); framed; try (intro; reflexivity); auto. }
  destruct l as [ooo| |c ws j|e|t e code|t ws|e|t c|c i|c i|c i r|t].
  - (* context *)
    injection E as <- <-.
    set (s' := mkS _ _ _ _ _ _ _ _ _ _ _).
    assert (forall c, s_nctx s <= c -> s_thr s c = 0) as H0 by (intros c A; apply (a_ctx _ _ I c A)).
    assert (forall c, 0 < s_thr s c -> c <> s_nctx s) as H1 by (intros c A ->; rewrite H0 in A; lia).
    constructor; cbn [s' s_n s_ev s_nctx s_queue s_mgr s_usr s_listed].
    + exact (a_dummy _ _ I).
    + intros e c ws. rewrite in_app_iff. rewrite <- (a_enq _ _ I). split; [intros [A|[A|[]]]; [exact A|discriminate]|auto].
    + intros c i e A. destruct (a_mgr _ _ I _ _ _ A) as (B1 & B2 & B3 & B4 & B5 & B6).
      repeat (split; [assumption|]). cbn. rewrite upd_ne; [exact B6|]. apply H1. lia.
    + intros c i e A. destruct (a_queue _ _ I _ _ _ A) as (B1 & B2 & B3 & B4 & B5 & B6 & B7).
      repeat (split; [assumption|]). split; [|exact B7]. cbn. rewrite upd_ne; [exact B6|]. apply H1. lia.
    + exact (a_sorted _ _ I).
    + exact (a_order _ _ I).
    + intros e c ws A1 A2 A3 A4. destruct (a_loc _ _ I e c ws A1 A2 A3 A4) as (i & B & C). exists i.
      split; [|exact C]. cbn. rewrite upd_ne; [exact B|]. apply H1. lia.
    + intros c i. eapply (mphase_mono s); [cbn; lia| | |exact (a_phase _ _ I c i)]; auto.
    + intros e c ws A1 A2 A3 A4. apply (outcome_mono s); [reflexivity|]. exact (a_over _ _ I e c ws A1 A2 A3 A4).
    + intros e r A. rewrite in_app_iff in A. destruct A as [A|[A|[]]]; [|discriminate]. exact (a_ran _ _ I e r A).
    + intros e A. rewrite in_app_iff in A. destruct A as [A|[A|[]]]; [|discriminate].
      destruct (a_start _ _ I e A) as [(r & B)|B]; [left; exists r; rewrite in_app_iff; auto|right; exact B].
    + exact (a_user _ _ I).
    + intros c A. cbn. rewrite !upd_ne by lia. apply (a_ctx _ _ I). lia.
    + intros c b A. rewrite in_app_iff in A. cbn. destruct A as [A|[A|[]]].
      * destruct (a_thr _ _ I c b A) as (B & C). split; [lia|]. rewrite upd_ne by lia. exact C.
      * injection A as <- <-. split; [lia|]. now rewrite upd_eq.
    + exact (a_usr _ _ I).
  - injection E as <- <-. apply InvA_add; [exact I|left; auto|repeat constructor].
  - unfold enqueue in E. destruct (negb (s_listed s c)); [injection E as <- <-; exact I0|].
    destruct (responsible _ ws) as [r|].
    2:{ injection E as <- <-. apply InvA_add; [exact I|right; cbn; eauto|constructor]. }
    destruct (match r with None => _ | Some _ => _ end); [discriminate|].
    set (j' := match r with Some k => k | None => j end) in *.
    destruct (Nat.leb_spec (s_thr s c) j') as [L|L].
    + injection E as <- <-. exact Icr.
    + injection E as <- <-. apply InvA_enqueue; auto.
  - (* callback *)
    destruct (listed s e) eqn:L; [|injection E as <- <-; exact I0].
    pose proof (listed_lt _ _ _ I L) as Le.
    destruct (set_callback e (s_nreg s) s) as [s1 b] eqn:C. injection E as <- <-.
    assert (exists v, s1 = on_ev e (o_set_cb (Some (s_nreg s)) v) s /\ Forall quiet b) as (v & -> & Qb).
    { unfold set_callback in C. destruct (o_fin (s_ev s e)); injection C as <- <-; eexists; (split; [reflexivity|repeat constructor]). }
    apply (InvA_frame s h); framed; auto.
    + apply on_ev_core. reflexivity.
    + intros x A. apply (on_ev_high e _ s x Le A).
  - (* status *)
    unfold set_status in E. destruct (s_usr s t) eqn:U; try discriminate E.
    destruct (listed s e) eqn:L; cbn [negb] in E; [|injection E as <- <-; apply Iq; repeat constructor].
    pose proof (listed_lt _ _ _ I L) as Le.
    destruct (o_kind (s_ev s e)) eqn:K; [|injection E as <- <-; exact Icr].
    destruct (o_ready (s_ev s e)) eqn:R; [injection E as <- <-; apply Iq; repeat constructor|].
    injection E as <- <-.
    apply (InvA_user_change s h _ _ e (o_set_ready (o_set_cs RUNNING (o_set_refs (HUsr t :: o_refs (s_ev s e)) (s_ev s e))))); framed; try reflexivity.
    + intro x. unfold on_ev, acquire, on_ev, set_ev, set_usr. cbn. rewrite upd_eq. apply upd_upd.
    + intros t' x A. cbn in A. destruct (Nat.eq_dec t' t) as [->|N].
      * rewrite upd_eq in A. cbn in A. right. congruence.
      * rewrite upd_ne in A by exact N. auto.
  - (* wait *)
    destruct (s_usr s t) eqn:U; try discriminate E. injection E as <- <-.
    apply (InvA_frame s h); framed; try (intro; reflexivity); auto.
    apply usr_same. cbn. discriminate.
  - (* release *)
    destruct (listed s e) eqn:L; [|injection E as <- <-; exact I0].
    pose proof (listed_lt _ _ _ I L) as Le.
    destruct (drop HList e s) as [s1 b] eqn:D. injection E as <- <-.
    apply drop_facts in D. destruct D as (-> & Qb & _ & _).
    apply (InvA_frame s h); framed; auto.
    + apply on_ev_core. reflexivity.
    + intros x A. apply (on_ev_high e _ s x Le A).
    + constructor; [exact Logic.I|exact Qb].
  - (* release of a context *)
    unfold release_ctx in E. destruct (s_usr s t) eqn:U; try discriminate E.
    destruct (negb (s_listed s c)) eqn:L; [injection E as <- <-; exact I0|].
    assert (forall c' (b : bool), upd (s_listed s) c false c' = true -> s_listed s c' = true) as HL.
    { intros c' _ A. destruct (Nat.eq_dec c' c) as [->|N]; [rewrite upd_eq in A; discriminate|now rewrite upd_ne in A]. }
    destruct (some_running _ _ _); injection E as <- <-.
    + apply (InvA_frame s h); framed; try (intro; reflexivity); auto. intros c' A. exact (HL c' true A).
    + apply (InvA_frame s h); framed; try (intro; reflexivity); auto.
      * intros c' A. exact (HL c' true A).
      * apply (usr_same t (UJoin c) s). cbn. discriminate.
  - (* pop *)
    destruct (i <? s_thr s c) eqn:Hi; [|discriminate]. unfold pop in E.
    destruct (s_mgr s c i) eqn:M; try discriminate E.
    destruct (s_queue s c i) as [|e q] eqn:Q.
    + destruct (s_done s c); [|discriminate]. injection E as <- <-.
      apply (InvA_dropped s h); framed; auto.
      * exact (a_sorted _ _ I).
      * intros c' i'. cbn. destruct (upd2_cases (s_mgr s) c i MStopped c' i') as [(-> & -> & ->)|(_ & ->)]; [|auto].
        right. rewrite M. auto.
    + destruct (s_done s c).
      2:{ injection E as <- <-. rewrite app_nil_r. exact (InvA_pop s h c i e q I M Q). }
      injection E as <- <-.
      pose proof (a_sorted _ _ I c i) as GS. rewrite Q in GS. inversion_clear GS as [|? ? GS1 GS2].
      rewrite Forall_forall in GS2.
      assert (forall x, (x = e /\ s_ev (on_ev e o_set_ready (set_queue c i q s)) x = o_set_ready (s_ev s e)) \/
                        (x <> e /\ s_ev (on_ev e o_set_ready (set_queue c i q s)) x = s_ev s x)) as Hev.
      { intro x. cbn. destruct (Nat.eq_dec x e) as [->|N]; [left; rewrite upd_eq; auto|right; rewrite upd_ne; auto]. }
      apply (InvA_dropped s h); framed; auto.
      * intro x. cbn [set_mgr s_ev]. destruct (Hev x) as [(-> & ->)|(_ & ->)]; [right|left; reflexivity].
        split; [reflexivity|]. split; [now left|]. exists c, i. rewrite Q. now left.
      * intros c' i'. cbn. destruct (upd2_cases (s_queue s) c i q c' i') as [(-> & -> & ->)|(_ & ->)]; [exact GS1|].
        exact (a_sorted _ _ I c' i').
      * intros c' i' x A. cbn [set_mgr s_ev]. cbn in A.
        assert (x <> e /\ In x (s_queue s c' i')) as (N & B).
        { destruct (upd2_cases (s_queue s) c i q c' i') as [(-> & -> & F)|(N & F)]; rewrite F in A.
          - pose proof (GS2 _ A). split; [lia|]. rewrite Q. now right.
          - split; [|exact A]. intros ->. destruct (a_queue _ _ I _ _ _ A) as (_ & (w1 & B1) & _ & _ & B2 & _).
            assert (In e (s_queue s c i)) as A' by (rewrite Q; now left).
            destruct (a_queue _ _ I _ _ _ A') as (_ & (w2 & B3) & _ & _ & B4 & _).
            assert (c' = c) by congruence. assert (i' = i) by congruence. tauto. }
        split; [exact B|]. destruct (Hev x) as [(F & _)|(_ & F)]; [congruence|exact F].
      * intros c' i' x A. cbn [set_mgr s_ev]. cbn.
        destruct (upd2_cases (s_queue s) c i q c' i') as [(-> & -> & F)|(N & F)]; rewrite F; [|auto].
        rewrite Q in A. destruct A as [<-|A]; [right; now rewrite upd_eq|auto].
      * intros c' i'. cbn. destruct (upd2_cases (s_mgr s) c i MStopped c' i') as [(-> & -> & ->)|(_ & ->)]; [|auto].
        right. rewrite M. auto.
  - exact (mgr_InvA _ _ _ _ _ _ I Icr E).
  - (* finish *)
    unfold finish in E. destruct (s_mgr s c i) as [| | |e lk| | | | | |] eqn:M; try discriminate E. destruct lk.
    + destruct (ctx_alive _ _); injection E as <- <-; [|exact Icr].
      apply (InvA_move s h _ _ c i (MNote1 e r) e); framed; try (intro; reflexivity); rewrite ?M; cbn; auto; try tauto.
      * intros ? ? ? [K|[]]; discriminate.
      * intros ? ? [K|[]]; discriminate.
      * intros ? ? [K|[]]; discriminate.
      * intros ? [K|[]]; discriminate.
      * unfold ending. intros [K|K]; discriminate.
    + destruct (_ =? _)%Z; [|discriminate]. injection E as <- <-.
      apply (InvA_move s h _ _ c i (MNote1 e r) e); framed; try (intro; reflexivity); rewrite ?M; cbn; auto; try tauto.
      * intros ? ? ? [K|[]]; discriminate.
      * intros ? ? [K|[]]; discriminate.
      * intros ? ? [K|[]]; discriminate.
      * intros ? [K|[]]; discriminate.
      * unfold ending. intros [K|K]; discriminate.
  - exact (usr_InvA _ _ _ _ _ I E).
Qed.
