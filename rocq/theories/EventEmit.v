(** * Which step makes which observation *)

From Coq Require Import ZArith List Bool Arith Lia.
From Verif Require Import EventModel EventSpec EventInv EventMono EventFate EventUser EventWait EventCb EventCb2 EventAll.
Import ListNotations.

Definition stuck_on (s : est) (w : nat) : Prop :=
  listed s w = false \/
  (o_fut (s_ev s w) = true /\ o_ready (s_ev s w) = true /\ o_rt (s_ev s w) <> NO_ERROR).

Definition source (s : est) (l : elabel) (a : list obs) (o : obs) : Prop :=
  match o with
  | OStart e | ONoop e => exists c i, s_mgr s c i = MWait e [] /\ a = [o]
  | OSkip e => exists c i w r, (s_mgr s c i = MWait e (w :: r) \/ s_mgr s c i = MWaitOn e w r) /\ stuck_on s w
  | ODone e _ => exists c i b, s_mgr s c i = MRun e b
  | ORan e _ => exists c i r, s_mgr s c i = MNote3 e r
  | ODrop e => exists c i, In e (s_queue s c i)
  | OEnq e c ws => e = s_n s /\ a = [o] /\ s_listed s c = true
  | OUser e => e = s_n s /\ a = [o]
  | OWaitRet t r =>
      (r = NO_ERROR /\ s_usr s t = UWait []) \/
      (r = INVALID_VALUE /\ exists w ws, (s_usr s t = UWait (w :: ws) \/ s_usr s t = UWaitOn w ws) /\ stuck_on s w)
  | _ => True
  end.

Lemma calls_source s l a b x : (forall o, In o b -> exists k, o = OCall x k) -> forall o, In o b -> source s l a o.
Proof. intros H o A. destruct (H o A) as (k & ->). exact Logic.I. Qed.

Lemma notify_calls e s s1 b : notify_callback e s = (s1, b) -> forall o, In o b -> exists k, o = OCall e k.
Proof.
  intros D o A. apply notify_facts in D. destruct D as [(_ & ->)|(k & _ & _ & _ & ->)]; [destruct A|destruct A as [<-|[]]; eauto].
Qed.

Theorem step_source s l s' a o : estep l s = Some (s', a) -> In o a -> source s l a o.
Proof.
  intros E Ho. pose proof E as E0. unfold estep in E. destruct (s_crash s); [discriminate|].
  destruct l as [ooo| |c ws j|e|t e code|t ws|e|t c|c i|c i|c i r|t].
  - injection E as <- <-. destruct Ho as [<-|[]]. exact Logic.I.
  - injection E as <- <-. destruct Ho as [<-|[]]. cbn. auto.
  - unfold enqueue in E. destruct (s_listed s c) eqn:L; cbn [negb] in E; [|injection E as <- <-; destruct Ho].
    destruct (responsible _ ws) as [r|]; [|injection E as <- <-; destruct Ho].
    destruct (match r with None => _ | Some _ => _ end); [discriminate|].
    destruct (_ <=? _); injection E as <- <-; destruct Ho as [<-|[]]; cbn; auto.
  - destruct (listed s e) eqn:L; [|injection E as <- <-; destruct Ho].
    destruct (set_callback e (s_nreg s) s) as [s1 b] eqn:C. injection E as <- <-.
    unfold set_callback in C. destruct (o_fin (s_ev s e)); injection C as <- <-; repeat (destruct Ho as [<-|Ho]; [exact Logic.I|]); destruct Ho.
  - unfold set_status in E. destruct (s_usr s t) eqn:Ut; try discriminate E.
    destruct (listed s e) eqn:L; cbn [negb] in E; [|injection E as <- <-; destruct Ho as [<-|[]]; exact Logic.I].
    destruct (o_kind (s_ev s e)) eqn:K; [|injection E as <- <-; destruct Ho as [<-|[]]; exact Logic.I].
    destruct (o_ready (s_ev s e)) eqn:R; injection E as <- <-; destruct Ho as [<-|[]]; exact Logic.I.
  - destruct (s_usr s t) eqn:Ut; try discriminate E. injection E as <- <-. destruct Ho as [<-|[]]; exact Logic.I.
  - destruct (listed s e) eqn:L; [|injection E as <- <-; destruct Ho].
    destruct (drop HList e s) as [s1 b] eqn:D. injection E as <- <-.
    apply drop_facts in D. destruct D as (-> & _ & Hb & _). destruct Ho as [<-|Ho]; [exact Logic.I|].
    exact (calls_source _ _ _ b e Hb o Ho).
  - unfold release_ctx in E. destruct (s_usr s t) eqn:Ut; try discriminate E.
    destruct (negb (s_listed s c)) eqn:L; [injection E as <- <-; destruct Ho|].
    destruct (some_running _ _ _); injection E as <- <-; [|destruct Ho]. destruct Ho as [<-|[]]; exact Logic.I.
  - destruct (i <? s_thr s c) eqn:Hi; [|discriminate]. unfold pop in E.
    destruct (s_mgr s c i) eqn:Mi; try discriminate E.
    destruct (s_queue s c i) as [|e q] eqn:Q; destruct (s_done s c); try discriminate E; injection E as <- <-;
      try destruct Ho as [<-|Ho]; try destruct Ho.
    cbn. exists c, i. rewrite Q. now left.
  - unfold mgr_step in E.
    destruct (s_mgr s c i) as [|e ws|e w r|e lk|e r|e r|e r|e|e|] eqn:Mi; try discriminate E.
    + destruct ws as [|w r].
      * destruct (o_refs (s_ev s e)); [injection E as <- <-; destruct Ho as [<-|[]]; exact Logic.I|].
        destruct (ctx_alive s c); injection E as <- <-; destruct Ho as [<-|[]]; cbn; eauto.
      * destruct (listed s w) eqn:L; injection E as <- <-; [destruct Ho|destruct Ho as [<-|[]]].
        cbn. exists c, i, w, r. split; [auto|]. left. exact L.
    + destruct (drop (HMgr c i) w s) as [s1 b] eqn:D. apply drop_facts in D. destruct D as (D & _ & Hb & _).
      destruct (o_fut (s_ev s w)) eqn:Fw; cbn [negb] in E.
      * destruct (o_ready (s_ev s w)) eqn:R; [|discriminate E].
        destruct (Z.eqb_spec (o_rt (s_ev s w)) NO_ERROR) as [Z|Z]; injection E as <- <-.
        -- exact (calls_source _ _ _ b w Hb o Ho).
        -- rewrite in_app_iff in Ho. destruct Ho as [Ho|[<-|[]]]; [exact (calls_source _ _ _ b w Hb o Ho)|].
           cbn. exists c, i, w, r. split; [auto|]. right. auto.
      * injection E as <- <-. exact (calls_source _ _ _ b w Hb o Ho).
    + injection E as <- <-. destruct Ho.
    + injection E as <- <-. destruct Ho.
    + destruct (notify_callback e s) as [s1 b] eqn:D. injection E as <- <-.
      rewrite in_app_iff in Ho. destruct Ho as [Ho|[<-|[]]].
      * exact (calls_source _ _ _ b e (notify_calls _ _ _ _ D) o Ho).
      * cbn. eauto.
    + destruct (drop (HMgr c i) e (on_ev e (o_set_cs COMPLETE) s)) as [s1 b] eqn:D. injection E as <- <-.
      apply drop_facts in D. destruct D as (D & _ & Hb & _). exact (calls_source _ _ _ b e Hb o Ho).
    + injection E as <- <-. destruct Ho.
  - unfold finish in E. destruct (s_mgr s c i) as [| | |e lk| | | | | |] eqn:Mi; try discriminate E. destruct lk.
    + destruct (ctx_alive _ _); injection E as <- <-; destruct Ho as [<-|[]]; cbn; eauto.
    + destruct (_ =? _)%Z; [|discriminate]. injection E as <- <-. destruct Ho as [<-|[]]. cbn. eauto.
  - unfold usr_step in E.
    destruct (s_usr s t) as [|ws|w r|e code|e r|e r|e r|c] eqn:Ut; try discriminate E.
    + destruct ws as [|w r]; [injection E as <- <-; destruct Ho as [<-|[]]; cbn; auto|].
      destruct (listed s w) eqn:L; injection E as <- <-; [destruct Ho|destruct Ho as [<-|[]]].
      cbn. right. split; [reflexivity|]. exists w, r. split; [auto|]. left. exact L.
    + destruct (drop (HUsr t) w s) as [s1 b] eqn:D. apply drop_facts in D. destruct D as (D & _ & Hb & _).
      destruct (o_fut (s_ev s w)) eqn:Fw; cbn [negb] in E.
      * destruct (o_ready (s_ev s w)) eqn:R; [|discriminate E].
        destruct (Z.eqb_spec (o_rt (s_ev s w)) NO_ERROR) as [Z|Z]; injection E as <- <-.
        -- exact (calls_source _ _ _ b w Hb o Ho).
        -- rewrite in_app_iff in Ho. destruct Ho as [Ho|[<-|[]]]; [exact (calls_source _ _ _ b w Hb o Ho)|].
           cbn. right. split; [reflexivity|]. exists w, r. split; [auto|]. right. auto.
      * injection E as <- <-. exact (calls_source _ _ _ b w Hb o Ho).
    + destruct (_ =? _)%Z; [|destruct (is_error_code code)].
      * injection E as <- <-. destruct Ho.
      * injection E as <- <-. destruct Ho.
      * destruct (drop (HUsr t) e s) as [s1 b] eqn:D. apply drop_facts in D. destruct D as (D & _ & Hb & _).
        injection E as <- <-. rewrite in_app_iff in Ho. destruct Ho as [Ho|[<-|[]]]; [exact (calls_source _ _ _ b e Hb o Ho)|exact Logic.I].
    + injection E as <- <-. destruct Ho.
    + injection E as <- <-. destruct Ho.
    + destruct (notify_callback e s) as [s1 b] eqn:N. destruct (drop (HUsr t) e s1) as [s2 b2] eqn:D.
      apply drop_facts in D. destruct D as (D & _ & Hb & _). injection E as <- <-.
      rewrite !in_app_iff in Ho. destruct Ho as [Ho|[Ho|[<-|[]]]].
      * exact (calls_source _ _ _ b e (notify_calls _ _ _ _ N) o Ho).
      * exact (calls_source _ _ _ b2 e Hb o Ho).
      * exact Logic.I.
    + destruct (all_stopped s c (s_thr s c)); [|discriminate E].
      destruct (break_queues c (s_thr s c) s) as [s1 b] eqn:D. injection E as <- <-.
      apply break_queues_facts in D. destruct D as (_ & _ & _ & _ & _ & _ & _ & _ & _ & _ & A11 & _).
      rewrite in_app_iff in Ho. destruct Ho as [Ho|[<-|[]]]; [|exact Logic.I].
      apply A11 in Ho. destruct Ho as (x & k & -> & B). cbn. exists c, k. tauto.
Qed.

(** ** Calls of callbacks *)

Definition call_source (s : est) (a1 : list obs) (e : nat) : Prop :=
  o_fin (s_ev s e) = true \/
  In (ORel e) a1 \/
  (o_refs (s_ev s e) <> [] /\ ~ In HList (o_refs (s_ev s e))).

Lemma drop_call hd x s s1 b e k :
  drop hd x s = (s1, b) -> hd <> HList -> In (OCall e k) b ->
  e = x /\ o_refs (s_ev s e) <> [] /\ ~ In HList (o_refs (s_ev s e)).
Proof.
  intros D N A. apply drop_form in D. destruct D as (_ & ->).
  destruct (o_refs (s_ev s x)) as [|h0 hs] eqn:R; [destruct A|].
  destruct (remove holder_dec hd (h0 :: hs)) as [|h1 hs'] eqn:R2; [|destruct A].
  assert (e = x) as ->.
  { unfold destroy in A. destruct (o_cb (s_ev s x)); [|destruct A]. destruct (_ && _); [|destruct A]. destruct A as [A|[]]. congruence. }
  rewrite R. split; [reflexivity|]. split; [discriminate|]. intro B.
  assert (In HList (remove holder_dec hd (h0 :: hs))) as C by (apply in_in_remove; [congruence|exact B]).
  rewrite R2 in C. destruct C.
Qed.

Lemma one_split {A} (x o : A) a1 a2 : [x] = a1 ++ o :: a2 -> a1 = [] /\ x = o /\ a2 = [].
Proof. destruct a1 as [|y [|z a1]]; cbn; intro H; [injection H as <- <-; auto|discriminate|discriminate]. Qed.

Lemma app_last_split {A} (b : list A) x o a1 a2 :
  b ++ [x] = a1 ++ o :: a2 -> x = o \/ (In o b /\ forall y, In y a2 -> In y b \/ y = x).
Proof.
  revert a1. induction b as [|y b IH]; intros a1 H; cbn in H.
  - apply one_split in H. left. tauto.
  - destruct a1 as [|z a1]; cbn in H; injection H as -> H.
    + right. split; [now left|]. intros w B. rewrite <- H in B. rewrite in_app_iff in B. destruct B as [B|[B|[]]]; [left; now right|right; congruence].
    + destruct (IH a1 H) as [B|(B & C)]; [auto|]. right. split; [now right|]. intros w D. destruct (C w D); [left; now right|auto].
Qed.

Theorem step_call s h l s' a1 e k a2 :
  InvA s h -> InvF s h -> InvU s h -> InvC s h -> estep l s = Some (s', a1 ++ OCall e k :: a2) ->
  (forall k', ~ In (OReg e k') a2) /\ call_source s a1 e.
Proof.
  intros I F U C0 E. unfold estep in E. destruct (s_crash s); [discriminate|].
  destruct l as [ooo| |c ws j|x|t x code|t ws|x|t c|c i|c i|c i r|t].
  - injection E as _ E. apply one_split in E. destruct E as (_ & E & _). discriminate.
  - injection E as _ E. apply one_split in E. destruct E as (_ & E & _). discriminate.
  - exfalso. unfold enqueue in E. destruct (negb (s_listed s c)); [injection E as _ E; destruct a1; discriminate|].
    destruct (responsible _ ws) as [r|]; [|injection E as _ E; destruct a1; discriminate].
    destruct (match r with None => _ | Some _ => _ end); [discriminate|].
    destruct (_ <=? _); injection E as _ E; apply one_split in E; destruct E as (_ & E & _); discriminate.
  - destruct (listed s x) eqn:L; [|injection E as _ E; destruct a1; discriminate].
    destruct (set_callback x (s_nreg s) s) as [s1 b] eqn:C. injection E as _ E.
    unfold set_callback in C. destruct (o_fin (s_ev s x)) eqn:Fx; injection C as _ C; rewrite <- C in E.
    + destruct a1 as [|y a1]; cbn in E; [discriminate|]. injection E as _ E. apply one_split in E. destruct E as (-> & E & ->).
      assert (x = e) as -> by congruence. split; [intros ? []|]. left. exact Fx.
    + apply one_split in E. destruct E as (_ & E & _). discriminate.
  - exfalso. unfold set_status in E. destruct (s_usr s t) eqn:Ut; try discriminate E.
    destruct (listed s x) eqn:L; cbn [negb] in E; [|injection E as _ E; apply one_split in E; destruct E as (_ & E & _); discriminate].
    destruct (o_kind (s_ev s x)) eqn:K; [|injection E as _ E; apply one_split in E; destruct E as (_ & E & _); discriminate].
    destruct (o_ready (s_ev s x)) eqn:R; injection E as _ E; apply one_split in E; destruct E as (_ & E & _); discriminate.
  - destruct (s_usr s t) eqn:Ut; try discriminate E. injection E as _ E; apply one_split in E; destruct E as (_ & E & _); discriminate.
  - destruct (listed s x) eqn:L; [|injection E as _ E; destruct a1; discriminate].
    destruct (drop HList x s) as [s1 b] eqn:D. injection E as _ E.
    apply drop_facts in D. destruct D as (_ & _ & Hb & _).
    destruct a1 as [|y a1]; cbn in E; [discriminate|]. injection E as <- E.
    assert (forall o, In o (a1 ++ OCall e k :: a2) -> exists k', o = OCall x k') as Hb' by (rewrite <- E; exact Hb).
    destruct (Hb' (OCall e k)) as (k0 & Q); [rewrite in_app_iff; right; now left|]. injection Q as <- <-.
    split; [|right; left; now left]. intros k' A. destruct (Hb' (OReg e k')) as (k1 & Q); [rewrite in_app_iff; right; now right|discriminate].
  - exfalso. unfold release_ctx in E. destruct (s_usr s t) eqn:Ut; try discriminate E.
    destruct (negb (s_listed s c)) eqn:L; [injection E as _ E; destruct a1; discriminate|].
    destruct (some_running _ _ _); injection E as _ E; [apply one_split in E; destruct E as (_ & E & _); discriminate|destruct a1; discriminate].
  - exfalso. destruct (i <? s_thr s c) eqn:Hi; [|discriminate]. unfold pop in E.
    destruct (s_mgr s c i) eqn:Mi; try discriminate E.
    destruct (s_queue s c i) as [|x q] eqn:Q; destruct (s_done s c); try discriminate E; injection E as _ E; try (destruct a1; discriminate).
    apply one_split in E; destruct E as (_ & E & _); discriminate.
  - unfold mgr_step in E.
    destruct (s_mgr s c i) as [|x ws|x w r|x lk|x r|x r|x r|x|x|] eqn:Mi; try discriminate E.
    + exfalso. destruct ws as [|w r].
      * destruct (o_refs (s_ev s x)); [injection E as _ E; apply one_split in E; destruct E as (_ & E & _); discriminate|].
        destruct (ctx_alive s c); injection E as _ E; apply one_split in E; destruct E as (_ & E & _); discriminate.
      * destruct (listed s w) eqn:L; injection E as _ E; [destruct a1; discriminate|apply one_split in E; destruct E as (_ & E & _); discriminate].
    + destruct (drop (HMgr c i) w s) as [s1 b] eqn:D. pose proof (drop_call _ _ _ _ _ e k D ltac:(discriminate)) as Hc.
      apply drop_facts in D. destruct D as (_ & _ & Hb & _).
      assert (b = a1 ++ OCall e k :: a2 -> (forall k', ~ In (OReg e k') a2) /\ call_source s a1 e) as Hgo.
      { intro Q. split.
        - intros k' A. destruct (Hb (OReg e k')) as (k1 & B); [rewrite Q, in_app_iff; right; now right|discriminate].
        - right. right. apply Hc. rewrite Q, in_app_iff. right. now left. }
      destruct (negb (o_fut (s_ev s w))); [injection E as _ E; auto|].
      destruct (o_ready (s_ev s w)) eqn:R; [|discriminate E].
      destruct (_ =? _)%Z; injection E as _ E; [auto|].
      apply app_last_split in E. destruct E as [E|(E1 & E2)]; [discriminate|]. split.
      * intros k' A. destruct (E2 _ A) as [B|B]; [|discriminate]. destruct (Hb _ B) as (k1 & Q). discriminate.
      * right. right. apply Hc. exact E1.
    + injection E as _ E. destruct a1; discriminate.
    + injection E as _ E. destruct a1; discriminate.
    + destruct (notify_callback x s) as [s1 b] eqn:D. injection E as _ E.
      apply app_last_split in E. destruct E as [E|(E1 & E2)]; [discriminate|].
      destruct (notify_calls _ _ _ _ D _ E1) as (k0 & Q). injection Q as <- <-. split.
      * intros k' A. destruct (E2 _ A) as [B|B]; [|discriminate]. destruct (notify_calls _ _ _ _ D _ B) as (k1 & Q). discriminate.
      * left. apply (c_mgr _ _ C0 c i). rewrite Mi. left. exists r. auto.
    + destruct (drop (HMgr c i) x (on_ev x (o_set_cs COMPLETE) s)) as [s1 b] eqn:D. injection E as _ E.
      pose proof (drop_call _ _ _ _ _ e k D ltac:(discriminate)) as Hc.
      apply drop_facts in D. destruct D as (_ & _ & Hb & _). split.
      * intros k' A. destruct (Hb (OReg e k')) as (k1 & B); [rewrite E, in_app_iff; right; now right|discriminate].
      * assert (In (OCall e k) b) as A by (rewrite E, in_app_iff; right; now left).
        destruct (Hc A) as (-> & H1 & H2). cbn in H1, H2. rewrite upd_eq in H1. rewrite upd_eq in H2. right. right. auto.
    + injection E as _ E. destruct a1; discriminate.
  - exfalso. unfold finish in E. destruct (s_mgr s c i) as [| | |x lk| | | | | |] eqn:Mi; try discriminate E. destruct lk.
    + destruct (ctx_alive _ _); injection E as _ E; apply one_split in E; destruct E as (_ & E & _); discriminate.
    + destruct (_ =? _)%Z; [|discriminate]. injection E as _ E; apply one_split in E; destruct E as (_ & E & _); discriminate.
  - unfold usr_step in E.
    destruct (s_usr s t) as [|ws|w r|x code|x r|x r|x r|c] eqn:Ut; try discriminate E.
    + exfalso. destruct ws as [|w r]; [injection E as _ E; apply one_split in E; destruct E as (_ & E & _); discriminate|].
      destruct (listed s w) eqn:L; injection E as _ E; [destruct a1; discriminate|apply one_split in E; destruct E as (_ & E & _); discriminate].
    + destruct (drop (HUsr t) w s) as [s1 b] eqn:D. pose proof (drop_call _ _ _ _ _ e k D ltac:(discriminate)) as Hc.
      apply drop_facts in D. destruct D as (_ & _ & Hb & _).
      assert (b = a1 ++ OCall e k :: a2 -> (forall k', ~ In (OReg e k') a2) /\ call_source s a1 e) as Hgo.
      { intro Q. split.
        - intros k' A. destruct (Hb (OReg e k')) as (k1 & B); [rewrite Q, in_app_iff; right; now right|discriminate].
        - right. right. apply Hc. rewrite Q, in_app_iff. right. now left. }
      destruct (negb (o_fut (s_ev s w))); [injection E as _ E; auto|].
      destruct (o_ready (s_ev s w)) eqn:R; [|discriminate E].
      destruct (_ =? _)%Z; injection E as _ E; [auto|].
      apply app_last_split in E. destruct E as [E|(E1 & E2)]; [discriminate|]. split.
      * intros k' A. destruct (E2 _ A) as [B|B]; [|discriminate]. destruct (Hb _ B) as (k1 & Q). discriminate.
      * right. right. apply Hc. exact E1.
    + destruct (_ =? _)%Z; [|destruct (is_error_code code)].
      * injection E as _ E. destruct a1; discriminate.
      * injection E as _ E. destruct a1; discriminate.
      * destruct (drop (HUsr t) x s) as [s1 b] eqn:D. pose proof (drop_call _ _ _ _ _ e k D ltac:(discriminate)) as Hc.
        apply drop_facts in D. destruct D as (_ & _ & Hb & _). injection E as _ E.
        apply app_last_split in E. destruct E as [E|(E1 & E2)]; [discriminate|]. split.
        -- intros k' A. destruct (E2 _ A) as [B|B]; [|discriminate]. destruct (Hb _ B) as (k1 & Q). discriminate.
        -- right. right. apply Hc. exact E1.
    + injection E as _ E. destruct a1; discriminate.
    + injection E as _ E. destruct a1; discriminate.
    + destruct (notify_callback x s) as [s1 b] eqn:N. destruct (drop (HUsr t) x s1) as [s2 b2] eqn:D.
      apply drop_facts in D. destruct D as (_ & _ & Hb & _). injection E as _ E. rewrite app_assoc in E.
      apply app_last_split in E. destruct E as [E|(E1 & E2)]; [discriminate|].
      assert (forall o, In o (b ++ b2) -> exists k', o = OCall x k') as Hbb.
      { intros o A. rewrite in_app_iff in A. destruct A as [A|A]; [exact (notify_calls _ _ _ _ N o A)|exact (Hb o A)]. }
      destruct (Hbb _ E1) as (k0 & Q). injection Q as <- <-. split.
      * intros k' A. destruct (E2 _ A) as [B|B]; [|discriminate]. destruct (Hbb _ B) as (k1 & Q). discriminate.
      * left. assert (uev (s_usr s t) = Some e) as Ue by (rewrite Ut; reflexivity).
        pose proof (u_thr _ _ U t e Ue) as P. rewrite Ut in P. cbn in P. destruct P as (cd & _ & _ & _ & _ & P). exact P.
    + exfalso. destruct (all_stopped s c (s_thr s c)); [|discriminate E].
      destruct (break_queues c (s_thr s c) s) as [s1 b] eqn:D. injection E as _ E.
      apply break_queues_facts in D. destruct D as (_ & _ & _ & _ & _ & _ & _ & _ & _ & _ & A11 & _).
      apply app_last_split in E. destruct E as [E|(E1 & E2)]; [discriminate|].
      apply A11 in E1. destruct E1 as (x & k1 & Q & _). discriminate.
Qed.
