(** * What a step leaves alone, what it takes to crash and to return from a release *)

From Coq Require Import ZArith List Bool Arith Lia.
From Verif Require Import EventModel EventSpec EventInv EventMono EventFate EventUser EventWait EventCb EventCb2 EventAll EventEmit.
Import ListNotations.

Definition crash_cause (s : est) (l : elabel) : Prop :=
  (exists c ws j w c' ws', l = LEnqueue c ws j /\ In w ws /\ o_kind (s_ev s w) = KCmd c' ws' /\
     o_fut (s_ev s w) = true /\ s_thr s c <= o_thr (s_ev s w)) \/
  (exists t e code c ws, l = LStatus t e code /\ o_kind (s_ev s e) = KCmd c ws) \/
  (exists c i e, s_mgr s c i = MWait e [] /\ o_refs (s_ev s e) = []) \/
  (exists c i e, s_mgr s c i = MRun e true /\ s_listed s c = false).

Definition joined_cause (s : est) (l : elabel) (a : list obs) (t c : nat) : Prop :=
  (l = LUsr t /\ s_usr s t = UJoin c /\ all_stopped s c (s_thr s c) = true /\
   exists b, a = b ++ [OJoined t c] /\ (forall o, In o b -> exists e, o = ODrop e) /\ forall i e, i < s_thr s c -> In e (s_queue s c i) -> In (ODrop e) b) \/
  (l = LReleaseCtx t c /\ some_running s c (s_thr s c) = true /\ a = [OJoined t c]).

Record Frame (s : est) (l : elabel) (s' : est) (a : list obs) : Prop := {
  fr_thr : forall e, e < s_n s -> o_thr (s_ev s' e) = o_thr (s_ev s e);
  fr_list : forall c, s_listed s' c = s_listed s c \/ (exists ooo, l = LContext ooo /\ c = s_nctx s) \/
              (exists t, l = LReleaseCtx t c);
  fr_rel : forall e, In (ORel e) a -> l = LRelease e /\ listed s e = true;
  fr_crash : s_crash s' = true -> crash_cause s l;
  fr_done : forall c, s_done s' c = s_done s c \/ exists t, l = LReleaseCtx t c;
  fr_usr : forall t, s_usr s' t = s_usr s t \/ l = LUsr t \/ s_usr s t = UIdle;
  fr_joined : forall t c, In (OJoined t c) a -> joined_cause s l a t c;
  fr_enq : forall e c ws, In (OEnq e c ws) a -> o_thr (s_ev s' e) < s_thr s c;
  fr_open : forall c b, In (OContext c b) a -> c = s_nctx s /\ s_listed s' c = true;
  fr_ocrash : In OCrash a -> s_crash s' = true
}.

Definition calls_only (b : list obs) : Prop := forall o, In o b -> exists e k, o = OCall e k.

Lemma drop_calls hd e s s1 b : drop hd e s = (s1, b) -> calls_only b.
Proof. intros D o A. apply drop_facts in D. destruct D as (_ & _ & D & _). destruct (D o A) as (k & ->). eauto. Qed.
Lemma notify_calls_only e s s1 b : notify_callback e s = (s1, b) -> calls_only b.
Proof. intros D o A. destruct (notify_calls _ _ _ _ D o A) as (k & ->). eauto. Qed.

Local Ltac in_obs A :=
  repeat first
    [ rewrite in_app_iff in A
    | match type of A with
      | False => destruct A
      | _ \/ _ => destruct A as [A|A]
      | In _ (_ :: _) => destruct A as [A|A]
      | In _ [] => destruct A
      | _ = _ => discriminate A
      | In _ _ => match goal with H : calls_only _ |- _ => apply H in A; destruct A as (? & ? & A) end
      end ].

Local Ltac fr :=
  constructor;
  [ intros x Lx; cbn; unfold upd; repeat match goal with |- context [?p =? ?q] => destruct (Nat.eqb_spec p q); subst end;
      cbn; try reflexivity; try lia
  | intro x; cbn; auto
  | intros x A; in_obs A
  | let HH := fresh in intro HH; cbn in HH; try congruence
  | intro x; cbn; auto
  | intro x; cbn; unfold upd; repeat match goal with |- context [?p =? ?q] => destruct (Nat.eqb_spec p q); subst end; auto
  | intros x y A; in_obs A
  | intros x y z A; in_obs A
  | intros x y A; in_obs A
  | let A := fresh in intro A; first [reflexivity | in_obs A] ].

Lemma responsible_some s ws k :
  responsible s ws = Some (Some k) ->
  exists w c' ws', In w ws /\ o_kind (s_ev s w) = KCmd c' ws' /\ o_fut (s_ev s w) = true /\ o_thr (s_ev s w) = k.
Proof.
  induction ws as [|w r IH]; cbn; [discriminate|]. destruct (listed s w); [|discriminate].
  destruct (o_kind (s_ev s w)) as [|c' ws'] eqn:K.
  - rewrite andb_false_r. intro H. destruct (IH H) as (w' & c' & ws' & A & B). exists w', c', ws'. auto.
  - destruct (o_fin (s_ev s w)); cbn [negb andb].
    + intro H. destruct (IH H) as (w' & c2 & ws2 & A & B). exists w', c2, ws2. auto.
    + destruct (o_fut (s_ev s w)) eqn:Fu; [|discriminate]. intro H. injection H as <-. exists w, c', ws'. auto.
Qed.

Theorem step_frame s l s' a : estep l s = Some (s', a) -> Frame s l s' a.
Proof.
  intro E. unfold estep in E. destruct (s_crash s) eqn:Cr; [discriminate|].
  destruct l as [ooo| |c ws j|e|t e code|t ws|e|t c|c i|c i|c i r|t].
  - injection E as <- <-. fr.
    + destruct (Nat.eq_dec x (s_nctx s)) as [->|N]; [eauto|]. rewrite upd_ne by exact N. auto.
    + injection A as <- <-. split; [reflexivity|]. cbn. apply upd_eq.
  - injection E as <- <-. fr.
  - unfold enqueue in E. destruct (negb (s_listed s c)); [injection E as <- <-; fr|].
    destruct (responsible _ ws) as [r|] eqn:R; [|injection E as <- <-; fr].
    destruct (match r with None => _ | Some _ => _ end) eqn:J; [discriminate|].
    destruct (s_thr s c <=? match r with Some k => k | None => j end) eqn:T; injection E as <- <-.
    + fr. apply Nat.leb_le in T. destruct r as [k|].
      2:{ apply Nat.leb_gt in J. lia. }
      left. apply responsible_some in R. destruct R as (w & c' & ws' & R1 & R2 & R3 & R4).
      cbn in R2, R3, R4. unfold upd in R2, R3, R4. destruct (Nat.eqb_spec w (s_n s)) as [->|N]; [discriminate R3|].
      exists c, ws, j, w, c', ws'. split; [reflexivity|]. split; [exact R1|]. split; [exact R2|]. split; [exact R3|]. lia.
    + apply Nat.leb_gt in T. fr. injection A as <- <- <-. cbn. rewrite upd_eq. exact T.
  - destruct (listed s e) eqn:L; [|injection E as <- <-; fr].
    destruct (set_callback e (s_nreg s) s) as [s1 b] eqn:C. injection E as <- <-.
    unfold set_callback in C. destruct (o_fin (s_ev s e)); injection C as <- <-; fr.
  - unfold set_status in E. destruct (s_usr s t) eqn:Ut; try discriminate E.
    destruct (listed s e) eqn:L; cbn [negb] in E; [|injection E as <- <-; fr].
    destruct (o_kind (s_ev s e)) eqn:K.
    2:{ injection E as <- <-. fr. right. left. eauto 8. }
    destruct (o_ready (s_ev s e)) eqn:R; injection E as <- <-; fr.
  - destruct (s_usr s t) eqn:Ut; try discriminate E. injection E as <- <-. fr.
  - destruct (listed s e) eqn:L; [|injection E as <- <-; fr].
    destruct (drop HList e s) as [s1 b] eqn:D. injection E as <- <-. pose proof (drop_calls _ _ _ _ _ D) as Cb.
    apply drop_facts in D. destruct D as (-> & _). fr. injection A as <-. auto.
  - unfold release_ctx in E. destruct (s_usr s t) eqn:Ut; try discriminate E.
    destruct (negb (s_listed s c)); [injection E as <- <-; fr|].
    destruct (some_running s c (s_thr s c)) eqn:Sr; injection E as <- <-.
    + fr.
      * destruct (Nat.eq_dec x c) as [->|N]; [eauto|]. rewrite upd_ne by exact N. auto.
      * destruct (Nat.eq_dec x c) as [->|N]; [eauto|]. rewrite upd_ne by exact N. auto.
      * injection A as <- <-. right. auto.
    + fr.
      * destruct (Nat.eq_dec x c) as [->|N]; [eauto|]. rewrite upd_ne by exact N. auto.
      * destruct (Nat.eq_dec x c) as [->|N]; [eauto|]. rewrite upd_ne by exact N. auto.
  - destruct (i <? s_thr s c) eqn:Hi; [|discriminate]. unfold pop in E.
    destruct (s_mgr s c i) eqn:Mi; try discriminate E.
    destruct (s_queue s c i) as [|e q] eqn:Q; destruct (s_done s c); try discriminate E; injection E as <- <-; fr.
  - unfold mgr_step in E.
    destruct (s_mgr s c i) as [|e ws|e w r|e lk|e r|e r|e r|e|e|] eqn:Mi; try discriminate E.
    + destruct ws as [|w r].
      * destruct (o_refs (s_ev s e)) eqn:Rf; [injection E as <- <-; fr; right; right; left; eauto|].
        destruct (ctx_alive s c); injection E as <- <-; fr.
      * destruct (listed s w) eqn:L; injection E as <- <-; fr.
    + destruct (drop (HMgr c i) w s) as [s1 b] eqn:D. pose proof (drop_calls _ _ _ _ _ D) as Cb.
      apply drop_facts in D. destruct D as (-> & _).
      destruct (negb (o_fut (s_ev s w))); [injection E as <- <-; fr|].
      destruct (o_ready (s_ev s w)) eqn:R; [|discriminate E].
      destruct (_ =? _)%Z; injection E as <- <-; fr.
    + injection E as <- <-. fr.
    + injection E as <- <-. fr.
    + destruct (notify_callback e s) as [s1 b] eqn:D. injection E as <- <-. pose proof (notify_calls_only _ _ _ _ D) as Cb.
      apply notify_facts in D. destruct D as [(-> & _)|(k & _ & _ & -> & _)]; fr.
    + destruct (drop (HMgr c i) e (on_ev e (o_set_cs COMPLETE) s)) as [s1 b] eqn:D. injection E as <- <-.
      pose proof (drop_calls _ _ _ _ _ D) as Cb. apply drop_facts in D. destruct D as (-> & _). fr.
    + injection E as <- <-. fr.
  - unfold finish in E. destruct (s_mgr s c i) as [| | |e lk| | | | | |] eqn:Mi; try discriminate E. destruct lk.
    + destruct (ctx_alive _ _) eqn:Al; injection E as <- <-; fr.
      right. right. right. exists c, i, e. split; [exact Mi|]. unfold ctx_alive in Al. cbn in Al.
      apply orb_false_iff in Al. apply Al.
    + destruct (_ =? _)%Z; [|discriminate]. injection E as <- <-. fr.
  - unfold usr_step in E.
    destruct (s_usr s t) as [|ws|w r|e code|e r|e r|e r|c] eqn:Ut; try discriminate E.
    + destruct ws as [|w r]; [injection E as <- <-; fr|].
      destruct (listed s w) eqn:L; injection E as <- <-; fr.
    + destruct (drop (HUsr t) w s) as [s1 b] eqn:D. pose proof (drop_calls _ _ _ _ _ D) as Cb.
      apply drop_facts in D. destruct D as (-> & _).
      destruct (negb (o_fut (s_ev s w))); [injection E as <- <-; fr|].
      destruct (o_ready (s_ev s w)) eqn:R; [|discriminate E].
      destruct (_ =? _)%Z; injection E as <- <-; fr.
    + destruct (_ =? _)%Z; [|destruct (is_error_code code)].
      * injection E as <- <-. fr.
      * injection E as <- <-. fr.
      * destruct (drop (HUsr t) e s) as [s1 b] eqn:D. pose proof (drop_calls _ _ _ _ _ D) as Cb.
        apply drop_facts in D. destruct D as (-> & _). injection E as <- <-. fr.
    + injection E as <- <-. fr.
    + injection E as <- <-. fr.
    + destruct (notify_callback e s) as [s1 b] eqn:Nc. destruct (drop (HUsr t) e s1) as [s2 b2] eqn:D.
      pose proof (drop_calls _ _ _ _ _ D) as Cb. pose proof (notify_calls_only _ _ _ _ Nc) as Cb2.
      apply drop_facts in D. destruct D as (-> & _). injection E as <- <-.
      apply notify_facts in Nc. destruct Nc as [(-> & _)|(k & _ & _ & -> & _)]; fr.
    + destruct (all_stopped s c (s_thr s c)) eqn:St; [|discriminate E].
      destruct (break_queues c (s_thr s c) s) as [s1 b] eqn:D. injection E as <- <-.
      apply break_queues_facts in D. destruct D as (A1 & A2 & A3 & A4 & A5 & A6 & A7 & A8 & A9 & A10 & A11 & A12).
      constructor.
      * intros x _. cbn. destruct (A12 x) as [(k & _ & _ & ->)|(_ & ->)]; reflexivity.
      * intro x. cbn. rewrite A4. auto.
      * intros x A. rewrite in_app_iff, A11 in A. destruct A as [(y & k & A & _)|A]; [discriminate A|]. in_obs A.
      * cbn. congruence.
      * intro x. cbn. rewrite A5. auto.
      * intro x. cbn. unfold upd. destruct (Nat.eqb_spec x t) as [->|]; [auto|]. rewrite A7. auto.
      * intros x y A. rewrite in_app_iff, A11 in A. destruct A as [(z & k & A & _)|A]; [discriminate A|]. in_obs A.
        injection A as <- <-. left. split; [reflexivity|]. split; [exact Ut|]. split; [exact St|].
        exists b. split; [reflexivity|]. split; [intros o A; apply A11 in A; destruct A as (z & k & -> & _); eauto|].
        intros i e Li Q. apply A11. eauto.
      * intros x y z A. rewrite in_app_iff, A11 in A. destruct A as [(u & k & A & _)|A]; [discriminate A|]. in_obs A.
      * intros x y A. rewrite in_app_iff, A11 in A. destruct A as [(u & k & A & _)|A]; [discriminate A|]. in_obs A.
      * intro A. rewrite in_app_iff, A11 in A. destruct A as [(u & k & A & _)|A]; [discriminate A|]. in_obs A.
Qed.
