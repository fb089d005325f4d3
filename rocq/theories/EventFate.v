(** * The life of a command: what can be observed of it, in which order *)

From Coq Require Import ZArith List Bool Arith Lia Sorting.Sorted.
From Verif Require Import EventModel EventSpec EventInv.
Import ListNotations.

Definition begins (x : obs) (e : nat) : Prop := x = OStart e \/ x = ONoop e.

Definition ran_through (e : nat) (l : list obs) : Prop :=
  exists x r, begins x e /\ l = [x; ODone e r; ORan e r].

Definition life (m : mstate) (l : list obs) : Prop :=
  match m with
  | MIdle | MStopped => True
  | MWait e _ | MWaitOn e _ _ => l = []
  | MRun e b => l = [if b then OStart e else ONoop e]
  | MNote1 e r | MNote2 e r | MNote3 e r => exists x, begins x e /\ l = [x; ODone e r]
  | MEnd e => ran_through e l
  | MExit e => ran_through e l \/ l = [OSkip e]
  end.

Definition finished (e : nat) (l : list obs) : Prop :=
  ran_through e l \/ l = [OSkip e] \/ l = [ODrop e].

Record InvF (s : est) (h : list obs) : Prop := {
  f_mgr : forall c i e, mev (s_mgr s c i) = Some e -> life (s_mgr s c i) (fates h e);
  f_queue : forall c i e, In e (s_queue s c i) -> fates h e = [];
  f_out : forall e, s_n s <= e \/ o_kind (s_ev s e) = KUser \/ o_fut (s_ev s e) = false -> fates h e = [];
  f_over : forall e c ws, e < s_n s -> o_kind (s_ev s e) = KCmd c ws -> o_fut (s_ev s e) = true ->
             o_ready (s_ev s e) = true -> finished e (fates h e)
}.

Lemma fates_app h a e : fates (h ++ a) e = fates h e ++ fates a e.
Proof. apply filter_app. Qed.

Definition nofate (a : list obs) : Prop := forall e, fates a e = [].

Lemma nofate_nil : nofate [].
Proof. intro. reflexivity. Qed.
Lemma nofate_app a b : nofate a -> nofate b -> nofate (a ++ b).
Proof. intros A B e. rewrite fates_app, A, B. reflexivity. Qed.
Lemma nofate_one o : (forall e, fate e o = false) -> nofate [o].
Proof. intros A e. unfold fates. cbn. now rewrite A. Qed.
Lemma nofate_cons o a : (forall e, fate e o = false) -> nofate a -> nofate (o :: a).
Proof. intros A B e. unfold fates. cbn. rewrite A. apply B. Qed.
Lemma nofate_calls e a : (forall o, In o a -> exists k, o = OCall e k) -> nofate a.
Proof.
  intros H x. unfold fates. induction a as [|o a IH]; [reflexivity|]. cbn.
  destruct (H o (or_introl eq_refl)) as (k & ->). cbn. apply IH. intros o A. apply H. now right.
Qed.

Lemma fates_one e o : fate e o = true -> fates [o] e = [o].
Proof. intro A. unfold fates. cbn. now rewrite A. Qed.
Lemma fates_self_skip e : fates [OSkip e] e = [OSkip e].
Proof. apply fates_one. cbn. apply Nat.eqb_refl. Qed.
Lemma fates_other e x o : (forall y, fate y o = (x =? y)) -> e <> x -> fates [o] e = [].
Proof. intros A B. unfold fates. cbn. rewrite A. destruct (Nat.eqb_spec x e); [congruence|reflexivity]. Qed.

(** Nothing relevant happens. *)
Lemma InvF_frame s h s' a :
  InvF s h -> s_mgr s' = s_mgr s ->
  (forall c i e, In e (s_queue s' c i) -> In e (s_queue s c i) \/ s_n s <= e) ->
  s_n s <= s_n s' ->
  (forall e, e < s_n s -> o_kind (s_ev s' e) = o_kind (s_ev s e) /\ o_fut (s_ev s' e) = o_fut (s_ev s e) /\
             (o_kind (s_ev s e) = KUser \/ o_ready (s_ev s' e) = o_ready (s_ev s e))) ->
  (forall e, s_n s <= e -> e < s_n s' -> o_ready (s_ev s' e) = false) ->
  nofate a -> InvF s' (h ++ a).
Proof.
  intros I Hm Hq Hn Ho Hw Na.
  assert (forall e, fates (h ++ a) e = fates h e) as Hf by (intro e; rewrite fates_app, Na; apply app_nil_r).
  constructor.
  - intros c i e. rewrite Hm, Hf. exact (f_mgr _ _ I c i e).
  - intros c i e A. rewrite Hf. destruct (Hq _ _ _ A) as [B|B]; [exact (f_queue _ _ I _ _ _ B)|].
    apply (f_out _ _ I). auto.
  - intros e A. rewrite Hf. apply (f_out _ _ I). destruct (le_lt_dec (s_n s) e) as [B|B]; [auto|].
    destruct (Ho e B) as (C1 & C2 & _). rewrite C1, C2 in A. destruct A as [A|A]; [lia|auto].
  - intros e c ws A1 A2 A3 A4. rewrite Hf. destruct (le_lt_dec (s_n s) e) as [B|B].
    + rewrite (Hw e B A1) in A4. discriminate.
    + destruct (Ho e B) as (C1 & C2 & C3). rewrite C1 in A2. rewrite C2 in A3.
      destruct C3 as [C3|C3]; [congruence|]. rewrite C3 in A4. exact (f_over _ _ I e c ws B A2 A3 A4).
Qed.

(** A manager goes on with its command. *)
Lemma InvF_move s h s' a c i m' e :
  InvA s h -> InvF s h -> s_mgr s' = upd2 (s_mgr s) c i m' -> s_queue s' = s_queue s -> s_n s' = s_n s ->
  (forall x, o_kind (s_ev s' x) = o_kind (s_ev s x) /\ o_fut (s_ev s' x) = o_fut (s_ev s x) /\
             (o_ready (s_ev s' x) = o_ready (s_ev s x) \/ x = e)) ->
  mev (s_mgr s c i) = Some e ->
  (forall x, x <> e -> fates a x = []) ->
  (mev m' = Some e /\ life m' (fates h e ++ fates a e) /\ o_ready (s_ev s' e) = o_ready (s_ev s e)
   \/ mev m' = None /\ finished e (fates h e ++ fates a e)) ->
  InvF s' (h ++ a).
Proof.
  intros I F Hm Hq Hn Ho He Ha Hl.
  destruct (a_mgr _ _ I _ _ _ He) as (G1 & (wse & G2) & G3 & G4 & G5 & G6).
  constructor; rewrite ?Hq, ?Hn.
  - intros c' i' x. rewrite Hm, fates_app.
    destruct (upd2_cases (s_mgr s) c i m' c' i') as [(-> & -> & ->)|(N & ->)]; intro A.
    + destruct Hl as [(B & C & _)|(B & _)]; [|congruence]. assert (x = e) as -> by congruence. exact C.
    + destruct (Nat.eq_dec x e) as [->|X].
      * exfalso. destruct (a_mgr _ _ I _ _ _ A) as (_ & (w & B) & _ & _ & C & _).
        assert (c' = c) by congruence. assert (i' = i) by congruence. tauto.
      * rewrite (Ha x X), app_nil_r. exact (f_mgr _ _ F _ _ _ A).
  - intros c' i' x A. rewrite fates_app. destruct (Nat.eq_dec x e) as [->|X].
    + exfalso. destruct (a_queue _ _ I _ _ _ A) as (_ & (w & B) & _ & _ & C & _).
      assert (c' = c) as -> by congruence. assert (i' = i) as -> by congruence.
      pose proof (a_order _ _ I _ _ _ _ He A). lia.
    + rewrite (Ha x X), app_nil_r. exact (f_queue _ _ F _ _ _ A).
  - intros x A. destruct (Ho x) as (B1 & B2 & _). rewrite B1, B2 in A. rewrite fates_app.
    assert (x <> e) as X by (intros ->; destruct A as [A|[A|A]]; [lia|congruence|congruence]).
    rewrite (Ha x X), app_nil_r. exact (f_out _ _ F x A).
  - intros x c' ws A1 A2 A3 A4. destruct (Ho x) as (B1 & B2 & B3). rewrite B1 in A2. rewrite B2 in A3.
    rewrite fates_app. destruct (Nat.eq_dec x e) as [->|X].
    + destruct Hl as [(_ & _ & C)|(_ & C)]; [congruence|exact C].
    + rewrite (Ha x X), app_nil_r. destruct B3 as [B3|B3]; [|congruence]. rewrite B3 in A4.
      exact (f_over _ _ F x c' ws A1 A2 A3 A4).
Qed.

(** Commands are discarded. *)
Lemma InvF_dropped s h s' a (P : nat -> Prop) :
  InvA s h -> InvF s h -> s_n s' = s_n s ->
  (forall c i, s_mgr s' c i = s_mgr s c i \/ mev (s_mgr s' c i) = None) ->
  (forall c i e, In e (s_queue s' c i) -> In e (s_queue s c i) /\ ~ P e) ->
  (forall e, P e -> exists c i, In e (s_queue s c i)) ->
  (forall e, o_kind (s_ev s' e) = o_kind (s_ev s e) /\ o_fut (s_ev s' e) = o_fut (s_ev s e)) ->
  (forall e, (P e /\ fates a e = [ODrop e]) \/
             (~ P e /\ fates a e = [] /\ o_ready (s_ev s' e) = o_ready (s_ev s e))) ->
  InvF s' (h ++ a).
Proof.
  intros I F Hn Hm Hq HP Ho Ha.
  constructor; rewrite ?Hn.
  - intros c i e A. destruct (Hm c i) as [B|B]; [|congruence]. rewrite B in A. rewrite B, fates_app.
    destruct (Ha e) as [(C & _)|(_ & -> & _)]; [exfalso|rewrite app_nil_r; exact (f_mgr _ _ F _ _ _ A)].
    destruct (HP e C) as (c' & i' & D).
    destruct (a_mgr _ _ I _ _ _ A) as (_ & (w & B1) & _ & _ & B2 & _).
    destruct (a_queue _ _ I _ _ _ D) as (_ & (w2 & B3) & _ & _ & B4 & _).
    assert (c' = c) as -> by congruence. assert (i' = i) as -> by congruence.
    pose proof (a_order _ _ I _ _ _ _ A D). lia.
  - intros c i e A. destruct (Hq _ _ _ A) as (B & C). rewrite fates_app.
    destruct (Ha e) as [(D & _)|(_ & -> & _)]; [contradiction|]. rewrite app_nil_r. exact (f_queue _ _ F _ _ _ B).
  - intros e A. destruct (Ho e) as (B1 & B2). rewrite B1, B2 in A. rewrite fates_app.
    destruct (Ha e) as [(D & _)|(_ & -> & _)]; [exfalso|rewrite app_nil_r; exact (f_out _ _ F e A)].
    destruct (HP e D) as (c & i & E). destruct (a_queue _ _ I _ _ _ E) as (C1 & (w & C2) & C3 & _).
    destruct A as [A|[A|A]]; [lia|congruence|congruence].
  - intros e c ws A1 A2 A3 A4. destruct (Ho e) as (B1 & B2). rewrite B1 in A2. rewrite B2 in A3. rewrite fates_app.
    destruct (Ha e) as [(D & ->)|(_ & -> & B)].
    + destruct (HP e D) as (c' & i' & E). rewrite (f_queue _ _ F _ _ _ E). right. right. reflexivity.
    + rewrite app_nil_r. rewrite B in A4. exact (f_over _ _ F e c ws A1 A2 A3 A4).
Qed.

(** The queues of a context are destroyed. *)
Lemma fates_drop_map q e : NoDup q -> fates (map ODrop q) e = if in_dec Nat.eq_dec e q then [ODrop e] else [].
Proof.
  unfold fates. induction q as [|x q IH]; intro N; [reflexivity|]. inversion_clear N as [|? ? N1 N2].
  cbn [map filter fate]. rewrite IH by exact N2. destruct (Nat.eqb_spec x e) as [->|X].
  - destruct (in_dec Nat.eq_dec e q) as [A|A]; [contradiction|].
    destruct (in_dec Nat.eq_dec e (e :: q)) as [B|B]; [reflexivity|]. exfalso. apply B. now left.
  - destruct (in_dec Nat.eq_dec e q) as [A|A], (in_dec Nat.eq_dec e (x :: q)) as [B|B]; try reflexivity; exfalso.
    + apply B. now right.
    + destruct B as [B|B]; [congruence|contradiction].
Qed.

Lemma break_queues_fates c n s s1 a e :
  break_queues c n s = (s1, a) ->
  (forall k, NoDup (s_queue s c k)) ->
  (forall k k' x, In x (s_queue s c k) -> In x (s_queue s c k') -> k = k') ->
  ((exists k, k < n /\ In e (s_queue s c k)) /\ fates a e = [ODrop e]) \/
  (~ (exists k, k < n /\ In e (s_queue s c k)) /\ fates a e = []).
Proof.
  revert s s1 a. induction n as [|n IH]; intros s s1 a H N U; cbn [break_queues] in H.
  - injection H as <- <-. right. split; [intros (k & A & _); lia|reflexivity].
  - destruct (break_queues c n _) as [s2 a2] eqn:E. injection H as <- <-.
    pose proof (break_all_facts (s_queue s c n) s) as B. cbn zeta in B.
    destruct B as (_ & _ & _ & _ & _ & B & _).
    assert (forall k x, In x (upd2 (s_queue s) c n [] c k) -> k <> n /\ In x (s_queue s c k)) as Hk.
    { intros k x A. destruct (Nat.eq_dec k n) as [->|K]; [rewrite upd2_eq in A; destruct A|].
      rewrite upd2_ne in A by auto. auto. }
    apply IH in E; cbn [set_queue s_queue] in *; rewrite ?B in *.
    + rewrite fates_app, fates_drop_map by apply N.
      destruct (in_dec Nat.eq_dec e (s_queue s c n)) as [A|A].
      * left. split; [exists n; split; [lia|exact A]|]. destruct E as [((k & E1 & E2) & _)|(_ & ->)]; [exfalso|reflexivity].
        apply Hk in E2. destruct E2 as (E2 & E3). pose proof (U _ _ _ A E3). lia.
      * destruct E as [((k & E1 & E2) & ->)|(E1 & ->)].
        -- left. apply Hk in E2. split; [exists k; split; [lia|tauto]|reflexivity].
        -- right. split; [|reflexivity]. intros (k & K1 & K2). apply E1. destruct (Nat.eq_dec k n) as [->|K]; [contradiction|].
           exists k. split; [lia|]. rewrite upd2_ne by auto. exact K2.
    + intro k. destruct (Nat.eq_dec k n) as [->|K]; [rewrite upd2_eq; constructor|rewrite upd2_ne by auto; apply N].
    + intros k k' x A1 A2. apply Hk in A1. apply Hk in A2. apply (U k k' x); tauto.
Qed.

Lemma sorted_NoDup q : StronglySorted lt q -> NoDup q.
Proof.
  induction 1 as [|x q S IH F]; constructor; [|exact IH]. intro A. rewrite Forall_forall in F.
  specialize (F x A). lia.
Qed.

Lemma upd_same {A B} (f : nat -> A) (g : A -> B) k v x :
  g v = g (f k) -> g (upd f k v x) = g (f x).
Proof. intro H. destruct (Nat.eq_dec x k) as [->|N]; [now rewrite upd_eq|now rewrite upd_ne]. Qed.

(** ** Every step *)

Local Ltac nf :=
  first [ apply nofate_nil | apply nofate_one; intro; reflexivity
        | eapply nofate_calls; eassumption
        | apply nofate_app; nf | apply nofate_cons; [intro; reflexivity|nf] ].

(** Changing some event(s) outside kind, future, readiness. *)
Local Ltac same_ev :=
  intros; cbn; unfold upd;
  repeat match goal with |- context [?x =? ?y] => destruct (Nat.eqb_spec x y); subst end; auto.

Theorem step_InvF s h l s' a :
  InvA s h -> InvF s h -> estep l s = Some (s', a) -> InvF s' (h ++ a).
Proof.
  intros I F E. unfold estep in E. destruct (s_crash s); [discriminate|].
  assert (forall b, nofate b -> InvF s (h ++ b)) as Fq.
  { intros b Nb. apply (InvF_frame s h); auto. intros; lia. }
  assert (InvF (crash s) (h ++ [OCrash])) as Fcr.
  { apply (InvF_frame s h); cbn; auto; try nf. intros; lia. }
  assert (InvF s (h ++ [])) as F0 by (apply Fq; nf).
  destruct l as [ooo| |c ws j|e|t e code|t ws|e|t c|c i|c i|c i r|t].
  - injection E as <- <-. apply (InvF_frame s h); cbn; auto; try nf. intros; lia.
  - injection E as <- <-. apply (InvF_frame s h); cbn; auto; try nf.
    + intros e A. rewrite upd_ne by lia. auto.
    + intros e A B. assert (e = s_n s) as -> by lia. now rewrite upd_eq.
  - unfold enqueue in E. destruct (negb (s_listed s c)); [injection E as <- <-; exact F0|].
    destruct (responsible _ ws) as [r|].
    2:{ injection E as <- <-. apply (InvF_frame s h); cbn; auto; try nf.
        - intros e A. rewrite upd_ne by lia. auto.
        - intros e A B. assert (e = s_n s) as -> by lia. now rewrite upd_eq. }
    destruct (match r with None => _ | Some _ => _ end); [discriminate|].
    set (j' := match r with Some k => k | None => j end) in *.
    destruct (Nat.leb_spec (s_thr s c) j') as [L|L]; injection E as <- <-; [exact Fcr|].
    apply (InvF_frame s h); cbn; auto; try nf.
    + intros c' i' e A. destruct (upd2_cases (s_queue s) c j' (s_queue s c j' ++ [s_n s]) c' i') as [(-> & -> & K)|(_ & K)];
        rewrite K in A; [|auto]. rewrite in_app_iff in A. destruct A as [A|[<-|[]]]; auto.
    + intros e A. rewrite upd_ne by lia. auto.
    + intros e A B. assert (e = s_n s) as -> by lia. now rewrite upd_eq.
  - destruct (listed s e) eqn:L; [|injection E as <- <-; exact F0].
    destruct (set_callback e (s_nreg s) s) as [s1 b] eqn:C. injection E as <- <-.
    unfold set_callback in C. destruct (o_fin (s_ev s e)); injection C as <- <-;
      (apply (InvF_frame s h); cbn; auto; try nf; [|intros; lia]); intros x A;
      (split; [apply (upd_same (s_ev s) o_kind); reflexivity|]);
      (split; [apply (upd_same (s_ev s) o_fut); reflexivity|]); right; apply (upd_same (s_ev s) o_ready); reflexivity.
  - unfold set_status in E. destruct (s_usr s t) eqn:U; try discriminate E.
    destruct (listed s e) eqn:L; cbn [negb] in E; [|injection E as <- <-; apply Fq; nf].
    destruct (o_kind (s_ev s e)) eqn:K; [|injection E as <- <-; exact Fcr].
    destruct (o_ready (s_ev s e)) eqn:R; [injection E as <- <-; apply Fq; nf|]. injection E as <- <-.
    apply (InvF_frame s h); cbn; auto; try nf; [|intros; lia].
    intros x A. rewrite !upd_upd. rewrite upd_eq.
    split; [apply (upd_same (s_ev s) o_kind); reflexivity|].
    split; [apply (upd_same (s_ev s) o_fut); reflexivity|].
    destruct (Nat.eq_dec x e) as [->|N]; [auto|]. rewrite upd_ne by exact N. auto.
  - destruct (s_usr s t) eqn:U; try discriminate E. injection E as <- <-.
    apply (InvF_frame s h); cbn; auto; try nf. intros; lia.
  - destruct (listed s e) eqn:L; [|injection E as <- <-; exact F0].
    destruct (drop HList e s) as [s1 b] eqn:D. injection E as <- <-.
    apply drop_facts in D. destruct D as (-> & _ & Hb & _).
    apply (InvF_frame s h); cbn; auto; try nf; [|intros; lia]. intros x A.
    split; [apply (upd_same (s_ev s) o_kind); reflexivity|].
    split; [apply (upd_same (s_ev s) o_fut); reflexivity|]. right; apply (upd_same (s_ev s) o_ready); reflexivity.
  - unfold release_ctx in E. destruct (s_usr s t) eqn:U; try discriminate E.
    destruct (negb (s_listed s c)) eqn:L; [injection E as <- <-; exact F0|].
    destruct (some_running _ _ _); injection E as <- <-; apply (InvF_frame s h); cbn; auto; try nf; intros; lia.
  - (* pop *)
    destruct (i <? s_thr s c) eqn:Hi; [|discriminate]. unfold pop in E.
    destruct (s_mgr s c i) eqn:M; try discriminate E.
    destruct (s_queue s c i) as [|e q] eqn:Q.
    + destruct (s_done s c); [|discriminate]. injection E as <- <-.
      apply (InvF_dropped s h _ _ (fun _ => False)); cbn; auto; try tauto.
      intros c' i'. destruct (upd2_cases (s_mgr s) c i MStopped c' i') as [(-> & -> & ->)|(_ & ->)]; auto.
    + pose proof (a_sorted _ _ I c i) as GS. rewrite Q in GS. inversion_clear GS as [|? ? GS1 GS2].
      rewrite Forall_forall in GS2.
      assert (In e (s_queue s c i)) as Hin by (rewrite Q; now left).
      assert (forall c' i' x, In x (upd2 (s_queue s) c i q c' i') -> In x (s_queue s c' i') /\ x <> e) as Hqq.
      { intros c' i' x A. destruct (upd2_cases (s_queue s) c i q c' i') as [(-> & -> & K)|(N & K)]; rewrite K in A.
        - split; [rewrite Q; now right|]. pose proof (GS2 x A). lia.
        - split; [exact A|]. intros ->.
          destruct (a_queue _ _ I _ _ _ A) as (_ & (w1 & B1) & _ & _ & B2 & _).
          destruct (a_queue _ _ I _ _ _ Hin) as (_ & (w2 & B3) & _ & _ & B4 & _).
          assert (c' = c) by congruence. assert (i' = i) by congruence. tauto. }
      destruct (s_done s c); injection E as <- <-.
      * apply (InvF_dropped s h _ _ (fun x => x = e)); cbn; auto.
        -- intros c' i'. destruct (upd2_cases (s_mgr s) c i MStopped c' i') as [(-> & -> & ->)|(_ & ->)]; auto.
        -- intros x ->. eauto.
        -- intro x. split; [apply (upd_same (s_ev s) o_kind); reflexivity|apply (upd_same (s_ev s) o_fut); reflexivity].
        -- intro x. destruct (Nat.eq_dec x e) as [->|N].
           ++ left. unfold fates. cbn. rewrite Nat.eqb_refl. auto.
           ++ right. split; [exact N|]. rewrite upd_ne by exact N. split; [|reflexivity].
              unfold fates. cbn. destruct (Nat.eqb_spec e x); [congruence|reflexivity].
      * rewrite app_nil_r. constructor; cbn.
        -- intros c' i' x. destruct (upd2_cases (s_mgr s) c i (MWait e match o_kind (s_ev s e) with KUser => [] | KCmd _ ws => ws end) c' i') as [(-> & -> & ->)|(_ & ->)].
           ++ cbn. intros A. injection A as <-. exact (f_queue _ _ F _ _ _ Hin).
           ++ exact (f_mgr _ _ F c' i' x).
        -- intros c' i' x A. apply Hqq in A. exact (f_queue _ _ F _ _ _ (proj1 A)).
        -- exact (f_out _ _ F).
        -- exact (f_over _ _ F).
  - (* manager *)
    unfold mgr_step in E.
    destruct (s_mgr s c i) as [|e ws|e w r|e lk|e r|e r|e r|e|e|] eqn:M; try discriminate E;
      (assert (mev (s_mgr s c i) = Some e) as Me by (rewrite M; reflexivity));
      pose proof (f_mgr _ _ F c i e Me) as P; rewrite M in P; cbn [life] in P.
    + destruct ws as [|w r].
      * destruct (o_refs (s_ev s e)); [injection E as <- <-; exact Fcr|].
        destruct (ctx_alive s c); injection E as <- <-.
        -- apply (InvF_move s h _ _ c i (MRun e true) e); cbn; auto.
           ++ intro x. rewrite !upd_upd. rewrite upd_eq.
              split; [apply (upd_same (s_ev s) o_kind); reflexivity|].
              split; [apply (upd_same (s_ev s) o_fut); reflexivity|]. left. apply (upd_same (s_ev s) o_ready); reflexivity.
           ++ intros x X. unfold fates. cbn. destruct (Nat.eqb_spec e x); [congruence|reflexivity].
           ++ left. split; [reflexivity|]. rewrite P. unfold fates. cbn. rewrite Nat.eqb_refl.
              split; [reflexivity|]. rewrite !upd_upd, !upd_eq. reflexivity.
        -- apply (InvF_move s h _ _ c i (MRun e false) e); cbn; auto.
           ++ intro x. rewrite !upd_upd. rewrite upd_eq.
              split; [apply (upd_same (s_ev s) o_kind); reflexivity|].
              split; [apply (upd_same (s_ev s) o_fut); reflexivity|]. left. apply (upd_same (s_ev s) o_ready); reflexivity.
           ++ intros x X. unfold fates. cbn. destruct (Nat.eqb_spec e x); [congruence|reflexivity].
           ++ left. split; [reflexivity|]. rewrite P. unfold fates. cbn. rewrite Nat.eqb_refl.
              split; [reflexivity|]. rewrite !upd_upd, !upd_eq. reflexivity.
      * destruct (listed s w) eqn:L; injection E as <- <-.
        -- apply (InvF_move s h _ _ c i (MWaitOn e w r) e); cbn; auto.
           ++ intro x. split; [apply (upd_same (s_ev s) o_kind); reflexivity|].
              split; [apply (upd_same (s_ev s) o_fut); reflexivity|]. left. apply (upd_same (s_ev s) o_ready); reflexivity.
           ++ left. rewrite P. split; [reflexivity|]. split; [reflexivity|]. apply (upd_same (s_ev s) o_ready); reflexivity.
        -- apply (InvF_move s h _ _ c i (MExit e) e); cbn; auto.
           ++ intros x X. unfold fates. cbn. destruct (Nat.eqb_spec e x); [congruence|reflexivity].
           ++ left. split; [reflexivity|]. rewrite P. unfold fates. cbn. rewrite Nat.eqb_refl. split; [right; reflexivity|reflexivity].
    + destruct (drop (HMgr c i) w s) as [s1 b] eqn:D. apply drop_facts in D. destruct D as (-> & _ & Hb & _).
      assert (nofate b) as Nb by nf.
      assert (InvF (set_mgr c i (MWait e r) (on_ev w (fun o => o_set_refs (remove holder_dec (HMgr c i) (o_refs o)) o) s)) (h ++ b)) as Hgo.
      { apply (InvF_move s h _ _ c i (MWait e r) e); cbn; auto.
        - intro x. split; [apply (upd_same (s_ev s) o_kind); reflexivity|].
          split; [apply (upd_same (s_ev s) o_fut); reflexivity|]. left. apply (upd_same (s_ev s) o_ready); reflexivity.
        - left. rewrite P, Nb. split; [reflexivity|]. split; [reflexivity|]. apply (upd_same (s_ev s) o_ready); reflexivity. }
      destruct (negb (o_fut (s_ev s w))); [injection E as <- <-; exact Hgo|].
      destruct (o_ready (s_ev s w)) eqn:R; [|discriminate E].
      destruct (_ =? _)%Z; injection E as <- <-; [exact Hgo|].
      apply (InvF_move s h _ _ c i (MExit e) e); cbn; auto.
      * intro x. split; [apply (upd_same (s_ev s) o_kind); reflexivity|].
        split; [apply (upd_same (s_ev s) o_fut); reflexivity|]. left. apply (upd_same (s_ev s) o_ready); reflexivity.
      * intros x X. rewrite fates_app, Nb. unfold fates. cbn. destruct (Nat.eqb_spec e x); [congruence|reflexivity].
      * left. rewrite P, fates_app, Nb, fates_self_skip. split; [reflexivity|]. split; [right; reflexivity|].
        apply (upd_same (s_ev s) o_ready); reflexivity.
    + injection E as <- <-. apply (InvF_move s h _ _ c i (MNote2 e r) e); cbn; auto.
      * intro x. split; [apply (upd_same (s_ev s) o_kind); reflexivity|].
        split; [apply (upd_same (s_ev s) o_fut); reflexivity|]. left. apply (upd_same (s_ev s) o_ready); reflexivity.
      * left. rewrite app_nil_r. split; [reflexivity|]. split; [exact P|]. apply (upd_same (s_ev s) o_ready); reflexivity.
    + injection E as <- <-. apply (InvF_move s h _ _ c i (MNote3 e r) e); cbn; auto.
      * intro x. split; [apply (upd_same (s_ev s) o_kind); reflexivity|].
        split; [apply (upd_same (s_ev s) o_fut); reflexivity|]. left. apply (upd_same (s_ev s) o_ready); reflexivity.
      * left. rewrite app_nil_r. split; [reflexivity|]. split; [exact P|]. apply (upd_same (s_ev s) o_ready); reflexivity.
    + destruct (notify_callback e s) as [s1 b] eqn:D. injection E as <- <-. apply notify_facts in D.
      assert (nofate b) as Nb by (destruct D as [(_ & ->)|(k & _ & _ & _ & ->)]; nf).
      assert (s_mgr s1 = s_mgr s /\ s_queue s1 = s_queue s /\ s_n s1 = s_n s /\
              forall x, o_kind (s_ev s1 x) = o_kind (s_ev s x) /\ o_fut (s_ev s1 x) = o_fut (s_ev s x) /\
                        o_ready (s_ev s1 x) = o_ready (s_ev s x)) as (H1 & H2 & H3 & H4).
      { destruct D as [(-> & _)|(k & _ & _ & -> & _)]; [auto 10|]. repeat (split; [reflexivity|]). intro x.
        split; [apply (upd_same (s_ev s) o_kind); reflexivity|].
        split; [apply (upd_same (s_ev s) o_fut); reflexivity|]. apply (upd_same (s_ev s) o_ready); reflexivity. }
      apply (InvF_move s h _ _ c i (MEnd e) e); cbn; auto.
      * congruence.
      * intro x. destruct (H4 x) as (K1 & K2 & K3). auto.
      * intros x X. rewrite fates_app, Nb. unfold fates. cbn. destruct (Nat.eqb_spec e x); [congruence|reflexivity].
      * left. split; [reflexivity|]. destruct P as (x & P1 & P2). rewrite fates_app, Nb, P2. split; [|apply (H4 e)].
        exists x, r. split; [exact P1|]. unfold fates. cbn. rewrite Nat.eqb_refl. reflexivity.
    + destruct (drop (HMgr c i) e (on_ev e (o_set_cs COMPLETE) s)) as [s1 b] eqn:D. injection E as <- <-.
      apply drop_facts in D. destruct D as (-> & _ & Hb & _).
      assert (nofate b) as Nb by nf.
      apply (InvF_move s h _ _ c i (MExit e) e); cbn; auto.
      * intro x. rewrite !upd_upd. rewrite upd_eq.
        split; [apply (upd_same (s_ev s) o_kind); reflexivity|].
        split; [apply (upd_same (s_ev s) o_fut); reflexivity|]. left. apply (upd_same (s_ev s) o_ready); reflexivity.
      * left. rewrite Nb, app_nil_r. split; [reflexivity|]. split; [left; exact P|]. rewrite !upd_upd, !upd_eq. reflexivity.
    + injection E as <- <-. apply (InvF_move s h _ _ c i MIdle e); cbn; auto.
      * intro x. split; [apply (upd_same (s_ev s) o_kind); reflexivity|].
        split; [apply (upd_same (s_ev s) o_fut); reflexivity|].
        destruct (Nat.eq_dec x e) as [->|N]; [auto|]. rewrite upd_ne by exact N. auto.
      * right. split; [reflexivity|]. rewrite app_nil_r. destruct P as [P|P]; [left; exact P|right; left; exact P].
  - unfold finish in E. destruct (s_mgr s c i) as [| | |e lk| | | | | |] eqn:M; try discriminate E.
    assert (mev (s_mgr s c i) = Some e) as Me by (rewrite M; reflexivity).
    pose proof (f_mgr _ _ F c i e Me) as P; rewrite M in P; cbn [life] in P.
    assert (InvF (set_mgr c i (MNote1 e r) s) (h ++ [ODone e r])) as Hgo.
    { apply (InvF_move s h _ _ c i (MNote1 e r) e); cbn; auto.
      - intros x X. unfold fates. cbn. destruct (Nat.eqb_spec e x); [congruence|reflexivity].
      - left. split; [reflexivity|]. split; [|reflexivity]. exists (if lk then OStart e else ONoop e).
        split; [destruct lk; [left|right]; reflexivity|]. rewrite P. unfold fates. cbn. rewrite Nat.eqb_refl. reflexivity. }
    destruct lk.
    + destruct (ctx_alive _ _); injection E as <- <-; [exact Hgo|exact Fcr].
    + destruct (_ =? _)%Z; [|discriminate]. injection E as <- <-. exact Hgo.
  - (* user thread *)
    unfold usr_step in E.
    destruct (s_usr s t) as [|ws|w r|e code|e r|e r|e r|c] eqn:U; try discriminate E.
    + destruct ws as [|w r].
      * injection E as <- <-. apply (InvF_frame s h); cbn; auto; try nf; intros; lia.
      * destruct (listed s w) eqn:L; injection E as <- <-.
        -- apply (InvF_frame s h); cbn; auto; try nf; [|intros; lia]. intros x A.
           split; [apply (upd_same (s_ev s) o_kind); reflexivity|].
           split; [apply (upd_same (s_ev s) o_fut); reflexivity|]. right. apply (upd_same (s_ev s) o_ready); reflexivity.
        -- apply (InvF_frame s h); cbn; auto; try nf; intros; lia.
    + destruct (drop (HUsr t) w s) as [s1 b] eqn:D. apply drop_facts in D. destruct D as (-> & _ & Hb & _).
      assert (forall u b', nofate b' -> InvF (set_usr t u (on_ev w (fun o => o_set_refs (remove holder_dec (HUsr t) (o_refs o)) o) s)) (h ++ b')) as Hgo.
      { intros u b' Nb'. apply (InvF_frame s h); cbn; auto; [|intros; lia]. intros x A.
        split; [apply (upd_same (s_ev s) o_kind); reflexivity|].
        split; [apply (upd_same (s_ev s) o_fut); reflexivity|]. right. apply (upd_same (s_ev s) o_ready); reflexivity. }
      destruct (negb (o_fut (s_ev s w))); [injection E as <- <-; apply Hgo; nf|].
      destruct (o_ready (s_ev s w)) eqn:R; [|discriminate E].
      destruct (_ =? _)%Z; injection E as <- <-; apply Hgo; nf.
    + assert (e < s_n s) as _ by (apply (a_usr _ _ I t e); rewrite U; reflexivity).
      destruct (_ =? _)%Z; [|destruct (is_error_code code)].
      * injection E as <- <-. apply (InvF_frame s h); cbn; auto; try nf; [|intros; lia]. intros x A.
        split; [apply (upd_same (s_ev s) o_kind); reflexivity|].
        split; [apply (upd_same (s_ev s) o_fut); reflexivity|]. right. apply (upd_same (s_ev s) o_ready); reflexivity.
      * injection E as <- <-. apply (InvF_frame s h); cbn; auto; try nf; intros; lia.
      * destruct (drop (HUsr t) e s) as [s1 b] eqn:D. apply drop_facts in D. destruct D as (-> & _ & Hb & _).
        injection E as <- <-. apply (InvF_frame s h); cbn; auto; try nf; [|intros; lia]. intros x A.
        split; [apply (upd_same (s_ev s) o_kind); reflexivity|].
        split; [apply (upd_same (s_ev s) o_fut); reflexivity|]. right. apply (upd_same (s_ev s) o_ready); reflexivity.
    + injection E as <- <-. apply (InvF_frame s h); cbn; auto; try nf; [|intros; lia]. intros x A.
      split; [apply (upd_same (s_ev s) o_kind); reflexivity|].
      split; [apply (upd_same (s_ev s) o_fut); reflexivity|]. right. apply (upd_same (s_ev s) o_ready); reflexivity.
    + injection E as <- <-. apply (InvF_frame s h); cbn; auto; try nf; [|intros; lia]. intros x A.
      split; [apply (upd_same (s_ev s) o_kind); reflexivity|].
      split; [apply (upd_same (s_ev s) o_fut); reflexivity|]. right. apply (upd_same (s_ev s) o_ready); reflexivity.
    + destruct (notify_callback e s) as [s1 b] eqn:N. destruct (drop (HUsr t) e s1) as [s2 b2] eqn:D.
      apply drop_facts in D. destruct D as (-> & _ & Hb & _). injection E as <- <-. apply notify_facts in N.
      assert (nofate b) as Nb by (destruct N as [(_ & ->)|(k & _ & _ & _ & ->)]; nf).
      assert (s_mgr s1 = s_mgr s /\ s_queue s1 = s_queue s /\ s_n s1 = s_n s /\
              forall x, o_kind (s_ev s1 x) = o_kind (s_ev s x) /\ o_fut (s_ev s1 x) = o_fut (s_ev s x) /\
                        o_ready (s_ev s1 x) = o_ready (s_ev s x)) as (H1 & H2 & H3 & H4).
      { destruct N as [(-> & _)|(k & _ & _ & -> & _)]; [auto 10|]. repeat (split; [reflexivity|]). intro x.
        split; [apply (upd_same (s_ev s) o_kind); reflexivity|].
        split; [apply (upd_same (s_ev s) o_fut); reflexivity|]. apply (upd_same (s_ev s) o_ready); reflexivity. }
      apply (InvF_frame s h); cbn; auto.
      * intros c' i' x A. rewrite H2 in A. auto.
      * lia.
      * intros x A. destruct (H4 x) as (K1 & K2 & K3). rewrite <- K1, <- K2, <- K3.
        split; [apply (upd_same (s_ev s1) o_kind); reflexivity|].
        split; [apply (upd_same (s_ev s1) o_fut); reflexivity|]. right. apply (upd_same (s_ev s1) o_ready); reflexivity.
      * intros; lia.
      * apply nofate_app; [exact Nb|]. nf.
    + destruct (all_stopped s c (s_thr s c)); [|discriminate E].
      destruct (break_queues c (s_thr s c) s) as [s1 b] eqn:D. injection E as <- <-.
      pose proof (break_queues_facts _ _ _ _ _ D) as (A1 & A2 & A3 & A4 & A5 & A6 & A7 & A8 & A9 & A10 & A11 & A12).
      assert (forall k, NoDup (s_queue s c k)) as ND by (intro k; apply sorted_NoDup; exact (a_sorted _ _ I c k)).
      assert (forall k k' x, In x (s_queue s c k) -> In x (s_queue s c k') -> k = k') as UN.
      { intros k k' x B1 B2. destruct (a_queue _ _ I _ _ _ B1) as (_ & _ & _ & _ & C1 & _).
        destruct (a_queue _ _ I _ _ _ B2) as (_ & _ & _ & _ & C2 & _). congruence. }
      apply (InvF_dropped s h _ _ (fun x => exists k, k < s_thr s c /\ In x (s_queue s c k))); cbn [set_usr s_n s_ev s_mgr s_queue]; auto.
      * intros c' i. left. now rewrite A6.
      * intros c' i x B. rewrite A10 in B. destruct ((c' =? c) && (i <? s_thr s c)) eqn:G; [destruct B|].
        split; [exact B|]. intros (k & K1 & K2).
        destruct (a_queue _ _ I _ _ _ B) as (_ & (w1 & C1) & _ & _ & C2 & _).
        destruct (a_queue _ _ I _ _ _ K2) as (_ & (w2 & C3) & _ & _ & C4 & _).
        assert (c' = c) as -> by congruence. assert (i = k) as -> by congruence.
        rewrite Nat.eqb_refl in G. cbn [andb] in G. apply Nat.ltb_ge in G. lia.
      * intros x (k & _ & K). eauto.
      * intro x. destruct (A12 x) as [(k & _ & _ & ->)|(_ & ->)]; auto.
      * intro x. rewrite fates_app. assert (fates [OJoined t c] x = []) as -> by reflexivity. rewrite app_nil_r.
        destruct (break_queues_fates _ _ _ _ _ x D ND UN) as [(K & ->)|(K & ->)]; [auto|].
        right. split; [exact K|]. split; [reflexivity|].
        destruct (A12 x) as [(k & B1 & B2 & _)|(_ & ->)]; [exfalso; eauto|reflexivity].
Qed.
