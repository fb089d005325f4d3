(** * User events, and calls of mcWaitForEvents *)

From Coq Require Import ZArith List Bool Arith Lia.
From Verif Require Import EventModel EventSpec EventInv EventMono.
Import ListNotations.

(** What is observed of the status of user event [e]: it was set, the call
    that set it returned successfully. *)
Definition uset (e : nat) (o : obs) : bool :=
  match o with
  | OSet x _ => x =? e
  | OSetRet _ x _ r => (x =? e) && (r =? NO_ERROR)%Z
  | _ => false
  end.
Definition usets (h : list obs) (e : nat) : list obs := filter (uset e) h.

Definition good (code : Z) : Prop := code = COMPLETE \/ is_error_code code = true.
Definition result (code : Z) : Z := if (code =? COMPLETE)%Z then NO_ERROR else code.

Definition upart (u : ustate) (o : eobj) (l : list obs) : Prop :=
  match u with
  | USwitch e code => l = [OSet e code] /\ o_rt o = NO_ERROR /\ o_fin o = false
  | UNote1 e r => exists code, l = [OSet e code] /\ good code /\ r = result code /\ o_rt o = NO_ERROR /\ o_fin o = false
  | UNote2 e r => exists code, l = [OSet e code] /\ good code /\ r = result code /\ o_rt o = NO_ERROR /\ o_fin o = true
  | UNote3 e r => exists code, l = [OSet e code] /\ good code /\ r = result code /\ o_rt o = r /\ o_fin o = true
  | _ => True
  end.

Definition settled (e : nat) (o : eobj) (l : list obs) : Prop :=
  (l = [] /\ o_ready o = false /\ o_rt o = NO_ERROR /\ o_fin o = false) \/
  (exists code, l = [OSet e code] /\ ~ good code /\ o_ready o = true /\ o_rt o = NO_ERROR /\ o_fin o = false) \/
  (exists code t, l = [OSet e code; OSetRet t e code NO_ERROR] /\ good code /\ o_ready o = true /\
                  o_rt o = result code /\ o_fin o = true).

Record InvU (s : est) (h : list obs) : Prop := {
  u_user : forall e, In (OUser e) h <-> e < s_n s /\ o_kind (s_ev s e) = KUser;
  u_thr : forall t e, uev (s_usr s t) = Some e -> upart (s_usr s t) (s_ev s e) (usets h e);
  u_one : forall t t' e, uev (s_usr s t) = Some e -> uev (s_usr s t') = Some e -> t = t';
  u_life : forall e, e < s_n s -> o_kind (s_ev s e) = KUser ->
             (exists t, uev (s_usr s t) = Some e) \/ settled e (s_ev s e) (usets h e);
  u_none : forall e, s_n s <= e \/ o_kind (s_ev s e) <> KUser -> usets h e = []
}.

Lemma usets_app h a e : usets (h ++ a) e = usets h e ++ usets a e.
Proof. apply filter_app. Qed.

Definition nouset (a : list obs) : Prop := (forall e, usets a e = []) /\ forall e, ~ In (OUser e) a.

Lemma nouset_nil : nouset [].
Proof. split; [intro; reflexivity|intros e []]. Qed.
Lemma nouset_app a b : nouset a -> nouset b -> nouset (a ++ b).
Proof.
  intros (A & A') (B & B'). split; [intro e; rewrite usets_app, A, B; reflexivity|].
  intros e H. rewrite in_app_iff in H. destruct H as [H|H]; [exact (A' _ H)|exact (B' _ H)].
Qed.
Lemma nouset_cons o a : (forall e, uset e o = false) -> (forall e, o <> OUser e) -> nouset a -> nouset (o :: a).
Proof.
  intros A A' (B & B'). split; [intro e; unfold usets; cbn; rewrite A; apply B|].
  intros e [H|H]; [exact (A' _ H)|exact (B' _ H)].
Qed.
Lemma nouset_calls e a : (forall o, In o a -> exists k, o = OCall e k) -> nouset a.
Proof.
  intros H. induction a as [|o a IH]; [apply nouset_nil|].
  destruct (H o (or_introl eq_refl)) as (k & ->). apply nouset_cons; [intro; reflexivity|discriminate|].
  apply IH. intros o A. apply H. now right.
Qed.
Lemma nouset_drops a : (forall o, In o a -> exists e, o = ODrop e) -> nouset a.
Proof.
  intros H. induction a as [|o a IH]; [apply nouset_nil|].
  destruct (H o (or_introl eq_refl)) as (k & ->). apply nouset_cons; [intro; reflexivity|discriminate|].
  apply IH. intros o A. apply H. now right.
Qed.

(** What matters of a user event. *)
Definition ucore (o : eobj) := (o_ready o, o_rt o, o_fin o).

Lemma upart_core u o o' l : o_rt o' = o_rt o -> o_fin o' = o_fin o -> upart u o l -> upart u o' l.
Proof. intros A B. destruct u; cbn; rewrite ?A, ?B; auto. Qed.

Lemma settled_core e o o' l : ucore o' = ucore o -> settled e o l -> settled e o' l.
Proof.
  intros A. unfold ucore in A. injection A as A1 A2 A3. unfold settled. rewrite A1, A2, A3. auto.
Qed.

Lemma InvU_frame s h s' a :
  InvU s h -> s_n s <= s_n s' ->
  (forall e, e < s_n s -> o_kind (s_ev s' e) = o_kind (s_ev s e)) ->
  (forall e, e < s_n s -> o_kind (s_ev s e) = KUser -> ucore (s_ev s' e) = ucore (s_ev s e)) ->
  (forall e, s_n s <= e -> e < s_n s' -> o_kind (s_ev s' e) <> KUser) ->
  (forall t e, uev (s_usr s' t) = Some e -> s_usr s' t = s_usr s t) ->
  (forall t e, uev (s_usr s t) = Some e -> s_usr s' t = s_usr s t) ->
  (forall t e, uev (s_usr s t) = Some e -> e < s_n s /\ o_kind (s_ev s e) = KUser) ->
  nouset a -> InvU s' (h ++ a).
Proof.
  intros U Hn Hk Hc Hw Hu Hu' Hd (N1 & N2).
  assert (forall e, usets (h ++ a) e = usets h e) as Hs by (intro e; rewrite usets_app, N1; apply app_nil_r).
  constructor.
  - intro e. rewrite in_app_iff, (u_user _ _ U). split.
    + intros [(A & B)|A]; [|exfalso; exact (N2 _ A)]. rewrite Hk by exact A. split; [lia|exact B].
    + intros (A & B). left. destruct (le_lt_dec (s_n s) e) as [C|C]; [exfalso; exact (Hw e C A B)|].
      rewrite Hk in B by exact C. auto.
  - intros t e A. pose proof (Hu _ _ A) as B. rewrite B in *. rewrite Hs.
    destruct (Hd t e A) as (C1 & C2). specialize (Hc e C1 C2). unfold ucore in Hc.
    apply (upart_core _ (s_ev s e)); [congruence|congruence|]. exact (u_thr _ _ U t e A).
  - intros t t' e A B. rewrite (Hu _ _ A) in A. rewrite (Hu _ _ B) in B. exact (u_one _ _ U t t' e A B).
  - intros e A B. destruct (le_lt_dec (s_n s) e) as [C|C]; [exfalso; exact (Hw e C A B)|].
    rewrite Hk in B by exact C. rewrite Hs. destruct (u_life _ _ U e C B) as [(t & D)|D].
    + left. exists t. rewrite (Hu' _ _ D). exact D.
    + right. apply (settled_core _ (s_ev s e)); [auto|exact D].
  - intros e A. rewrite Hs. apply (u_none _ _ U). destruct (le_lt_dec (s_n s) e) as [C|C]; [auto|].
    rewrite Hk in A by exact C. destruct A as [A|A]; [lia|auto].
Qed.

(** A call of mcSetUserEventStatus goes on with event [x]. *)
Lemma InvU_status s h s' a t x o' u' :
  InvU s h -> InvA s h -> s_n s' = s_n s -> (forall e, s_ev s' e = upd (s_ev s) x o' e) ->
  (forall t', s_usr s' t' = upd (s_usr s) t u' t') ->
  x < s_n s -> o_kind (s_ev s x) = KUser -> o_kind o' = KUser ->
  (uev (s_usr s t) = Some x \/ (uev (s_usr s t) = None /\ forall t', uev (s_usr s t') <> Some x)) ->
  (uev u' = Some x /\ upart u' o' (usets h x ++ usets a x) \/
   uev u' = None /\ settled x o' (usets h x ++ usets a x)) ->
  (forall e, e <> x -> usets a e = []) -> (forall e, ~ In (OUser e) a) -> InvU s' (h ++ a).
Proof.
  intros U I Hn He Hu Lx Kx Ko Ht Hs Ha Na.
  assert (forall t', t' <> t -> uev (s_usr s t') <> Some x) as Hoth.
  { intros t' N A. destruct Ht as [B|(_ & B)]; [|exact (B _ A)]. apply N. exact (u_one _ _ U _ _ _ A B). }
  assert (forall e, e <> x -> uev (s_usr s t) <> Some e) as Hth.
  { intros e N A. destruct Ht as [B|(B & _)]; congruence. }
  assert (forall e, o_kind (s_ev s' e) = o_kind (s_ev s e)) as Hk.
  { intro e. rewrite He. destruct (Nat.eq_dec e x) as [->|N]; [rewrite upd_eq; congruence|now rewrite upd_ne]. }
  constructor; rewrite ?Hn.
  - intro e. rewrite in_app_iff, Hk, <- (u_user _ _ U). split; [intros [A|A]; [exact A|exfalso; exact (Na _ A)]|auto].
  - intros t' e A. rewrite usets_app. rewrite Hu in *. destruct (Nat.eq_dec t' t) as [->|N].
    + rewrite upd_eq in *. destruct Hs as [(B & C)|(B & _)]; [|congruence].
      assert (e = x) as -> by congruence. rewrite He, upd_eq. exact C.
    + rewrite upd_ne in * by exact N. assert (e <> x) as X by (intros ->; exact (Hoth _ N A)).
      rewrite He, upd_ne, Ha, app_nil_r by exact X. exact (u_thr _ _ U t' e A).
  - intros t1 t2 e A B. rewrite Hu in *.
    destruct (Nat.eq_dec t1 t) as [->|N1], (Nat.eq_dec t2 t) as [->|N2]; auto; rewrite ?upd_eq in *;
      rewrite ?upd_ne in * by assumption.
    + exfalso. destruct Hs as [(C & _)|(C & _)]; [|congruence]. assert (e = x) as -> by congruence. exact (Hoth _ N2 B).
    + exfalso. destruct Hs as [(C & _)|(C & _)]; [|congruence]. assert (e = x) as -> by congruence. exact (Hoth _ N1 A).
    + exact (u_one _ _ U _ _ _ A B).
  - intros e A B. rewrite Hk in B. rewrite usets_app, He. destruct (Nat.eq_dec e x) as [->|X].
    + rewrite upd_eq. destruct Hs as [(C & _)|(_ & C)]; [left|right; exact C]. exists t. rewrite Hu, upd_eq. exact C.
    + rewrite upd_ne, Ha, app_nil_r by exact X. destruct (u_life _ _ U e A B) as [(t' & C)|C]; [left|right; exact C].
      exists t'. rewrite Hu. rewrite upd_ne; [exact C|]. intros ->. exact (Hth _ X C).
  - intros e A. rewrite Hk in A. rewrite usets_app.
    assert (e <> x) as X by (intros ->; destruct A as [A|A]; [lia|congruence]).
    rewrite Ha, app_nil_r by exact X. exact (u_none _ _ U e A).
Qed.

Local Ltac nu :=
  first [ apply nouset_nil | eapply nouset_calls; eassumption
        | apply nouset_cons; [intro; reflexivity|discriminate|nu] | apply nouset_app; nu ].

Lemma result_code code : good code -> (if (result code =? NO_ERROR)%Z then COMPLETE else result code) = code.
Proof.
  intros [->|H]; [reflexivity|]. unfold result. destruct (Z.eqb_spec code COMPLETE) as [->|N]; [reflexivity|].
  destruct (Z.eqb_spec code NO_ERROR) as [->|]; [discriminate|reflexivity].
Qed.

Lemma notify_ucore e s s1 b x :
  notify_callback e s = (s1, b) -> ucore (s_ev s1 x) = ucore (s_ev s x) /\ s_usr s1 = s_usr s /\ nouset b.
Proof.
  intro H. apply notify_facts in H. destruct H as [(-> & ->)|(k & _ & _ & -> & ->)].
  - split; [reflexivity|]. split; [reflexivity|nu].
  - split; [|split; [reflexivity|nu]]. cbn. destruct (Nat.eq_dec x e) as [->|N]; [rewrite upd_eq; reflexivity|now rewrite upd_ne].
Qed.

Theorem step_InvU s h l s' a :
  InvA s h -> InvU s h -> estep l s = Some (s', a) -> InvU s' (h ++ a).
Proof.
  intros I U E. pose proof (step_keeps _ _ _ _ _ I E) as (Kn & Kk).
  assert (forall e, e < s_n s -> o_kind (s_ev s' e) = o_kind (s_ev s e)) as Hk by (intros e A; apply (Kk e A)).
  assert (forall t e, uev (s_usr s t) = Some e -> e < s_n s /\ o_kind (s_ev s e) = KUser) as Hd.
  { intros t e A. destruct (a_usr _ _ I t e A) as (B & C & _). auto. }
  unfold estep in E. destruct (s_crash s); [discriminate|].
  assert (forall b, nouset b -> InvU s (h ++ b)) as Uq.
  { intros b Nb. apply (InvU_frame s h); auto. intros; lia. }
  assert (InvU (crash s) (h ++ [OCrash])) as Ucr.
  { apply (InvU_frame s h); cbn; auto; try nu. intros; lia. }
  assert (InvU s (h ++ [])) as U0 by (apply Uq; nu).
  (* a user thread moves outside of mcSetUserEventStatus *)
  assert (forall t u, uev (s_usr s t) = None -> uev u = None ->
     (forall t' e, uev (upd (s_usr s) t u t') = Some e -> upd (s_usr s) t u t' = s_usr s t') /\
     (forall t' e, uev (s_usr s t') = Some e -> upd (s_usr s) t u t' = s_usr s t')) as Hmv.
  { intros t u A B. split; intros t' e C; destruct (Nat.eq_dec t' t) as [->|N]; rewrite ?upd_eq in *; rewrite ?upd_ne in * by assumption;
      congruence. }
  destruct l as [ooo| |c ws j|e|t e code|t ws|e|t c|c i|c i|c i r|t].
  - injection E as <- <-. apply (InvU_frame s h); cbn; auto; try nu. intros; lia.
  - (* a new user event *)
    injection E as <- <-. constructor; cbn.
    + intro e. rewrite in_app_iff, (u_user _ _ U). split.
      * intros [(A & B)|[A|[]]]; [rewrite upd_ne by lia; auto|]. injection A as <-. rewrite upd_eq. auto.
      * intros (A & B). destruct (Nat.eq_dec e (s_n s)) as [->|N]; [right; left; reflexivity|].
        rewrite upd_ne in B by exact N. left. split; [lia|exact B].
    + intros t e A. destruct (Hd t e A). rewrite upd_ne by lia. rewrite usets_app, app_nil_r. exact (u_thr _ _ U t e A).
    + exact (u_one _ _ U).
    + intros e A B. rewrite usets_app, app_nil_r. destruct (Nat.eq_dec e (s_n s)) as [->|N].
      * rewrite upd_eq. right. left. rewrite (u_none _ _ U) by auto. auto.
      * rewrite upd_ne in * by exact N. apply (u_life _ _ U); [lia|exact B].
    + intros e A. rewrite usets_app, app_nil_r. apply (u_none _ _ U).
      destruct (Nat.eq_dec e (s_n s)) as [->|N]; [auto|]. rewrite upd_ne in A by exact N.
      destruct A as [A|A]; [left; lia|auto].
  - unfold enqueue in E. destruct (negb (s_listed s c)); [injection E as <- <-; exact U0|].
    destruct (responsible _ ws) as [r|].
    2:{ injection E as <- <-. apply (InvU_frame s h); auto; try nu.
        - intros e A _. cbn. rewrite upd_ne by lia. auto.
        - cbn. intros e A B. assert (e = s_n s) as -> by lia. rewrite upd_eq. discriminate. }
    destruct (match r with None => _ | Some _ => _ end); [discriminate|].
    destruct (_ <=? _); injection E as <- <-; [exact Ucr|].
    apply (InvU_frame s h); auto; try nu.
    + intros e A _. cbn. rewrite upd_ne by lia. auto.
    + cbn. intros e A B. assert (e = s_n s) as -> by lia. rewrite upd_eq. discriminate.
  - destruct (listed s e) eqn:L; [|injection E as <- <-; exact U0].
    destruct (set_callback e (s_nreg s) s) as [s1 b] eqn:C. injection E as <- <-.
    unfold set_callback in C. destruct (o_fin (s_ev s e)) eqn:Fi; injection C as <- <-;
      (apply (InvU_frame s h); auto; try nu; [|cbn; intros; lia]); intros x A _; cbn;
      (destruct (Nat.eq_dec x e) as [->|N]; [rewrite upd_eq; reflexivity|now rewrite upd_ne]).
  - (* status *)
    unfold set_status in E. destruct (s_usr s t) eqn:Ut; try discriminate E.
    destruct (listed s e) eqn:L; cbn [negb] in E.
    2:{ injection E as <- <-. apply Uq. apply nouset_cons; [|discriminate|nu]. intro x. cbn. apply andb_false_r. }
    pose proof (listed_lt _ _ _ I L) as Le.
    destruct (o_kind (s_ev s e)) eqn:K; [|injection E as <- <-; exact Ucr].
    destruct (o_ready (s_ev s e)) eqn:R.
    { injection E as <- <-. apply Uq. apply nouset_cons; [|discriminate|nu]. intro x. cbn. apply andb_false_r. }
    injection E as <- <-.
    assert (forall t', uev (s_usr s t') <> Some e) as Hno.
    { intros t' A. destruct (a_usr _ _ I t' e A) as (_ & _ & B). congruence. }
    destruct (u_life _ _ U e Le K) as [(t' & A)|A]; [exfalso; exact (Hno _ A)|].
    assert (usets h e = [] /\ o_rt (s_ev s e) = NO_ERROR /\ o_fin (s_ev s e) = false) as (A1 & A2 & A3).
    { destruct A as [(A1 & A2 & A3 & A4)|[(cd & A)|(cd & t' & A)]]; [auto| |]; exfalso; destruct A as (_ & _ & A & _); congruence. }
    apply (InvU_status s h _ _ t e (o_set_ready (o_set_cs RUNNING (o_set_refs (HUsr t :: o_refs (s_ev s e)) (s_ev s e)))) (USwitch e code)); auto.
    + intro x. unfold on_ev, acquire, on_ev, set_ev, set_usr. cbn. rewrite upd_eq. apply upd_upd.
    + right. split; [now rewrite Ut|exact Hno].
    + left. split; [reflexivity|]. rewrite A1. unfold usets. cbn. rewrite Nat.eqb_refl. auto.
    + intros x N. unfold usets. cbn. destruct (Nat.eqb_spec e x); [congruence|reflexivity].
    + intros x [A4|[]]; discriminate.
  - destruct (s_usr s t) eqn:Ut; try discriminate E. injection E as <- <-.
    destruct (Hmv t (UWait ws)) as (M1 & M2); [now rewrite Ut|reflexivity|].
    apply (InvU_frame s h); cbn; auto; try nu. intros; lia.
  - destruct (listed s e) eqn:L; [|injection E as <- <-; exact U0].
    destruct (drop HList e s) as [s1 b] eqn:D. injection E as <- <-.
    apply drop_facts in D. destruct D as (-> & _ & Hb & _).
    apply (InvU_frame s h); auto; try nu; [|cbn; intros; lia]. intros x A _. cbn.
    destruct (Nat.eq_dec x e) as [->|N]; [rewrite upd_eq; reflexivity|now rewrite upd_ne].
  - unfold release_ctx in E. destruct (s_usr s t) eqn:Ut; try discriminate E.
    destruct (negb (s_listed s c)) eqn:L; [injection E as <- <-; exact U0|].
    destruct (Hmv t (UJoin c)) as (M1 & M2); [now rewrite Ut|reflexivity|].
    destruct (some_running _ _ _); injection E as <- <-; apply (InvU_frame s h); cbn; auto; try nu; intros; lia.
  - destruct (i <? s_thr s c) eqn:Hi; [|discriminate]. unfold pop in E.
    destruct (s_mgr s c i) eqn:M; try discriminate E.
    destruct (s_queue s c i) as [|e q] eqn:Q; destruct (s_done s c); try discriminate E; injection E as <- <-;
      try (apply (InvU_frame s h); cbn; auto; try nu; intros; lia).
    apply (InvU_frame s h); auto; try nu; [|cbn; intros; lia]. intros x A B. cbn.
    rewrite upd_ne; [reflexivity|]. intros ->.
    assert (In e (s_queue s c i)) as Hin by (rewrite Q; now left).
    destruct (a_queue _ _ I _ _ _ Hin) as (_ & (w & C) & _). congruence.
  - unfold mgr_step in E.
    destruct (s_mgr s c i) as [|e ws|e w r|e lk|e r|e r|e r|e|e|] eqn:M; try discriminate E;
      (assert (mev (s_mgr s c i) = Some e) as Me by (rewrite M; reflexivity));
      destruct (a_mgr _ _ I _ _ _ Me) as (G1 & (wse & G2) & G3 & G4 & G5 & G6);
      (assert (forall x, o_kind (s_ev s x) = KUser -> x <> e) as Hne by (intros x A ->; congruence)).
    + destruct ws as [|w r].
      * destruct (o_refs (s_ev s e)); [injection E as <- <-; exact Ucr|].
        destruct (ctx_alive s c); injection E as <- <-; (apply (InvU_frame s h); auto; try nu; [|cbn; intros; lia]);
          intros x A B; cbn; rewrite !upd_ne by auto; reflexivity.
      * destruct (listed s w) eqn:L; injection E as <- <-.
        -- apply (InvU_frame s h); auto; try nu; [|cbn; intros; lia]. intros x A B. cbn.
           destruct (Nat.eq_dec x w) as [->|N]; [rewrite upd_eq; reflexivity|now rewrite upd_ne].
        -- apply (InvU_frame s h); auto; try nu. cbn; intros; lia.
    + destruct (drop (HMgr c i) w s) as [s1 b] eqn:D. apply drop_facts in D. destruct D as (-> & _ & Hb & _).
      assert (forall m b', nouset b' -> InvU (set_mgr c i m (on_ev w (fun o => o_set_refs (remove holder_dec (HMgr c i) (o_refs o)) o) s)) (h ++ b')) as Hgo.
      { intros m b' Nb'. apply (InvU_frame s h); auto; [| |cbn; intros; lia]; intros x A; cbn.
        - destruct (Nat.eq_dec x w) as [->|N]; [rewrite upd_eq; reflexivity|now rewrite upd_ne].
        - intros B. destruct (Nat.eq_dec x w) as [->|N]; [rewrite upd_eq; reflexivity|now rewrite upd_ne]. }
      destruct (negb (o_fut (s_ev s w))); [injection E as <- <-; apply Hgo; nu|].
      destruct (o_ready (s_ev s w)) eqn:R; [|discriminate E].
      destruct (_ =? _)%Z; injection E as <- <-; apply Hgo; nu.
    + injection E as <- <-. apply (InvU_frame s h); auto; try nu; [|cbn; intros; lia].
      intros x A B. cbn. rewrite upd_ne by auto. reflexivity.
    + injection E as <- <-. apply (InvU_frame s h); auto; try nu; [|cbn; intros; lia].
      intros x A B. cbn. rewrite upd_ne by auto. reflexivity.
    + destruct (notify_callback e s) as [s1 b] eqn:D. injection E as <- <-.
      pose proof (notify_core _ _ _ _ D) as (_ & Hn1).
      destruct (notify_ucore _ _ _ _ 0 D) as (_ & N2 & N3).
      apply (InvU_frame s h); auto; cbn.
      * intros x A B. apply (notify_ucore _ _ _ _ x D).
      * intros; lia.
      * intros t x A. now rewrite N2.
      * intros t x A. now rewrite N2.
      * apply nouset_app; [exact N3|nu].
    + destruct (drop (HMgr c i) e (on_ev e (o_set_cs COMPLETE) s)) as [s1 b] eqn:D. injection E as <- <-.
      apply drop_facts in D. destruct D as (-> & _ & Hb & _).
      apply (InvU_frame s h); auto; try nu; [|cbn; intros; lia].
      intros x A B. cbn. rewrite !upd_ne by auto. reflexivity.
    + injection E as <- <-. apply (InvU_frame s h); auto; try nu; [|cbn; intros; lia].
      intros x A B. cbn. rewrite upd_ne by auto. reflexivity.
  - unfold finish in E. destruct (s_mgr s c i) as [| | |e lk| | | | | |] eqn:M; try discriminate E. destruct lk.
    + destruct (ctx_alive _ _); injection E as <- <-; [|exact Ucr]. apply (InvU_frame s h); auto; try nu. cbn; intros; lia.
    + destruct (_ =? _)%Z; [|discriminate]. injection E as <- <-. apply (InvU_frame s h); auto; try nu. cbn; intros; lia.
  - unfold usr_step in E.
    destruct (s_usr s t) as [|ws|w r|e code|e r|e r|e r|c] eqn:Ut; try discriminate E.
    + assert (uev (s_usr s t) = None) as Hut by now rewrite Ut.
      destruct ws as [|w r].
      * injection E as <- <-. destruct (Hmv t UIdle) as (M1 & M2); auto.
        apply (InvU_frame s h); auto; try nu. cbn; intros; lia.
      * destruct (listed s w) eqn:L; injection E as <- <-.
        -- destruct (Hmv t (UWaitOn w r)) as (M1 & M2); auto.
           apply (InvU_frame s h); auto; try nu; [|cbn; intros; lia]. intros x A B. cbn.
           destruct (Nat.eq_dec x w) as [->|N]; [rewrite upd_eq; reflexivity|now rewrite upd_ne].
        -- destruct (Hmv t UIdle) as (M1 & M2); auto.
           apply (InvU_frame s h); auto; try nu. cbn; intros; lia.
    + assert (uev (s_usr s t) = None) as Hut by now rewrite Ut.
      destruct (drop (HUsr t) w s) as [s1 b] eqn:D. apply drop_facts in D. destruct D as (-> & _ & Hb & _).
      assert (forall u b', uev u = None -> nouset b' -> InvU (set_usr t u (on_ev w (fun o => o_set_refs (remove holder_dec (HUsr t) (o_refs o)) o) s)) (h ++ b')) as Hgo.
      { intros u b' Nu Nb'. destruct (Hmv t u) as (M1 & M2); auto.
        apply (InvU_frame s h); auto; [| |cbn; intros; lia]; intros x A; cbn.
        - destruct (Nat.eq_dec x w) as [->|N]; [rewrite upd_eq; reflexivity|now rewrite upd_ne].
        - intros B. destruct (Nat.eq_dec x w) as [->|N]; [rewrite upd_eq; reflexivity|now rewrite upd_ne]. }
      destruct (negb (o_fut (s_ev s w))); [injection E as <- <-; apply Hgo; [reflexivity|nu]|].
      destruct (o_ready (s_ev s w)) eqn:R; [|discriminate E].
      destruct (_ =? _)%Z; injection E as <- <-; apply Hgo; try reflexivity; nu.
    + (* the switch *)
      assert (uev (s_usr s t) = Some e) as Hut by now rewrite Ut.
      destruct (a_usr _ _ I t e Hut) as (L1 & L2 & L3).
      pose proof (u_thr _ _ U t e Hut) as P. rewrite Ut in P. cbn in P. destruct P as (P1 & P2 & P3).
      destruct (Z.eqb_spec code COMPLETE) as [->|Nc]; [|destruct (is_error_code code) eqn:Er].
      * injection E as <- <-. apply (InvU_status s h _ _ t e (o_set_cs COMPLETE (s_ev s e)) (UNote1 e NO_ERROR)); auto.
        left. split; [reflexivity|]. rewrite app_nil_r. exists COMPLETE. unfold good. auto 10.
      * injection E as <- <-. apply (InvU_status s h _ _ t e (s_ev s e) (UNote1 e code)); auto.
        -- intro x. cbn. destruct (Nat.eq_dec x e) as [->|N]; [now rewrite upd_eq|now rewrite upd_ne].
        -- left. split; [reflexivity|]. rewrite app_nil_r. exists code. unfold good, result.
           destruct (Z.eqb_spec code COMPLETE); [contradiction|]. auto 10.
      * destruct (drop (HUsr t) e s) as [s1 b] eqn:D. apply drop_facts in D. destruct D as (-> & _ & Hb & _).
        injection E as <- <-. destruct (nouset_calls _ _ Hb) as (Nb1 & Nb2).
        assert (forall x, usets (b ++ [OSetRet t e code INVALID_VALUE]) x = []) as Nn.
        { intro x. rewrite usets_app, Nb1. unfold usets. cbn. rewrite andb_false_r. reflexivity. }
        apply (InvU_status s h _ _ t e (o_set_refs (remove holder_dec (HUsr t) (o_refs (s_ev s e))) (s_ev s e)) UIdle); auto.
        -- right. split; [reflexivity|]. rewrite Nn, app_nil_r. right. left. exists code. rewrite P1.
           split; [reflexivity|]. split; [intros [G|G]; congruence|]. auto.
        -- intros x A. rewrite in_app_iff in A. destruct A as [A|[A|[]]]; [exact (Nb2 _ A)|discriminate].
    + assert (uev (s_usr s t) = Some e) as Hut by now rewrite Ut.
      destruct (a_usr _ _ I t e Hut) as (L1 & L2 & L3).
      pose proof (u_thr _ _ U t e Hut) as P. rewrite Ut in P. cbn in P. destruct P as (code & P1 & P2 & P3 & P4 & P5).
      injection E as <- <-. apply (InvU_status s h _ _ t e (o_set_fin (s_ev s e)) (UNote2 e r)); auto.
      left. split; [reflexivity|]. rewrite app_nil_r. exists code. auto.
    + assert (uev (s_usr s t) = Some e) as Hut by now rewrite Ut.
      destruct (a_usr _ _ I t e Hut) as (L1 & L2 & L3).
      pose proof (u_thr _ _ U t e Hut) as P. rewrite Ut in P. cbn in P. destruct P as (code & P1 & P2 & P3 & P4 & P5).
      injection E as <- <-. apply (InvU_status s h _ _ t e (o_set_rt r (s_ev s e)) (UNote3 e r)); auto.
      left. split; [reflexivity|]. rewrite app_nil_r. exists code. auto.
    + assert (uev (s_usr s t) = Some e) as Hut by now rewrite Ut.
      destruct (a_usr _ _ I t e Hut) as (L1 & L2 & L3).
      pose proof (u_thr _ _ U t e Hut) as P. rewrite Ut in P. cbn in P. destruct P as (code & P1 & P2 & P3 & P4 & P5).
      destruct (notify_callback e s) as [s1 b] eqn:N. destruct (drop (HUsr t) e s1) as [s2 b2] eqn:D.
      apply drop_facts in D. destruct D as (-> & _ & Hb & _). injection E as <- <-.
      pose proof (notify_core _ _ _ _ N) as (Hc1 & Hn1).
      destruct (notify_ucore _ _ _ _ e N) as (N1 & N2 & (N3 & N4)).
      destruct (nouset_calls _ _ Hb) as (Nb1 & Nb2). unfold ucore in N1. injection N1 as N1a N1b N1c.
      set (o' := o_set_refs (remove holder_dec (HUsr t) (o_refs (s_ev s1 e))) (s_ev s1 e)).
      apply (InvU_status s h _ _ t e o' UIdle); auto.
      * intro x. cbn. destruct (Nat.eq_dec x e) as [->|X]; [now rewrite !upd_eq|]. rewrite !upd_ne by exact X.
        clear - N X. apply notify_facts in N. destruct N as [(-> & _)|(k & _ & _ & -> & _)]; [reflexivity|].
        cbn. now rewrite upd_ne.
      * cbn. rewrite N2. reflexivity.
      * unfold o'. cbn. rewrite (sc_kind _ _ _ Hc1). exact L2.
      * right. split; [reflexivity|]. right. right. exists code, t.
        rewrite !usets_app, N3, Nb1, P1. subst r. rewrite result_code by exact P2.
        unfold usets. cbn. rewrite Nat.eqb_refl. cbn.
        split; [reflexivity|]. split; [exact P2|]. unfold o'. cbn. rewrite N1a, N1b, N1c. auto.
      * intros x X. rewrite !usets_app, N3, Nb1. unfold usets. cbn.
        destruct (Nat.eqb_spec e x); [congruence|]. reflexivity.
      * intros x A. rewrite !in_app_iff in A. destruct A as [A|[A|[A|[]]]]; [exact (N4 _ A)|exact (Nb2 _ A)|discriminate].
    + assert (uev (s_usr s t) = None) as Hut by now rewrite Ut.
      destruct (all_stopped s c (s_thr s c)); [|discriminate E].
      destruct (break_queues c (s_thr s c) s) as [s1 b] eqn:D. injection E as <- <-.
      apply break_queues_facts in D. destruct D as (A1 & A2 & A3 & A4 & A5 & A6 & A7 & A8 & A9 & A10 & A11 & A12).
      destruct (Hmv t UIdle) as (M1 & M2); auto.
      apply (InvU_frame s h); auto; cbn [set_usr s_usr s_ev s_n].
      * intros x A B. destruct (A12 x) as [(k & _ & C & _)|(_ & ->)]; [exfalso|reflexivity].
        destruct (a_queue _ _ I _ _ _ C) as (_ & (w & F) & _). congruence.
      * intros; lia.
      * rewrite A7. exact M1.
      * rewrite A7. exact M2.
      * apply nouset_app; [|nu]. apply nouset_drops. intros o B. apply A11 in B. destruct B as (x & k & -> & _). eauto.
Qed.
