(** * Callbacks: how often they are called *)

From Coq Require Import ZArith List Bool Arith Lia.
From Verif Require Import EventModel EventSpec EventInv EventMono EventFate EventUser EventCb.
Import ListNotations.

(** The event is between [m_finished = true] and the callback. *)
Definition pend_m (m : mstate) (e : nat) : Prop := exists r, m = MNote2 e r \/ m = MNote3 e r.
Definition pend_u (u : ustate) (e : nat) : Prop := exists r, u = UNote2 e r \/ u = UNote3 e r.
Definition pend (s : est) (e : nat) : Prop :=
  (exists c i, pend_m (s_mgr s c i) e) \/ (exists t, pend_u (s_usr s t) e).

Definition finobs (h : list obs) (e : nat) : Prop :=
  (exists r, In (ODone e r) h) \/ (exists code, In (OSet e code) h).

Record cbok (s : est) (h : list obs) (e : nat) : Prop := {
  k_reg : forall k, In (OReg e k) h -> k < s_nreg s /\ exists k', o_cb (s_ev s e) = Some k' /\ k <= k';
  k_cur : forall k, o_cb (s_ev s e) = Some k -> In (OReg e k) h;
  k_once : forall k, calls h e k <= 1;
  k_called : forall k, 0 < calls h e k -> In (OReg e k) h;
  k_done : forall k, o_cb (s_ev s e) = Some k -> o_inv (s_ev s e) = true -> calls h e k = 1;
  k_open : forall k, o_cb (s_ev s e) = Some k -> o_inv (s_ev s e) = false -> o_refs (s_ev s e) <> [] -> calls h e k = 0;
  k_pend : forall k, o_cb (s_ev s e) = Some k -> o_fin (s_ev s e) = true -> o_inv (s_ev s e) = false -> pend s e;
  k_fin : o_fin (s_ev s e) = true -> finobs h e
}.

Definition past_fin (m : mstate) (e : nat) : Prop := pend_m m e \/ m = MEnd e.

Record InvC (s : est) (h : list obs) : Prop := {
  c_ev : forall e, cbok s h e;
  c_mgr : forall c i e, past_fin (s_mgr s c i) e -> o_fin (s_ev s e) = true;
  c_ran : forall e r, In (ORan e r) h -> o_fin (s_ev s e) = true
}.

Lemma calls_app h a e k : calls (h ++ a) e k = calls h e k + calls a e k.
Proof. unfold calls. now rewrite filter_app, app_length. Qed.

Lemma calls_In h e k : 0 < calls h e k -> In (OCall e k) h.
Proof.
  unfold calls. induction h as [|o h IH]; cbn; [lia|].
  destruct o; try (intro; right; apply IH; assumption).
  destruct (Nat.eqb_spec e0 e) as [->|]; cbn; [destruct (Nat.eqb_spec k0 k) as [->|]|]; cbn; auto.
Qed.

Definition nocb (a : list obs) (e : nat) : Prop := (forall k, ~ In (OReg e k) a) /\ forall k, calls a e k = 0.

Lemma nocb_nil e : nocb [] e.
Proof. split; [intros k []|reflexivity]. Qed.
Lemma nocb_app a b e : nocb a e -> nocb b e -> nocb (a ++ b) e.
Proof.
  intros (A & A') (B & B'). split; [intros k H; rewrite in_app_iff in H; destruct H as [H|H]; [exact (A _ H)|exact (B _ H)]|].
  intro k. rewrite calls_app, A', B'. reflexivity.
Qed.
Definition cbless (o : obs) : Prop := match o with OReg _ _ | OCall _ _ => False | _ => True end.
Lemma nocb_less a e : Forall cbless a -> nocb a e.
Proof.
  intro F. split.
  - intros k H. rewrite Forall_forall in F. exact (F _ H).
  - intro k. unfold calls. induction F as [|o a A F IH]; [reflexivity|]. destruct o; cbn in *; auto; contradiction.
Qed.
Lemma nocb_calls x a e : (forall o, In o a -> exists k, o = OCall x k) -> e <> x -> nocb a e.
Proof.
  intros H N. split.
  - intros k A. destruct (H _ A) as (k' & B). discriminate.
  - intro k. unfold calls. induction a as [|o a IH]; [reflexivity|].
    destruct (H o (or_introl eq_refl)) as (k' & ->). cbn. destruct (Nat.eqb_spec x e); [congruence|]. cbn.
    apply IH. intros o A. apply H. now right.
Qed.

Lemma finobs_mono h a e : finobs h e -> finobs (h ++ a) e.
Proof. intros [(r & A)|(r & A)]; [left|right]; exists r; rewrite in_app_iff; auto. Qed.

Lemma cbok_frame s h s' a e :
  cbok s h e -> o_cb (s_ev s' e) = o_cb (s_ev s e) -> o_inv (s_ev s' e) = o_inv (s_ev s e) ->
  o_fin (s_ev s' e) = o_fin (s_ev s e) -> (o_refs (s_ev s' e) <> [] -> o_refs (s_ev s e) <> []) ->
  s_nreg s <= s_nreg s' -> nocb a e -> (pend s e -> pend s' e) -> cbok s' (h ++ a) e.
Proof.
  intros K H1 H2 H3 H4 H5 (N1 & N2) HP. constructor; rewrite ?H1, ?H2, ?H3.
  - intros k A. rewrite in_app_iff in A. destruct A as [A|A]; [|exfalso; exact (N1 _ A)].
    destruct (k_reg _ _ _ K k A) as (B & C). split; [lia|exact C].
  - intros k A. rewrite in_app_iff. left. exact (k_cur _ _ _ K k A).
  - intro k. rewrite calls_app, N2, Nat.add_0_r. exact (k_once _ _ _ K k).
  - intros k. rewrite calls_app, N2, Nat.add_0_r, in_app_iff. intro A. left. exact (k_called _ _ _ K k A).
  - intros k. rewrite calls_app, N2, Nat.add_0_r. exact (k_done _ _ _ K k).
  - intros k A B C. rewrite calls_app, N2, Nat.add_0_r. exact (k_open _ _ _ K k A B (H4 C)).
  - intros k A B C. apply HP. exact (k_pend _ _ _ K k A B C).
  - intros A. apply finobs_mono. exact (k_fin _ _ _ K A).
Qed.

(** The callback is called (or would be), the flag is set. *)
Lemma cbok_notify s h e s1 b :
  notify_callback e s = (s1, b) -> o_refs (s_ev s e) <> [] -> cbok s h e ->
  (forall s' a, o_cb (s_ev s' e) = o_cb (s_ev s1 e) -> o_inv (s_ev s' e) = o_inv (s_ev s1 e) ->
     o_fin (s_ev s' e) = o_fin (s_ev s1 e) -> (o_refs (s_ev s' e) <> [] -> o_refs (s_ev s1 e) <> []) ->
     s_nreg s <= s_nreg s' -> nocb a e -> cbok s' (h ++ b ++ a) e).
Proof.
  intros N R K s' a H1 H2 H3 H4 H5 (N1 & N2). pose proof (notify_facts _ _ _ _ N) as F.
  assert (forall k, o_cb (s_ev s1 e) = Some k -> o_inv (s_ev s1 e) = true) as Inv.
  { intros k A. unfold notify_callback in N. destruct (o_cb (s_ev s e)) as [k'|] eqn:C.
    - destruct (o_inv (s_ev s e)) eqn:V; cbn in N; injection N as <- <-; [exact V|]. cbn. now rewrite upd_eq.
    - injection N as <- <-. congruence. }
  assert (o_cb (s_ev s1 e) = o_cb (s_ev s e) /\ o_fin (s_ev s1 e) = o_fin (s_ev s e) /\ o_refs (s_ev s1 e) = o_refs (s_ev s e)) as (S1 & S2 & S3).
  { destruct F as [(-> & _)|(k & F1 & _ & -> & _)]; [auto|]. cbn. rewrite upd_eq. cbn. auto. }
  assert (forall k, calls (h ++ b ++ a) e k = calls h e k + calls b e k) as HC.
  { intro k. rewrite !calls_app, N2. lia. }
  constructor; rewrite ?H1, ?H2, ?H3.
  - intros k A. rewrite S1. rewrite !in_app_iff in A. destruct A as [A|[A|A]]; [| |exfalso; exact (N1 _ A)].
    + destruct (k_reg _ _ _ K k A) as (B & C). split; [lia|exact C].
    + exfalso. destruct F as [(_ & ->)|(k' & _ & _ & _ & ->)]; [destruct A|destruct A as [A|[]]; discriminate].
  - intros k A. rewrite S1 in A. rewrite in_app_iff. left. exact (k_cur _ _ _ K k A).
  - intro k. rewrite HC. destruct F as [(_ & ->)|(k' & F1 & F2 & _ & ->)]; [rewrite Nat.add_0_r; exact (k_once _ _ _ K k)|].
    unfold calls at 2. cbn. rewrite Nat.eqb_refl. cbn. destruct (Nat.eqb_spec k' k) as [->|]; cbn.
    + rewrite (k_open _ _ _ K k F1 F2 R). lia.
    + pose proof (k_once _ _ _ K k). lia.
  - intros k. rewrite HC. intro A. rewrite in_app_iff. left.
    destruct F as [(_ & ->)|(k' & F1 & F2 & _ & ->)]; [rewrite Nat.add_0_r in A; exact (k_called _ _ _ K k A)|].
    revert A. unfold calls at 2. cbn. rewrite Nat.eqb_refl. cbn. destruct (Nat.eqb_spec k' k) as [->|]; cbn; intro A.
    + exact (k_cur _ _ _ K k F1).
    + apply (k_called _ _ _ K). lia.
  - intros k A _. rewrite S1 in A. rewrite HC. unfold notify_callback in N. rewrite A in N.
    destruct (o_inv (s_ev s e)) eqn:V; cbn in N; injection N as <- <-.
    + rewrite (k_done _ _ _ K k A V). reflexivity.
    + rewrite (k_open _ _ _ K k A V R). unfold calls. cbn. rewrite !Nat.eqb_refl. reflexivity.
  - intros k A B. exfalso. rewrite (Inv k A) in B. discriminate.
  - intros k A _ B. exfalso. rewrite (Inv k A) in B. discriminate.
  - intro A. rewrite S2 in A. apply finobs_mono. exact (k_fin _ _ _ K A).
Qed.

(** The last shared pointer is given up (or not). *)
Lemma cbok_drop s h e s' a hd b :
  cbok s h e -> o_cb (s_ev s' e) = o_cb (s_ev s e) -> o_inv (s_ev s' e) = o_inv (s_ev s e) ->
  o_fin (s_ev s' e) = o_fin (s_ev s e) -> o_refs (s_ev s' e) = remove holder_dec hd (o_refs (s_ev s e)) ->
  b = match o_refs (s_ev s e), o_refs (s_ev s' e) with _ :: _, [] => destroy e (s_ev s e) | _, _ => [] end ->
  s_nreg s <= s_nreg s' -> nocb a e -> (pend s e -> pend s' e) ->
  forall a0, nocb a0 e -> cbok s' (h ++ a0 ++ b ++ a) e.
Proof.
  intros K H1 H2 H3 H4 Hb H5 (N1 & N2) HP a0 (M1 & M2).
  assert (b = [] \/ exists k, b = [OCall e k] /\ o_cb (s_ev s e) = Some k /\ o_inv (s_ev s e) = false /\
                     o_refs (s_ev s e) <> [] /\ o_refs (s_ev s' e) = []) as F.
  { destruct (o_refs (s_ev s e)); [auto|]. destruct (o_refs (s_ev s' e)); [|auto]. unfold destroy in Hb.
    destruct (o_cb (s_ev s e)) as [k|]; [|auto]. destruct (o_inv (s_ev s e)); cbn in Hb; [auto|].
    destruct (_ =? _)%Z; [|auto]. right. exists k. repeat (split; [first [assumption|reflexivity|discriminate]|]). reflexivity. }
  assert (forall k, calls (h ++ a0 ++ b ++ a) e k = calls h e k + calls b e k) as HC.
  { intro k. rewrite !calls_app, N2, M2. lia. }
  constructor; rewrite ?H1, ?H2, ?H3.
  - intros k A. rewrite !in_app_iff in A. destruct A as [A|[A|[A|A]]].
    + destruct (k_reg _ _ _ K k A) as (B & C). split; [lia|exact C].
    + exfalso. exact (M1 _ A).
    + exfalso. destruct F as [->|(k' & -> & _)]; [destruct A|destruct A as [A|[]]; discriminate].
    + exfalso. exact (N1 _ A).
  - intros k A. rewrite in_app_iff. left. exact (k_cur _ _ _ K k A).
  - intro k. rewrite HC. destruct F as [->|(k' & -> & F1 & F2 & F3 & F4)]; [rewrite Nat.add_0_r; exact (k_once _ _ _ K k)|].
    unfold calls at 2. cbn. rewrite Nat.eqb_refl. cbn. destruct (Nat.eqb_spec k' k) as [->|]; cbn.
    + rewrite (k_open _ _ _ K k F1 F2 F3). lia.
    + pose proof (k_once _ _ _ K k). lia.
  - intros k. rewrite HC. intro A. rewrite in_app_iff. left.
    destruct F as [->|(k' & -> & F1 & F2 & F3 & F4)]; [rewrite Nat.add_0_r in A; exact (k_called _ _ _ K k A)|].
    revert A. unfold calls at 2. cbn. rewrite Nat.eqb_refl. cbn. destruct (Nat.eqb_spec k' k) as [->|]; cbn; intro A.
    + exact (k_cur _ _ _ K k F1).
    + apply (k_called _ _ _ K). lia.
  - intros k A B. rewrite HC. destruct F as [->|(k' & _ & _ & F2 & _)]; [|congruence].
    rewrite Nat.add_0_r. exact (k_done _ _ _ K k A B).
  - intros k A B C. rewrite HC. destruct F as [->|(k' & _ & _ & _ & _ & F4)]; [|contradiction].
    rewrite Nat.add_0_r. apply (k_open _ _ _ K k A B). intro Z. apply C. rewrite H4, Z. reflexivity.
  - intros k A B C. apply HP. exact (k_pend _ _ _ K k A B C).
  - intros A. apply finobs_mono. exact (k_fin _ _ _ K A).
Qed.

(** Everything but the callbacks. *)
Lemma InvC_frame s h s' a :
  InvC s h ->
  (forall e, o_cb (s_ev s' e) = o_cb (s_ev s e) /\ o_inv (s_ev s' e) = o_inv (s_ev s e) /\
     o_fin (s_ev s' e) = o_fin (s_ev s e) /\ (o_refs (s_ev s' e) <> [] -> o_refs (s_ev s e) <> [] \/ o_cb (s_ev s e) = None)) ->
  s_nreg s' = s_nreg s -> Forall cbless a ->
  (forall e, pend s e -> pend s' e) ->
  (forall c i e, past_fin (s_mgr s' c i) e -> past_fin (s_mgr s c i) e) ->
  (forall e r, ~ In (ORan e r) a) -> InvC s' (h ++ a).
Proof.
  intros C He Hr Ha HP Hm Na. constructor.
  - intro e. destruct (He e) as (H1 & H2 & H3 & H4). pose proof (c_ev _ _ C e) as K.
    constructor; rewrite ?H1, ?H2, ?H3, ?Hr; destruct (nocb_less a e Ha) as (N1 & N2).
    + intros k A. rewrite in_app_iff in A. destruct A as [A|A]; [|exfalso; exact (N1 _ A)]. exact (k_reg _ _ _ K k A).
    + intros k A. rewrite in_app_iff. left. exact (k_cur _ _ _ K k A).
    + intro k. rewrite calls_app, N2, Nat.add_0_r. exact (k_once _ _ _ K k).
    + intros k. rewrite calls_app, N2, Nat.add_0_r, in_app_iff. intro A. left. exact (k_called _ _ _ K k A).
    + intros k. rewrite calls_app, N2, Nat.add_0_r. exact (k_done _ _ _ K k).
    + intros k A B D. rewrite calls_app, N2, Nat.add_0_r. destruct (H4 D) as [F|F]; [exact (k_open _ _ _ K k A B F)|congruence].
    + intros k A B D. apply HP. exact (k_pend _ _ _ K k A B D).
    + intros A. apply finobs_mono. exact (k_fin _ _ _ K A).
  - intros c i e A. destruct (He e) as (_ & _ & -> & _). apply (c_mgr _ _ C c i). auto.
  - intros e r A. destruct (He e) as (_ & _ & -> & _). rewrite in_app_iff in A.
    destruct A as [A|A]; [exact (c_ran _ _ C e r A)|exfalso; exact (Na _ _ A)].
Qed.

Lemma pend_m_keep s s' c i m' :
  s_mgr s' = upd2 (s_mgr s) c i m' -> s_usr s' = s_usr s ->
  (forall e, pend_m (s_mgr s c i) e -> pend_m m' e) -> forall e, pend s e -> pend s' e.
Proof.
  intros Hm Hu Hp e [(c' & i' & A)|(t & A)]; [left; exists c', i'|right; exists t; now rewrite Hu].
  rewrite Hm. destruct (upd2_cases (s_mgr s) c i m' c' i') as [(-> & -> & ->)|(_ & ->)]; auto.
Qed.

Lemma pend_u_keep s s' t u' :
  s_mgr s' = s_mgr s -> s_usr s' = upd (s_usr s) t u' ->
  (forall e, pend_u (s_usr s t) e -> pend_u u' e) -> forall e, pend s e -> pend s' e.
Proof.
  intros Hm Hu Hp e [(c' & i' & A)|(t' & A)]; [left; exists c', i'; now rewrite Hm|right; exists t'].
  rewrite Hu. destruct (Nat.eq_dec t' t) as [->|N]; [rewrite upd_eq; auto|now rewrite upd_ne].
Qed.

Lemma past_m_keep s s' c i m' :
  s_mgr s' = upd2 (s_mgr s) c i m' -> (forall e, past_fin m' e -> past_fin (s_mgr s c i) e) ->
  forall c' i' e, past_fin (s_mgr s' c' i') e -> past_fin (s_mgr s c' i') e.
Proof.
  intros Hm Hp c' i' e. rewrite Hm. destruct (upd2_cases (s_mgr s) c i m' c' i') as [(-> & -> & ->)|(_ & ->)]; auto.
Qed.

Lemma not_pend_m m e : (forall r, m <> MNote2 e r) -> (forall r, m <> MNote3 e r) -> ~ pend_m m e.
Proof. intros A B (r & [C|C]); [exact (A _ C)|exact (B _ C)]. Qed.

Local Ltac npm := let NP := fresh in intros ? (? & [NP|NP]); discriminate NP.
Local Ltac npf := let NP := fresh in intros ? [(? & [NP|NP])|NP]; discriminate NP.

(** A drop of [hd] on [x], possibly together with changes that do not concern
    callbacks; [a1] is observed after the drop. *)
Lemma InvC_drop s h s' hd x b a1 :
  InvC s h ->
  (forall e, e <> x -> s_ev s' e = s_ev s e) ->
  o_cb (s_ev s' x) = o_cb (s_ev s x) -> o_inv (s_ev s' x) = o_inv (s_ev s x) -> o_fin (s_ev s' x) = o_fin (s_ev s x) ->
  o_refs (s_ev s' x) = remove holder_dec hd (o_refs (s_ev s x)) ->
  b = match o_refs (s_ev s x), o_refs (s_ev s' x) with _ :: _, [] => destroy x (s_ev s x) | _, _ => [] end ->
  s_nreg s' = s_nreg s -> Forall cbless a1 -> (forall e r, ~ In (ORan e r) a1) ->
  (forall e, pend s e -> pend s' e) ->
  (forall c i e, past_fin (s_mgr s' c i) e -> past_fin (s_mgr s c i) e) ->
  forall a0, Forall cbless a0 -> (forall e r, ~ In (ORan e r) a0) -> InvC s' (h ++ a0 ++ b ++ a1).
Proof.
  intros C Ho H1 H2 H3 H4 Hb Hr Ha1 Na1 HP Hm a0 Ha0 Na0.
  assert (forall o, In o b -> exists k, o = OCall x k) as Fb.
  { intros o A. rewrite Hb in A. destruct (o_refs (s_ev s x)); [destruct A|]. destruct (o_refs (s_ev s' x)); [|destruct A].
    unfold destroy in A. destruct (o_cb (s_ev s x)) as [k|]; [|destruct A]. destruct (negb _ && _); [|destruct A]. destruct A as [<-|[]]. eauto. }
  constructor.
  - intro e. destruct (Nat.eq_dec e x) as [->|N].
    + apply (cbok_drop s h x s' a1 hd b); auto; [exact (c_ev _ _ C x)|lia| |]; apply nocb_less; assumption.
    + apply (cbok_frame s); rewrite ?(Ho e N); auto; [exact (c_ev _ _ C e)|lia|].
      apply nocb_app; [apply nocb_less; assumption|]. apply nocb_app; [|apply nocb_less; assumption].
      apply (nocb_calls x); assumption.
  - intros c i e A. apply Hm in A. apply (c_mgr _ _ C) in A. destruct (Nat.eq_dec e x) as [->|N]; [congruence|now rewrite Ho].
  - intros e r A. rewrite !in_app_iff in A.
    assert (In (ORan e r) h) as B.
    { destruct A as [A|[A|[A|A]]]; [exact A|exfalso; exact (Na0 _ _ A)| |exfalso; exact (Na1 _ _ A)].
      exfalso. destruct (Fb _ A) as (k & B). discriminate. }
    apply (c_ran _ _ C) in B. destruct (Nat.eq_dec e x) as [->|N]; [congruence|now rewrite Ho].
Qed.

Lemma drop_form hd x s s1 b :
  drop hd x s = (s1, b) ->
  s1 = set_ev x (o_set_refs (remove holder_dec hd (o_refs (s_ev s x))) (s_ev s x)) s /\
  b = match o_refs (s_ev s x), remove holder_dec hd (o_refs (s_ev s x)) with _ :: _, [] => destroy x (s_ev s x) | _, _ => [] end.
Proof. unfold drop. intro H. injection H as <- <-. auto. Qed.

Local Ltac cbl := match goal with |- Forall _ _ => idtac end; repeat (constructor; [exact Logic.I|]); constructor.
Local Ltac noran := match goal with |- forall _ _, ~ _ => idtac end; let NR := fresh in intros ? ? NR; cbn in NR; repeat (destruct NR as [NR|NR]; [discriminate NR|]); exact NR.

(** One event is updated outside of its callback data. *)
Lemma same_upd (f : nat -> eobj) x o :
  o_cb o = o_cb (f x) -> o_inv o = o_inv (f x) -> o_fin o = o_fin (f x) -> (o_refs o <> [] -> o_refs (f x) <> [] \/ o_cb (f x) = None) ->
  forall e, o_cb (upd f x o e) = o_cb (f e) /\ o_inv (upd f x o e) = o_inv (f e) /\
     o_fin (upd f x o e) = o_fin (f e) /\ (o_refs (upd f x o e) <> [] -> o_refs (f e) <> [] \/ o_cb (f e) = None).
Proof.
  intros A B C D e. destruct (Nat.eq_dec e x) as [->|N]; [rewrite upd_eq; auto|rewrite upd_ne by exact N; auto].
Qed.

Theorem step_InvC s h l s' a :
  InvA s h -> InvF s h -> InvU s h -> InvH s h -> InvC s h -> estep l s = Some (s', a) -> InvC s' (h ++ a).
Proof.
  intros I F U H C E. unfold estep in E. destruct (s_crash s); [discriminate|].
  assert (forall b, Forall cbless b -> (forall e r, ~ In (ORan e r) b) -> InvC s (h ++ b)) as C0.
  { intros b B1 B2. apply (InvC_frame s h); auto. }
  assert (InvC (crash s) (h ++ [OCrash])) as Ccr.
  { apply (InvC_frame s h); cbn; auto; try cbl; try noran. }
  destruct l as [ooo| |c ws j|e|t e code|t ws|e|t c|c i|c i|c i r|t].
  - injection E as <- <-. apply (InvC_frame s h); cbn; auto; try cbl; try noran.
  - injection E as <- <-. apply (InvC_frame s h); cbn; auto; try cbl; try noran.
    apply same_upd; rewrite (a_dummy _ _ I) by lia; auto.
  - unfold enqueue in E. destruct (negb (s_listed s c)); [injection E as <- <-; apply C0; try cbl; try noran|].
    assert (forall o st b, o_cb o = None -> o_inv o = true -> o_fin o = false -> s_ev st = upd (s_ev s) (s_n s) o ->
            s_mgr st = s_mgr s -> s_usr st = s_usr s -> s_nreg st = s_nreg s ->
            Forall cbless b -> (forall e r, ~ In (ORan e r) b) -> InvC st (h ++ b)) as Hadd.
    { intros o st b R1 R2 R3 R4 R5 R6 R7 R8 R9. apply (InvC_frame s h); auto.
      - rewrite R4. apply same_upd; rewrite (a_dummy _ _ I) by lia; auto.
      - intros e. unfold pend. rewrite R5, R6. auto.
      - intros c' i' e. rewrite R5. auto. }
    destruct (responsible _ ws) as [r|]; [|injection E as <- <-; apply (Hadd (new_cmd c ws false j)); auto; try cbl; try noran].
    destruct (match r with None => _ | Some _ => _ end); [discriminate|].
    destruct (_ <=? _); injection E as <- <-; [exact Ccr|].
    apply (Hadd (new_cmd c ws true (match r with Some k => k | None => j end))); auto; try cbl; try noran.
  - (* registration *)
    destruct (listed s e) eqn:L; [|injection E as <- <-; apply C0; try cbl; try noran].
    destruct (set_callback e (s_nreg s) s) as [s1 b] eqn:Cb. injection E as <- <-.
    set (n := s_nreg s) in *.
    assert (exists v, v = o_fin (s_ev s e) /\ s1 = set_ev e (o_set_cb (Some n) v (s_ev s e)) s /\
                      b = if v then [OReg e n; OCall e n] else [OReg e n]) as (v & Hv & -> & ->).
    { unfold set_callback in Cb. destruct (o_fin (s_ev s e)); injection Cb as <- <-; eexists; auto. }
    assert (forall k, In (OReg e k) h -> k < n) as Hlt by (intros k A; apply (k_reg _ _ _ (c_ev _ _ C e) k A)).
    assert (calls h e n = 0) as Hn0.
    { destruct (Nat.eq_dec (calls h e n) 0) as [Z|Z]; [exact Z|]. exfalso.
      assert (0 < calls h e n) as P by lia. apply (k_called _ _ _ (c_ev _ _ C e)) in P. apply Hlt in P. lia. }
    assert (forall k, calls (if v then [OReg e n; OCall e n] else [OReg e n]) e k = if v && (n =? k) then 1 else 0) as HC.
    { intro k. unfold calls. destruct v; cbn; [|reflexivity]. rewrite Nat.eqb_refl. cbn. destruct (n =? k); reflexivity. }
    constructor.
    + intro x. destruct (Nat.eq_dec x e) as [->|N].
      * pose proof (c_ev _ _ C e) as K. constructor; cbn [set_reg set_ev s_ev s_nreg]; rewrite ?upd_eq; cbn [o_set_cb o_cb o_inv o_fin o_refs].
        -- intros k A. rewrite in_app_iff in A. destruct A as [A|A].
           ++ pose proof (Hlt k A). split; [lia|]. exists n. split; [reflexivity|lia].
           ++ assert (k = n) as -> by (destruct v; cbn in A; intuition congruence). split; [lia|]. exists n. auto.
        -- intros k A. injection A as <-. rewrite in_app_iff. right. destruct v; left; reflexivity.
        -- intro k. rewrite calls_app, HC. destruct (Nat.eqb_spec n k) as [<-|Nk].
           ++ rewrite Hn0. destruct v; cbn; lia.
           ++ rewrite andb_false_r, Nat.add_0_r. exact (k_once _ _ _ K k).
        -- intros k. rewrite calls_app, HC, in_app_iff. destruct (Nat.eqb_spec n k) as [<-|Nk].
           ++ intros _. right. destruct v; left; reflexivity.
           ++ rewrite andb_false_r, Nat.add_0_r. intro A. left. exact (k_called _ _ _ K k A).
        -- intros k A B. injection A as <-. rewrite calls_app, HC, Hn0, B, Nat.eqb_refl. reflexivity.
        -- intros k A B _. injection A as <-. rewrite calls_app, HC, Hn0, B. reflexivity.
        -- intros k A B D. congruence.
        -- intro A. apply finobs_mono. exact (k_fin _ _ _ K A).
      * apply (cbok_frame s); cbn; rewrite ?upd_ne by exact N; auto; [exact (c_ev _ _ C x)|].
        split; [intros k A; destruct v; cbn in A; intuition congruence|]. intro k. unfold calls. destruct v; cbn; [|reflexivity].
        destruct (Nat.eqb_spec e x); [congruence|]. reflexivity.
    + intros c i x A. cbn. apply (c_mgr _ _ C) in A. destruct (Nat.eq_dec x e) as [->|N]; [rewrite upd_eq; exact A|rewrite upd_ne by exact N; exact A].
    + intros x r A. rewrite in_app_iff in A. assert (In (ORan x r) h) as B by (destruct A as [A|A]; [exact A|destruct v; cbn in A; intuition discriminate]).
      apply (c_ran _ _ C) in B. cbn. destruct (Nat.eq_dec x e) as [->|N]; [rewrite upd_eq; exact B|rewrite upd_ne by exact N; exact B].
  - unfold set_status in E. destruct (s_usr s t) eqn:Ut; try discriminate E.
    destruct (listed s e) eqn:L; cbn [negb] in E; [|injection E as <- <-; apply C0; try cbl; try noran].
    destruct (o_kind (s_ev s e)) eqn:K; [|injection E as <- <-; exact Ccr].
    destruct (o_ready (s_ev s e)) eqn:R; injection E as <- <-; [apply C0; try cbl; try noran|].
    apply (InvC_frame s h); cbn; auto; try cbl; try noran.
    + intro x. rewrite upd_upd, upd_eq. apply same_upd; auto. intros _. left. apply listed_iff in L. intro Z. rewrite Z in L. destruct L.
    + apply (pend_u_keep s _ t (USwitch e code)); auto. rewrite Ut. npm.
  - destruct (s_usr s t) eqn:Ut; try discriminate E. injection E as <- <-.
    apply (InvC_frame s h); cbn; auto; try cbl; try noran. apply (pend_u_keep s _ t (UWait ws)); auto. rewrite Ut. npm.
  - destruct (listed s e) eqn:L; [|injection E as <- <-; apply C0; try cbl; try noran].
    destruct (drop HList e s) as [s1 b] eqn:D. injection E as <- <-. apply drop_form in D. destruct D as (-> & Hb).
    rewrite <- (app_nil_r b). change (ORel e :: b ++ []) with ([ORel e] ++ b ++ []).
    apply (InvC_drop s h _ HList e); cbn; rewrite ?upd_eq; auto; try cbl; try noran.
    intros x N. now rewrite upd_ne.
  - unfold release_ctx in E. destruct (s_usr s t) eqn:Ut; try discriminate E.
    destruct (negb (s_listed s c)) eqn:L; [injection E as <- <-; apply C0; try cbl; try noran|].
    destruct (some_running _ _ _); injection E as <- <-; (apply (InvC_frame s h); cbn; auto; try cbl; try noran); auto.
    apply (pend_u_keep s _ t (UJoin c)); auto. rewrite Ut. npm.
  - destruct (i <? s_thr s c) eqn:Hi; [|discriminate]. unfold pop in E.
    destruct (s_mgr s c i) eqn:M; try discriminate E.
    destruct (s_queue s c i) as [|e q] eqn:Q; destruct (s_done s c); try discriminate E; injection E as <- <-.
    + apply (InvC_frame s h); cbn; auto; try cbl; try noran.
      * apply (pend_m_keep s _ c i MStopped); auto. rewrite M. npm.
      * apply (past_m_keep s (set_mgr c i MStopped s) c i MStopped); [reflexivity|npf].
    + apply (InvC_frame s h); cbn; auto; try cbl; try noran.
      * apply same_upd; auto.
      * apply (pend_m_keep s _ c i MStopped); auto. rewrite M. npm.
      * apply (past_m_keep s (set_mgr c i MStopped s) c i MStopped); [reflexivity|npf].
    + set (m' := MWait _ _). apply (InvC_frame s h); cbn; auto; try cbl; try noran.
      * apply (pend_m_keep s _ c i m'); auto. rewrite M. npm.
      * apply (past_m_keep s (set_mgr c i m' s) c i m'); [reflexivity|npf].
  - (* manager *)
    unfold mgr_step in E.
    destruct (s_mgr s c i) as [|e ws|e w r|e lk|e r|e r|e r|e|e|] eqn:M; try discriminate E.
    + destruct ws as [|w r].
      * destruct (o_refs (s_ev s e)) eqn:Re; [injection E as <- <-; exact Ccr|].
        assert (forall lk b, Forall cbless b -> (forall x r, ~ In (ORan x r) b) ->
          InvC (set_mgr c i (MRun e lk) (on_ev e (o_set_cs RUNNING) (acquire (HMgr c i) e s))) (h ++ b)) as Hgo.
        { intros lk b B1 B2. apply (InvC_frame s h); cbn; auto.
          - intro x. rewrite upd_upd, upd_eq. apply same_upd; auto. intros _. left. rewrite Re. discriminate.
          - apply (pend_m_keep s _ c i (MRun e lk)); auto. rewrite M. npm.
          - apply (past_m_keep s (set_mgr c i (MRun e lk) s) c i (MRun e lk)); [reflexivity|npf]. }
        destruct (ctx_alive s c); injection E as <- <-; apply Hgo; try cbl; noran.
      * destruct (listed s w) eqn:L; injection E as <- <-.
        -- apply (InvC_frame s h); cbn; auto; try cbl; try noran.
           ++ apply same_upd; auto. intros _. left. apply listed_iff in L. intro Z. rewrite Z in L. destruct L.
           ++ apply (pend_m_keep s _ c i (MWaitOn e w r)); auto. rewrite M. npm.
           ++ apply (past_m_keep s (set_mgr c i (MWaitOn e w r) s) c i (MWaitOn e w r)); [reflexivity|npf].
        -- apply (InvC_frame s h); cbn; auto; try cbl; try noran.
           ++ apply (pend_m_keep s _ c i (MExit e)); auto. rewrite M. npm.
           ++ apply (past_m_keep s (set_mgr c i (MExit e) s) c i (MExit e)); [reflexivity|npf].
    + destruct (drop (HMgr c i) w s) as [s1 b] eqn:D. apply drop_form in D. destruct D as (-> & Hb).
      assert (forall m a1, (forall x, ~ past_fin m x) -> Forall cbless a1 -> (forall x r, ~ In (ORan x r) a1) ->
        InvC (set_mgr c i m (set_ev w (o_set_refs (remove holder_dec (HMgr c i) (o_refs (s_ev s w))) (s_ev s w)) s)) (h ++ b ++ a1)) as Hgo.
      { intros m a1 Nm B1 B2. change (h ++ b ++ a1) with (h ++ [] ++ b ++ a1).
        apply (InvC_drop s h _ (HMgr c i) w); cbn; rewrite ?upd_eq; auto; try cbl; try noran.
        - intros x N. now rewrite upd_ne.
        - apply (pend_m_keep s _ c i m); auto. rewrite M. npm.
        - apply (past_m_keep s (set_mgr c i m s) c i m); [reflexivity|]. intros x A. exfalso. exact (Nm x A). }
      destruct (negb (o_fut (s_ev s w))).
      { injection E as <- <-. rewrite <- (app_nil_r b). apply Hgo; [npf|cbl|noran]. }
      destruct (o_ready (s_ev s w)) eqn:R; [|discriminate E].
      destruct (_ =? _)%Z; injection E as <- <-.
      * rewrite <- (app_nil_r b). apply Hgo; [npf|cbl|noran].
      * apply Hgo; [npf|cbl|noran].
    + (* the event becomes finished *)
      injection E as <- <-.
      assert (mev (s_mgr s c i) = Some e) as Me by (rewrite M; reflexivity).
      pose proof (f_mgr _ _ F c i e Me) as P. rewrite M in P. cbn in P. destruct P as (x0 & P1 & P2).
      assert (In (ODone e r) h) as Hd.
      { apply (filter_In (fate e)). unfold fates in P2. rewrite P2. right. left. reflexivity. }
      set (s' := set_mgr c i (MNote2 e r) (on_ev e o_set_fin s)).
      assert (forall x, pend s x -> pend s' x) as HP.
      { apply (pend_m_keep s _ c i (MNote2 e r)); auto. rewrite M. npm. }
      assert (pend s' e) as Pe.
      { left. exists c, i. cbn. rewrite upd2_eq. exists r. auto. }
      constructor.
      * intro x. destruct (Nat.eq_dec x e) as [->|N].
        -- pose proof (c_ev _ _ C e) as K. rewrite app_nil_r.
           constructor; cbn [s' set_mgr on_ev set_ev s_ev s_nreg]; rewrite ?upd_eq; cbn [o_set_fin o_cb o_inv o_fin o_refs].
           ++ exact (k_reg _ _ _ K).
           ++ exact (k_cur _ _ _ K).
           ++ exact (k_once _ _ _ K).
           ++ exact (k_called _ _ _ K).
           ++ exact (k_done _ _ _ K).
           ++ exact (k_open _ _ _ K).
           ++ intros k _ _ _. exact Pe.
           ++ intros _. left. eauto.
        -- apply (cbok_frame s); cbn; rewrite ?upd_ne by exact N; auto; [exact (c_ev _ _ C x)|apply nocb_nil].
      * intros c' i' x A. cbn in *. destruct (Nat.eq_dec x e) as [->|N]; [rewrite upd_eq; reflexivity|]. rewrite upd_ne by exact N.
        destruct (upd2_cases (s_mgr s) c i (MNote2 e r) c' i') as [(-> & -> & Q)|(_ & Q)]; rewrite Q in A; [|exact (c_mgr _ _ C _ _ _ A)].
        exfalso. destruct A as [(r' & [A|A])|A]; congruence.
      * intros x r' A. rewrite app_nil_r in A. apply (c_ran _ _ C) in A. cbn.
        destruct (Nat.eq_dec x e) as [->|N]; [rewrite upd_eq; reflexivity|]. rewrite upd_ne by exact N. exact A.
    + injection E as <- <-. apply (InvC_frame s h); cbn; auto; try cbl; try noran.
      * apply same_upd; auto.
      * apply (pend_m_keep s _ c i (MNote3 e r)); auto. rewrite M. intros x (r' & [A|A]); [injection A as <- <-; exists r; auto|discriminate A].
      * apply (past_m_keep s (set_mgr c i (MNote3 e r) s) c i (MNote3 e r)); [reflexivity|]. rewrite M.
        intros x [(r' & [A|A])|A]; try discriminate A. injection A as <- <-. left. exists r. auto.
    + (* the callback of a command *)
      destruct (notify_callback e s) as [s1 b] eqn:D. injection E as <- <-.
      pose proof (notify_refs _ _ _ _ D) as (D1 & D2 & D3 & D4 & D5 & D6).
      assert (o_refs (s_ev s e) <> []) as Re.
      { intro Z. assert (In (HMgr c i) (o_refs (s_ev s e))) as A by (apply (h_mgr _ _ H); rewrite M; reflexivity).
        rewrite Z in A. destruct A. }
      assert (o_fin (s_ev s e) = true) as Fe by (apply (c_mgr _ _ C c i); left; exists r; auto).
      assert (forall x, x <> e -> s_ev s1 x = s_ev s x) as Hx.
      { intros x N. apply notify_facts in D. destruct D as [(-> & _)|(k & _ & _ & -> & _)]; [reflexivity|]. cbn. now rewrite upd_ne. }
      assert (o_fin (s_ev s1 e) = true) as Fe1.
      { apply notify_facts in D. destruct D as [(-> & _)|(k & _ & _ & -> & _)]; [exact Fe|]. cbn. now rewrite upd_eq. }
      assert (forall o, In o b -> exists k, o = OCall e k) as Fb.
      { intros o A. apply notify_facts in D. destruct D as [(_ & ->)|(k & _ & _ & _ & ->)]; [destruct A|destruct A as [<-|[]]; eauto]. }
      assert (forall x, x <> e -> pend s x -> pend (set_mgr c i (MEnd e) s1) x) as HP.
      { intros x N [(c' & i' & A)|(t & A)]; [left; exists c', i'|right; exists t; cbn; now rewrite D3].
        cbn. rewrite D2. destruct (upd2_cases (s_mgr s) c i (MEnd e) c' i') as [(-> & -> & Q)|(_ & Q)]; rewrite Q; [|exact A].
        exfalso. rewrite M in A. destruct A as (r' & [A|A]); congruence. }
      constructor.
      * intro x. destruct (Nat.eq_dec x e) as [->|N].
        -- apply (cbok_notify s h e s1 b); cbn; auto; [exact (c_ev _ _ C e)|lia|]. apply nocb_less. cbl.
        -- apply (cbok_frame s); cbn; rewrite ?(Hx x N); auto; [exact (c_ev _ _ C x)|lia|].
           apply nocb_app; [apply (nocb_calls e); assumption|apply nocb_less; cbl].
      * intros c' i' x A. cbn in *. destruct (Nat.eq_dec x e) as [->|N]; [exact Fe1|]. rewrite (Hx x N). rewrite D2 in A.
        destruct (upd2_cases (s_mgr s) c i (MEnd e) c' i') as [(-> & -> & Q)|(_ & Q)]; rewrite Q in A; [|exact (c_mgr _ _ C _ _ _ A)].
        exfalso. destruct A as [(r' & [A|A])|A]; congruence.
      * intros x r' A. cbn. destruct (Nat.eq_dec x e) as [->|N]; [exact Fe1|]. rewrite (Hx x N).
        rewrite !in_app_iff in A. destruct A as [A|[A|[A|[]]]]; [exact (c_ran _ _ C _ _ A)| |congruence].
        destruct (Fb _ A) as (k & B). discriminate.
    + destruct (drop (HMgr c i) e (on_ev e (o_set_cs COMPLETE) s)) as [s1 b] eqn:D. injection E as <- <-.
      apply drop_form in D. destruct D as (-> & Hb). cbn in Hb. rewrite upd_eq in Hb. cbn in Hb.
      change (h ++ b) with (h ++ [] ++ b). rewrite <- (app_nil_r b).
      apply (InvC_drop s h _ (HMgr c i) e); cbn; rewrite ?upd_eq; auto; try cbl; try noran.
      * intros x N. now rewrite !upd_ne.
      * apply (pend_m_keep s _ c i (MExit e)); auto. rewrite M. npm.
      * apply (past_m_keep s (set_mgr c i (MExit e) s) c i (MExit e)); [reflexivity|npf].
    + injection E as <- <-. apply (InvC_frame s h); cbn; auto; try cbl; try noran.
      * apply same_upd; auto.
      * apply (pend_m_keep s _ c i MIdle); auto. rewrite M. npm.
      * apply (past_m_keep s (set_mgr c i MIdle s) c i MIdle); [reflexivity|npf].
  - unfold finish in E. destruct (s_mgr s c i) as [| | |e lk| | | | | |] eqn:M; try discriminate E.
    assert (InvC (set_mgr c i (MNote1 e r) s) (h ++ [ODone e r])) as Hgo.
    { apply (InvC_frame s h); cbn; auto; try cbl; try noran.
      - apply (pend_m_keep s _ c i (MNote1 e r)); auto. rewrite M. npm.
      - apply (past_m_keep s (set_mgr c i (MNote1 e r) s) c i (MNote1 e r)); [reflexivity|npf]. }
    destruct lk.
    + destruct (ctx_alive _ _); injection E as <- <-; [exact Hgo|exact Ccr].
    + destruct (_ =? _)%Z; [|discriminate]. injection E as <- <-. exact Hgo.
  - (* user thread *)
    unfold usr_step in E.
    destruct (s_usr s t) as [|ws|w r|e code|e r|e r|e r|c] eqn:Ut; try discriminate E.
    + destruct ws as [|w r].
      * injection E as <- <-. apply (InvC_frame s h); cbn; auto; try cbl; try noran. apply (pend_u_keep s _ t UIdle); auto. rewrite Ut. npm.
      * destruct (listed s w) eqn:L; injection E as <- <-.
        -- apply (InvC_frame s h); cbn; auto; try cbl; try noran.
           ++ apply same_upd; auto. intros _. left. apply listed_iff in L. intro Z. rewrite Z in L. destruct L.
           ++ apply (pend_u_keep s _ t (UWaitOn w r)); auto. rewrite Ut. npm.
        -- apply (InvC_frame s h); cbn; auto; try cbl; try noran. apply (pend_u_keep s _ t UIdle); auto. rewrite Ut. npm.
    + destruct (drop (HUsr t) w s) as [s1 b] eqn:D. apply drop_form in D. destruct D as (-> & Hb).
      assert (forall u a1, Forall cbless a1 -> (forall x r, ~ In (ORan x r) a1) ->
        InvC (set_usr t u (set_ev w (o_set_refs (remove holder_dec (HUsr t) (o_refs (s_ev s w))) (s_ev s w)) s)) (h ++ b ++ a1)) as Hgo.
      { intros u a1 B1 B2. change (h ++ b ++ a1) with (h ++ [] ++ b ++ a1).
        apply (InvC_drop s h _ (HUsr t) w); cbn; rewrite ?upd_eq; auto; try cbl; try noran.
        - intros x N. now rewrite upd_ne.
        - apply (pend_u_keep s _ t u); auto. rewrite Ut. npm. }
      destruct (negb (o_fut (s_ev s w))).
      { injection E as <- <-. rewrite <- (app_nil_r b). apply Hgo; try cbl; try noran. }
      destruct (o_ready (s_ev s w)) eqn:R; [|discriminate E].
      destruct (_ =? _)%Z; injection E as <- <-.
      * rewrite <- (app_nil_r b). apply Hgo; try cbl; try noran.
      * apply Hgo; try cbl; try noran.
    + destruct (_ =? _)%Z; [|destruct (is_error_code code)].
      * injection E as <- <-. apply (InvC_frame s h); cbn; auto; try cbl; try noran.
        -- apply same_upd; auto.
        -- apply (pend_u_keep s _ t (UNote1 e NO_ERROR)); auto. rewrite Ut. npm.
      * injection E as <- <-. apply (InvC_frame s h); cbn; auto; try cbl; try noran.
        apply (pend_u_keep s _ t (UNote1 e code)); auto. rewrite Ut. npm.
      * destruct (drop (HUsr t) e s) as [s1 b] eqn:D. injection E as <- <-. apply drop_form in D. destruct D as (-> & Hb).
        change (h ++ b ++ [OSetRet t e code INVALID_VALUE]) with (h ++ [] ++ b ++ [OSetRet t e code INVALID_VALUE]).
        apply (InvC_drop s h _ (HUsr t) e); cbn; rewrite ?upd_eq; auto; try cbl; try noran.
        -- intros x N. now rewrite upd_ne.
        -- apply (pend_u_keep s _ t UIdle); auto. rewrite Ut. npm.
    + (* a user event becomes finished *)
      injection E as <- <-.
      assert (uev (s_usr s t) = Some e) as Hut by now rewrite Ut.
      pose proof (u_thr _ _ U t e Hut) as P. rewrite Ut in P. cbn in P. destruct P as (code & P1 & _).
      assert (In (OSet e code) h) as Hd.
      { apply (filter_In (uset e)). unfold usets in P1. rewrite P1. left. reflexivity. }
      set (s' := set_usr t (UNote2 e r) (on_ev e o_set_fin s)).
      assert (forall x, pend s x -> pend s' x) as HP.
      { apply (pend_u_keep s _ t (UNote2 e r)); auto. rewrite Ut. npm. }
      assert (pend s' e) as Pe.
      { right. exists t. cbn. rewrite upd_eq. exists r. auto. }
      constructor.
      * intro x. destruct (Nat.eq_dec x e) as [->|N].
        -- pose proof (c_ev _ _ C e) as K. rewrite app_nil_r.
           constructor; cbn [s' set_usr on_ev set_ev s_ev s_nreg]; rewrite ?upd_eq; cbn [o_set_fin o_cb o_inv o_fin o_refs].
           ++ exact (k_reg _ _ _ K).
           ++ exact (k_cur _ _ _ K).
           ++ exact (k_once _ _ _ K).
           ++ exact (k_called _ _ _ K).
           ++ exact (k_done _ _ _ K).
           ++ exact (k_open _ _ _ K).
           ++ intros k _ _ _. exact Pe.
           ++ intros _. right. eauto.
        -- apply (cbok_frame s); cbn; rewrite ?upd_ne by exact N; auto; [exact (c_ev _ _ C x)|apply nocb_nil].
      * intros c' i' x A. cbn in *. apply (c_mgr _ _ C) in A. destruct (Nat.eq_dec x e) as [->|N]; [rewrite upd_eq; reflexivity|].
        rewrite upd_ne by exact N. exact A.
      * intros x r' A. rewrite app_nil_r in A. apply (c_ran _ _ C) in A. cbn.
        destruct (Nat.eq_dec x e) as [->|N]; [rewrite upd_eq; reflexivity|]. rewrite upd_ne by exact N. exact A.
    + injection E as <- <-. apply (InvC_frame s h); cbn; auto; try cbl; try noran.
      * apply same_upd; auto.
      * apply (pend_u_keep s _ t (UNote3 e r)); auto. rewrite Ut. intros x (r' & [A|A]); [injection A as <- <-; exists r; auto|discriminate A].
    + (* the callback of a user event *)
      destruct (notify_callback e s) as [s1 b] eqn:D. destruct (drop (HUsr t) e s1) as [s2 b2] eqn:D2. injection E as <- <-.
      pose proof (notify_refs _ _ _ _ D) as (N1 & N2 & N3 & N4 & N5 & N6).
      assert (o_refs (s_ev s e) <> []) as Re.
      { intro Z. assert (In (HUsr t) (o_refs (s_ev s e))) as A by (apply (h_usr _ _ H); rewrite Ut; reflexivity).
        rewrite Z in A. destruct A. }
      assert (forall x, x <> e -> s_ev s1 x = s_ev s x) as Hx.
      { intros x N. apply notify_facts in D. destruct D as [(-> & _)|(k & _ & _ & -> & _)]; [reflexivity|]. cbn. now rewrite upd_ne. }
      assert (o_fin (s_ev s1 e) = o_fin (s_ev s e)) as Fe1.
      { apply notify_facts in D. destruct D as [(-> & _)|(k & _ & _ & -> & _)]; [reflexivity|]. cbn. now rewrite upd_eq. }
      assert (forall o, In o b -> exists k, o = OCall e k) as Fb.
      { intros o A. apply notify_facts in D. destruct D as [(_ & ->)|(k & _ & _ & _ & ->)]; [destruct A|destruct A as [<-|[]]; eauto]. }
      (* first the callback, with the thread already idle *)
      assert (InvC (set_usr t UIdle s1) (h ++ b)) as C1.
      { constructor.
        - intro x. destruct (Nat.eq_dec x e) as [->|N].
          + rewrite <- (app_nil_r b). apply (cbok_notify s h e s1 b); cbn; auto; [exact (c_ev _ _ C e)|lia|apply nocb_nil].
          + apply (cbok_frame s); cbn; rewrite ?(Hx x N); auto; [exact (c_ev _ _ C x)|lia|apply (nocb_calls e); assumption|].
            intros [(c' & i' & A)|(t' & A)]; [left; exists c', i'; cbn; now rewrite N2|right; exists t'; cbn; rewrite N3].
            destruct (Nat.eq_dec t' t) as [->|T]; [exfalso|now rewrite upd_ne].
            rewrite Ut in A. destruct A as (r' & [A|A]); congruence.
        - intros c' i' x A. cbn in *. rewrite N2 in A. apply (c_mgr _ _ C) in A.
          destruct (Nat.eq_dec x e) as [->|N]; [congruence|now rewrite Hx].
        - intros x r' A. rewrite in_app_iff in A. destruct A as [A|A]; [|destruct (Fb _ A) as (k & B); discriminate].
          apply (c_ran _ _ C) in A. cbn. destruct (Nat.eq_dec x e) as [->|N]; [congruence|now rewrite Hx]. }
      apply drop_form in D2. destruct D2 as (-> & Hb2).
      rewrite app_assoc. change ((h ++ b) ++ b2 ++ [OSetRet t e (if (r =? NO_ERROR)%Z then COMPLETE else r) NO_ERROR])
        with ((h ++ b) ++ [] ++ b2 ++ [OSetRet t e (if (r =? NO_ERROR)%Z then COMPLETE else r) NO_ERROR]).
      apply (InvC_drop (set_usr t UIdle s1) (h ++ b) _ (HUsr t) e); cbn; rewrite ?upd_eq; auto; try cbl; try noran.
      intros x N. now rewrite upd_ne.
    + destruct (all_stopped s c (s_thr s c)); [|discriminate E].
      destruct (break_queues c (s_thr s c) s) as [s1 b] eqn:D. injection E as <- <-.
      apply break_queues_facts in D. destruct D as (A1 & _ & _ & _ & _ & A6 & A7 & A8 & _ & _ & A11 & A12).
      assert (forall x, o_cb (s_ev s1 x) = o_cb (s_ev s x) /\ o_inv (s_ev s1 x) = o_inv (s_ev s x) /\ o_fin (s_ev s1 x) = o_fin (s_ev s x) /\ o_refs (s_ev s1 x) = o_refs (s_ev s x)) as R.
      { intro x. destruct (A12 x) as [(k & _ & _ & ->)|(_ & ->)]; auto. }
      apply (InvC_frame s h); cbn; auto.
      * intro x. destruct (R x) as (R1 & R2 & R3 & R4). rewrite R1, R2, R3, R4. auto.
      * apply Forall_app. split; [|cbl]. apply Forall_forall. intros o B. apply A11 in B. destruct B as (x & k & -> & _). exact Logic.I.
      * apply (pend_u_keep s _ t UIdle); cbn; auto; [now rewrite A7|]. rewrite Ut. npm.
      * intros c' i' x. now rewrite A6.
      * intros x r' B. rewrite in_app_iff in B. destruct B as [B|[B|[]]]; [|discriminate]. apply A11 in B. destruct B as (y & k & B & _). discriminate.
Qed.
