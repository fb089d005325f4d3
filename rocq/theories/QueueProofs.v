(** Invariants of the task queue. *)
From Coq Require Import List Arith Bool Lia.
From Verif Require Import QueueModel QueueSpec.
Import ListNotations.

Section Proofs.
Context {V : Type}.
Notation state := (state V). Notation pc := (pc V). Notation label := (label V).

Lemma upd_same {A} (f : nat -> A) k x : upd f k x k = x.
Proof. unfold upd. rewrite Nat.eqb_refl. reflexivity. Qed.
Lemma upd_other {A} (f : nat -> A) k x i : i <> k -> upd f k x i = f i.
Proof. intros H. unfold upd. destruct (Nat.eqb_spec i k); [contradiction|reflexivity]. Qed.

(** program points holding the mutexes *)
Definition inH (p : pc) : bool :=
  match p with
  | WDone | GTLock _ | GTRead _ | GTUnlock _ _ | Cmp _ _ | WSleep | WDone2 | Move _ | PopHead _ _
  | HUnlock _ _ _ | EUnlock _ | DisNotify | DisUnlock => true
  | _ => false
  end.
Definition inT (p : pc) : bool :=
  match p with
  | PushData _ _ | PushNext _ _ | PushTail _ _ | PushUnlock | GTRead _ | GTUnlock _ _ => true
  | _ => false
  end.
(** node held by a local [unique_ptr] *)
Definition owned (p : pc) : option nat :=
  match p with
  | PushLock n _ | PushData n _ | PushNext n _ | PushTail n _ => Some n
  | HUnlock _ _ (Some n) | Dtor _ _ (Some n) => Some n
  | _ => None
  end.

(** the value being moved out of the head node *)
Definition moved (s : state) : option V :=
  match hm s with
  | Some t => match pcs s t with PopHead _ v => Some v | _ => None end
  | None => None
  end.
Definition gdat (s : state) (n : nat) : option V :=
  match moved s with
  | Some v => if Nat.eqb n (head s) then Some v else qdata s n
  | None => qdata s n
  end.

(** linked segment from node [n] to [tl]: [q] lists (next node, value) *)
Fixpoint seg (dat : nat -> option V) (nxt : nat -> option nat) (n : nat) (q : list (nat * V)) (tl : nat) : Prop :=
  match q with
  | [] => n = tl
  | (m, v) :: r => dat n = Some v /\ nxt n = Some m /\ seg dat nxt m r tl
  end.

Definition nodes (s : state) (q : list (nat * V)) := head s :: map fst q.

Definition pc_ok (s : state) (q : list (nat * V)) (p : pc) : Prop :=
  match p with
  | PushNext _ v => qdata s (tail s) = Some v
  | PushTail n v => qdata s (tail s) = Some v /\ qnext s (tail s) = Some n
  | GTUnlock _ tl | Cmp _ tl => In tl (nodes s q)
  | Move _ => q <> []
  | PopHead _ v => q <> [] /\ qdata s (head s) = None
  | WDone2 => done s = true \/ q <> []
  | HUnlock _ r old => r = None <-> old = None
  | Dtor _ r old => r = None <-> old = None
  | _ => True
  end.

Record Inv (q : list (nat * V)) (s : state) : Prop := {
  i_bad : bad s = false;
  i_hm : forall t, inH (pcs s t) = true <-> hm s = Some t;
  i_tm : forall t, inT (pcs s t) = true <-> tm s = Some t;
  i_seg : seg (gdat s) (qnext s) (head s) q (tail s);
  i_nodup : NoDup (nodes s q);
  i_nodes : forall n, In n (nodes s q) -> alive s n = true /\ n < fresh s;
  i_owned : forall t n, owned (pcs s t) = Some n -> alive s n = true /\ n < fresh s /\ ~ In n (nodes s q);
  i_owned2 : forall t t' n, owned (pcs s t) = Some n -> owned (pcs s t') = Some n -> t = t';
  i_pc : forall t, pc_ok s q (pcs s t) }.

Lemma seg_ext dat nxt dat' nxt' n q tl :
  seg dat nxt n q tl ->
  (forall i, In i (n :: map fst q) -> i <> tl -> dat' i = dat i /\ nxt' i = nxt i) ->
  NoDup (n :: map fst q) ->
  seg dat' nxt' n q tl.
Proof.
  revert n. induction q as [|[m v] r IH]; intros n H E ND; cbn in *; [exact H|].
  destruct H as (A & B & C).
  assert (Hn : n <> tl).
  { assert (In tl (m :: map fst r)).
    { clear - C. revert m C. induction r as [|[a b] r IH]; intros m C; cbn in *; [left; exact C|].
      destruct C as (_ & _ & C). right. apply (IH a C). }
    intros ->. inversion ND. contradiction. }
  destruct (E n (or_introl eq_refl) Hn) as [E1 E2]. rewrite E1, E2. repeat split; auto.
  apply IH; auto. inversion ND; assumption.
Qed.

Lemma NoDup_app_snoc {A} (l : list A) x : NoDup l -> ~ In x l -> NoDup (l ++ [x]).
Proof.
  intros N H. induction N as [|a l Ha N IH]; cbn; [constructor; [tauto|constructor]|].
  constructor.
  - intros K. apply in_app_or in K. destruct K as [K|[<-|[]]]; [contradiction|]. apply H. left. reflexivity.
  - apply IH. intros K. apply H. right. exact K.
Qed.

Lemma seg_tail_in dat nxt n q tl : seg dat nxt n q tl -> In tl (n :: map fst q).
Proof.
  revert n. induction q as [|[a b] r IH]; intros n C; cbn in *; [left; exact C|].
  destruct C as (_ & _ & C). right. apply (IH a C).
Qed.

Lemma seg_snoc dat nxt n q tl m v :
  seg dat nxt n q tl -> dat tl = Some v -> nxt tl = Some m -> seg dat nxt n (q ++ [(m, v)]) m.
Proof.
  revert n. induction q as [|[a b] r IH]; intros n C D N; cbn in *.
  - subst. auto.
  - destruct C as (A & B & C). auto.
Qed.

Lemma seg_empty_iff dat nxt n q tl : NoDup (n :: map fst q) -> seg dat nxt n q tl -> (q = [] <-> n = tl).
Proof.
  intros ND H. destruct q as [|[m v] r]; cbn in *; [tauto|]. split; [discriminate|].
  intros ->. destruct H as (_ & _ & H). apply seg_tail_in in H. inversion ND. contradiction.
Qed.

Lemma init_inv : Inv [] (@init V).
Proof.
  constructor; cbn; try tauto; try discriminate; intros.
  - split; discriminate.
  - split; discriminate.
  - constructor; [tauto|constructor].
  - destruct H as [<-|[]]. split; [reflexivity|lia].
Qed.

(** effect of a step on the queue contents *)
Definition qstep (l : label) (q q' : list (nat * V)) : Prop :=
  match l with
  | LPushed _ v => exists n, q' = q ++ [(n, v)]
  | LPopped _ v => exists n, q = (n, v) :: q'
  | _ => q' = q
  end.

Definition is_pophead (p : pc) : bool := match p with PopHead _ _ => true | _ => false end.

Definition mutex_ok (crit : pc -> bool) (old new : option nat) (t : nat) (p p' : pc) : Prop :=
  if crit p' then new = Some t /\ (old = None \/ old = Some t)
  else if crit p then new = None else new = old.

Lemma mutex_keep crit (f : nat -> pc) t p' old new :
  (forall u, crit (f u) = true <-> old = Some u) -> mutex_ok crit old new t (f t) p' ->
  forall u, crit (upd f t p' u) = true <-> new = Some u.
Proof.
  intros H M u. unfold mutex_ok in M. destruct (Nat.eq_dec u t) as [->|N].
  - rewrite upd_same. destruct (crit p'); [destruct M as [-> _]; tauto|].
    destruct (crit (f t)) eqn:E; subst new; [split; discriminate|]. rewrite <- H, E. tauto.
  - rewrite upd_other by exact N. destruct (crit p').
    + destruct M as [-> [O|O]]; rewrite H, O; split; congruence.
    + destruct (crit (f t)) eqn:E; subst new; [|apply H].
      apply H in E. rewrite H, E. split; congruence.
Qed.

Lemma moved_None s : (forall t, hm s = Some t -> is_pophead (pcs s t) = false) -> moved s = None.
Proof.
  intros H. unfold moved. destruct (hm s) as [t|]; [|reflexivity]. specialize (H t eq_refl).
  destruct (pcs s t); try reflexivity. discriminate.
Qed.

Lemma moved_Some s q t m v : Inv q s -> pcs s t = PopHead m v -> moved s = Some v.
Proof.
  intros I E. unfold moved. assert (hm s = Some t) as -> by (apply (i_hm _ _ I); rewrite E; reflexivity).
  rewrite E. reflexivity.
Qed.

(** steps that do not touch the nodes *)
Lemma inv_light q s s' t p :
  Inv q s ->
  head s' = head s -> tail s' = tail s -> qdata s' = qdata s -> qnext s' = qnext s ->
  alive s' = alive s -> fresh s' = fresh s -> bad s' = bad s -> (done s = true -> done s' = true) ->
  pcs s' = upd (pcs s) t p ->
  mutex_ok inH (hm s) (hm s') t (pcs s t) p -> mutex_ok inT (tm s) (tm s') t (pcs s t) p ->
  (owned p = None \/ owned p = owned (pcs s t)) ->
  is_pophead (pcs s t) = false -> is_pophead p = false ->
  pc_ok s' q p -> Inv q s'.
Proof.
  intros I Hh Ht Hd Hn Ha Hf Hb Hdn Hp Mh Mt Ho P1 P2 Hpc.
  assert (Ihm := mutex_keep _ _ _ _ _ _ (i_hm _ _ I) Mh).
  assert (Itm := mutex_keep _ _ _ _ _ _ (i_tm _ _ I) Mt).
  assert (Mv : moved s' = moved s).
  { unfold moved. destruct (hm s') as [u|] eqn:E'.
    - assert (E2 : inH (upd (pcs s) t p u) = true) by (apply Ihm; reflexivity).
      rewrite Hp. destruct (Nat.eq_dec u t) as [->|N].
      + rewrite upd_same. assert (M : match p with PopHead _ v => Some v | _ => None end = None).
        { destruct p; try reflexivity; discriminate. }
        rewrite M. clear M. unfold mutex_ok in Mh. rewrite upd_same in E2. rewrite E2 in Mh.
        destruct Mh as [_ [O|O]]; rewrite O; [reflexivity|].
        destruct (pcs s t); try reflexivity; discriminate.
      + rewrite upd_other in * by exact N. apply (i_hm _ _ I) in E2. rewrite E2. reflexivity.
    - destruct (hm s) as [u|] eqn:E; [|reflexivity].
      destruct (Nat.eq_dec u t) as [->|N]; [destruct (pcs s t); try reflexivity; discriminate|].
      exfalso. assert (X : inH (pcs s u) = true) by (apply (i_hm _ _ I); exact E).
      assert (Y : inH (upd (pcs s) t p u) = true) by (rewrite upd_other; assumption).
      apply Ihm in Y. discriminate. }
  assert (Own : forall u n, owned (pcs s' u) = Some n -> owned (pcs s u) = Some n).
  { intros u n. rewrite Hp. destruct (Nat.eq_dec u t) as [->|N]; [rewrite upd_same | rewrite upd_other by exact N; auto].
    destruct Ho as [-> | ->]; [discriminate | auto]. }
  constructor.
  - rewrite Hb. apply I.
  - rewrite Hp. exact Ihm.
  - rewrite Hp. exact Itm.
  - assert (G : gdat s' = gdat s) by (unfold gdat; rewrite Mv, Hh, Hd; reflexivity).
    rewrite G, Hn, Hh, Ht. apply I.
  - unfold nodes. rewrite Hh. apply I.
  - intros n. unfold nodes. rewrite Hh, Ha, Hf. apply I.
  - intros u n H. apply Own in H. unfold nodes. rewrite Hh, Ha, Hf. apply (i_owned _ _ I _ _ H).
  - intros u u' n H H'. apply Own in H. apply Own in H'. exact (i_owned2 _ _ I _ _ _ H H').
  - intros u. rewrite Hp. destruct (Nat.eq_dec u t) as [->|N]; [rewrite upd_same; exact Hpc|].
    rewrite upd_other by exact N. pose proof (i_pc _ _ I u) as X.
    destruct (pcs s u); cbn in *; unfold nodes in *; rewrite ?Hh, ?Ht, ?Hd, ?Hn in *; auto. tauto.
Qed.

Lemma hm_free s q t : Inv q s -> hm s = Some t -> inH (pcs s t) = true.
Proof. intros I H. apply (i_hm _ _ I). exact H. Qed.

Ltac light I :=
  eapply (inv_light _ _ _ _ _ I); try reflexivity; cbn; unfold mutex_ok; cbn;
  repeat match goal with H : pcs _ _ = _ |- _ => rewrite H end; cbn; auto.

Lemma tail_node q s : Inv q s -> In (tail s) (nodes s q).
Proof. intros I. apply (seg_tail_in _ _ _ _ _ (i_seg _ _ I)). Qed.
Lemma head_node q (s : state) : In (head s) (nodes s q).
Proof. left. reflexivity. Qed.
Lemma tail_alive q s : Inv q s -> alive s (tail s) = true.
Proof. intros I. apply (i_nodes _ _ I), (tail_node _ _ I). Qed.
Lemma head_alive q s : Inv q s -> alive s (head s) = true.
Proof. intros I. apply (i_nodes _ _ I), head_node. Qed.

(** two threads cannot both be in a critical section *)
Lemma excl_H q s t u : Inv q s -> inH (pcs s t) = true -> inH (pcs s u) = true -> u = t.
Proof. intros I A B. apply (i_hm _ _ I) in A. apply (i_hm _ _ I) in B. congruence. Qed.
Lemma excl_T q s t u : Inv q s -> inT (pcs s t) = true -> inT (pcs s u) = true -> u = t.
Proof. intros I A B. apply (i_tm _ _ I) in A. apply (i_tm _ _ I) in B. congruence. Qed.

(** [gdat] for the usual case: nobody is inside [PopHead] *)
Lemma gdat_plain q s t : Inv q s -> inH (pcs s t) = true -> is_pophead (pcs s t) = false -> gdat s = qdata s.
Proof.
  intros I A B. unfold gdat. rewrite moved_None; [reflexivity|].
  intros u Hu. apply (i_hm _ _ I) in A. rewrite A in Hu. injection Hu as <-. exact B.
Qed.


(** appending does not change [gdat] away from the head node *)
Lemma gdat_other s i : i <> head s -> gdat s i = qdata s i.
Proof.
  intros N. unfold gdat. destruct (moved s); [|reflexivity].
  destruct (Nat.eqb_spec i (head s)); [contradiction|reflexivity].
Qed.

Lemma q_nonempty_tail q s : Inv q s -> q <> [] -> head s <> tail s.
Proof. intros I H E. apply H. apply (seg_empty_iff _ _ _ _ _ (i_nodup _ _ I) (i_seg _ _ I)). exact E. Qed.

Lemma inv_call_push q s t v : Inv q s -> pcs s t = Idle ->
  Inv q (set_pc (new_node s) t (PushLock (fresh s) v)).
Proof.
  intros I E.
  assert (Fr : forall n, In n (nodes s q) -> n <> fresh s) by (intros n Hn; apply (i_nodes _ _ I) in Hn; lia).
  assert (Mv : moved (set_pc (new_node s) t (PushLock (fresh s) v)) = moved s).
  { unfold moved. cbn. destruct (hm s) as [u|]; [|reflexivity].
    destruct (Nat.eq_dec u t) as [->|N]; [rewrite upd_same, E|rewrite upd_other by exact N]; reflexivity. }
  assert (Gd : forall i, i <> fresh s -> gdat (set_pc (new_node s) t (PushLock (fresh s) v)) i = gdat s i).
  { intros i Hi. unfold gdat. rewrite Mv. cbn. rewrite upd_other by exact Hi. reflexivity. }
  constructor; cbn.
  - apply I.
  - apply mutex_keep with (old := hm s); [apply I|]. unfold mutex_ok. rewrite E. reflexivity.
  - apply mutex_keep with (old := tm s); [apply I|]. unfold mutex_ok. rewrite E. reflexivity.
  - apply seg_ext with (dat := gdat s) (nxt := qnext s); [apply I | | apply I].
    intros i Hi _. specialize (Fr i Hi). rewrite Gd by exact Fr. rewrite upd_other by exact Fr. auto.
  - apply I.
  - intros n Hn. pose proof (Fr n Hn). rewrite upd_other by assumption. apply (i_nodes _ _ I) in Hn. split; [tauto|lia].
  - intros u n Hn. destruct (Nat.eq_dec u t) as [->|N].
    + rewrite upd_same in Hn. cbn in Hn. injection Hn as <-. rewrite upd_same. split; [reflexivity|]. split; [lia|].
      intros Hc. apply (Fr _ Hc). reflexivity.
    + rewrite upd_other in Hn by exact N. destruct (i_owned _ _ I _ _ Hn) as (A & B & C).
      rewrite upd_other by lia. split; [exact A|]. split; [lia|exact C].
  - intros u u' n Hu Hu'.
    destruct (Nat.eq_dec u t) as [->|N]; destruct (Nat.eq_dec u' t) as [->|N'];
      rewrite ?upd_same in *; rewrite ?upd_other in * by assumption; cbn in *.
    + reflexivity.
    + injection Hu as <-. apply (i_owned _ _ I) in Hu'. lia.
    + injection Hu' as <-. apply (i_owned _ _ I) in Hu. lia.
    + exact (i_owned2 _ _ I _ _ _ Hu Hu').
  - intros u. destruct (Nat.eq_dec u t) as [->|N]; [rewrite upd_same; exact Logic.I|].
    rewrite upd_other by exact N. pose proof (i_pc _ _ I u) as X.
    pose proof (Fr _ (head_node q s)). pose proof (Fr _ (tail_node _ _ I)).
    destruct (pcs s u); cbn in *; rewrite ?upd_other by assumption; auto.
Qed.

(** writing into the tail node (data or next) *)
Lemma inv_tail_write q s s' t p n v :
  Inv q s -> inT (pcs s t) = true -> inH (pcs s t) = false ->
  owned (pcs s t) = Some n -> owned p = Some n -> inT p = true -> inH p = false ->
  head s' = head s -> tail s' = tail s ->
  (forall i, i <> tail s -> qdata s' i = qdata s i) ->
  (forall i, i <> tail s -> qnext s' i = qnext s i) ->
  alive s' = alive s -> fresh s' = fresh s -> bad s' = bad s -> done s' = done s ->
  hm s' = hm s -> tm s' = tm s -> pcs s' = upd (pcs s) t p ->
  p = PushNext n v /\ qdata s' (tail s) = Some v \/
  p = PushTail n v /\ qdata s' (tail s) = Some v /\ qnext s' (tail s) = Some n ->
  Inv q s'.
Proof.
  intros I HT HH Ho Ho' HpT HpH Eh Et Ed En Ea Ef Eb Edn Ehm Etm Ep Hp.
  assert (Mv : moved s' = moved s).
  { unfold moved. rewrite Ehm, Ep. destruct (hm s) as [u|] eqn:Hu; [|reflexivity].
    destruct (Nat.eq_dec u t) as [->|N]; [|rewrite upd_other by exact N; reflexivity].
    apply (i_hm _ _ I) in Hu. congruence. }
  constructor.
  - rewrite Eb. apply I.
  - rewrite Ehm, Ep. apply mutex_keep with (old := hm s); [apply I|]. unfold mutex_ok. rewrite HpH, HH. reflexivity.
  - rewrite Etm, Ep. apply mutex_keep with (old := tm s); [apply I|]. unfold mutex_ok. rewrite HpT.
    apply (i_tm _ _ I) in HT. auto.
  - rewrite Eh, Et. apply seg_ext with (dat := gdat s) (nxt := qnext s); [apply I | | apply I].
    intros i _ Hi. split; [|apply En; exact Hi]. unfold gdat. rewrite Mv, Eh, Ed by exact Hi. reflexivity.
  - unfold nodes. rewrite Eh. apply I.
  - unfold nodes. rewrite Eh, Ea, Ef. apply I.
  - intros u m Hm. unfold nodes. rewrite Eh, Ea, Ef. rewrite Ep in Hm.
    destruct (Nat.eq_dec u t) as [->|N]; [rewrite upd_same in Hm; rewrite Ho' in Hm; rewrite <- Ho in Hm; apply (i_owned _ _ I t m Hm)|].
    rewrite upd_other in Hm by exact N. apply (i_owned _ _ I _ _ Hm).
  - rewrite Ep. intros u u' m Hu Hu'. apply (i_owned2 _ _ I u u' m).
    + destruct (Nat.eq_dec u t) as [->|N]; [rewrite upd_same in Hu; congruence | rewrite upd_other in Hu; assumption].
    + destruct (Nat.eq_dec u' t) as [->|N]; [rewrite upd_same in Hu'; congruence | rewrite upd_other in Hu'; assumption].
  - intros u. rewrite Ep. destruct (Nat.eq_dec u t) as [->|N].
    + rewrite upd_same. destruct Hp as [[-> A] | [-> A]]; cbn; rewrite Et; exact A.
    + rewrite upd_other by exact N. pose proof (i_pc _ _ I u) as X.
      assert (XT : inT (pcs s u) = true -> False) by (intros C; apply N; exact (excl_T _ _ _ _ I HT C)).
      destruct (pcs s u) eqn:Eu; cbn in *; unfold nodes in *; rewrite ?Eh, ?Edn; auto; try (exfalso; apply XT; reflexivity).
      destruct X as [X1 X2]. split; [exact X1|]. rewrite Ed; [exact X2|]. apply (q_nonempty_tail _ _ I X1).
Qed.

Lemma inv_push_tail q s t n v : Inv q s -> pcs s t = PushTail n v ->
  Inv (q ++ [(n, v)]) (set_pc (set_tail s n) t PushUnlock).
Proof.
  intros I E. set (s' := set_pc (set_tail s n) t PushUnlock).
  pose proof (i_pc _ _ I t) as PC. rewrite E in PC. cbn in PC. destruct PC as [PD PN].
  destruct (i_owned _ _ I t n) as (On & Of & Oi); [rewrite E; reflexivity|].
  assert (Mv : moved s' = moved s).
  { unfold moved. cbn. destruct (hm s) as [u|] eqn:Hu; [|reflexivity].
    destruct (Nat.eq_dec u t) as [->|N]; [rewrite upd_same, E|rewrite upd_other by exact N]; reflexivity. }
  assert (Gd : gdat s' = gdat s) by (unfold gdat; rewrite Mv; reflexivity).
  assert (Nod : nodes s' (q ++ [(n, v)]) = nodes s q ++ [n]) by (unfold nodes; cbn; rewrite map_app; reflexivity).
  assert (Gt : gdat s (tail s) = Some v).
  { unfold gdat. destruct (moved s) as [x|] eqn:M; [|exact PD].
    destruct (Nat.eqb_spec (tail s) (head s)) as [Eq|]; [|exact PD]. exfalso.
    unfold moved in M. destruct (hm s) as [u|]; [|discriminate].
    destruct (pcs s u) eqn:Eu; try discriminate. pose proof (i_pc _ _ I u) as X. rewrite Eu in X. destruct X as [X _].
    apply (q_nonempty_tail _ _ I X). congruence. }
  assert (TT : inT (pcs s t) = true) by (rewrite E; reflexivity).
  constructor.
  - apply I.
  - cbn. apply mutex_keep with (old := hm s); [apply I|]. unfold mutex_ok. rewrite E. reflexivity.
  - cbn. apply mutex_keep with (old := tm s); [apply I|]. unfold mutex_ok. rewrite E. cbn.
    apply (i_tm _ _ I) in TT. auto.
  - rewrite Gd. cbn. apply seg_snoc with (tl := tail s); [apply I|exact Gt|exact PN].
  - rewrite Nod. apply NoDup_app_snoc; [apply I | exact Oi].
  - rewrite Nod. intros m Hm. apply in_app_or in Hm. destruct Hm as [Hm|[<-|[]]]; [apply (i_nodes _ _ I m Hm)|]. cbn. auto.
  - intros u m Hm. cbn in Hm. destruct (Nat.eq_dec u t) as [->|N]; [rewrite upd_same in Hm; discriminate|].
    rewrite upd_other in Hm by exact N. destruct (i_owned _ _ I _ _ Hm) as (A & B & C). cbn.
    repeat split; auto. change (~ In m (nodes s' (q ++ [(n, v)]))). rewrite Nod. intros D. apply in_app_or in D. destruct D as [D|[<-|[]]]; [contradiction|].
    apply N. apply (i_owned2 _ _ I u t n Hm). rewrite E. reflexivity.
  - cbn. intros u u' m Hu Hu'. apply (i_owned2 _ _ I u u' m).
    + destruct (Nat.eq_dec u t) as [->|N]; [rewrite upd_same in Hu; discriminate | rewrite upd_other in Hu; assumption].
    + destruct (Nat.eq_dec u' t) as [->|N]; [rewrite upd_same in Hu'; discriminate | rewrite upd_other in Hu'; assumption].
  - intros u. cbn. destruct (Nat.eq_dec u t) as [->|N]; [rewrite upd_same; exact Logic.I|].
    rewrite upd_other by exact N. pose proof (i_pc _ _ I u) as X.
    assert (XT : inT (pcs s u) = true -> False) by (intros C; apply N; exact (excl_T _ _ _ _ I TT C)).
    assert (QN : q ++ [(n, v)] <> []) by (destruct q; discriminate).
    destruct (pcs s u) eqn:Eu; cbn in *; auto; try (exfalso; apply XT; reflexivity).
    + rewrite map_app. destruct X as [X|X]; [left; exact X | right; apply in_or_app; left; exact X].
    + tauto.
Qed.

Lemma inv_move q s t m v : Inv q s -> pcs s t = Move m -> qdata s (head s) = Some v ->
  Inv q (set_pc (set_data s (head s) None) t (PopHead m v)).
Proof.
  intros I E D. set (s' := set_pc (set_data s (head s) None) t (PopHead m v)).
  pose proof (i_pc _ _ I t) as PC. rewrite E in PC. cbn in PC.
  assert (TH : inH (pcs s t) = true) by (rewrite E; reflexivity).
  assert (Hm : hm s = Some t) by (apply (i_hm _ _ I); exact TH).
  assert (G1 : gdat s = qdata s) by (apply (gdat_plain q s t I TH); rewrite E; reflexivity).
  assert (G2 : forall i, gdat s' i = qdata s i).
  { intros i. unfold gdat, moved. cbn. rewrite Hm, upd_same. destruct (Nat.eqb_spec i (head s)) as [->|Hi]; [auto|].
    rewrite upd_other by exact Hi. reflexivity. }
  constructor.
  - apply I.
  - cbn. apply mutex_keep with (old := hm s); [apply I|]. unfold mutex_ok. cbn. auto.
  - cbn. apply mutex_keep with (old := tm s); [apply I|]. unfold mutex_ok. rewrite E. reflexivity.
  - cbn. apply seg_ext with (dat := gdat s) (nxt := qnext s); [apply I | | apply I].
    intros i _ _. rewrite G2, G1. auto.
  - apply I.
  - apply I.
  - intros u n Hn. cbn in Hn. destruct (Nat.eq_dec u t) as [->|N]; [rewrite upd_same in Hn; discriminate|].
    rewrite upd_other in Hn by exact N. apply (i_owned _ _ I _ _ Hn).
  - cbn. intros u u' n Hu Hu'. apply (i_owned2 _ _ I u u' n).
    + destruct (Nat.eq_dec u t) as [->|N]; [rewrite upd_same in Hu; discriminate | rewrite upd_other in Hu; assumption].
    + destruct (Nat.eq_dec u' t) as [->|N]; [rewrite upd_same in Hu'; discriminate | rewrite upd_other in Hu'; assumption].
  - intros u. cbn. destruct (Nat.eq_dec u t) as [->|N]; [rewrite upd_same; cbn; rewrite upd_same; auto|].
    rewrite upd_other by exact N. pose proof (i_pc _ _ I u) as X.
    assert (XH : inH (pcs s u) = true -> False) by (intros C; apply N; exact (excl_H _ _ _ _ I TH C)).
    pose proof (q_nonempty_tail _ _ I PC) as HT.
    destruct (pcs s u) eqn:Eu; cbn in *; rewrite ?upd_other by congruence; auto; try (exfalso; apply XH; reflexivity).
Qed.

Lemma inv_pop_head q s t m v n : Inv q s -> pcs s t = PopHead m v -> qnext s (head s) = Some n ->
  exists q', q = (n, v) :: q' /\ Inv q' (set_pc (set_head s n) t (HUnlock m (Some v) (Some (head s)))).
Proof.
  intros I E En. set (s' := set_pc (set_head s n) t (HUnlock m (Some v) (Some (head s)))).
  pose proof (i_pc _ _ I t) as PC. rewrite E in PC. cbn in PC. destruct PC as [PQ PD].
  assert (TH : inH (pcs s t) = true) by (rewrite E; reflexivity).
  assert (Hm : hm s = Some t) by (apply (i_hm _ _ I); exact TH).
  pose proof (moved_Some _ _ _ _ _ I E) as Mv.
  pose proof (i_seg _ _ I) as SG. pose proof (i_nodup _ _ I) as ND.
  destruct q as [|[n' v'] q']; [contradiction|]. cbn in SG. destruct SG as (A & B & C).
  assert (n' = n) by congruence. subst n'.
  assert (v' = v). { unfold gdat in A. rewrite Mv, Nat.eqb_refl in A. congruence. } subst v'.
  exists q'. split; [reflexivity|].
  unfold nodes in ND. cbn in ND. inversion ND as [|? ? ND1 ND2]; subst.
  assert (Nod : forall i, In i (nodes s' q') -> In i (nodes s ((n, v) :: q')) /\ i <> head s).
  { intros i Hi. unfold nodes in *. cbn in *. split; [tauto|]. intros ->. contradiction. }
  assert (Mv' : moved s' = None).
  { apply moved_None. cbn. intros u. rewrite Hm. intros Eu. injection Eu as <-. rewrite upd_same. reflexivity. }
  constructor.
  - apply I.
  - cbn. apply mutex_keep with (old := hm s); [apply I|]. unfold mutex_ok. cbn. auto.
  - cbn. apply mutex_keep with (old := tm s); [apply I|]. unfold mutex_ok. rewrite E. reflexivity.
  - cbn. apply seg_ext with (dat := gdat s) (nxt := qnext s); [exact C | | exact ND2].
    intros i Hi _. split; [|reflexivity]. unfold gdat at 1. rewrite Mv'. cbn. symmetry. apply gdat_other. intros ->. contradiction.
  - exact ND2.
  - intros i Hi. apply Nod in Hi. apply (i_nodes _ _ I). tauto.
  - intros u i Hi. cbn in Hi. destruct (Nat.eq_dec u t) as [->|N].
    + rewrite upd_same in Hi. cbn in Hi. injection Hi as <-. cbn.
      destruct (i_nodes _ _ I (head s) (or_introl eq_refl)) as [X Y]. repeat split; auto.
    + rewrite upd_other in Hi by exact N. destruct (i_owned _ _ I _ _ Hi) as (X & Y & Z). cbn. repeat split; auto.
      intros K. apply Z. apply Nod. exact K.
  - cbn. assert (K : forall u i, u <> t -> owned (pcs s u) = Some i -> i <> head s).
    { intros u i N Hi ->. apply (i_owned _ _ I) in Hi. destruct Hi as (_ & _ & Hi). apply Hi. left. reflexivity. }
    intros u u' i Hu Hu'.
    destruct (Nat.eq_dec u t) as [->|N]; destruct (Nat.eq_dec u' t) as [->|N'];
      rewrite ?upd_same in *; rewrite ?upd_other in * by assumption; cbn in *.
    + reflexivity.
    + injection Hu as <-. exfalso. eapply K; [exact N' | exact Hu' | reflexivity].
    + injection Hu' as <-. exfalso. eapply K; [exact N | exact Hu | reflexivity].
    + exact (i_owned2 _ _ I _ _ _ Hu Hu').
  - intros u. cbn. destruct (Nat.eq_dec u t) as [->|N]; [rewrite upd_same; cbn; split; discriminate|].
    rewrite upd_other by exact N. pose proof (i_pc _ _ I u) as X.
    assert (XH : inH (pcs s u) = true -> False) by (intros K; apply N; exact (excl_H _ _ _ _ I TH K)).
    destruct (pcs s u) eqn:Eu; cbn in *; auto; try (exfalso; apply XH; reflexivity).
Qed.

Lemma inv_free q s t m r n : Inv q s -> pcs s t = Dtor m r (Some n) -> Inv q (set_pc (free_node s n) t Idle).
Proof.
  intros I E. set (s' := set_pc (free_node s n) t Idle).
  destruct (i_owned _ _ I t n) as (On & Of & Oi); [rewrite E; reflexivity|].
  assert (Mv : moved s' = moved s).
  { unfold moved. cbn. destruct (hm s) as [u|] eqn:Hu; [|reflexivity].
    destruct (Nat.eq_dec u t) as [->|N]; [rewrite upd_same, E|rewrite upd_other by exact N]; reflexivity. }
  assert (Gd : gdat s' = gdat s) by (unfold gdat; rewrite Mv; reflexivity).
  constructor.
  - apply I.
  - cbn. apply mutex_keep with (old := hm s); [apply I|]. unfold mutex_ok. rewrite E. reflexivity.
  - cbn. apply mutex_keep with (old := tm s); [apply I|]. unfold mutex_ok. rewrite E. reflexivity.
  - rewrite Gd. apply I.
  - apply I.
  - intros i Hi. cbn. rewrite upd_other by (intros ->; apply Oi; exact Hi). apply (i_nodes _ _ I i Hi).
  - intros u i Hi. cbn in Hi. destruct (Nat.eq_dec u t) as [->|N]; [rewrite upd_same in Hi; discriminate|].
    rewrite upd_other in Hi by exact N. cbn. rewrite upd_other; [apply (i_owned _ _ I _ _ Hi)|].
    intros ->. apply N. apply (i_owned2 _ _ I u t n Hi). rewrite E. reflexivity.
  - cbn. intros u u' i Hu Hu'. apply (i_owned2 _ _ I u u' i).
    + destruct (Nat.eq_dec u t) as [->|N]; [rewrite upd_same in Hu; discriminate | rewrite upd_other in Hu; assumption].
    + destruct (Nat.eq_dec u' t) as [->|N]; [rewrite upd_same in Hu'; discriminate | rewrite upd_other in Hu'; assumption].
  - intros u. cbn. destruct (Nat.eq_dec u t) as [->|N]; [rewrite upd_same; exact Logic.I|].
    rewrite upd_other by exact N. pose proof (i_pc _ _ I u) as X. destruct (pcs s u); cbn in *; auto.
Qed.

Lemma step_inv q s l s' : Inv q s -> step s l s' -> exists q', Inv q' s' /\ qstep l q q'.
Proof.
  intros I H.
  assert (IH := i_hm _ _ I). assert (IT := i_tm _ _ I).
  destruct H as [t v E|t n v E F|t n v E F|t n v E F|t n v E F|t n v E F|t n v E|t E|t w E F|t E F
    |t m E|t m E F|t E|t m E F|t m E|t m tl E|t m tl E|t E|t E|t E F|t E|t m v E F G|t m E F|t m v n E F G|t m v E F
    |t m r old E|t m r E|t m r n E F|t m r n E F|t b E|t b E|t E|t E F|t w E F|t E F|t E].
  all: pose proof (i_pc _ _ I t) as PC; rewrite E in PC; cbn in PC;
       pose proof (IH t) as IHt; rewrite E in IHt; cbn in IHt;
       pose proof (IT t) as ITt; rewrite E in ITt; cbn in ITt;
       try (match type of IHt with true = true <-> _ => destruct IHt as [IHt _]; specialize (IHt eq_refl) end);
       try (match type of ITt with true = true <-> _ => destruct ITt as [ITt _]; specialize (ITt eq_refl) end).
  - exists q. split; [|reflexivity]. apply inv_call_push; assumption.
  - exists q. split; [|reflexivity]. light I.
  - exists q. split; [|reflexivity].
    apply (inv_tail_write q s _ t (PushNext n v) n v I); cbn; rewrite ?E; auto.
    + intros i Hi. apply upd_other. exact Hi.
    + left. rewrite upd_same. auto.
  - exfalso. rewrite (tail_alive _ _ I) in F. discriminate.
  - exists q. split; [|reflexivity].
    apply (inv_tail_write q s _ t (PushTail n v) n v I); cbn; rewrite ?E; auto.
    + intros i Hi. apply upd_other. exact Hi.
    + right. rewrite upd_same. auto.
  - exfalso. rewrite (tail_alive _ _ I) in F. discriminate.
  - (* push_tail *) exists (q ++ [(n, v)]). split; [|exists n; reflexivity]. apply inv_push_tail; assumption.
  - exists q. split; [|reflexivity]. light I.
  - exists q. split; [|reflexivity].
    assert (N : w <> t) by (intros ->; rewrite E in F; discriminate).
    assert (I1 : Inv q (set_pc s t Idle)) by light I.
    assert (F' : pcs (set_pc s t Idle) w = Asleep) by (cbn; rewrite upd_other by exact N; exact F).
    light I1; rewrite upd_other by exact N; rewrite F; cbn; auto.
  - exists q. split; [|reflexivity]. light I.
  - exists q. split; [|reflexivity]. light I.
  - exists q. split; [|reflexivity]. light I; destruct m; cbn; auto.
  - exists q. split; [|reflexivity]. light I; destruct (done s) eqn:D; cbn; auto; tauto.
  - exists q. split; [|reflexivity]. light I; try tauto.
  - exists q. split; [|reflexivity]. light I; try tauto; exact (tail_node _ _ I).
  - exists q. split; [|reflexivity]. light I; try tauto.
  - exists q. split; [|reflexivity].
    assert (NE : head s <> tl -> q <> []).
    { intros Hn ->. cbn in PC. destruct PC as [PC|[]]. contradiction. }
    destruct m; cbn [after_cmp]; destruct (Nat.eqb_spec (head s) tl) as [Eq|Ne]; light I; try tauto.
  - exists q. split; [|reflexivity]. light I.
  - exists q. split; [|reflexivity]. light I.
  - exists q. split; [|reflexivity]. light I.
  - exists q. split; [|reflexivity]. destruct (done s) eqn:D; light I; try tauto.
    destruct PC as [PC|PC]; [discriminate|exact PC].
  - exists q. split; [|reflexivity]. apply inv_move; assumption.
  - exfalso. destruct F as [F|F]; [rewrite (head_alive _ _ I) in F; discriminate|].
    pose proof (i_seg _ _ I) as SG. rewrite (gdat_plain q s t I) in SG by (rewrite E; reflexivity).
    destruct q as [|[n v] q']; [contradiction|]. cbn in SG. destruct SG as [SG _]. congruence.
  - destruct (inv_pop_head _ _ _ _ _ _ I E G) as (q' & -> & I'). exists q'. split; [exact I'|]. exists n. reflexivity.
  - exfalso. destruct F as [F|F]; [rewrite (head_alive _ _ I) in F; discriminate|].
    pose proof (i_seg _ _ I) as SG. destruct PC as [PC _].
    destruct q as [|[n v'] q']; [contradiction|]. cbn in SG. destruct SG as (_ & SG & _). congruence.
  - exists q. split; [|reflexivity]. light I.
  - exists q. split; [|reflexivity]. light I.
  - exists q. split; [|reflexivity]. apply inv_free with (m := m) (r := r); assumption.
  - exfalso. destruct (i_owned _ _ I t n) as (On & _); [rewrite E; reflexivity|]. congruence.
  - exists q. split; [|reflexivity]. light I.
  - exists q. split; [|reflexivity]. light I.
  - exists q. split; [|reflexivity]. light I.
  - exists q. split; [|reflexivity]. light I.
  - exists q. split; [|reflexivity].
    assert (N : w <> t) by (intros ->; rewrite E in F; discriminate).
    assert (I1 : Inv q (set_pc s t DisUnlock)) by (light I; tauto || auto).
    assert (F' : pcs (set_pc s t DisUnlock) w = Asleep) by (cbn; rewrite upd_other by exact N; exact F).
    light I1; rewrite upd_other by exact N; rewrite F; cbn; auto.
  - exists q. split; [|reflexivity]. light I; try tauto.
  - exists q. split; [|reflexivity]. light I.
Qed.
End Proofs.
