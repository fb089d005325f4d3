(** Trace-level consequences of the queue invariant. *)
From Coq Require Import List Arith Bool Lia.
From Verif Require Import QueueModel QueueSpec QueueProofs.
Import ListNotations.

Section Trace.
Context {V : Type}.
Notation state := (state V). Notation pc := (pc V). Notation label := (label V).

Lemma pushed_app (a b : list label) : pushed (a ++ b) = pushed a ++ pushed b.
Proof. apply flat_map_app. Qed.
Lemma popped_app (a b : list label) : popped (a ++ b) = popped a ++ popped b.
Proof. apply flat_map_app. Qed.

Lemma run_inv (tr : list label) s : run tr s -> exists q, Inv q s /\ pushed tr = popped tr ++ map snd q.
Proof.
  induction 1 as [|tr s l s' R (q & I & E) S]; [exists []; split; [apply init_inv|reflexivity]|].
  destruct (step_inv _ _ _ _ I S) as (q' & I' & Q). exists q'. split; [exact I'|].
  rewrite pushed_app, popped_app, E.
  destruct l; cbn in *; subst; rewrite ?app_nil_r; try reflexivity.
  - destruct Q as (n & ->). rewrite map_app, app_assoc. reflexivity.
  - destruct Q as (n & ->). cbn. rewrite <- app_assoc. reflexivity.
Qed.

(** values a thread is about to push / return *)
Definition to_push (p : pc) : list V :=
  match p with PushLock _ v | PushData _ v | PushNext _ v | PushTail _ v => [v] | _ => [] end.
Definition to_return (p : pc) : list V :=
  match p with HUnlock _ (Some v) _ | Dtor _ (Some v) _ => [v] | _ => [] end.

Lemma run_threads (tr : list label) s t : run tr s ->
  push_calls t tr = pushed_by t tr ++ to_push (pcs s t) /\
  popped_by t tr = returned_to t tr ++ to_return (pcs s t).
Proof.
  intros R. induction R as [|tr s l s' R [E1 E2] S]; [split; reflexivity|].
  unfold push_calls, pushed_by, popped_by, returned_to in *. rewrite !flat_map_app.
  cbn [flat_map]. rewrite E1, E2. clear E1 E2. rewrite !app_nil_r.
  destruct S; cbn;
  repeat match goal with
  | |- context [upd _ ?k _ ?i] => destruct (Nat.eq_dec i k) as [->|]; [rewrite upd_same | rewrite upd_other by assumption]
  end;
  repeat match goal with H : pcs _ _ = _ |- _ => rewrite ?H; revert H end; intros;
  repeat match goal with
  | |- context [Nat.eqb ?i ?i] => rewrite Nat.eqb_refl
  | H : ?i <> ?k |- context [Nat.eqb ?k ?i] => destruct (Nat.eqb_spec k i); [congruence|]
  end; cbn; rewrite ?app_nil_r; try (split; reflexivity).
  all: repeat match goal with
  | |- context [match ?x with _ => _ end] => destruct x; cbn; rewrite ?app_nil_r
  end; try (split; reflexivity).
  destruct m, (head s =? tl); cbn; rewrite !app_nil_r; split; reflexivity.
Qed.

(** * What a pop that found nothing saw *)

Lemma seen_empty_snoc t (tr : list label) l :
  seen_empty t tr -> (forall m, l <> LCallPop t m) -> seen_empty t (tr ++ [l]).
Proof.
  intros (a & b & -> & N & E) H. exists a, (b ++ [l]). rewrite app_assoc. repeat split; auto.
  intros m K. apply in_app_or in K. destruct K as [K|[K|[]]]; [apply (N m K) | apply (H m K)].
Qed.
Lemma seen_nonempty_snoc t (tr : list label) l :
  seen_nonempty t tr -> (forall m, l <> LCallPop t m) -> seen_nonempty t (tr ++ [l]).
Proof.
  intros (a & b & -> & N & E) H. exists a, (b ++ [l]). rewrite app_assoc. repeat split; auto.
  intros m K. apply in_app_or in K. destruct K as [K|[K|[]]]; [apply (N m K) | apply (H m K)].
Qed.

Definition saw (tr : list label) (s : state) (t : nat) (p : pc) : Prop :=
  match p with
  | GTUnlock _ tl | Cmp _ tl =>
      (tl = head s -> seen_empty t tr) /\ (tl <> head s -> seen_nonempty t tr)
  | WDone2 => done s = true \/ seen_nonempty t tr
  | HUnlock m None _ | Dtor m None _ =>
      match m with MTry => seen_empty t tr | MWait => done s = true | MEmpty => False end
  | EUnlock b | ERet b => if b then seen_empty t tr else seen_nonempty t tr
  | _ => True
  end.

Lemma saw_frame tr s s' l t p :
  saw tr s t p -> (forall m, l <> LCallPop t m) -> (done s = true -> done s' = true) ->
  (head s' = head s \/ inH p = false) -> saw (tr ++ [l]) s' t p.
Proof.
  intros H N D F.
  pose proof (fun X => seen_empty_snoc t tr l X N) as A.
  pose proof (fun X => seen_nonempty_snoc t tr l X N) as B.
  destruct p; cbn in *; auto;
  repeat match goal with
  | F : _ \/ false = true |- _ => destruct F as [F|F]; [|discriminate]
  | F : _ \/ true = false |- _ => destruct F as [F|F]; [|discriminate]
  end.
  - rewrite F. tauto.
  - rewrite F. tauto.
  - tauto.
  - destruct r; [exact H|]. destruct m; auto.
  - destruct r; [exact H|]. destruct m; auto.
  - destruct b; auto.
  - destruct b; auto.
Qed.

Lemma run_saw (tr : list label) s : run tr s -> forall t, saw tr s t (pcs s t).
Proof.
  induction 1 as [|tr s l s' R IH S]; [intros t; exact I|].
  destruct (run_inv _ _ R) as (q & Iv & Q).
  assert (Emp : tail s = head s -> pushed tr = popped tr).
  { intros E. assert (q = []) as -> by (apply (seg_empty_iff _ _ _ _ _ (i_nodup _ _ Iv) (i_seg _ _ Iv)); congruence).
    rewrite Q. cbn. apply app_nil_r. }
  assert (Nem : tail s <> head s -> pushed tr <> popped tr).
  { intros E K. apply E. symmetry. apply (seg_empty_iff _ _ _ _ _ (i_nodup _ _ Iv) (i_seg _ _ Iv)).
    rewrite Q in K. rewrite <- (app_nil_r (popped tr)) in K at 2. apply app_inv_head in K.
    destruct q; [reflexivity|discriminate]. }
  assert (Now : forall t l', pushed tr = popped tr -> (forall m, l' <> LCallPop t m) -> seen_empty t (tr ++ [l'])).
  { intros t l' E N. exists tr, [l']. repeat split; auto. intros m [K|[]]. apply (N m K). }
  assert (Now' : forall t l', pushed tr <> popped tr -> (forall m, l' <> LCallPop t m) -> seen_nonempty t (tr ++ [l'])).
  { intros t l' E N. exists tr, [l']. repeat split; auto. intros m [K|[]]. apply (N m K). }
  assert (Dn : done s = true -> done s' = true) by (destruct S; cbn; auto).
  (* threads that do not move *)
  assert (Other : forall u, pcs s' u = pcs s u -> (forall m, l <> LCallPop u m) ->
                  (head s' = head s \/ inH (pcs s u) = false) -> saw (tr ++ [l]) s' u (pcs s' u)).
  { intros u E N F. rewrite E. apply saw_frame with (s := s); auto. }
  assert (HH : forall t m v, pcs s t = PopHead m v -> forall u, u <> t -> inH (pcs s u) = false).
  { intros t m v E u N. destruct (inH (pcs s u)) eqn:K; [|reflexivity]. exfalso. apply N.
    apply (excl_H _ _ t u Iv); [rewrite E; reflexivity | exact K]. }
  intros u. pose proof (IH u) as IHu.
  destruct S; cbn [pcs set_pc set_tm set_hm set_data set_next set_tail set_head set_bad new_node free_node set_done] in *;
  match goal with
  | |- context [upd (upd _ ?t _) ?w _ u] =>
      destruct (Nat.eq_dec u w) as [->|Nw];
      [rewrite upd_same; exact I
      | destruct (Nat.eq_dec u t) as [->|Nt];
        [rewrite upd_other by exact Nw; rewrite upd_same; exact I
        | specialize (Other u); cbn in Other; rewrite !upd_other in * by assumption; apply Other; auto; discriminate]]
  | |- context [upd _ ?t _ u] =>
      destruct (Nat.eq_dec u t) as [->|Nt];
      [rewrite upd_same
      | specialize (Other u); cbn in Other; rewrite upd_other in * by assumption; apply Other; auto; try (intros ? K; congruence); eauto]
  | _ => specialize (Other u); cbn in Other; apply Other; auto; discriminate
  end; try exact I;
  match goal with H : pcs s ?t = _, IHu : saw _ _ ?t _ |- _ => rewrite H in IHu end; cbn in IHu.
  - destruct m; exact I.
  - destruct (done s) eqn:D; cbn; auto.
  - cbn. split; intros K; [apply Now|apply Now']; auto; intros; discriminate.
  - cbn. destruct IHu as [A B]. split; intros K; [apply seen_empty_snoc|apply seen_nonempty_snoc]; auto; intros; discriminate.
  - destruct IHu as [A B].
    destruct m; cbn [after_cmp]; destruct (Nat.eqb_spec (head s) tl) as [K|K]; cbn; auto.
    + apply seen_empty_snoc; [apply A; congruence|discriminate].
    + right. apply seen_nonempty_snoc; [apply B; congruence|discriminate].
    + apply seen_empty_snoc; [apply A; congruence|discriminate].
    + apply seen_nonempty_snoc; [apply B; congruence|discriminate].
  - destruct (done s) eqn:D; cbn; auto.
  - cbn. destruct r; [exact I|]. destruct m; auto. apply seen_empty_snoc; [auto|discriminate].
  - cbn. destruct b; [apply seen_empty_snoc|apply seen_nonempty_snoc]; auto; discriminate.
Qed.

Lemma ret_none (tr : list label) s t m : run (tr ++ [LRet t m None]) s ->
  match m with MTry => seen_empty t tr | MWait => done s = true | MEmpty => False end.
Proof.
  intros R. inversion R as [|tr' s0 l s' R' S E1 E2]; [destruct tr; discriminate|].
  apply app_inj_tail in E1. destruct E1 as [-> ->]. subst s'.
  pose proof (run_saw _ _ R' t) as H.
  inversion S as [| | | | | | | | | | | | | | | | | | | | | | | | | |? ? ? Hp|? ? ? ? Hp| | | | | | | |]; subst; rewrite Hp in H; exact H.
Qed.

Lemma ret_empty (tr : list label) s t b : run (tr ++ [LRetEmpty t b]) s ->
  if b then seen_empty t tr else seen_nonempty t tr.
Proof.
  intros R. inversion R as [|tr' s0 l s' R' S E1 E2]; [destruct tr; discriminate|].
  apply app_inj_tail in E1. destruct E1 as [-> ->]. subst s'.
  pose proof (run_saw _ _ R' t) as H.
  inversion S; subst; match goal with Hp : pcs _ _ = _ |- _ => rewrite Hp in H end; exact H.
Qed.

(** * Sleeping and waking *)

Definition popping (p : pc) : bool :=
  match p with
  | HLock _ | WDone | GTLock _ | GTRead _ | GTUnlock _ _ | Cmp _ _ | WSleep | Asleep | Woken | WDone2 | Move _
  | PopHead _ _ | HUnlock _ _ _ | Dtor _ _ _ | EUnlock _ | ERet _ => true
  | _ => false
  end.

Ltac upd_cases :=
  repeat match goal with
  | |- context [upd _ ?k _ ?i] => destruct (Nat.eq_dec i k) as [->|]; [rewrite upd_same | rewrite upd_other by assumption]
  | H : context [upd _ ?k _ ?i] |- _ => destruct (Nat.eq_dec i k) as [->|]; [rewrite upd_same in H | rewrite upd_other in H by assumption]
  end.

Lemma consumer_only c (tr : list label) s : run tr s -> single_consumer c tr ->
  forall t, popping (pcs s t) = true -> t = c.
Proof.
  induction 1 as [|tr s l s' R IH S]; intros SC t Hp; [discriminate|].
  assert (SC' : single_consumer c tr) by (intros u m K; apply (SC u m), in_or_app; left; exact K).
  specialize (IH SC').
  destruct S; cbn in Hp; upd_cases; try discriminate; try (apply IH; assumption);
    try (match goal with H : pcs s ?t = _ |- ?t = c => apply IH; rewrite H; reflexivity end).
  apply (SC t0 m), in_or_app. right. left. reflexivity.
Qed.

Lemma asleep_step (s s' : state) l c : pcs s c = Asleep -> step s l s' -> ~ is_wake c l -> pcs s' c = Asleep.
Proof.
  intros A S W. destruct S; cbn; upd_cases; try congruence; exfalso; apply W; unfold is_wake; eauto.
Qed.

Lemma sleeping_push c (tr1 tr2 : list label) s :
  run (tr1 ++ LSleep c :: tr2) s -> single_consumer c (tr1 ++ LSleep c :: tr2) ->
  (forall l, In l tr2 -> ~ is_wake c l) ->
  pcs s c = Asleep /\
  forall t v, In (LPushed t v) tr2 -> pcs s t = PushUnlock \/ pcs s t = PushNotify.
Proof.
  revert s. induction tr2 as [|l tr2 IH] using rev_ind; intros s R SC W.
  - inversion R as [|tr' s0 l' s' R' S E1 E2]; [destruct tr1; discriminate|].
    apply app_inj_tail in E1. destruct E1 as [-> ->]. subst s'. split; [|intros ? ? []].
    inversion S; subst; cbn. apply upd_same.
  - rewrite app_comm_cons, app_assoc in R, SC.
    inversion R as [|tr' s0 l' s' R' S E1 E2]; [destruct (tr1 ++ LSleep c :: tr2); discriminate|].
    apply app_inj_tail in E1. destruct E1 as [-> ->]. subst s'.
    assert (SC' : single_consumer c (tr1 ++ LSleep c :: tr2)) by (intros u m K; apply (SC u m), in_or_app; left; exact K).
    destruct (IH s0 R' SC') as [A P]; [intros l0 H; apply W, in_or_app; left; exact H|].
    assert (Wl : ~ is_wake c l) by (apply W, in_or_app; right; left; reflexivity).
    split; [exact (asleep_step _ _ _ _ A S Wl)|].
    assert (Only : forall w, pcs s0 w = Asleep -> w = c).
    { intros w Hw. apply (consumer_only c _ _ R' SC'). rewrite Hw. reflexivity. }
    intros t v K. apply in_app_or in K. destruct K as [K|[K|[]]].
    + specialize (P t v K).
      destruct S; cbn; upd_cases; try tauto; try (destruct P; congruence).
      * exfalso. apply Wl. right. left. exists t0. rewrite (Only _ H0). reflexivity.
    + subst l. inversion S; subst; cbn. rewrite upd_same. tauto.
Qed.

Lemma shutdown_done (tr : list label) s : run tr s ->
  forall t, pcs s t = DisLock \/ pcs s t = DisNotify \/ pcs s t = DisUnlock -> done s = true.
Proof.
  induction 1 as [|tr s l s' R IH S]; intros t H; [destruct H as [H|[H|H]]; discriminate|].
  destruct S; cbn in *; upd_cases; try (destruct H as [H|[H|H]]; discriminate); try (eapply IH; eassumption); auto;
  try (eapply IH; eauto; fail).
  all: try (match type of H with _ = (if ?b then _ else _) \/ _ => destruct b end; destruct H as [H|[H|H]]; discriminate).
  all: try (destruct m; destruct H as [H|[H|H]]; discriminate).
  all: try (destruct m, (head s =? tl); destruct H as [H|[H|H]]; discriminate).
  all: try (destruct (done s) eqn:D; destruct H as [H|[H|H]]; discriminate).
Qed.

Definition may_sleep (p : pc) : bool :=
  match p with
  | GTLock MWait | GTRead MWait | GTUnlock MWait _ | Cmp MWait _ | WSleep | Asleep => true
  | _ => false
  end.

Lemma after_shutdown c d w (tr1 tr2 : list label) s :
  run (tr1 ++ LDisrupted d w :: tr2) s -> single_consumer c (tr1 ++ LDisrupted d w :: tr2) ->
  done s = true /\ may_sleep (pcs s c) = false.
Proof.
  revert s. induction tr2 as [|l tr2 IH] using rev_ind; intros s R SC.
  - inversion R as [|tr' s0 l' s' R' S E1 E2]; [destruct tr1; discriminate|].
    apply app_inj_tail in E1. destruct E1 as [-> ->]. subst s'.
    assert (SC' : single_consumer c tr1) by (intros u m K; apply (SC u m), in_or_app; left; exact K).
    destruct (run_inv _ _ R') as (q & Iv & _).
    assert (Hd : pcs s0 d = DisNotify) by (inversion S; assumption).
    assert (D : done s0 = true) by (apply (shutdown_done _ _ R' d); auto).
    assert (HN : forall u, u <> d -> inH (pcs s0 u) = false).
    { intros u N. destruct (inH (pcs s0 u)) eqn:K; [|reflexivity]. exfalso. apply N.
      apply (excl_H _ _ d u Iv); [rewrite Hd; reflexivity | exact K]. }
    assert (K : forall p : pc, inH p = false -> p <> Asleep -> may_sleep p = false).
    { intros p. destruct p; try destruct m; cbn; intros; congruence. }
    inversion S as [| | | | | | | | | | | | | | | | | | | | | | | | | | | | | | | | |? w' H1 H2|? H1 H2|]; subst; (split; [exact D|]); cbn.
    + assert (w' = c) by (apply (consumer_only c _ _ R' SC'); rewrite H2; reflexivity). subst w'. rewrite upd_same. reflexivity.
    + destruct (Nat.eq_dec c d) as [->|N]; [rewrite upd_same; reflexivity|]. rewrite upd_other by exact N.
      apply K; [apply HN; exact N | apply H2].
  - rewrite app_comm_cons, app_assoc in R, SC.
    inversion R as [|tr' s0 l' s' R' S E1 E2]; [destruct (tr1 ++ LDisrupted d w :: tr2); discriminate|].
    apply app_inj_tail in E1. destruct E1 as [-> ->]. subst s'.
    assert (SC' : single_consumer c (tr1 ++ LDisrupted d w :: tr2)) by (intros u m K; apply (SC u m), in_or_app; left; exact K).
    destruct (IH s0 R' SC') as [D M].
    split; [destruct S; cbn; auto|].
    destruct S; cbn; upd_cases; cbn; auto;
      try (match goal with H : pcs s0 ?t = _, M : may_sleep (pcs s0 ?t) = false |- _ => rewrite H in M end; cbn in M).
    + destruct m; reflexivity.
    + rewrite D. reflexivity.
    + exact M.
    + exact M.
    + exact M.
    + destruct m; cbn; destruct (head s0 =? tl); cbn; auto; discriminate.
    + discriminate.
    + rewrite D. reflexivity.
Qed.

(** building concrete runs *)
Inductive steps : state -> list label -> state -> Prop :=
| steps_nil s : steps s [] s
| steps_cons s l s1 tr s2 : step s l s1 -> steps s1 tr s2 -> steps s (l :: tr) s2.
Lemma run_steps tr0 s tr s' : run tr0 s -> steps s tr s' -> run (tr0 ++ tr) s'.
Proof.
  intros R St. revert tr0 R. induction St as [s|s l s1 tr s2 S St IH]; intros tr0 R; [rewrite app_nil_r; exact R|].
  change (l :: tr) with ([l] ++ tr). rewrite app_assoc. apply IH. eapply run_snoc; eassumption.
Qed.
Lemma run_from_init tr s' : steps init tr s' -> run tr s'.
Proof. intros H. exact (run_steps [] init tr s' (run_nil _) H). Qed.

Lemma quiet_state (s : state) l s' : (forall t, pcs s t = Idle \/ pcs s t = Asleep) -> step s l s' ->
  is_call l \/ exists t, l = LSpurious t.
Proof.
  intros H S. destruct S; cbn; auto; try (destruct (H t); congruence); right; eauto.
Qed.
End Trace.
