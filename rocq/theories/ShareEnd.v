(** C76: the threads take finitely many steps. *)
From Coq Require Import List Arith Lia Bool.
From Verif Require Import ShareModel ShareSpec ShareLocal ShareInv.
Import ListNotations.

Fixpoint sumf (N : nat) (f : nat -> nat) : nat := match N with 0 => 0 | S N => sumf N f + f N end.
Lemma sumf_same N f g : (forall i, i < N -> f i = g i) -> sumf N f = sumf N g.
Proof. intros H. induction N as [|N IH]; [reflexivity|]. cbn. rewrite IH by (intros; apply H; lia). rewrite H by lia. reflexivity. Qed.
Lemma sumf_one N f g k : k < N -> (forall i, i < N -> i <> k -> f i = g i) -> sumf N f + g k = sumf N g + f k.
Proof.
  induction N as [|N IH]; intros K H; [lia|]. cbn. destruct (Nat.eq_dec k N) as [E|E].
  - subst k. rewrite (sumf_same N f g) by (intros; apply H; lia). lia.
  - specialize (IH ltac:(lia) ltac:(intros; apply H; lia)). rewrite (H N) by lia. lia.
Qed.

Section ends.
Variable W : nat.
Variable progs : list (list section).
Notation prog := (prog progs).
Notation helpers := (helpers W).

(** What the parts [k] .. cost until they are over. *)
Definition submits (c : section) (k : nat) : nat := list_sum (map (fun i => length (part (what c) (helpers c) i) + 3) (seq k (helpers c - k))).
Definition own_cost (c : section) : nat := length (part (what c) (helpers c) (helpers c)) + helpers c + 3.
Definition cost (c : section) : nat := submits c 0 + own_cost c + 2.
Definition phase_cost (c : section) (ph : phase) (own : pstate) : nat :=
  match ph with
  | Begin => cost c
  | Submit k => submits c k + own_cost c + 1
  | Own => match own with Running r => length (ops r) | _ => 0 end + helpers c + 3
  | Await k => helpers c - k + 1
  end.
Definition manager_cost (st : state) (m : nat) : nat :=
  match nth_error (prog m) (at_section st m) with
  | None => 0
  | Some c => phase_cost c (in_phase st m) (parts st m (at_section st m) (helpers c)) + list_sum (map cost (skipn (S (at_section st m)) (prog m)))
  end.
Definition task_cost (w : nat) (t : nat * nat) : nat := match nth_error (prog (fst t)) (snd t) with Some c => length (part (what c) (helpers c) w) + 2 | None => 0 end.
Definition busy_cost (st : state) (w : nat) : nat :=
  match busy st w with Some (m, s) => match parts st m s w with Running r => length (ops r) + 1 | _ => 0 end | None => 0 end.
Definition helper_cost (st : state) (w : nat) : nat := list_sum (map (task_cost w) (queue st w)) + busy_cost st w.
Definition left_cost (st : state) : nat := sumf (length progs) (manager_cost st) + sumf W (helper_cost st).

Lemma helpers_W c : helpers c <= W.
Proof. unfold ShareModel.helpers. lia. Qed.
Lemma submits_next c k : k < helpers c -> submits c k = length (part (what c) (helpers c) k) + 3 + submits c (S k).
Proof. intros L. unfold submits. replace (helpers c - k) with (S (helpers c - S k)) by lia. reflexivity. Qed.
Lemma exec_shorter n r h r' h' : exec n r h = Some (r', h') -> S (length (ops r')) = length (ops r).
Proof.
  unfold exec. destruct (ops r) as [|[|x|x| |] l]; intros E; try discriminate.
  - injection E as <- _. reflexivity.
  - destruct (existsb _ _); [|discriminate]. injection E as <- _. reflexivity.
  - injection E as <- _. reflexivity.
  - injection E as <- _. reflexivity.
  - destruct (Nat.eqb _ _); [discriminate|]. injection E as <- _. reflexivity.
Qed.
Lemma prog_in m s c : nth_error (prog m) s = Some c -> m < length progs.
Proof. intros E. destruct (Nat.lt_ge_cases m (length progs)) as [L|L]; [exact L|]. unfold ShareModel.prog in E. rewrite nth_overflow in E by exact L. destruct s; discriminate. Qed.

(** A step of manager [m] that leaves the other managers alone, and all helpers but one. *)
Lemma less_manager st st' m : m < length progs -> (forall m', m' <> m -> manager_cost st' m' = manager_cost st m') -> (forall w, helper_cost st' w = helper_cost st w) -> manager_cost st' m < manager_cost st m -> left_cost st' < left_cost st.
Proof.
  intros L OM OH D. unfold left_cost. rewrite (sumf_same W (helper_cost st') (helper_cost st)) by (intros; apply OH). pose proof (sumf_one (length progs) (manager_cost st') (manager_cost st) m L ltac:(intros; apply OM; assumption)). lia.
Qed.
Lemma less_helper st st' w : w < W -> (forall m, manager_cost st' m = manager_cost st m) -> (forall w', w' <> w -> helper_cost st' w' = helper_cost st w') -> helper_cost st' w < helper_cost st w -> left_cost st' < left_cost st.
Proof.
  intros L OM OH D. unfold left_cost. rewrite (sumf_same _ (manager_cost st') (manager_cost st)) by (intros; apply OM). pose proof (sumf_one W (helper_cost st') (helper_cost st) w L ltac:(intros; apply OH; assumption)). lia.
Qed.

Lemma skip_next m s c : nth_error (prog m) s = Some c -> skipn s (prog m) = c :: skipn (S s) (prog m).
Proof. revert s. induction (prog m) as [|x l IH]; intros s E; [destruct s; discriminate|]. destruct s; [injection E as ->; reflexivity|]. cbn in E |- *. apply IH, E. Qed.

(** The cost of a manager that has left its section. *)
Lemma cost_left st m : in_phase st m = Begin -> manager_cost st m = list_sum (map cost (skipn (at_section st m) (prog m))).
Proof.
  intros PH. unfold manager_cost. destruct (nth_error (prog m) (at_section st m)) as [c|] eqn:E; [rewrite PH, (skip_next _ _ _ E); reflexivity|]. apply nth_error_None in E. rewrite skipn_all2 by lia. reflexivity.
Qed.

Lemma less_step st t st' : inv W progs st -> next W progs st t = Some st' -> left_cost st' < left_cost st.
Proof.
  intros V H. destruct t as [m|w]; cbn [next] in H.
  - unfold manager in H. destruct (nth_error (prog m) (at_section st m)) as [c|] eqn:NC; [|discriminate]. pose proof (i_phase _ _ st V m c NC) as PO. pose proof (prog_in _ _ _ NC) as ML. set (s := at_section st m) in *. set (n := helpers c) in *.
    assert (BZ : forall w, busy st w = Some (m, s) -> w < n) by (intros w B; destruct (i_busy _ _ st V m s w B) as (c' & r & NC' & L & _); replace c' with c in L by congruence; exact L).
    assert (OTHERS : forall ph cm p q, (forall m' s' , m' <> m -> p m' s' = parts st m' s') -> forall m', m' <> m -> manager_cost {| at_section := at_section st; in_phase := upd (in_phase st) m ph; queue := q; busy := busy st; parts := p; common := cm |} m' = manager_cost st m').
    { intros ph cm p q E m' N. unfold manager_cost. cbn [at_section in_phase parts]. rewrite upd_neq by exact N. rewrite E by exact N. reflexivity. }
    assert (BUSY : forall a w, w < n \/ busy st w <> Some (m, s) -> forall sc ph q b cm i, i = n -> b = busy st -> busy_cost {| at_section := sc; in_phase := ph; queue := q; busy := b; parts := upd3 (parts st) m s i a; common := cm |} w = busy_cost st w).
    { intros a w _ sc ph q b cm i EI ->. subst i. unfold busy_cost. cbn [busy parts]. destruct (busy st w) as [[m' s']|] eqn:B; [|reflexivity]. destruct (pair_dec (m', s') (m, s)) as [E|E]; [injection E as -> ->; rewrite upd3_same, upd_neq by (specialize (BZ w B); lia); reflexivity|rewrite upd3_other by exact E; reflexivity]. }
    destruct (in_phase st m) as [|k| |k] eqn:PH; cbn [phase_ok] in PO.
    + injection H as <-. apply less_manager with m; [exact ML|apply OTHERS; reflexivity|reflexivity|]. unfold manager_cost. cbn [at_section in_phase parts]. fold s. rewrite NC, PH, upd_eq. cbn [phase_cost]. unfold cost. lia.
    + destruct PO as (K & A & B). destruct (Nat.ltb_spec k n) as [LT|GE]; injection H as <-.
      * match goal with |- left_cost ?x < _ => set (st' := x) end. assert (MC : manager_cost st' m + (length (part (what c) n k) + 3) = manager_cost st m).
        { unfold manager_cost. cbn [st' at_section in_phase parts]. fold s. rewrite NC, PH, upd_eq. cbn [phase_cost]. rewrite (submits_next c k) by exact LT. fold n. lia. }
        assert (HC : helper_cost st' k = helper_cost st k + (length (part (what c) n k) + 2)).
        { unfold helper_cost. cbn [st' queue]. rewrite upd_eq, map_app, list_sum_app. cbn [map list_sum fold_right]. unfold task_cost at 2. cbn [fst snd]. rewrite NC. fold n. assert (BC : busy_cost st' k = busy_cost st k); [|lia].
          unfold busy_cost. cbn [st' busy parts]. destruct (busy st k) as [[m' s']|] eqn:BK; [|reflexivity]. destruct (pair_dec (m', s') (m, s)) as [E|E]; [|rewrite upd3_other by exact E; reflexivity]. injection E as -> ->. destruct (i_busy _ _ st V m s k BK) as (c1 & r1 & _ & _ & R1). rewrite (B k (le_n _)) in R1. discriminate. }
        assert (OH : forall w, w < W -> w <> k -> helper_cost st' w = helper_cost st w).
        { intros w _ N. unfold helper_cost. cbn [st' queue]. rewrite upd_neq by exact N. f_equal. unfold busy_cost. cbn [st' busy parts]. destruct (busy st w) as [[m' s']|]; [|reflexivity]. destruct (pair_dec (m', s') (m, s)) as [E|E]; [injection E as -> ->; rewrite upd3_same, upd_neq by exact N; reflexivity|rewrite upd3_other by exact E; reflexivity]. }
        assert (OM : forall m', m' < length progs -> m' <> m -> manager_cost st' m' = manager_cost st m') by (intros m' _ N; apply OTHERS; [intros m1 s1 N1; apply upd3_other; congruence|exact N]).
        unfold left_cost. pose proof (sumf_one _ (manager_cost st') (manager_cost st) m ML OM). pose proof (helpers_W c) as HW. fold n in HW. pose proof (sumf_one W (helper_cost st') (helper_cost st) k ltac:(lia) OH). lia.
      * apply less_manager with m; [exact ML|apply OTHERS; intros m1 s1 N1; apply upd3_other; congruence| |].
        -- intros w. unfold helper_cost. cbn [queue]. f_equal. apply BUSY; [|reflexivity|reflexivity]. destruct (pair_dec (m, s) (m, s)) as [_|X]; [|contradiction]. destruct (busy st w) as [[m' s']|] eqn:B'; [|right; discriminate]. destruct (pair_dec (m', s') (m, s)) as [E|E]; [left; apply BZ; congruence|right; congruence].
        -- unfold manager_cost. cbn [at_section in_phase parts]. fold s. rewrite NC, PH, upd_eq, upd3_same. fold n. rewrite upd_eq. cbn [phase_cost ops]. unfold own_cost. fold n. lia.
    + destruct PO as ((r & R) & A). rewrite R in H. destruct (ops r) as [|o l] eqn:O.
      * assert (OC : manager_cost st m = n + 3 + list_sum (map cost (skipn (S s) (prog m)))) by (unfold manager_cost; fold s; rewrite NC, PH; fold n; cbn [phase_cost]; rewrite R, O; fold n; reflexivity).
        assert (HH : forall sc ph w, helper_cost {| at_section := sc; in_phase := ph; queue := queue st; busy := busy st; parts := upd3 (parts st) m s n Over; common := common st |} w = helper_cost st w).
        { intros sc ph w. unfold helper_cost. cbn [queue]. f_equal. apply BUSY; [|reflexivity|reflexivity]. destruct (busy st w) as [[m' s']|] eqn:B'; [|right; discriminate]. destruct (pair_dec (m', s') (m, s)) as [E|E]; [left; apply BZ; congruence|right; congruence]. }
        assert (AW : left_cost {| at_section := at_section st; in_phase := upd (in_phase st) m (Await 0); queue := queue st; busy := busy st; parts := upd3 (parts st) m s n Over; common := common st |} < left_cost st).
        { apply less_manager with m; [exact ML|apply OTHERS; intros m1 s1 N1; apply upd3_other; congruence|apply HH|]. rewrite OC. unfold manager_cost. cbn [at_section in_phase parts]. fold s. rewrite NC, upd_eq. cbn [phase_cost]. fold n. lia. }
        injection H as <-. destruct (what c) eqn:KC; [exact AW| |exact AW]. unfold leave. cbn [at_section in_phase queue busy parts common]. apply less_manager with m; [exact ML| |apply HH|].
        -- intros m' N. unfold manager_cost. cbn [at_section in_phase parts]. rewrite !upd_neq by exact N. rewrite upd3_other by congruence. reflexivity.
        -- rewrite OC, cost_left by (cbn [in_phase]; apply upd_eq). cbn [at_section]. rewrite upd_eq. fold s. lia.
      * destruct (exec n r (common st m s)) as [[r' h']|] eqn:X; [|discriminate]. injection H as <-. apply less_manager with m; [exact ML| | |].
        -- intros m' N. unfold manager_cost. cbn [at_section in_phase parts]. rewrite upd3_other by congruence. reflexivity.
        -- intros w. unfold helper_cost. cbn [queue]. f_equal. apply BUSY; [|reflexivity|reflexivity]. destruct (busy st w) as [[m' s']|] eqn:B'; [|right; discriminate]. destruct (pair_dec (m', s') (m, s)) as [E|E]; [left; apply BZ; congruence|right; congruence].
        -- unfold manager_cost. cbn [at_section in_phase parts]. fold s. rewrite NC, PH, upd3_same. fold n. rewrite upd_eq, R. cbn [phase_cost]. pose proof (exec_shorter _ _ _ _ _ X). lia.
    + destruct PO as (R & A & K & B). destruct (Nat.ltb_spec k n) as [LT|GE].
      * destruct (parts st m s k) eqn:PK; try discriminate. injection H as <-. unfold set_phase. apply less_manager with m; [exact ML|apply OTHERS; reflexivity|reflexivity|]. unfold manager_cost. cbn [at_section in_phase parts]. fold s. rewrite NC, PH, upd_eq. cbn [phase_cost]. fold n. lia.
      * injection H as <-. unfold leave. apply less_manager with m; [exact ML| |reflexivity|].
        -- intros m' N. unfold manager_cost. cbn [at_section in_phase parts]. rewrite !upd_neq by exact N. reflexivity.
        -- rewrite cost_left by (cbn [in_phase]; apply upd_eq). cbn [at_section]. rewrite upd_eq. unfold manager_cost. fold s. rewrite NC, PH. cbn [phase_cost]. fold n. lia.
  - unfold helper in H.
    assert (MG : forall m s c a i q b cm, nth_error (prog m) s = Some c -> i < helpers c -> forall m', manager_cost {| at_section := at_section st; in_phase := in_phase st; queue := q; busy := b; parts := upd3 (parts st) m s i a; common := cm |} m' = manager_cost st m').
    { intros m s c a i q b cm NC L m'. unfold manager_cost. cbn [at_section in_phase parts]. destruct (nth_error (prog m') (at_section st m')) as [c'|] eqn:NC'; [|reflexivity]. do 2 f_equal. destruct (pair_dec (m', at_section st m') (m, s)) as [E|E]; [|rewrite upd3_other by exact E; reflexivity].
      injection E as -> E2. rewrite E2 in *. rewrite upd3_same. replace c' with c by congruence. rewrite upd_neq by lia. reflexivity. }
    assert (OH : forall m s a w' sc ph q b cm, w' <> w -> q w' = queue st w' -> b w' = busy st w' -> helper_cost {| at_section := sc; in_phase := ph; queue := q; busy := b; parts := upd3 (parts st) m s w a; common := cm |} w' = helper_cost st w').
    { intros m s a w' sc ph q b cm N EQ EB. unfold helper_cost, busy_cost. cbn [queue busy parts]. rewrite EQ, EB. f_equal. destruct (busy st w') as [[m' s']|]; [|reflexivity]. destruct (pair_dec (m', s') (m, s)) as [E|E]; [injection E as -> ->; rewrite upd3_same, upd_neq by exact N; reflexivity|rewrite upd3_other by exact E; reflexivity]. }
    destruct (busy st w) as [[m s]|] eqn:BW.
    + destruct (i_busy _ _ st V m s w BW) as (c & r & NC & L & R). rewrite NC, R in H. pose proof (helpers_W c) as HW. destruct (ops r) as [|o l] eqn:O.
      * injection H as <-. apply less_helper with w; [lia|intros m'; eapply MG; eassumption|intros w' N; apply OH; [exact N|reflexivity|apply upd_neq; exact N]|]. unfold helper_cost, busy_cost. cbn [queue busy parts]. rewrite upd_eq, BW, R. lia.
      * destruct (exec (helpers c) r (common st m s)) as [[r' h']|] eqn:X; [|discriminate]. injection H as <-. apply less_helper with w; [lia|intros m'; eapply MG; eassumption|intros w' N; apply OH; [exact N|reflexivity|reflexivity]|]. unfold helper_cost, busy_cost. cbn [queue busy parts]. rewrite BW, upd3_same, upd_eq, R. pose proof (exec_shorter _ _ _ _ _ X). lia.
    + destruct (queue st w) as [|[m s] q] eqn:QW; [discriminate|]. destruct (i_queue _ _ st V m s w ltac:(rewrite QW; left; reflexivity)) as (c & NC & L & Q). rewrite NC in H. pose proof (helpers_W c) as HW. injection H as <-.
      apply less_helper with w; [lia|intros m'; eapply MG; eassumption|intros w' N; apply OH; [exact N|apply upd_neq; exact N|apply upd_neq; exact N]|]. unfold helper_cost, busy_cost. cbn [queue busy parts]. rewrite !upd_eq, BW, QW, upd3_same, upd_eq. cbn [map list_sum fold_right ops]. unfold task_cost at 2. cbn [fst snd]. rewrite NC. unfold list_sum. lia.
Qed.

(** Any run has a bounded number of steps, and goes on to a state where nothing moves. *)
Lemma bounded k st st' : inv W progs st -> steps W progs k st st' -> k + left_cost st' <= left_cost st /\ inv W progs st'.
Proof.
  intros V R. induction R as [st|k st st' st'' t R IH X]; [split; [lia|exact V]|]. destruct (IH V) as [B V']. pose proof (less_step st' t st'' V' X). split; [lia|]. destruct t as [m|w]; cbn in X; [eapply inv_manager; eassumption|eapply inv_helper; eassumption].
Qed.

Lemma thread_dec st : inv W progs st -> stuck W progs st \/ exists t st', next W progs st t = Some st'.
Proof.
  intros V. assert (M : forall N, (forall m, m < N -> manager W progs st m = None) \/ exists t st', next W progs st t = Some st').
  { induction N as [|N [IH|IH]]; [left; intros; lia| |right; exact IH]. destruct (manager W progs st N) as [st'|] eqn:E; [right; exists (Manager N), st'; exact E|]. left. intros m L. destruct (Nat.eq_dec m N) as [->|]; [exact E|apply IH; lia]. }
  assert (H : forall N, (forall w, w < N -> helper W progs st w = None) \/ exists t st', next W progs st t = Some st').
  { induction N as [|N [IH|IH]]; [left; intros; lia| |right; exact IH]. destruct (helper W progs st N) as [st'|] eqn:E; [right; exists (Helper N), st'; exact E|]. left. intros m L. destruct (Nat.eq_dec m N) as [->|]; [exact E|apply IH; lia]. }
  destruct (M (length progs)) as [M'|?]; [|right; assumption]. destruct (H W) as [H'|?]; [|right; assumption]. left. intros [m|w]; cbn [next].
  - destruct (Nat.lt_ge_cases m (length progs)) as [L|L]; [apply M', L|]. unfold manager. unfold ShareModel.prog. rewrite nth_overflow by exact L. destruct (at_section st m); reflexivity.
  - destruct (Nat.lt_ge_cases w W) as [L|L]; [apply H', L|]. unfold helper. destruct (busy st w) as [[m s]|] eqn:B.
    + destruct (i_busy _ _ st V m s w B) as (c & r & _ & LW & _). pose proof (helpers_W c). lia.
    + destruct (queue st w) as [|[m s] q] eqn:Q; [reflexivity|]. destruct (i_queue _ _ st V m s w ltac:(rewrite Q; left; reflexivity)) as (c & _ & LW & _). pose proof (helpers_W c). lia.
Qed.

Lemma steps_app k st st' st'' k' : steps W progs k st st' -> steps W progs k' st' st'' -> steps W progs (k' + k) st st''.
Proof. intros R1 R2. induction R2 as [st'|k' st' s1 s2 t R IH X]; [exact R1|]. cbn. eapply steps_S; [apply IH, R1|exact X]. Qed.

Lemma to_the_end st : inv W progs st -> exists k st', steps W progs k st st' /\ stuck W progs st'.
Proof.
  remember (left_cost st) as N eqn:E. revert st E. induction N as [N IH] using lt_wf_ind. intros st E V. destruct (thread_dec st V) as [S|(t & st' & X)]; [exists 0, st; split; [constructor|exact S]|].
  pose proof (less_step st t st' V X) as D. assert (V' : inv W progs st') by (destruct t as [m|w]; cbn in X; [eapply inv_manager; eassumption|eapply inv_helper; eassumption]). destruct (IH (left_cost st') ltac:(lia) st' eq_refl V') as (k & st'' & R & S).
  exists (k + 1), st''. split; [|exact S]. eapply steps_app; [|exact R]. eapply steps_S; [constructor|exact X].
Qed.
End ends.
