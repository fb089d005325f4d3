(** C76: where the parts are. *)
From Coq Require Import List Arith Lia Bool.
From Verif Require Import ShareModel ShareLocal.
Import ListNotations.

Lemma upd2_same {A} (f : nat -> nat -> A) m s a : upd2 f m s a m s = a.
Proof. unfold upd2. rewrite !upd_eq. reflexivity. Qed.
Lemma upd2_other {A} (f : nat -> nat -> A) m s a m' s' : (m', s') <> (m, s) -> upd2 f m s a m' s' = f m' s'.
Proof. intros N. unfold upd2. destruct (upd_cases f m (upd (f m) s a) m') as [[-> E]|[D E]]; rewrite E; [apply upd_neq; congruence|reflexivity]. Qed.
Lemma upd3_same {A} (f : nat -> nat -> nat -> A) m s i a : upd3 f m s i a m s = upd (f m s) i a.
Proof. unfold upd3, upd2. rewrite !upd_eq. reflexivity. Qed.
Lemma upd3_other {A} (f : nat -> nat -> nat -> A) m s i a m' s' : (m', s') <> (m, s) -> upd3 f m s i a m' s' = f m' s'.
Proof. intros N. unfold upd3. destruct (upd_cases f m (upd2 (f m) s i a) m') as [[-> E]|[D E]]; rewrite E; [unfold upd2; apply upd_neq; congruence|reflexivity]. Qed.
Lemma pair_dec (x y : nat * nat) : {x = y} + {x <> y}.
Proof. decide equality; apply Nat.eq_dec. Qed.

Section inv.
Variable W : nat.
Variable progs : list (list section).
Notation prog := (prog progs).
Notation helpers := (helpers W).

Definition begun (st : state) (m s : nat) : Prop := s < at_section st m \/ s = at_section st m /\ in_phase st m <> Begin.

Definition phase_ok (n : nat) (ph : phase) (p : nat -> pstate) : Prop :=
  match ph with
  | Begin => True
  | Submit k => k <= n /\ (forall i, i < k -> p i <> Later) /\ (forall i, k <= i -> p i = Later)
  | Own => (exists r, p n = Running r) /\ (forall i, i < n -> p i <> Later)
  | Await k => p n = Over /\ (forall i, i < n -> p i <> Later) /\ k <= n /\ (forall i, i < k -> p i = Over)
  end.
Definition past_ok (c : section) (n : nat) (p : nat -> pstate) : Prop := p n = Over /\ (what c <> Sum -> forall i, i < n -> p i = Over) /\ (forall i, i < n -> p i <> Later).

Record inv (st : state) : Prop := {
  i_sound : forall m s c, nth_error (prog m) s = Some c -> begun st m s -> sound (what c) (helpers c) (common st m s) (parts st m s);
  i_later : forall m s i, ~ begun st m s -> parts st m s i = Later;
  i_range : forall m s i, parts st m s i <> Later -> exists c, nth_error (prog m) s = Some c /\ i <= helpers c;
  i_phase : forall m c, nth_error (prog m) (at_section st m) = Some c -> phase_ok (helpers c) (in_phase st m) (parts st m (at_section st m));
  i_past : forall m s c, s < at_section st m -> nth_error (prog m) s = Some c -> past_ok c (helpers c) (parts st m s);
  i_sec : forall m, at_section st m <= length (prog m);
  i_none : forall m, nth_error (prog m) (at_section st m) = None -> in_phase st m = Begin;
  i_queue : forall m s w, In (m, s) (queue st w) -> exists c, nth_error (prog m) s = Some c /\ w < helpers c /\ parts st m s w = Queued;
  i_queued : forall m s w, parts st m s w = Queued -> In (m, s) (queue st w);
  i_nodup : forall w, NoDup (queue st w);
  i_busy : forall m s w, busy st w = Some (m, s) -> exists c r, nth_error (prog m) s = Some c /\ w < helpers c /\ parts st m s w = Running r;
  i_running : forall m s w c r, nth_error (prog m) s = Some c -> w < helpers c -> parts st m s w = Running r -> busy st w = Some (m, s)
}.

Lemma inv_start : inv start.
Proof.
  constructor; cbn.
  - intros m s c _ [B|[_ B]]; [cbn in B; lia|contradiction].
  - reflexivity.
  - intros m s i N. contradiction.
  - intros m c _. exact I.
  - intros; lia.
  - intros; lia.
  - reflexivity.
  - intros m s w [].
  - discriminate.
  - constructor.
  - discriminate.
  - discriminate.
Qed.

Lemma begun_dec st m s : begun st m s \/ ~ begun st m s.
Proof.
  unfold begun. destruct (Nat.lt_trichotomy s (at_section st m)) as [L|[E|G]]; [left; left; exact L| |right; intros [X|[X _]]; lia].
  destruct (in_phase st m) eqn:P; [right; intros [X|[_ X]]; [lia|contradiction]|left; right; split; [exact E|discriminate]..].
Qed.

(** *** Changes of one part that leave the rest as it is *)
(** The phase claims only depend on which parts are later or over. *)
Lemma phase_ok_upd n ph p i a : phase_ok n ph p -> p i <> Later -> p i <> Over -> a <> Later -> (i = n -> ph = Own /\ exists r, a = Running r) -> phase_ok n ph (upd p i a).
Proof.
  intros H NL NO AL OWN. destruct ph as [|k| |k]; cbn in *; [exact I| | |].
  - destruct H as (K & A & B). split; [exact K|]. split; intros j J; destruct (upd_cases p i a j) as [[E Y]|[N Y]]; rewrite Y; auto. subst j. elim NL. apply B. exact J.
  - destruct H as ((r & R) & A). split; [destruct (upd_cases p i a n) as [[E Y]|[N Y]]; rewrite Y; [destruct (OWN (eq_sym E)) as [_ Z]; exact Z|exists r; exact R]|].
    intros j J. destruct (upd_cases p i a j) as [[E Y]|[N Y]]; rewrite Y; auto.
  - destruct H as (R & A & K & B). split; [destruct (upd_cases p i a n) as [[E Y]|[N Y]]; rewrite Y; [destruct (OWN (eq_sym E)) as [Z _]; discriminate|exact R]|]. split; [|split; [exact K|]].
    + intros j J. destruct (upd_cases p i a j) as [[E Y]|[N Y]]; rewrite Y; auto.
    + intros j J. destruct (upd_cases p i a j) as [[E Y]|[N Y]]; rewrite Y; auto. subst j. elim NO. apply B. exact J.
Qed.
Lemma past_ok_upd c n p i a : past_ok c n p -> p i <> Over -> a <> Later -> i < n -> past_ok c n (upd p i a).
Proof.
  intros (A & B & C) NO NL L. split; [rewrite upd_neq by lia; exact A|]. split.
  - intros K j J. destruct (upd_cases p i a j) as [[E Y]|[N Y]]; rewrite Y; auto. subst j. elim NO. auto.
  - intros j J. destruct (upd_cases p i a j) as [[E Y]|[N Y]]; rewrite Y; auto.
Qed.

(** A running part takes a step or comes to its end. *)
Lemma inv_part st m s c i r a h' bz :
  inv st -> nth_error (prog m) s = Some c -> begun st m s -> i <= helpers c -> parts st m s i = Running r ->
  (exists r', a = Running r' /\ bz = busy st) \/ (a = Over /\ bz = upd (busy st) i None /\ i < helpers c) ->
  (i = helpers c -> s = at_section st m /\ in_phase st m = Own) ->
  sound (what c) (helpers c) h' (upd (parts st m s) i a) ->
  inv {| at_section := at_section st; in_phase := in_phase st; queue := queue st; busy := bz; parts := upd3 (parts st) m s i a; common := upd2 (common st) m s h' |}.
Proof.
  intros V NC BG IN PI CA OWN SD. destruct V as [V1 V2 V3 V4 V5 V6 V7 V8 V9 V10 V11 V12].
  assert (AL : a <> Later /\ a <> Queued) by (destruct CA as [(r' & -> & _)|(-> & _)]; split; discriminate). destruct AL as [AL AQ].
  constructor; cbn [at_section in_phase queue busy parts common].
  - intros m' s' c' N' B'. destruct (pair_dec (m', s') (m, s)) as [E|E].
    + injection E as -> ->. rewrite upd2_same, upd3_same. replace c' with c by congruence. exact SD.
    + rewrite upd2_other, upd3_other by exact E. apply V1; [exact N'|exact B'].
  - intros m' s' j NB. destruct (pair_dec (m', s') (m, s)) as [E|E]; [injection E as -> ->; elim NB; exact BG|]. rewrite upd3_other by exact E. apply V2. exact NB.
  - intros m' s' j NL. destruct (pair_dec (m', s') (m, s)) as [E|E].
    + injection E as -> ->. rewrite upd3_same in NL. destruct (upd_cases (parts st m s) i a j) as [[-> Y]|[N Y]]; rewrite Y in NL; [exists c; auto|apply V3; exact NL].
    + rewrite upd3_other in NL by exact E. apply V3. exact NL.
  - intros m' c' N'. specialize (V4 m' c' N'). destruct (pair_dec (m', at_section st m') (m, s)) as [E|E].
    + injection E as -> E2. rewrite E2 in *. rewrite upd3_same. replace c' with c in * by congruence. apply phase_ok_upd; [exact V4|rewrite PI; discriminate|rewrite PI; discriminate|exact AL|].
      intros EN. destruct (OWN EN) as [_ PO]. split; [exact PO|]. destruct CA as [(r' & -> & _)|(_ & _ & L)]; [exists r'; reflexivity|lia].
    + rewrite upd3_other by exact E. exact V4.
  - intros m' s' c' LT N'. specialize (V5 m' s' c' LT N'). destruct (pair_dec (m', s') (m, s)) as [E|E].
    + injection E as -> ->. rewrite upd3_same. replace c' with c in * by congruence. assert (IL : i < helpers c) by (destruct (Nat.eq_dec i (helpers c)) as [EN|]; [destruct (OWN EN) as [X _]; lia|lia]). apply past_ok_upd; [exact V5|rewrite PI; discriminate|exact AL|exact IL].
    + rewrite upd3_other by exact E. exact V5.
  - exact V6.
  - exact V7.
  - intros m' s' w IQ. destruct (V8 m' s' w IQ) as (c' & N' & L' & Q'). exists c'. split; [exact N'|]. split; [exact L'|]. destruct (pair_dec (m', s') (m, s)) as [E|E].
    + injection E as -> ->. rewrite upd3_same. destruct (upd_cases (parts st m s) i a w) as [[-> Y]|[N Y]]; rewrite Y; [congruence|exact Q'].
    + rewrite upd3_other by exact E. exact Q'.
  - intros m' s' w Q. destruct (pair_dec (m', s') (m, s)) as [E|E].
    + injection E as -> ->. rewrite upd3_same in Q. destruct (upd_cases (parts st m s) i a w) as [[-> Y]|[N Y]]; rewrite Y in Q; [contradiction|apply V9; exact Q].
    + rewrite upd3_other in Q by exact E. apply V9. exact Q.
  - exact V10.
  - intros m' s' w BW. assert (BW0 : busy st w = Some (m', s')).
    { destruct CA as [(r' & _ & ->)|(_ & -> & _)]; [exact BW|]. destruct (upd_cases (busy st) i None w) as [[_ Y]|[_ Y]]; rewrite Y in BW; [discriminate|exact BW]. }
    destruct (V11 m' s' w BW0) as (c' & r0 & N' & L' & R'). destruct (pair_dec (m', s') (m, s)) as [E|E].
    + injection E as -> ->. rewrite upd3_same. destruct (upd_cases (parts st m s) i a w) as [[-> Y]|[N Y]]; rewrite Y; [|exists c', r0; auto].
      destruct CA as [(r' & -> & _)|(_ & -> & _)]; [exists c', r'; auto|]. rewrite upd_eq in BW. discriminate.
    + rewrite upd3_other by exact E. exists c', r0. auto.
  - intros m' s' w c' r0 N' L' R'. assert (X : (exists r1, parts st m' s' w = Running r1) /\ ((m', s') = (m, s) -> w = i -> exists r1, a = Running r1)).
    { destruct (pair_dec (m', s') (m, s)) as [E|E].
      + injection E as -> ->. rewrite upd3_same in R'. destruct (upd_cases (parts st m s) i a w) as [[-> Y]|[N Y]]; rewrite Y in R'; [split; [exists r; exact PI|intros _ _; exists r0; exact R']|]. split; [exists r0; exact R'|intros _ EI; contradiction].
      + rewrite upd3_other in R' by exact E. split; [exists r0; exact R'|intros EE; contradiction]. }
    destruct X as [(r1 & R1) X]. pose proof (V12 m' s' w c' r1 N' L' R1) as BW. destruct CA as [(r' & _ & ->)|(OV & -> & IL)]; [exact BW|].
    destruct (upd_cases (busy st) i None w) as [[EW Y]|[_ Y]]; rewrite Y; [|exact BW]. exfalso. subst w. pose proof (V12 m s i c r NC IL PI) as BI. rewrite BI in BW. injection BW as <- <-. destruct (X eq_refl eq_refl) as [r2 R2]. congruence.
Qed.

Lemma inv_helper st w st' : inv st -> helper W progs st w = Some st' -> inv st'.
Proof.
  intros V H. unfold helper in H. destruct (busy st w) as [[m s]|] eqn:BW.
  - destruct (i_busy st V m s w BW) as (c & r & NC & L & R). rewrite NC, R in H.
    assert (BG : begun st m s) by (destruct (begun_dec st m s) as [B|B]; [exact B|rewrite (i_later st V m s w B) in R; discriminate]).
    pose proof (i_sound st V m s c NC BG) as SD. destruct (ops r) as [|o l] eqn:O.
    + injection H as <-. assert (X := inv_part st m s c w r Over (common st m s) (upd (busy st) w None) V NC BG ltac:(lia) R). 
      assert (Y : inv {| at_section := at_section st; in_phase := in_phase st; queue := queue st; busy := upd (busy st) w None; parts := upd3 (parts st) m s w Over; common := upd2 (common st) m s (common st m s) |}).
      { apply X; [right; auto|intros EN; lia|]. eapply sound_over; [exact SD|lia|exact R|exact O]. }
      destruct Y as [Y1 Y2 Y3 Y4 Y5 Y6 Y7 Y8 Y9 Y10 Y11 Y12]. constructor; try assumption. intros m' s' c' N' B'. specialize (Y1 m' s' c' N' B'). cbn [common parts] in *. destruct (pair_dec (m', s') (m, s)) as [E|E]; [injection E as -> ->; rewrite upd2_same in Y1; exact Y1|rewrite upd2_other in Y1 by exact E; exact Y1].
    + destruct (exec (helpers c) r (common st m s)) as [[r' h']|] eqn:X; [|discriminate]. injection H as <-. eapply inv_part; try eassumption; [lia|left; exists r'; auto|intros EN; lia|]. eapply sound_exec; [exact SD|lia|exact R|exact X].
  - destruct (queue st w) as [|[m s] q] eqn:QW; [discriminate|]. destruct V as [V1 V2 V3 V4 V5 V6 V7 V8 V9 V10 V11 V12].
    destruct (V8 m s w ltac:(rewrite QW; left; reflexivity)) as (c & NC & L & Q). rewrite NC in H. injection H as <-.
    assert (BG : begun st m s) by (destruct (begun_dec st m s) as [B|B]; [exact B|rewrite (V2 m s w B) in Q; discriminate]).
    pose proof (V1 m s c NC BG) as SD. set (a := Running {| ops := part (what c) (helpers c) w; mine := 0 |}). pose proof (V10 w) as ND. rewrite QW in ND. inversion ND as [|? ? NI ND']; subst.
    assert (NL : parts st m s w <> Later /\ parts st m s w <> Over) by (rewrite Q; split; discriminate). destruct NL as [NL NO]. assert (AL : a <> Later) by discriminate.
    constructor; cbn [at_section in_phase queue busy parts common].
    + intros m' s' c' N' B'. destruct (pair_dec (m', s') (m, s)) as [E|E].
      * injection E as -> ->. rewrite upd3_same. replace c' with c by congruence. apply sound_run; auto.
      * rewrite upd3_other by exact E. apply V1; [exact N'|exact B'].
    + intros m' s' j NB. destruct (pair_dec (m', s') (m, s)) as [E|E]; [injection E as -> ->; elim NB; exact BG|]. rewrite upd3_other by exact E. apply V2. exact NB.
    + intros m' s' j NL'. destruct (pair_dec (m', s') (m, s)) as [E|E].
      * injection E as -> ->. rewrite upd3_same in NL'. destruct (upd_cases (parts st m s) w a j) as [[-> Y]|[N Y]]; rewrite Y in NL'; [exists c; split; [exact NC|lia]|apply V3; exact NL'].
      * rewrite upd3_other in NL' by exact E. apply V3. exact NL'.
    + intros m' c' N'. specialize (V4 m' c' N'). destruct (pair_dec (m', at_section st m') (m, s)) as [E|E].
      * injection E as -> E2. rewrite E2 in *. rewrite upd3_same. replace c' with c in * by congruence. apply phase_ok_upd; try assumption. intros EN. lia.
      * rewrite upd3_other by exact E. exact V4.
    + intros m' s' c' LT N'. specialize (V5 m' s' c' LT N'). destruct (pair_dec (m', s') (m, s)) as [E|E].
      * injection E as -> ->. rewrite upd3_same. replace c' with c in * by congruence. apply past_ok_upd; assumption.
      * rewrite upd3_other by exact E. exact V5.
    + exact V6.
    + exact V7.
    + intros m' s' x IQ. assert (IQ0 : In (m', s') (queue st x) /\ (x = w -> (m', s') <> (m, s))).
      { destruct (upd_cases (queue st) w q x) as [[-> Y]|[N Y]]; rewrite Y in IQ; [|split; [exact IQ|contradiction]]. split; [rewrite QW; right; exact IQ|]. intros _ EE. apply NI. rewrite <- EE. exact IQ. }
      destruct IQ0 as [IQ0 NE]. destruct (V8 m' s' x IQ0) as (c' & N' & L' & Q'). exists c'. split; [exact N'|]. split; [exact L'|]. destruct (pair_dec (m', s') (m, s)) as [E|E].
      * rewrite E in NE. assert (x <> w) by (intros EX; apply (NE EX); reflexivity). injection E as -> ->. rewrite upd3_same, upd_neq by assumption. exact Q'.
      * rewrite upd3_other by exact E. exact Q'.
    + intros m' s' x Q'. destruct (pair_dec (m', s') (m, s)) as [E|E].
      * injection E as -> ->. rewrite upd3_same in Q'. destruct (upd_cases (parts st m s) w a x) as [[-> Y]|[N Y]]; rewrite Y in Q'; [discriminate|]. rewrite upd_neq by exact N. apply V9. exact Q'.
      * rewrite upd3_other in Q' by exact E. pose proof (V9 m' s' x Q') as IQ. destruct (upd_cases (queue st) w q x) as [[-> Y]|[N Y]]; rewrite Y; [|exact IQ]. rewrite QW in IQ. destruct IQ as [EE|IQ]; [congruence|exact IQ].
    + intros x. destruct (upd_cases (queue st) w q x) as [[-> Y]|[N Y]]; rewrite Y; [exact ND'|apply V10].
    + intros m' s' x BX. destruct (upd_cases (busy st) w (Some (m, s)) x) as [[-> Y]|[N Y]]; rewrite Y in BX.
      * injection BX as <- <-. exists c. eexists. rewrite upd3_same, upd_eq. split; [exact NC|]. split; [exact L|reflexivity].
      * destruct (V11 m' s' x BX) as (c' & r0 & N' & L' & R'). exists c', r0. split; [exact N'|]. split; [exact L'|]. destruct (pair_dec (m', s') (m, s)) as [E|E]; [injection E as -> ->; rewrite upd3_same, upd_neq by exact N; exact R'|rewrite upd3_other by exact E; exact R'].
    + intros m' s' x c' r0 N' L' R'. destruct (pair_dec (m', s') (m, s)) as [E|E].
      * injection E as -> ->. rewrite upd3_same in R'. destruct (upd_cases (parts st m s) w a x) as [[-> Y]|[N Y]]; rewrite Y in R'; [rewrite upd_eq; reflexivity|]. rewrite upd_neq by exact N. eapply V12; eassumption.
      * rewrite upd3_other in R' by exact E. pose proof (V12 m' s' x c' r0 N' L' R') as BX. destruct (upd_cases (busy st) w (Some (m, s)) x) as [[-> Y]|[N Y]]; rewrite Y; [congruence|exact BX].
Qed.

(** *** Steps of a manager thread *)
Lemma begun_phase st m ph sc q b p cm : at_section st m = sc -> in_phase st m <> Begin -> ph <> Begin -> forall m' s', begun {| at_section := at_section st; in_phase := upd (in_phase st) m ph; queue := q; busy := b; parts := p; common := cm |} m' s' <-> begun st m' s'.
Proof.
  intros _ N1 N2 m' s'. unfold begun. cbn [at_section in_phase]. destruct (upd_cases (in_phase st) m ph m') as [[-> Y]|[N Y]]; rewrite Y; [|reflexivity]. split; intros [X|[X _]]; auto.
Qed.

(** The manager thread changes one of the parts of its section. *)
Lemma inv_master st m c i a ph q :
  inv st -> nth_error (prog m) (at_section st m) = Some c -> in_phase st m <> Begin -> ph <> Begin -> i <= helpers c ->
  sound (what c) (helpers c) (common st m (at_section st m)) (upd (parts st m (at_section st m)) i a) -> phase_ok (helpers c) ph (upd (parts st m (at_section st m)) i a) ->
  parts st m (at_section st m) i <> Queued -> (forall w r, w < helpers c -> w = i -> parts st m (at_section st m) w <> Running r /\ a <> Running r) ->
  (a = Queued /\ i < helpers c /\ q = upd (queue st) i (queue st i ++ [(m, at_section st m)]) \/ a <> Queued /\ q = queue st) ->
  inv {| at_section := at_section st; in_phase := upd (in_phase st) m ph; queue := q; busy := busy st; parts := upd3 (parts st) m (at_section st m) i a; common := common st |}.
Proof.
  intros V NC PB PH IN SD PO PQ NR CA. destruct V as [V1 V2 V3 V4 V5 V6 V7 V8 V9 V10 V11 V12]. remember (at_section st m) as s eqn:ES.
  assert (BG : begun st m s) by (right; auto). assert (BP := fun q b p cm => begun_phase st m ph s q b p cm (eq_sym ES) PB PH).
  constructor; cbn [at_section in_phase queue busy parts common].
  - intros m' s' c' N' B'. apply BP in B'. destruct (pair_dec (m', s') (m, s)) as [E|E].
    + injection E as -> ->. rewrite upd3_same. replace c' with c by congruence. exact SD.
    + rewrite upd3_other by exact E. apply V1; [exact N'|exact B'].
  - intros m' s' j NB. rewrite BP in NB. destruct (pair_dec (m', s') (m, s)) as [E|E]; [injection E as -> ->; elim NB; exact BG|]. rewrite upd3_other by exact E. apply V2. exact NB.
  - intros m' s' j NL. destruct (pair_dec (m', s') (m, s)) as [E|E].
    + injection E as -> ->. rewrite upd3_same in NL. destruct (upd_cases (parts st m s) i a j) as [[-> Y]|[N Y]]; rewrite Y in NL; [exists c; auto|apply V3; exact NL].
    + rewrite upd3_other in NL by exact E. apply V3. exact NL.
  - intros m' c' N'. destruct (upd_cases (in_phase st) m ph m') as [[-> Y]|[N Y]]; rewrite Y.
    + rewrite <- ES in *. rewrite upd3_same. replace c' with c by congruence. exact PO.
    + rewrite upd3_other by congruence. apply V4. exact N'.
  - intros m' s' c' LT N'. rewrite upd3_other by (intros E; injection E as -> ->; lia). apply V5; assumption.
  - exact V6.
  - intros m' N'. destruct (upd_cases (in_phase st) m ph m') as [[-> Y]|[N Y]]; rewrite Y; [rewrite <- ES in N'; congruence|apply V7; exact N'].
  - intros m' s' w IQ. assert (X : In (m', s') (queue st w) \/ (m', s') = (m, s) /\ w = i /\ a = Queued /\ i < helpers c).
    { destruct CA as [(AQ & IL & ->)|(_ & ->)]; [|left; exact IQ]. destruct (upd_cases (queue st) i (queue st i ++ [(m, s)]) w) as [[-> Y]|[N Y]]; rewrite Y in IQ; [|left; exact IQ]. apply in_app_iff in IQ. destruct IQ as [IQ|[IQ|[]]]; [left; exact IQ|right; auto]. }
    destruct X as [X|(E & -> & AQ & IL)].
    + destruct (V8 m' s' w X) as (c' & N' & L' & Q'). exists c'. split; [exact N'|]. split; [exact L'|]. destruct (pair_dec (m', s') (m, s)) as [E|E].
      * injection E as -> ->. rewrite upd3_same. destruct (upd_cases (parts st m s) i a w) as [[-> Y]|[N Y]]; rewrite Y; [contradiction|exact Q'].
      * rewrite upd3_other by exact E. exact Q'.
    + injection E as -> ->. exists c. rewrite upd3_same, upd_eq. auto.
  - intros m' s' w Q. assert (UP : forall x, In x (queue st w) -> In x (q w)).
    { intros x X. destruct CA as [(AQ & IL & ->)|(_ & ->)]; [|exact X]. destruct (upd_cases (queue st) i (queue st i ++ [(m, s)]) w) as [[-> Y]|[N Y]]; rewrite Y; [apply in_app_iff; left|]; exact X. }
    destruct (pair_dec (m', s') (m, s)) as [E|E].
    + injection E as -> ->. rewrite upd3_same in Q. destruct (upd_cases (parts st m s) i a w) as [[-> Y]|[N Y]]; rewrite Y in Q; [|apply UP, V9; exact Q].
      destruct CA as [(AQ & IL & ->)|(NQ & _)]; [|contradiction]. rewrite upd_eq. apply in_app_iff. right. left. reflexivity.
    + rewrite upd3_other in Q by exact E. apply UP, V9. exact Q.
  - intros w. destruct CA as [(AQ & IL & ->)|(_ & ->)]; [|apply V10]. destruct (upd_cases (queue st) i (queue st i ++ [(m, s)]) w) as [[-> Y]|[N Y]]; rewrite Y; [|apply V10].
    assert (NI : ~ In (m, s) (queue st i)) by (intros X; destruct (V8 m s i X) as (_ & _ & _ & Z); contradiction). pose proof (V10 i) as ND. clear - ND NI. induction (queue st i) as [|x l IH]; [constructor; [intros []|constructor]|].
    inversion ND as [|? ? NX ND']; subst. cbn. constructor; [intros X; apply in_app_iff in X; destruct X as [X|[X|[]]]; [contradiction|subst x; apply NI; left; reflexivity]|]. apply IH; [intros X; apply NI; right; exact X|exact ND'].
  - intros m' s' w BW. destruct (V11 m' s' w BW) as (c' & r0 & N' & L' & R'). exists c', r0. split; [exact N'|]. split; [exact L'|]. destruct (pair_dec (m', s') (m, s)) as [E|E].
    + injection E as -> ->. rewrite upd3_same. destruct (upd_cases (parts st m s) i a w) as [[-> Y]|[N Y]]; rewrite Y; [|exact R']. replace c' with c in L' by congruence. destruct (NR i r0 L' eq_refl) as [Z _]. contradiction.
    + rewrite upd3_other by exact E. exact R'.
  - intros m' s' w c' r0 N' L' R'. destruct (pair_dec (m', s') (m, s)) as [E|E].
    + injection E as -> ->. rewrite upd3_same in R'. destruct (upd_cases (parts st m s) i a w) as [[-> Y]|[N Y]]; rewrite Y in R'; [|eapply V12; eassumption]. replace c' with c in L' by congruence. destruct (NR i r0 L' eq_refl) as [_ Z]. contradiction.
    + rewrite upd3_other in R' by exact E. eapply V12; eassumption.
Qed.

(** Only the phase changes. *)
Lemma inv_set st m c ph : inv st -> nth_error (prog m) (at_section st m) = Some c -> in_phase st m <> Begin -> ph <> Begin -> phase_ok (helpers c) ph (parts st m (at_section st m)) -> inv (set_phase st m ph).
Proof.
  intros V NC PB PH PO. destruct V as [V1 V2 V3 V4 V5 V6 V7 V8 V9 V10 V11 V12]. assert (BP := fun q b p cm => begun_phase st m ph _ q b p cm eq_refl PB PH). unfold set_phase.
  constructor; cbn [at_section in_phase queue busy parts common]; try assumption.
  - intros m' s' c' N' B'. apply BP in B'. apply V1; assumption.
  - intros m' s' j NB. rewrite BP in NB. apply V2. exact NB.
  - intros m' c' N'. destruct (upd_cases (in_phase st) m ph m') as [[-> Y]|[N Y]]; rewrite Y; [replace c' with c by congruence; exact PO|apply V4; exact N'].
  - intros m' N'. destruct (upd_cases (in_phase st) m ph m') as [[-> Y]|[N Y]]; rewrite Y; [congruence|apply V7; exact N'].
Qed.

(** Only the section changes. *)
Lemma inv_leave st m c : inv st -> nth_error (prog m) (at_section st m) = Some c -> in_phase st m <> Begin -> past_ok c (helpers c) (parts st m (at_section st m)) -> inv (leave st m).
Proof.
  intros V NC PB PO. destruct V as [V1 V2 V3 V4 V5 V6 V7 V8 V9 V10 V11 V12]. unfold leave.
  assert (BP : forall m' s', begun {| at_section := upd (at_section st) m (S (at_section st m)); in_phase := upd (in_phase st) m Begin; queue := queue st; busy := busy st; parts := parts st; common := common st |} m' s' <-> begun st m' s').
  { intros m' s'. unfold begun. cbn [at_section in_phase]. destruct (upd_cases (at_section st) m (S (at_section st m)) m') as [[-> Y]|[N Y]]; rewrite Y; [rewrite upd_eq|rewrite upd_neq by exact N; reflexivity].
    split; [intros [X|[_ X]]; [|contradiction]; destruct (Nat.eq_dec s' (at_section st m)); [right; auto|left; lia]|intros [X|[X _]]; left; lia]. }
  constructor; cbn [at_section in_phase queue busy parts common]; try assumption.
  - intros m' s' c' N' B'. apply BP in B'. apply V1; assumption.
  - intros m' s' j NB. rewrite BP in NB. apply V2. exact NB.
  - intros m' c' N'. destruct (upd_cases (at_section st) m (S (at_section st m)) m') as [[-> Y]|[N Y]]; rewrite Y in *; [rewrite upd_eq; exact I|rewrite upd_neq by exact N; apply V4; exact N'].
  - intros m' s' c' LT N'. destruct (upd_cases (at_section st) m (S (at_section st m)) m') as [[-> Y]|[N Y]]; rewrite Y in LT; [|apply V5; assumption]. destruct (Nat.eq_dec s' (at_section st m)) as [->|NE]; [replace c' with c by congruence; exact PO|apply V5; [lia|exact N']].
  - intros m'. destruct (upd_cases (at_section st) m (S (at_section st m)) m') as [[-> Y]|[N Y]]; rewrite Y; [apply nth_error_Some; congruence|apply V6].
  - intros m' N'. destruct (upd_cases (at_section st) m (S (at_section st m)) m') as [[-> Y]|[N Y]]; [rewrite upd_eq; reflexivity|]. rewrite upd_neq by exact N. apply V7. rewrite Y in N'. exact N'.
Qed.

Lemma inv_ext st ph : (forall m, ph m = in_phase st m) -> inv st -> inv {| at_section := at_section st; in_phase := ph; queue := queue st; busy := busy st; parts := parts st; common := common st |}.
Proof.
  intros E V. destruct V as [V1 V2 V3 V4 V5 V6 V7 V8 V9 V10 V11 V12]. assert (BP : forall m s, begun {| at_section := at_section st; in_phase := ph; queue := queue st; busy := busy st; parts := parts st; common := common st |} m s <-> begun st m s) by (intros m s; unfold begun; cbn [at_section in_phase]; rewrite E; reflexivity).
  constructor; cbn [at_section in_phase queue busy parts common]; try assumption.
  - intros m s c N B. apply BP in B. apply V1; assumption.
  - intros m s i B. rewrite BP in B. apply V2; assumption.
  - intros m c N. rewrite E. apply V4; assumption.
  - intros m N. rewrite E. apply V7; assumption.
Qed.

Lemma inv_manager st m st' : inv st -> manager W progs st m = Some st' -> inv st'.
Proof.
  intros V H. unfold manager in H. destruct (nth_error (prog m) (at_section st m)) as [c|] eqn:NC; [|discriminate]. pose proof (i_phase st V m c NC) as PO. set (s := at_section st m) in *.
  destruct (in_phase st m) as [|k| |k] eqn:PH; cbn [phase_ok] in PO.
  - injection H as <-. assert (NB : ~ begun st m s) by (intros [X|[_ X]]; [unfold s in X; lia|contradiction]). destruct V as [V1 V2 V3 V4 V5 V6 V7 V8 V9 V10 V11 V12].
    constructor; cbn [at_section in_phase queue busy parts common]; try assumption.
    + intros m' s' c' N' B'. destruct (pair_dec (m', s') (m, s)) as [E|E].
      * injection E as -> ->. rewrite upd2_same. replace c' with c by congruence. apply sound_fresh. intros i. apply V2. exact NB.
      * rewrite upd2_other by exact E. apply V1; [exact N'|]. destruct B' as [B'|[B1 B2]]; [left; exact B'|]. cbn [at_section in_phase] in B1, B2. right. split; [exact B1|]. rewrite upd_neq in B2 by (intros ->; apply E; unfold s; congruence). exact B2.
    + intros m' s' i NB'. apply V2. intros B. apply NB'. destruct B as [B|[B1 B2]]; [left; exact B|right]. cbn [at_section in_phase]. split; [exact B1|]. destruct (upd_cases (in_phase st) m (Submit 0) m') as [[-> Y]|[N Y]]; rewrite Y; [discriminate|exact B2].
    + intros m' c' N'. destruct (upd_cases (in_phase st) m (Submit 0) m') as [[-> Y]|[N Y]]; rewrite Y; [|apply V4; exact N']. cbn [phase_ok]. split; [lia|]. split; [intros; lia|]. intros i _. apply V2. exact NB.
    + intros m' N'. destruct (upd_cases (in_phase st) m (Submit 0) m') as [[-> Y]|[N Y]]; rewrite Y; [unfold s in NC; congruence|apply V7; exact N'].
  - assert (PB : in_phase st m <> Begin) by congruence. assert (BG : begun st m s) by (right; auto). pose proof (i_sound st V m s c NC BG) as SD. destruct PO as (K & A & B).
    destruct (Nat.ltb_spec k (helpers c)) as [LT|GE]; injection H as <-.
    + apply inv_master with (c := c); try assumption; fold s; [discriminate|apply sound_queue; [exact SD|apply B; lia]| |rewrite B by lia; discriminate|intros w r _ ->; rewrite B by lia; split; discriminate|left; auto].
      cbn [phase_ok]. split; [lia|]. split; intros j J; destruct (upd_cases (parts st m s) k Queued j) as [[-> Y]|[N Y]]; rewrite Y; [discriminate|apply A; lia|lia|apply B; lia].
    + apply inv_master with (c := c); try assumption; fold s; [discriminate|lia|apply sound_run; [exact SD|right; apply B; lia]| |rewrite B by lia; discriminate|intros; lia|right; split; [discriminate|reflexivity]].
      cbn [phase_ok]. split; [eexists; apply upd_eq|]. intros j J. rewrite upd_neq by lia. apply A. lia.
  - assert (PB : in_phase st m <> Begin) by congruence. assert (BG : begun st m s) by (right; auto). pose proof (i_sound st V m s c NC BG) as SD. destruct PO as ((r & R) & A). rewrite R in H. destruct (ops r) as [|o l] eqn:O.
    + assert (SO : sound (what c) (helpers c) (common st m s) (upd (parts st m s) (helpers c) Over)) by (eapply sound_over; [exact SD|lia|exact R|exact O]).
      assert (Z : inv {| at_section := at_section st; in_phase := upd (in_phase st) m (Await 0); queue := queue st; busy := busy st; parts := upd3 (parts st) m s (helpers c) Over; common := common st |}).
      { apply inv_master with (c := c); try assumption; fold s; [discriminate|lia| |rewrite R; discriminate|intros; lia|right; split; [discriminate|reflexivity]].
        cbn [phase_ok]. split; [apply upd_eq|]. split; [|split; [lia|intros; lia]]. intros j J. rewrite upd_neq by lia. apply A. exact J. }
      injection H as <-. destruct (what c) eqn:KC.
      * exact Z.
      * match goal with Z : inv ?s0 |- _ => set (st0 := s0) in Z end. assert (Y : inv (leave st0 m)).
        { apply inv_leave with (c := c); [exact Z|exact NC|cbn [st0 in_phase]; rewrite upd_eq; discriminate|]. cbn [st0 parts at_section]. fold s. rewrite upd3_same. split; [apply upd_eq|]. split; [intros X; contradiction|]. intros j J. rewrite upd_neq by lia. apply A. exact J. }
        eapply inv_ext in Y; [exact Y|]. intros x. unfold leave. cbn [in_phase st0]. unfold upd. destruct (Nat.eqb x m); reflexivity.
      * exact Z.
    + destruct (exec (helpers c) r (common st m s)) as [[r' h']|] eqn:X; [|discriminate]. injection H as <-. eapply inv_part; try eassumption; [lia|left; exists r'; auto|intros _; auto|]. eapply sound_exec; [exact SD|lia|exact R|exact X].
  - assert (PB : in_phase st m <> Begin) by congruence. destruct PO as (R & A & K & B). destruct (Nat.ltb_spec k (helpers c)) as [LT|GE].
    + destruct (parts st m s k) eqn:PK; try discriminate. injection H as <-. apply inv_set with (c := c); try assumption; [discriminate|]. cbn [phase_ok set_phase]. fold s. split; [exact R|]. split; [exact A|]. split; [lia|]. intros j J. destruct (Nat.eq_dec j k) as [->|N]; [exact PK|apply B; lia].
    + injection H as <-. apply inv_leave with (c := c); try assumption. fold s. split; [exact R|]. split; [|exact A]. intros _ j J. apply B. lia.
Qed.

Theorem inv_reachable st : reachable W progs st -> inv st.
Proof.
  intros (k & R). remember start as s0 eqn:E0. induction R as [st|k st st' st'' t R IH X]; [subst st; apply inv_start|]. specialize (IH E0). destruct t as [m|w]; cbn in X; [eapply inv_manager; eassumption|eapply inv_helper; eassumption].
Qed.
End inv.
