(** C76: with conflicting commands a context can get stuck. *)
From Coq Require Import List Arith Lia Bool.
From Verif Require Import ShareModel ShareSpec ShareLocal ShareInv ShareProgress ShareEnd.
Import ListNotations.

Section stuck.
Variable W : nat.

(** *** Two sections of different managers that wait for each other *)
Section embrace.
Variable progs : list (list section).
Notation prog := (prog progs).
Notation helpers := (helpers W).
Variables m s m' s' : nat.
Variables c c' : section.
Hypothesis DIFF : m <> m'.
Hypothesis NC : nth_error (prog m) s = Some c.
Hypothesis NC' : nth_error (prog m') s' = Some c'.
Hypothesis H2 : 2 <= helpers c.
Hypothesis H2' : 2 <= helpers c'.
Hypothesis ME : meeting c.
Hypothesis ME' : meeting c' \/ what c' = Sum.

Record embraced (st : state) : Prop := {
  e_at : at_section st m = s; e_at' : at_section st m' = s';
  e_0 : parts st m' s' 0 = Queued; e_1 : parts st m s 1 = Queued;
  e_busy0 : busy st 0 = Some (m, s) \/ busy st 0 = None /\ exists q, queue st 0 = (m, s) :: q;
  e_busy1 : busy st 1 = Some (m', s') \/ busy st 1 = None /\ exists q, queue st 1 = (m', s') :: q
}.

Lemma meeting_waits p h x i r d : sound (what d) (helpers d) h p -> meeting d -> x <= helpers d -> p x = Queued -> i <= helpers d -> p i = Running r -> ops r = [] -> False.
Proof.
  intros SD [b M] X Q I R O. rewrite M in SD. pose proof (legal_end _ _ _ _ _ (s_legal _ _ _ _ SD i r I R) O) as LE. cbn in LE. destruct (s_meet _ _ _ _ SD _ eq_refl) as (_ & _ & G & _). specialize (G x X). rewrite Q in G. cbn in G. lia.
Qed.

Lemma embraced_step st t st' : inv W progs st -> embraced st -> next W progs st t = Some st' -> embraced st'.
Proof.
  intros V E H. destruct E as [EA EA' E0 E1 EB0 EB1].
  assert (BG : begun st m s) by (destruct (begun_dec st m s) as [B|B]; [exact B|rewrite (i_later _ _ st V m s 1 B) in E1; discriminate]).
  assert (BG' : begun st m' s') by (destruct (begun_dec st m' s') as [B|B]; [exact B|rewrite (i_later _ _ st V m' s' 0 B) in E0; discriminate]).
  pose proof (i_sound _ _ st V m s c NC BG) as SD. pose proof (i_sound _ _ st V m' s' c' NC' BG') as SD'.
  assert (NP : (m, s) <> (m', s')) by congruence. assert (NP' : (m', s') <> (m, s)) by congruence.
  assert (SUMD : what c' = Sum -> ~ In 0 (given (common st m' s'))).
  { intros SU X. rewrite SU in SD'. destruct (s_sum _ _ _ _ SD' eq_refl) as [S1 _]. destruct (S1 0 X) as (_ & (_ & Y) & _). contradiction. }
  destruct t as [x|w]; cbn [next] in H.
  - unfold manager in H. destruct (nth_error (prog x) (at_section st x)) as [d|] eqn:ND; [|discriminate]. pose proof (i_phase _ _ st V x d ND) as PO. set (y := at_section st x) in *.
    assert (DX : (x, y) = (m, s) -> d = c) by (intros X; injection X as -> X; rewrite X in ND; congruence).
    assert (DX' : (x, y) = (m', s') -> d = c') by (intros X; injection X as -> X; rewrite X in ND; congruence).
    (* the changes of parts and phase that keep the embrace *)
    assert (KEEP : forall i a ph q cm, parts st x y i <> Queued -> (q = queue st \/ q = upd (queue st) i (queue st i ++ [(x, y)])) ->
      embraced {| at_section := at_section st; in_phase := ph; queue := q; busy := busy st; parts := upd3 (parts st) x y i a; common := cm |}).
    { intros i a ph q cm NQ CQ. assert (QH : forall w t l, queue st w = t :: l -> exists l', q w = t :: l').
      { intros w t l QW. destruct CQ as [->| ->]; [exists l; exact QW|]. destruct (upd_cases (queue st) i (queue st i ++ [(x, y)]) w) as [[-> Y]|[N Y]]; rewrite Y, QW; [exists (l ++ [(x, y)]); reflexivity|exists l; reflexivity]. }
      constructor; cbn [at_section in_phase queue busy parts]; [exact EA|exact EA'| | | |].
      - destruct (pair_dec (m', s') (x, y)) as [EQ|EQ]; [injection EQ as <- <-; rewrite upd3_same; destruct (upd_cases (parts st m' s') i a 0) as [[<- _]|[_ Y]]; [contradiction|rewrite Y; exact E0]|rewrite upd3_other by exact EQ; exact E0].
      - destruct (pair_dec (m, s) (x, y)) as [EQ|EQ]; [injection EQ as <- <-; rewrite upd3_same; destruct (upd_cases (parts st m s) i a 1) as [[<- _]|[_ Y]]; [contradiction|rewrite Y; exact E1]|rewrite upd3_other by exact EQ; exact E1].
      - destruct EB0 as [B|(B & l & QW)]; [left; exact B|right; split; [exact B|eapply QH; exact QW]].
      - destruct EB1 as [B|(B & l & QW)]; [left; exact B|right; split; [exact B|eapply QH; exact QW]]. }
    assert (SAME : forall ph cm, embraced {| at_section := at_section st; in_phase := ph; queue := queue st; busy := busy st; parts := parts st; common := cm |}) by (intros ph cm; constructor; assumption).
    assert (GO : forall ph p, x <> m -> x <> m' -> (forall a b, a = m \/ a = m' -> p a b = parts st a b) -> embraced {| at_section := upd (at_section st) x (S y); in_phase := ph; queue := queue st; busy := busy st; parts := p; common := common st |}).
    { intros ph p N N' PP. constructor; cbn [at_section in_phase queue busy parts]; [rewrite upd_neq by congruence; exact EA|rewrite upd_neq by congruence; exact EA'|rewrite PP by auto; exact E0|rewrite PP by auto; exact E1|exact EB0|exact EB1]. }
    destruct (in_phase st x) as [|k| |k] eqn:PH; cbn [phase_ok] in PO.
    + injection H as <-. apply SAME.
    + destruct PO as (K & A & B). destruct (Nat.ltb_spec k (helpers d)) as [LT|GE]; injection H as <-; apply KEEP; auto; rewrite B by lia; discriminate.
    + destruct PO as ((r & R) & A). rewrite R in H. destruct (ops r) as [|o l] eqn:O.
      * injection H as <-. assert (AW : forall ph, embraced {| at_section := at_section st; in_phase := ph; queue := queue st; busy := busy st; parts := upd3 (parts st) x y (helpers d) Over; common := common st |}) by (intros ph; apply KEEP; [rewrite R; discriminate|left; reflexivity]).
        destruct (what d) eqn:KD; [apply AW| |apply AW]. unfold leave. cbn [at_section in_phase queue busy parts common]. apply GO.
        -- intros ->. destruct ME as [b M]. rewrite (DX ltac:(unfold y; rewrite EA; reflexivity)) in KD. congruence.
        -- intros ->. assert (EY : y = s') by exact EA'. rewrite (DX' ltac:(rewrite EY; reflexivity)) in *. rewrite EY in R. rewrite KD in SD'. pose proof (legal_end _ _ _ _ _ (s_legal _ _ _ _ SD' _ r (le_n _) R) O) as [[Z|Z] _]; [lia|]. apply (SUMD KD). eapply all_given; [exact SD'|exact Z|lia].
        -- intros a b Q. apply upd3_other. intros EQ. injection EQ as -> ->. destruct Q as [-> | ->].
           ++ destruct ME as [b M]. rewrite (DX ltac:(unfold y; rewrite EA; reflexivity)) in KD. congruence.
           ++ assert (EY : y = s') by exact EA'. rewrite (DX' ltac:(rewrite EY; reflexivity)) in *. rewrite EY in R. rewrite KD in SD'. pose proof (legal_end _ _ _ _ _ (s_legal _ _ _ _ SD' _ r (le_n _) R) O) as [[Z|Z] _]; [lia|]. apply (SUMD KD). eapply all_given; [exact SD'|exact Z|lia].
      * destruct (exec (helpers d) r (common st x y)) as [[r' h']|]; [|discriminate]. injection H as <-. apply KEEP; [rewrite R; discriminate|left; reflexivity].
    + destruct PO as (R & A & K & B). destruct (Nat.ltb_spec k (helpers d)) as [LT|GE].
      * destruct (parts st x y k) eqn:PK; try discriminate. injection H as <-. unfold set_phase. apply SAME.
      * injection H as <-. unfold leave. apply GO; [| |reflexivity].
        -- intros ->. assert (EY : y = s) by exact EA. rewrite (DX ltac:(rewrite EY; reflexivity)) in *. rewrite EY in B. rewrite (B 1) in E1 by lia. discriminate.
        -- intros ->. assert (EY : y = s') by exact EA'. rewrite (DX' ltac:(rewrite EY; reflexivity)) in *. rewrite EY in B. rewrite (B 0) in E0 by lia. discriminate.
  - unfold helper in H. destruct (busy st w) as [[x y]|] eqn:BW.
    + destruct (i_busy _ _ st V x y w BW) as (d & r & ND & L & R). rewrite ND, R in H.
      assert (KEEP : forall a bz cm, (bz = busy st \/ bz = upd (busy st) w None /\ w <> 0 /\ w <> 1) -> embraced {| at_section := at_section st; in_phase := in_phase st; queue := queue st; busy := bz; parts := upd3 (parts st) x y w a; common := cm |}).
      { intros a bz cm CB. assert (BZ : bz 0 = busy st 0 /\ bz 1 = busy st 1) by (destruct CB as [->|(-> & N0 & N1)]; [auto|rewrite !upd_neq by auto; auto]). destruct BZ as [BZ0 BZ1].
        constructor; cbn [at_section in_phase queue busy parts]; [exact EA|exact EA'| | |rewrite BZ0; exact EB0|rewrite BZ1; exact EB1].
        - destruct (pair_dec (m', s') (x, y)) as [EQ|EQ]; [injection EQ as <- <-; rewrite upd3_same; destruct (upd_cases (parts st m' s') w a 0) as [[<- _]|[_ Y]]; [congruence|rewrite Y; exact E0]|rewrite upd3_other by exact EQ; exact E0].
        - destruct (pair_dec (m, s) (x, y)) as [EQ|EQ]; [injection EQ as <- <-; rewrite upd3_same; destruct (upd_cases (parts st m s) w a 1) as [[<- _]|[_ Y]]; [congruence|rewrite Y; exact E1]|rewrite upd3_other by exact EQ; exact E1]. }
      destruct (ops r) as [|o l] eqn:O.
      * injection H as <-. apply KEEP. right. split; [reflexivity|]. split; intros ->.
        -- destruct EB0 as [B|(B & _)]; [|congruence]. rewrite BW in B. injection B as -> ->. replace d with c in * by congruence. eapply (meeting_waits _ _ 1 0); [exact SD|exact ME|lia|exact E1|lia|exact R|exact O].
        -- destruct EB1 as [B|(B & _)]; [|congruence]. rewrite BW in B. injection B as -> ->. replace d with c' in * by congruence. destruct ME' as [M|SU]; [eapply (meeting_waits _ _ 0 1); [exact SD'|exact M|lia|exact E0|lia|exact R|exact O]|].
           rewrite SU in SD'. pose proof (legal_end _ _ _ _ _ (s_legal _ _ _ _ SD' 1 r ltac:(lia) R) O) as [[Z|Z] _]; [lia|]. apply (SUMD SU). exact Z.
      * destruct (exec (helpers d) r (common st x y)) as [[r' h']|]; [|discriminate]. injection H as <-. apply KEEP. left. reflexivity.
    + destruct (queue st w) as [|[x y] q] eqn:QW; [discriminate|]. destruct (nth_error (prog x) y) as [d|] eqn:ND; [|discriminate]. injection H as <-.
      constructor; cbn [at_section in_phase queue busy parts]; [exact EA|exact EA'| | | |].
      * destruct (pair_dec (m', s') (x, y)) as [EQ|EQ]; [|rewrite upd3_other by exact EQ; exact E0]. injection EQ as <- <-. rewrite upd3_same. rewrite upd_neq; [exact E0|]. intros <-. destruct EB0 as [B|(_ & l & B)]; congruence.
      * destruct (pair_dec (m, s) (x, y)) as [EQ|EQ]; [|rewrite upd3_other by exact EQ; exact E1]. injection EQ as <- <-. rewrite upd3_same. rewrite upd_neq; [exact E1|]. intros <-. destruct EB1 as [B|(_ & l & B)]; congruence.
      * destruct (Nat.eq_dec w 0) as [->|N]; [|rewrite !upd_neq by auto; exact EB0]. destruct EB0 as [B|(_ & l & B)]; [congruence|]. left. rewrite upd_eq. congruence.
      * destruct (Nat.eq_dec w 1) as [->|N]; [|rewrite !upd_neq by auto; exact EB1]. destruct EB1 as [B|(_ & l & B)]; [congruence|]. left. rewrite upd_eq. congruence.
Qed.

Lemma embraced_always k st st' : inv W progs st -> embraced st -> steps W progs k st st' -> embraced st' /\ inv W progs st'.
Proof.
  intros V E R. induction R as [st|k st st' st'' t R IH X]; [auto|]. destruct (IH V E) as [E' V']. split; [eapply embraced_step; eassumption|]. destruct t as [x|w]; cbn in X; [eapply inv_manager; eassumption|eapply inv_helper; eassumption].
Qed.
Lemma embraced_not_ended st : embraced st -> ~ all_ended progs st.
Proof. intros E [A _]. specialize (A m). rewrite (e_at st E) in A. assert (s < length (prog m)) by (apply nth_error_Some; congruence). unfold ShareModel.prog in *. lia. Qed.
End embrace.
End stuck.
