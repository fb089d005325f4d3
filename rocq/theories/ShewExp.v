(** Sums of expansions.  An expansion is a list of numbers, smallest first, such that the components below each one add up, in magnitude, to less than
    three quarters of the unit in its last nonzero place; this is kept by the merging sum of the code. *)
From Coq Require Import ZArith Reals Lra Lia Bool List.
From Flocq Require Import Core.
From Verif Require Import ShewModel ShewGrid ShewSum.
Import ListNotations.
Open Scope R_scope.

Fixpoint sum (l : list R) : R := match l with [] => 0 | x :: l' => x + sum l' end.
Fixpoint asum (l : list R) : R := match l with [] => 0 | x :: l' => Rabs x + asum l' end.
(** the grid of [x] is coarser than [A], by the factor [g] *)
Definition above (g A x : R) : Prop := exists s, grid s x /\ A < g * bp s.
Fixpoint okx (g A : R) (l : list R) : Prop := match l with [] => True | x :: l' => above g A x /\ okx g (A + Rabs x) l' end.

Lemma sum_app a b : sum (a ++ b) = sum a + sum b.
Proof. induction a as [|x a IH]; cbn; [ring|rewrite IH; ring]. Qed.
Lemma asum_app a b : asum (a ++ b) = asum a + asum b.
Proof. induction a as [|x a IH]; cbn; [ring|rewrite IH; ring]. Qed.
Lemma asum_pos l : 0 <= asum l.
Proof. induction l as [|x l IH]; cbn; [lra|pose proof (Rabs_pos x); lra]. Qed.
Lemma sum_asum l : Rabs (sum l) <= asum l.
Proof. induction l as [|x l IH]; cbn; [rewrite Rabs_R0; lra|]. pose proof (Rabs_triang x (sum l)). lra. Qed.
Lemma okx_app g A a b : okx g A (a ++ b) <-> okx g A a /\ okx g (A + asum a) b.
Proof.
  revert A. induction a as [|x a IH]; intros A; cbn; [rewrite Rplus_0_r; tauto|]. rewrite IH, Rplus_assoc. tauto.
Qed.
Lemma above_0 g A : 0 < g -> above g A 0.
Proof.
  intros G. exists (mag radix2 (A / g)). split; [apply grid_0|]. pose proof (bpow_mag_gt radix2 (A / g)) as H. pose proof (Rle_abs (A / g)).
  apply Rmult_lt_reg_l with (/ g); [apply Rinv_0_lt_compat, G|]. replace (/ g * (g * bp (mag radix2 (A / g)))) with (bp (mag radix2 (A / g))) by (field; lra). replace (/ g * A) with (A / g) by (field; lra). lra.
Qed.
Lemma above_weaken g A B x : B <= A -> above g A x -> above g B x.
Proof. intros H (s & G & L). exists s. split; [exact G|lra]. Qed.
(** it may be taken to be at least the unit in the last place *)
Lemma above_cexp g A x c : fmt x -> 0 <= g -> bp (c + 52) <= Rabs x -> above g A x -> exists s, (c <= s)%Z /\ grid s x /\ A < g * bp s.
Proof.
  intros F G H (s & Gs & L). destruct (Z_le_gt_dec c s) as [C|C]; [exists s; auto|]. exists c. split; [lia|]. split; [apply fmt_grid; assumption|].
  apply Rlt_le_trans with (1 := L). apply Rmult_le_compat_l; [exact G|]. apply bp_le. lia.
Qed.

(** ** The loop invariant: [aE], [aF] are the sums of the magnitudes of what was taken of e and of f, [M] the largest, [Q] the number carried on, [A] the sum of the
    magnitudes of the errors emitted *)
Definition Ninv (a Q A : R) : Prop := forall s, a < bp (s + 1) -> grid (s + 1) Q \/ A < bp (s - 1).
Definition Rinv (a M A : R) : Prop := forall t, a < 3 / 4 * bp t -> M < bp (t + 53) -> A < 3 / 4 * bp t.

Record inv (aE aF M Q A : R) : Prop := mkinv {
  i_E : 0 <= aE; i_F : 0 <= aF; i_A : 0 <= A;
  i_fmt : fmt Q;
  i_Q : Rabs Q <= aE + aF + A;
  i_J : above (3 / 4) A Q;
  i_K : A * 4503599627370496 <= aE + aF + A;
  i_K2 : forall m, aE + aF + A < bp m -> A < bp (m - 53);
  i_LE : aE <= 7 / 4 * M; i_LF : aF <= 7 / 4 * M;
  i_NE : Ninv aE Q A; i_NF : Ninv aF Q A;
  i_RE : Rinv aE M A; i_RF : Rinv aF M A }.

Lemma inv_sym aE aF M Q A : inv aE aF M Q A -> inv aF aE M Q A.
Proof. intros []. split; try assumption; rewrite (Rplus_comm aF aE); assumption. Qed.

Lemma inv_start : inv 0 0 0 0 0.
Proof.
  assert (P := bp_pos). split; try lra; try apply fmt_0.
  - rewrite Rabs_R0. lra.
  - apply above_0. lra.
  - intros. apply P.
  - intros s _. left. apply grid_0.
  - intros s _. left. apply grid_0.
  - intros t _ _. specialize (P t). lra.
  - intros t _ _. specialize (P t). lra.
Qed.

Section Step.
Variables aE aF M Q A g : R.
Hypothesis I : inv aE aF M Q A.
Hypothesis Fg : fmt g.
Hypothesis Ng : g <> 0.
Hypothesis Ag : above (3 / 4) aF g.
Hypothesis HM : M <= Rabs g.
Let x := Q + g.
Let Q' := RN x.
Let h := x - Q'.
Let A' := A + Rabs h.
Let aF' := aF + Rabs g.

Local Lemma st_grid : exists q, grid q g /\ aF < 3 / 4 * bp q /\ bp q <= Rabs g < bp (q + 53) /\ A < 3 / 4 * bp q.
Proof.
  destruct (scale_ex g Ng) as (c & C1 & C2). destruct (above_cexp _ _ _ c Fg (ltac:(lra) : 0 <= 3 / 4) C1 Ag) as (q & Hq & G & L).
  exists q. split; [exact G|]. split; [exact L|].
  assert (U : Rabs g < bp (q + 53)) by (apply Rlt_le_trans with (1 := C2); apply bp_le; lia).
  split; [split; [apply grid_ge; assumption|exact U]|]. apply (i_RF _ _ _ _ _ I); [exact L|lra].
Qed.

Local Lemma st_common : exists t, grid t x /\ A < 3 / 4 * bp t.
Proof.
  destruct st_grid as (q & G & _ & _ & L). destruct (i_J _ _ _ _ _ I) as (s & Gs & Ls).
  exists (Z.min s q). split; [apply grid_add; [apply grid_le with s|apply grid_le with q]; try assumption; lia|].
  destruct (Z.min_spec s q) as [[_ ->] | [_ ->]]; assumption.
Qed.

Local Lemma st_round : h <> 0 -> exists c, bp (c + 52) <= Rabs x < bp (c + 53) /\ bp (c + 52) <= Rabs Q' /\ A' < bp c /\
    exists s, (c <= s)%Z /\ grid s Q' /\ A' < bp (s - 1) /\ (s = c \/ Rabs h = bp (c - 1)).
Proof.
  intros N. destruct st_common as (t & G & L). assert (L' : A < bp t) by (pose proof (bp_pos t); lra).
  destruct (round_step x t A G L' N) as (c & C & B & _ & D & s & S). exists c. repeat (split; [first [exact C|exact B|exact D]|]). exists s. exact S.
Qed.
Local Lemma st_exact : h = 0 -> A' = A /\ Q' = x.
Proof. intros E. unfold A'. rewrite E, Rabs_R0. split; [ring|]. unfold h in E. lra. Qed.

Lemma step_emit : above (3 / 4) A h.
Proof. destruct st_common as (t & G & L). exists t. split; [|exact L]. apply grid_sub; [exact G|apply RN_grid, G]. Qed.

Local Lemma st_A : A <= A'. Proof. unfold A'. pose proof (Rabs_pos h). lra. Qed.
Local Lemma st_Q : Rabs Q' <= aE + aF' + A'.
Proof.
  replace Q' with (Q + g - h) by (unfold h, x; ring). pose proof (i_Q _ _ _ _ _ I). unfold aF', A'.
  pose proof (Rabs_triang (Q + g) (- h)). pose proof (Rabs_triang Q g). rewrite Rabs_Ropp in *. unfold Rminus. lra.
Qed.
Local Lemma st_J : above (3 / 4) A' Q'.
Proof.
  destruct (Req_dec h 0) as [E|N].
  - destruct (st_exact E) as [-> ->]. exact st_common.
  - destruct (st_round N) as (c & _ & _ & _ & s & _ & G & L & _). exists s. split; [exact G|]. rewrite bp_P in L. pose proof (bp_pos s). lra.
Qed.
Local Lemma st_K : A' * 4503599627370496 <= aE + aF' + A'.
Proof.
  destruct (Req_dec h 0) as [E|N].
  - destruct (st_exact E) as [-> _]. pose proof (i_K _ _ _ _ _ I). unfold aF'. pose proof (Rabs_pos g). lra.
  - destruct (st_round N) as (c & _ & B & L & _). pose proof st_Q. rewrite bp_52 in B. lra.
Qed.
Local Lemma st_K2 m : aE + aF' + A' < bp m -> A' < bp (m - 53).
Proof.
  intros H. destruct (Req_dec h 0) as [E|N].
  - destruct (st_exact E) as [R _]. rewrite R in *. apply (i_K2 _ _ _ _ _ I). unfold aF' in H. pose proof (Rabs_pos g). lra.
  - destruct (st_round N) as (c & _ & B & L & _). pose proof st_Q. apply Rlt_le_trans with (1 := L). apply bp_le. assert (c + 52 < m)%Z; [|lia]. apply bp_lt_inv. lra.
Qed.
Local Lemma st_LE : aE <= 7 / 4 * Rabs g. Proof. pose proof (i_LE _ _ _ _ _ I). lra. Qed.
Local Lemma st_LF : aF' <= 7 / 4 * Rabs g.
Proof. destruct st_grid as (q & _ & L & [B _] & _). unfold aF'. lra. Qed.

(** what makes the errors large: one of the expansions has come a long way *)
Local Lemma st_far s : ~ A < bp (s - 1) -> 4503599627370495 * bp s <= aE + aF.
Proof.
  intros N. pose proof (i_K2 _ _ _ _ _ I (s + 52)) as K2. replace (s + 52 - 53)%Z with (s - 1)%Z in K2 by ring. rewrite bp_52 in K2.
  pose proof (i_K _ _ _ _ _ I) as K. pose proof (bp_pos s).
  assert (4503599627370496 * bp s <= aE + aF + A) by (apply Rnot_lt_le; intros ?; apply N, K2; assumption). pose proof (i_E _ _ _ _ _ I). pose proof (i_F _ _ _ _ _ I).
  (* A <= (aE + aF + A) / 2^52 *)
  lra.
Qed.

Local Lemma st_N a : (forall s, ~ A < bp (s - 1) -> a < bp (s + 1) -> grid (s + 1) Q /\ grid (s + 1) g) -> Ninv a Q' A'.
Proof.
  intros H s Ha. destruct (Req_dec h 0) as [E|N].
  - destruct (st_exact E) as [-> ->]. destruct (Rlt_dec A (bp (s - 1))) as [L|L]; [auto|]. left. destruct (H s L Ha). apply grid_add; assumption.
  - destruct (st_round N) as (c & _ & _ & _ & s' & _ & G & L & _). destruct (Z_le_gt_dec (s + 1) s') as [C|C]; [left; apply grid_le with s'; assumption|right].
    apply Rlt_le_trans with (1 := L). apply bp_le. lia.
Qed.
Local Lemma st_NE : Ninv aE Q' A'.
Proof.
  apply st_N. intros s NA Ha. destruct (i_NE _ _ _ _ _ I s Ha) as [G|L]; [|contradiction]. split; [exact G|].
  pose proof (st_far s NA) as H. destruct st_grid as (q & Gq & L & _). apply grid_le with q; [|exact Gq]. apply Z.lt_le_incl, bp_lt_inv. rewrite bp_S in *. pose proof (bp_pos s). lra.
Qed.
Local Lemma st_NF : Ninv aF' Q' A'.
Proof.
  apply st_N. intros s NA Ha. exfalso. pose proof (st_far s NA) as H. pose proof st_LE. unfold aF' in Ha. pose proof (Rabs_pos g). pose proof (i_F _ _ _ _ _ I). rewrite bp_S in *. pose proof (bp_pos s). lra.
Qed.
Local Lemma st_RF : Rinv aF' (Rabs g) A'.
Proof.
  intros t H _. pose proof st_K as K. pose proof st_LE. unfold aF' in *. pose proof (Rabs_pos g). pose proof (i_F _ _ _ _ _ I). pose proof (bp_pos t). lra.
Qed.
Local Lemma st_RE : Rinv aE (Rabs g) A'.
Proof.
  intros t HE Hg. pose proof (i_RE _ _ _ _ _ I t HE (Rle_lt_trans _ _ _ HM Hg)) as HA.
  destruct st_grid as (q & Gq & L & [B1 B2] & Lq). pose proof (bp_pos t) as T0. pose proof (bp_pos q) as Q0.
  pose proof (i_Q _ _ _ _ _ I) as HQ. pose proof (i_E _ _ _ _ _ I). pose proof (i_F _ _ _ _ _ I). pose proof (i_A _ _ _ _ _ I). pose proof (Rabs_triang Q g) as TR. fold x in TR.
  destruct (Rlt_le_dec (Rabs g) (bp (t + 52))) as [S|S].
  - (* small *)
    assert (q < t + 52)%Z by (apply bp_lt_inv; lra).
    destruct (Z_le_gt_dec q (t + 1)) as [C|C].
    + assert (bp q <= 2 * bp t) by (rewrite <- bp_S; apply bp_le, C).
      assert (A < bp (t + 2 - 53)). { apply (i_K2 _ _ _ _ _ I). replace (t + 2)%Z with (t + 1 + 1)%Z by ring. rewrite !bp_S. lra. }
      assert (A < bp t / 4). { apply Rlt_le_trans with (bp (t - 2)); [apply Rlt_le_trans with (1 := H4); apply bp_le; lia|]. replace (t - 2)%Z with (t - 1 - 1)%Z by ring. rewrite !bp_P. lra. }
      assert (Hh : Rabs h <= bp (t + 53 - 54)). { apply RN_half. rewrite bp_53. rewrite bp_52 in S. lra. }
      replace (t + 53 - 54)%Z with (t - 1)%Z in Hh by ring. rewrite bp_P in Hh. unfold A'. lra.
    + assert (D : 4 * bp t <= bp q). { apply Rle_trans with (bp (t + 1 + 1)); [rewrite !bp_S; lra|apply bp_le; lia]. }
      assert (E : bp q <= bp (t + 51)) by (apply bp_le; lia).
      assert (A < bp (t + 51 - 53)). { apply (i_K2 _ _ _ _ _ I). assert (1000 * bp t <= bp (t + 51)); [|lra]. rewrite bpow_plus. change (bp 51) with 2251799813685248. lra. }
      replace (t + 51 - 53)%Z with (t - 1 - 1)%Z in H3 by ring. rewrite !bp_P in H3.
      assert (U : Rabs g + bp q <= bp (t + 52)) by (apply grid_lt; [apply grid_abs, Gq|apply grid_bp; lia|exact S]).
      assert (Hh : Rabs h <= bp (t + 52 - 54)). { apply RN_half. lra. }
      replace (t + 52 - 54)%Z with (t - 1 - 1)%Z in Hh by ring. rewrite !bp_P in Hh. unfold A'. lra.
  - (* large *)
    assert (q <= t + 52)%Z. { assert (q < t + 53)%Z; [|lia]. apply bp_lt_inv. lra. }
    assert (q >= t)%Z. { assert (t + 52 < q + 53)%Z; [|lia]. apply bp_lt_inv. lra. }
    assert (E : bp q <= bp (t + 52)) by (apply bp_le; lia).
    assert (HA2 : A < bp (t + 52 - 53)). { apply (i_K2 _ _ _ _ _ I). rewrite bp_52 in *. lra. }
    replace (t + 52 - 53)%Z with (t - 1)%Z in HA2 by ring. rewrite bp_P in HA2.
    destruct (Rlt_le_dec (Rabs x) (bp (t + 53))) as [X|X].
    + destruct (Req_dec h 0) as [E0|N]; [destruct (st_exact E0) as [-> _]; lra|].
      destruct (st_round N) as (c & [C1 C2] & _ & Lc & s & Hs & _ & Ls & D).
      assert (c <= t)%Z. { assert (c + 52 < t + 53)%Z; [|lia]. apply bp_lt_inv. lra. }
      destruct D as [-> | D].
      * apply Rlt_le_trans with (1 := Ls). rewrite bp_P. assert (bp c <= bp t) by (apply bp_le; assumption). lra.
      * destruct (Z.eq_dec c t) as [-> | Nc].
        -- (* a tie: Q is not on the grid t *)
           destruct (i_NE _ _ _ _ _ I (t - 1)%Z) as [G|G].
           ++ replace (t - 1 + 1)%Z with t by ring. lra.
           ++ exfalso. replace (t - 1 + 1)%Z with t in G by ring. assert (Gh : grid t h).
              { apply grid_sub; [apply grid_add; [exact G|]|]. { apply grid_le with q; [lia|exact Gq]. } apply (RN_grid_exp x t (conj C1 C2)). }
              apply grid_ge in Gh; [|exact N]. rewrite D, bp_P in Gh. lra.
           ++ replace (t - 1 - 1)%Z with (t - 1 - 1)%Z in G by ring. rewrite !bp_P in G. rewrite bp_P in D. unfold A'. lra.
        -- apply Rlt_le_trans with (1 := Lc). apply Rle_trans with (bp (t - 1)); [apply bp_le; lia|rewrite bp_P; lra].
    + (* over the top *)
      assert (U : Rabs g + bp q <= bp (t + 53)) by (apply grid_lt; [apply grid_abs, Gq|apply grid_bp; lia|lra]).
      assert (q <= t + 2)%Z. { assert (q < t + 3)%Z; [|lia]. apply bp_lt_inv. replace (t + 3)%Z with (t + 1 + 1 + 1)%Z by ring. rewrite !bp_S. lra. }
      assert (bp q <= 4 * bp t). { apply Rle_trans with (bp (t + 1 + 1)); [apply bp_le; lia|rewrite !bp_S; lra]. }
      assert (HA3 : A < bp (t + 3 - 53)). { apply (i_K2 _ _ _ _ _ I). replace (t + 3)%Z with (t + 1 + 1 + 1)%Z by ring. rewrite !bp_S. lra. }
      assert (HA4 : A < bp t / 16). { apply Rlt_le_trans with (1 := HA3). apply Rle_trans with (bp (t - 1 - 1 - 1 - 1)); [apply bp_le; lia|rewrite !bp_P; lra]. }
      assert (BQ : bp t <= bp q) by (apply bp_le; lia).
      assert (Hh : Rabs h <= Rabs x - bp (t + 53)).
      { unfold h, Q'. unfold Rabs at 2. unfold Rabs in X. destruct (Rcase_abs x).
        - apply Rle_trans with (Rabs (x - - bp (t + 53))); [apply RN_nearest, fmt_opp, fmt_bp|]. rewrite Rabs_left1; lra.
        - apply Rle_trans with (Rabs (x - bp (t + 53))); [apply RN_nearest, fmt_bp|]. rewrite Rabs_pos_eq; lra. }
      unfold A'. lra.
Qed.

Lemma step_inv : inv aE aF' (Rabs g) Q' A'.
Proof.
  split.
  - apply I.
  - unfold aF'. pose proof (i_F _ _ _ _ _ I). pose proof (Rabs_pos g). lra.
  - pose proof st_A. pose proof (i_A _ _ _ _ _ I). lra.
  - apply RN_fmt.
  - exact st_Q.
  - exact st_J.
  - exact st_K.
  - exact st_K2.
  - exact st_LE.
  - exact st_LF.
  - exact st_NE.
  - exact st_NF.
  - exact st_RE.
  - exact st_RF.
Qed.
End Step.

(** ** The loops *)
Definition rem (M : R) (l : list R) : Prop := forall x, In x l -> x <> 0 -> M <= Rabs x.

Lemma okx_big A x l y : okx (3 / 4) A (x :: l) -> 0 <= A -> In y l -> y <> 0 -> A + Rabs x <= Rabs y.
Proof.
  revert A x. induction l as [|z l IH]; intros A x (Hx & O) HA I N; [contradiction|]. cbn [okx] in O. destruct O as (Hz & O). pose proof (Rabs_pos x). destruct I as [<- | I].
  - destruct Hz as (s & G & L). apply grid_ge in G; [|exact N]. pose proof (bp_pos s). lra.
  - assert (A + Rabs x + Rabs z <= Rabs y); [|pose proof (Rabs_pos z); lra]. apply (IH (A + Rabs x) z); [split; assumption|lra|exact I|exact N].
Qed.
Lemma rem_tail M x l : rem M (x :: l) -> rem M l. Proof. intros H y I. apply H. right. exact I. Qed.
Lemma rem_next A x l : okx (3 / 4) A (x :: l) -> 0 <= A -> rem (Rabs x) l.
Proof. intros O HA y I N. pose proof (okx_big A x l y O HA I N). lra. Qed.

Lemma from_e_true e f : from_e e f = true -> e = 0 \/ Rabs e <= Rabs f.
Proof.
  unfold from_e, ltb. destruct (Rlt_bool_spec e f) as [H1|H1], (Rlt_bool_spec (- e) f) as [H2|H2]; cbn; intros E; try discriminate;
    right; unfold Rabs; destruct (Rcase_abs e), (Rcase_abs f); lra.
Qed.
Lemma from_e_false e f : from_e e f = false -> e <> 0 /\ Rabs f <= Rabs e.
Proof.
  unfold from_e, ltb. destruct (Rlt_bool_spec e f) as [H1|H1], (Rlt_bool_spec (- e) f) as [H2|H2]; cbn; intros E; try discriminate;
    (split; [lra|]); unfold Rabs; destruct (Rcase_abs e), (Rcase_abs f); lra.
Qed.

(** the same step, also for zero *)
Lemma step_any aE aF M Q A g r : inv aE aF M Q A -> fmt g -> okx (3 / 4) aF (g :: r) -> (g <> 0 -> M <= Rabs g) -> rem M r ->
  exists M', inv aE (aF + Rabs g) M' (RN (Q + g)) (A + Rabs (Q + g - RN (Q + g))) /\ above (3 / 4) A (Q + g - RN (Q + g)) /\ rem M' r /\ (M' = M /\ g = 0 \/ M' = Rabs g).
Proof.
  intros I F O HM HR. destruct (Req_dec g 0) as [-> | N].
  - exists M. rewrite Rplus_0_r, (RN_id Q) by apply I. rewrite Rminus_eq_0, Rabs_R0, !Rplus_0_r. split; [exact I|]. split; [apply above_0; lra|]. auto.
  - exists (Rabs g). split; [apply (step_inv aE aF M Q A g); auto; apply O|]. split; [apply (step_emit aE aF M Q A g); auto; apply O|]. split; [apply (rem_next aF); [exact O|apply I]|auto].
Qed.

Lemma okx_nonzero A h l : okx (3 / 4) A (h :: l) -> okx (3 / 4) A (nonzero h l).
Proof.
  unfold nonzero, eqb. destruct (Req_bool_spec h 0) as [-> | N]; [|exact (fun H => H)]. intros [_ H]. rewrite Rabs_R0, Rplus_0_r in H. exact H.
Qed.
Lemma sum_nonzero h l : sum (nonzero h l) = h + sum l.
Proof. unfold nonzero, eqb. destruct (Req_bool_spec h 0) as [-> | N]; [ring|reflexivity]. Qed.
Lemma asum_nonzero h l : asum (nonzero h l) = Rabs h + asum l.
Proof. unfold nonzero, eqb. destruct (Req_bool_spec h 0) as [-> | N]; [rewrite Rabs_R0; ring|reflexivity]. Qed.
Lemma fmt_nonzero h l : fmt h -> Forall fmt l -> Forall fmt (nonzero h l).
Proof. unfold nonzero. intros. destruct (eqb h 0); [|constructor]; assumption. Qed.
Lemma nz_nonzero h l : Forall (fun y => y <> 0) l -> Forall (fun y => y <> 0) (nonzero h l).
Proof. unfold nonzero, eqb. intros. destruct (Req_bool_spec h 0); [|constructor]; assumption. Qed.
Lemma length_nonzero h l : (length (nonzero h l) <= S (length l))%nat.
Proof. unfold nonzero. destruct (eqb h 0); cbn; lia. Qed.

(** what a loop returns: components [h] and the last [Q]; [T] is the sum of the magnitudes of everything added, [A] the errors emitted before, [v] the value *)
Definition result (n : nat) (A T v : R) (r : list R * R) : Prop :=
  Forall fmt (fst r) /\ fmt (snd r) /\ okx (3 / 4) A (fst r ++ [snd r]) /\ sum (fst r) + snd r = v /\ (length (fst r) <= n)%nat /\ Forall (fun y => y <> 0) (fst r) /\
  (A + asum (fst r)) * 4503599627370496 <= T + (A + asum (fst r)).

Lemma result_cons n A T v x h r : RN x + h = x -> h = x - RN x -> fmt h -> above (3 / 4) A h ->
  result n (A + Rabs h) T (RN x + v) r -> result (S n) A T (x + v) (nonzero h (fst r), snd r).
Proof.
  intros E Eh Fh Ah (F & FQ & O & V & L & Z & K). unfold result. cbn [fst snd].
  split; [apply fmt_nonzero; assumption|]. split; [exact FQ|]. split.
  { replace (nonzero h (fst r) ++ [snd r]) with (nonzero h (fst r ++ [snd r])) by (unfold nonzero; destruct (eqb h 0); reflexivity). apply okx_nonzero. split; assumption. }
  split; [rewrite sum_nonzero; lra|]. split; [pose proof (length_nonzero h (fst r)); lia|]. split; [apply nz_nonzero, Z|]. rewrite asum_nonzero, <- !Rplus_assoc in *. exact K.
Qed.

Section Loops.
Variable op : R -> option R.
Variable mayfail : Prop.
Hypothesis Hop : forall x, sat mayfail (op x) (fun y => y = RN x).
Notation sat := (sat mayfail).

Lemma result_end aE aF M Q A : inv aE aF M Q A -> result 0 A (aE + aF) Q ([], Q).
Proof.
  intros I. unfold result. cbn. split; [constructor|]. split; [apply I|]. split; [split; [apply I|auto]|]. split; [ring|]. split; [lia|]. split; [constructor|]. rewrite Rplus_0_r. apply I.
Qed.

Lemma sum_rest_sat g : forall aE aF M Q A, inv aE aF M Q A -> Forall fmt g -> okx (3 / 4) aF g -> rem M g ->
  sat (sum_rest op Q g) (result (length g) A (aE + aF + asum g) (Q + sum g)).
Proof.
  induction g as [|x g IH]; intros aE aF M Q A I F O HR; cbn [sum_rest].
  - apply sat_some. cbn. rewrite !Rplus_0_r. apply (result_end aE aF M). exact I.
  - apply Forall_cons_iff in F. destruct F as [Fx F]. destruct (step_any _ _ _ _ _ _ _ I Fx O (HR x (or_introl eq_refl)) (rem_tail _ _ _ HR)) as (M' & I' & E & R' & _).
    eapply sat_bind; [apply two_sum_sat; [exact Hop|apply I|exact Fx]|]. intros [Q' h] T. pose proof (eft_tail _ _ T) as Th. destruct T as (TQ & TS & _ & Fh). cbn [fst snd] in *. subst Q'.
    rewrite <- Th in *. eapply sat_bind; [apply (IH _ _ _ _ _ I' F (proj2 O) R')|]. intros [h' Q'] R. apply sat_some. cbn [sum asum length].
    replace (Q + (x + sum g)) with (Q + x + sum g) by ring. apply (result_cons _ _ _ _ _ h (h', Q')); [exact TS|exact Th|exact Fh|exact E|]. replace (aE + aF + (Rabs x + asum g)) with (aE + (aF + Rabs x) + asum g) by ring. exact R.
Qed.

Lemma sum_loop_sat e : forall f aE aF M Q A, inv aE aF M Q A -> Forall fmt e -> Forall fmt f -> okx (3 / 4) aE e -> okx (3 / 4) aF f -> rem M e -> rem M f ->
  sat (sum_loop op e f Q) (result (length e + length f) A (aE + aF + (asum e + asum f)) (Q + (sum e + sum f))).
Proof.
  induction e as [|x e IHe]; [|induction f as [|y f IHf]]; intros.
  - cbn [length sum asum]. rewrite !Rplus_0_l. replace (sum_loop op [] f Q) with (sum_rest op Q f) by (destruct f; reflexivity). apply (sum_rest_sat f aE aF M); assumption.
  - cbn [length sum asum]. rewrite !Rplus_0_r, Nat.add_0_r. change (sum_loop op (x :: e) [] Q) with (sum_rest op Q (x :: e)). rewrite (Rplus_comm aE aF). apply (sum_rest_sat (x :: e) aF aE M); try assumption. apply inv_sym; assumption.
  - rename H into I. assert (Fe := H0). assert (Ff := H1). apply Forall_cons_iff in Fe. destruct Fe as [Fx Fe]. apply Forall_cons_iff in Ff. destruct Ff as [Fy Ff].
    change (sum_loop op (x :: e) (y :: f) Q) with
      (if from_e x y then bind (two_sum op Q x) (fun '(Qnew, hh) => bind (sum_loop op e (y :: f) Qnew) (fun '(h, Qlast) => Some (nonzero hh h, Qlast)))
       else bind (two_sum op Q y) (fun '(Qnew, hh) => bind (sum_loop op (x :: e) f Qnew) (fun '(h, Qlast) => Some (nonzero hh h, Qlast)))).
    destruct (from_e x y) eqn:P.
    + destruct (step_any _ _ _ _ _ _ _ (inv_sym _ _ _ _ _ I) Fx H2 (H4 x (or_introl eq_refl)) (rem_tail _ _ _ H4)) as (M' & I' & E & R' & C).
      assert (Rf : rem M' (y :: f)).
      { destruct C as [[-> _] | ->]; [exact H5|]. destruct (from_e_true _ _ P) as [-> | L]; [intros z Iz Nz; rewrite Rabs_R0; apply Rabs_pos|].
        intros z [<- | Iz] Nz; [exact L|]. pose proof (okx_big aF y f z H3 (i_F _ _ _ _ _ I) Iz Nz). pose proof (i_F _ _ _ _ _ I). lra. }
      eapply sat_bind; [apply two_sum_sat; [exact Hop|apply I|exact Fx]|]. intros [Q' h] T. pose proof (eft_tail _ _ T) as Th. destruct T as (TQ & TS & _ & Fh). cbn [fst snd] in *. subst Q'.
      rewrite <- Th in *. eapply sat_bind; [apply (IHe (y :: f) _ _ _ _ _ (inv_sym _ _ _ _ _ I') Fe H1 (proj2 H2) H3 R' Rf)|]. intros [h' Q'] R. apply sat_some.
      change (length (x :: e) + length (y :: f))%nat with (S (length e + length (y :: f))). cbn [sum asum] in *. replace (Q + (x + sum e + (y + sum f))) with (Q + x + (sum e + (y + sum f))) by ring.
      apply (result_cons _ _ _ _ _ h (h', Q')); [exact TS|exact Th|exact Fh|exact E|].
      replace (aE + aF + (Rabs x + asum e + (Rabs y + asum f))) with (aE + Rabs x + aF + (asum e + (Rabs y + asum f))) by ring. exact R.
    + destruct (step_any _ _ _ _ _ _ _ I Fy H3 (H5 y (or_introl eq_refl)) (rem_tail _ _ _ H5)) as (M' & I' & E & R' & C).
      assert (Re : rem M' (x :: e)).
      { destruct C as [[-> _] | ->]; [exact H4|]. destruct (from_e_false _ _ P) as [_ L].
        intros z [<- | Iz] Nz; [exact L|]. pose proof (okx_big aE x e z H2 (i_E _ _ _ _ _ I) Iz Nz). pose proof (i_E _ _ _ _ _ I). lra. }
      eapply sat_bind; [apply two_sum_sat; [exact Hop|apply I|exact Fy]|]. intros [Q' h] T. pose proof (eft_tail _ _ T) as Th. destruct T as (TQ & TS & _ & Fh). cbn [fst snd] in *. subst Q'.
      rewrite <- Th in *. eapply sat_bind; [apply (IHf _ _ _ _ _ I' H0 Ff H2 (proj2 H3) Re R')|]. intros [h' Q'] R. apply sat_some.
      replace (length (x :: e) + length (y :: f))%nat with (S (length (x :: e) + length f)) by (cbn; lia). cbn [sum asum] in *. replace (Q + (x + sum e + (y + sum f))) with (Q + y + (x + sum e + sum f)) by ring.
      apply (result_cons _ _ _ _ _ h (h', Q')); [exact TS|exact Th|exact Fh|exact E|].
      replace (aE + aF + (Rabs x + asum e + (Rabs y + asum f))) with (aE + (aF + Rabs y) + (Rabs x + asum e + asum f)) by ring. exact R.
Qed.

(** an addition by Fast_Two_Sum *)
Lemma fast_step_sat M Q g : fmt Q -> fmt g -> Rabs Q <= M -> (g <> 0 -> M <= Rabs g) -> sat (fast_two_sum op g Q) (eft (Q + g)).
Proof.
  intros FQ Fg HQ HM. rewrite (Rplus_comm Q g). destruct (Req_dec g 0) as [-> | N]; [apply fast_two_sum_sat0; assumption|].
  apply fast_two_sum_sat; try assumption. specialize (HM N). lra.
Qed.

Lemma sum_first_sat e f aE aF M Q A : Rabs Q <= M -> inv aE aF M Q A -> Forall fmt e -> Forall fmt f -> okx (3 / 4) aE e -> okx (3 / 4) aF f -> rem M e -> rem M f ->
  sat (sum_first op e f Q) (result (length e + length f) A (aE + aF + (asum e + asum f)) (Q + (sum e + sum f))).
Proof.
  intros HQ I H0 H1 H2 H3 H4 H5. unfold sum_first. destruct e as [|x e]; [apply (sum_loop_sat [] f aE aF M); assumption|]. destruct f as [|y f]; [apply (sum_loop_sat (x :: e) [] aE aF M); assumption|].
  assert (Fe := H0). assert (Ff := H1). apply Forall_cons_iff in Fe. destruct Fe as [Fx Fe]. apply Forall_cons_iff in Ff. destruct Ff as [Fy Ff].
  destruct (from_e x y) eqn:P.
  + destruct (step_any _ _ _ _ _ _ _ (inv_sym _ _ _ _ _ I) Fx H2 (H4 x (or_introl eq_refl)) (rem_tail _ _ _ H4)) as (M' & I' & E & R' & C).
    assert (Rf : rem M' (y :: f)).
    { destruct C as [[-> _] | ->]; [exact H5|]. destruct (from_e_true _ _ P) as [-> | L]; [intros z Iz Nz; rewrite Rabs_R0; apply Rabs_pos|].
      intros z [<- | Iz] Nz; [exact L|]. pose proof (okx_big aF y f z H3 (i_F _ _ _ _ _ I) Iz Nz). pose proof (i_F _ _ _ _ _ I). lra. }
    eapply sat_bind; [apply (fast_step_sat M); [apply I|exact Fx|exact HQ|apply (H4 x (or_introl eq_refl))]|]. intros [Q' h] T. pose proof (eft_tail _ _ T) as Th. destruct T as (TQ & TS & _ & Fh). cbn [fst snd] in *. subst Q'.
    rewrite <- Th in *. eapply sat_bind; [apply (sum_loop_sat e (y :: f) _ _ _ _ _ (inv_sym _ _ _ _ _ I') Fe H1 (proj2 H2) H3 R' Rf)|]. intros [h' Q'] R. apply sat_some.
    change (length (x :: e) + length (y :: f))%nat with (S (length e + length (y :: f))). cbn [sum asum] in *. replace (Q + (x + sum e + (y + sum f))) with (Q + x + (sum e + (y + sum f))) by ring.
    apply (result_cons _ _ _ _ _ h (h', Q')); [exact TS|exact Th|exact Fh|exact E|].
    replace (aE + aF + (Rabs x + asum e + (Rabs y + asum f))) with (aE + Rabs x + aF + (asum e + (Rabs y + asum f))) by ring. exact R.
  + destruct (step_any _ _ _ _ _ _ _ I Fy H3 (H5 y (or_introl eq_refl)) (rem_tail _ _ _ H5)) as (M' & I' & E & R' & C).
    assert (Re : rem M' (x :: e)).
    { destruct C as [[-> _] | ->]; [exact H4|]. destruct (from_e_false _ _ P) as [_ L].
      intros z [<- | Iz] Nz; [exact L|]. pose proof (okx_big aE x e z H2 (i_E _ _ _ _ _ I) Iz Nz). pose proof (i_E _ _ _ _ _ I). lra. }
    eapply sat_bind; [apply (fast_step_sat M); [apply I|exact Fy|exact HQ|apply (H5 y (or_introl eq_refl))]|]. intros [Q' h] T. pose proof (eft_tail _ _ T) as Th. destruct T as (TQ & TS & _ & Fh). cbn [fst snd] in *. subst Q'.
    rewrite <- Th in *. eapply sat_bind; [apply (sum_loop_sat (x :: e) f _ _ _ _ _ I' H0 Ff H2 (proj2 H3) Re R')|]. intros [h' Q'] R. apply sat_some.
    replace (length (x :: e) + length (y :: f))%nat with (S (length (x :: e) + length f)) by (cbn; lia). cbn [sum asum] in *. replace (Q + (x + sum e + (y + sum f))) with (Q + y + (x + sum e + sum f)) by ring.
    apply (result_cons _ _ _ _ _ h (h', Q')); [exact TS|exact Th|exact Fh|exact E|].
    replace (aE + aF + (Rabs x + asum e + (Rabs y + asum f))) with (aE + (aF + Rabs y) + (Rabs x + asum e + asum f)) by ring. exact R.
Qed.

(** ** Expansions as the code passes them around *)
(** [g]: the factor; [n]: at most so many components *)
Definition expansion (g : R) (n : nat) (v : R) (l : list R) : Prop := Forall fmt l /\ okx g 0 l /\ sum l = v /\ (length l <= n)%nat /\ l <> [].
(** without superfluous zeros *)
Definition zero_free (l : list R) : Prop := Forall (fun y => y <> 0) l \/ l = [0].
(** all but the largest component are small compared with [T] *)
Definition low (l : list R) : R := asum (removelast l).

Lemma last_component_ok n A T v r : result n A T v r -> A = 0 -> 0 <= T ->
  let l := last_component (fst r) (snd r) in expansion (3 / 4) (S n) v l /\ zero_free l /\ low l * 4503599627370495 <= T.
Proof.
  intros (F & FQ & O & V & L & Z & K) -> HT l. destruct r as [h Q]. cbn [fst snd] in *. rewrite Rplus_0_l in K. unfold l, last_component, eqb.
  assert (KK : asum h * 4503599627370495 <= T) by lra.
  destruct (Req_bool_spec Q 0) as [-> | N]; cbn [negb orb].
  - destruct h as [|x h].
    + cbn [app]. split; [|split; [right; reflexivity|unfold low; cbn; lra]]. split; [constructor; [exact FQ|constructor]|]. split; [exact O|]. split; [cbn in *; lra|]. split; [cbn; lia|discriminate].
    + split; [|split].
      * split; [exact F|]. split; [apply okx_app in O; apply O|]. split; [lra|]. split; [lia|discriminate].
      * left. exact Z.
      * unfold low. apply Rle_trans with (2 := KK). apply Rmult_le_compat_r; [lra|].
        assert (H : forall l, asum (removelast l) <= asum l).
        { intros l'. induction l' as [|y l' IH]; [cbn; lra|]. change (removelast (y :: l')) with (match l' with [] => [] | _ => y :: removelast l' end). destruct l'; [cbn [asum]; pose proof (Rabs_pos y); lra|]. cbn [asum] in *. lra. }
        apply H.
  - split; [|split].
    + split; [apply Forall_app; split; [exact F|constructor; [exact FQ|constructor]]|]. split; [exact O|]. split; [rewrite sum_app; cbn; lra|]. split; [rewrite app_length; cbn; lia|]. destruct h; discriminate.
    + left. apply Forall_app. split; [exact Z|constructor; [exact N|constructor]].
    + unfold low. rewrite removelast_last. exact KK.
Qed.

Lemma fits_sat size l : (length l <= size)%nat -> sat (fits size l) (fun l' => l' = l).
Proof. intros H. unfold fits. apply Nat.leb_le in H. rewrite H. apply sat_some. reflexivity. Qed.

Lemma sum_start x : fmt x -> inv 0 (Rabs x) (Rabs x) x 0.
Proof.
  intros F. destruct (Req_dec x 0) as [-> | N]; [rewrite Rabs_R0; apply inv_start|].
  pose proof (step_inv 0 0 0 0 0 x inv_start F N) as H. rewrite !Rplus_0_l, (RN_id x F), Rminus_eq_0, Rabs_R0 in H. apply H; [|apply Rabs_pos].
  destruct (scale_ex x N) as (c & C & _). exists c. split; [apply fmt_grid; assumption|]. pose proof (bp_pos c). lra.
Qed.

Lemma asum_nonneg_T e f : 0 <= asum e + asum f. Proof. pose proof (asum_pos e). pose proof (asum_pos f). lra. Qed.

Theorem fast_expansion_sum_sat size m n v w e f : (m + n <= size)%nat -> expansion (3 / 4) m v e -> expansion (3 / 4) n w f ->
  sat (fast_expansion_sum op size e f) (fun l => expansion (3 / 4) (m + n) (v + w) l /\ zero_free l /\ low l * 4503599627370495 <= asum e + asum f).
Proof.
  intros Hs (Fe & Oe & Se & Le & Ne) (Ff & Of & Sf & Lf & Nf). unfold fast_expansion_sum.
  destruct e as [|x e]; [contradiction|]. destruct f as [|y f]; [contradiction|].
  assert (Fx : fmt x) by (apply Forall_cons_iff in Fe; apply Fe). assert (Fy : fmt y) by (apply Forall_cons_iff in Ff; apply Ff).
  assert (Fe' : Forall fmt e) by (apply Forall_cons_iff in Fe; apply Fe). assert (Ff' : Forall fmt f) by (apply Forall_cons_iff in Ff; apply Ff).
  assert (Oe' : okx (3 / 4) (Rabs x) e) by (destruct Oe as [_ Oe]; rewrite Rplus_0_l in Oe; exact Oe). assert (Of' : okx (3 / 4) (Rabs y) f) by (destruct Of as [_ Of]; rewrite Rplus_0_l in Of; exact Of).
  assert (R0 : sat (if from_e x y then sum_first op e (y :: f) x else sum_first op (x :: e) f y)
                 (result (length e + S (length f)) 0 (asum (x :: e) + asum (y :: f)) (v + w))).
  { destruct (from_e x y) eqn:P.
    - assert (Rf : rem (Rabs x) (y :: f)).
      { destruct (from_e_true _ _ P) as [-> | L]; [intros z Iz Nz; rewrite Rabs_R0; apply Rabs_pos|]. intros z [<- | Iz] Nz; [exact L|]. pose proof (okx_big 0 y f z Of (Rle_refl 0) Iz Nz). lra. }
      eapply sat_weaken; [apply (sum_first_sat e (y :: f) (Rabs x) 0 (Rabs x) x 0); try assumption; [lra|apply inv_sym, sum_start, Fx|apply (rem_next 0); [exact Oe|lra]]|].
      intros r R. cbn [length] in R. rewrite <- Se, <- Sf. cbn [sum asum] in *. rewrite Rplus_0_r in R.
      replace (x + sum e + (y + sum f)) with (x + (sum e + (y + sum f))) by ring. replace (Rabs x + asum e + (Rabs y + asum f)) with (Rabs x + (asum e + (Rabs y + asum f))) by ring. exact R.
    - assert (Re : rem (Rabs y) (x :: e)).
      { destruct (from_e_false _ _ P) as [_ L]. intros z [<- | Iz] Nz; [exact L|]. pose proof (okx_big 0 x e z Oe (Rle_refl 0) Iz Nz). lra. }
      eapply sat_weaken; [apply (sum_first_sat (x :: e) f 0 (Rabs y) (Rabs y) y 0); try assumption; [lra|apply sum_start, Fy|apply (rem_next 0); [exact Of|lra]]|].
      intros r R. cbn [length] in R. rewrite <- Se, <- Sf. cbn [sum asum] in *. rewrite Rplus_0_l in R.
      replace (length e + S (length f))%nat with (S (length e) + length f)%nat by lia.
      replace (x + sum e + (y + sum f)) with (y + (x + sum e + sum f)) by ring. replace (Rabs x + asum e + (Rabs y + asum f)) with (Rabs y + (Rabs x + asum e + asum f)) by ring. exact R. }
  eapply sat_bind; [exact R0|]. intros [h Q] R. pose proof (last_component_ok _ _ _ _ _ R eq_refl (asum_nonneg_T _ _)) as (X & Z & K). cbn [fst snd] in *.
  destruct X as (X1 & X2 & X3 & X4 & X5). cbn [length] in *.
  eapply sat_weaken; [apply fits_sat; lia|]. intros l ->. split; [|split; assumption]. split; [exact X1|]. split; [exact X2|]. split; [exact X3|]. split; [lia|exact X5].
Qed.
End Loops.
