(** Products of an expansion and a number; differences of two exact products. *)
From Coq Require Import ZArith Reals Lra Lia Bool List.
From Flocq Require Import Core.
From Verif Require Import ShewModel ShewGrid ShewSum ShewExp.
Import ListNotations.
Open Scope R_scope.

Section Scale.
Variables (b : R) (be : Z).
Hypothesis Fb : fmt b.
Hypothesis Gb : grid be b.
Hypothesis Ub : Rabs b <= 9007199254740991 * bp be.
Hypothesis Lb : b <> 0 -> 4503599627370496 * bp be <= Rabs b.

(** [a]: the sum of the magnitudes of the components used; [Q]: carried on; [A]: the sum of the magnitudes of what was emitted *)
Record sinv (a Q A : R) : Prop := mksinv {
  s_a : 0 <= a; s_A : 0 <= A; s_fmt : fmt Q;
  s_Q : Rabs Q <= a * Rabs b + A;
  s_J : above (3 / 4) A Q;
  s_P3 : forall s, a < 3 / 4 * bp s -> A < 3 / 4 * bp (s + be);
  s_P2 : forall s, a < / 2 * bp s -> A < / 2 * bp (s + be);
  s_K : A * 2251799813685248 <= a * Rabs b }.

Lemma sinv_start : sinv 0 0 0.
Proof.
  assert (P := bp_pos). split; try lra; try apply fmt_0.
  - rewrite Rabs_R0. lra.
  - apply above_0. lra.
  - intros s _. specialize (P (s + be)%Z). lra.
  - intros s _. specialize (P (s + be)%Z). lra.
Qed.

Section Step.
Variables a Q A e : R.
Hypothesis I : sinv a Q A.
Hypothesis Fe : fmt e.
Hypothesis N : e * b <> 0.
Hypothesis Ae : above (3 / 4) a e.
Let T := RN (e * b).
Let t := e * b - T.
Let x := Q + t.
Let S := RN x.
Let h := x - S.
Let x' := T + S.
Let Q' := RN x'.
Let h' := x' - Q'.
Let A' := A + Rabs h.
Let A'' := A' + Rabs h'.

Local Lemma ss_grid : exists s, grid s e /\ a < 3 / 4 * bp s /\ bp s <= Rabs e /\ A < 3 / 4 * bp (s + be).
Proof.
  destruct Ae as (s & G & L). exists s. split; [exact G|]. split; [exact L|]. split; [apply grid_ge; [exact G|intros ->; apply N; ring]|]. apply (s_P3 _ _ _ I), L.
Qed.
Local Lemma ss_b : b <> 0 /\ e <> 0. Proof. split; intros E; apply N; rewrite E; ring. Qed.

Local Lemma ss_t : Rabs t <= eps * Rabs (e * b).
Proof. unfold t, T. rewrite Rabs_minus_sym. apply RN_err. Qed.

(** the first addition *)
Local Lemma ss_common1 : exists r, grid r x /\ A < 3 / 4 * bp r.
Proof.
  destruct ss_grid as (s & G & La & _ & LA). destruct (s_J _ _ _ I) as (r & Gr & Lr).
  assert (Gt : grid (s + be) t). { apply grid_sub; [apply grid_mult; assumption|apply RN_grid, grid_mult; assumption]. }
  exists (Z.min r (s + be)). split; [apply grid_add; [apply grid_le with r|apply grid_le with (s + be)%Z]; try assumption; lia|].
  destruct (Z.min_spec r (s + be)) as [[_ ->] | [_ ->]]; assumption.
Qed.
Lemma scale_emit1 : above (3 / 4) A h.
Proof. destruct ss_common1 as (r & G & L). exists r. split; [|exact L]. apply grid_sub; [exact G|apply RN_grid, G]. Qed.
Local Lemma ss_round1 : h <> 0 -> exists c, bp (c + 52) <= Rabs x < bp (c + 53) /\ A' < bp c.
Proof.
  intros NN. destruct ss_common1 as (r & G & L). assert (L' : A < bp r) by (pose proof (bp_pos r); lra).
  destruct (round_step x r A G L' NN) as (c & C & _ & _ & D & _). exists c. auto.
Qed.
Local Lemma ss_J1 : above (3 / 4) A' S.
Proof.
  destruct (Req_dec h 0) as [E|NN].
  - unfold A'. rewrite E, Rabs_R0, Rplus_0_r. replace S with x by (unfold h in E; lra). exact ss_common1.
  - destruct ss_common1 as (r & G & L). assert (L' : A < bp r) by (pose proof (bp_pos r); lra).
    destruct (round_step x r A G L' NN) as (c & _ & _ & _ & _ & s & _ & Gs & Ls & _). exists s. split; [exact Gs|]. rewrite bp_P in Ls. change (A + Rabs (x - RN x)) with A' in Ls. pose proof (bp_pos s). lra.
Qed.

(** the size of what is carried on *)
Local Lemma ss_Q s : a < 3 / 4 * bp s -> A < 3 / 4 * bp (s + be) -> Rabs Q < 3 / 4 * bp s * Rabs b + 3 / 4 * bp (s + be) /\ Rabs Q < 3 / 4 * 9007199254740992 * bp (s + be).
Proof.
  intros La LA. pose proof (s_Q _ _ _ I) as HQ. pose proof (Rabs_pos_lt b (proj1 ss_b)). pose proof (bp_pos s). pose proof (s_a _ _ _ I).
  assert (a * Rabs b < 3 / 4 * bp s * Rabs b) by (apply Rmult_lt_compat_r; assumption).
  assert (bp s * Rabs b <= 9007199254740991 * bp (s + be)). { rewrite bpow_plus. apply Rle_trans with (bp s * (9007199254740991 * bp be)); [apply Rmult_le_compat_l; lra|lra]. }
  lra.
Qed.

Lemma scale_fast : Rabs S <= Rabs T.
Proof.
  destruct ss_grid as (s & G & La & Le & LA). destruct (ss_Q s La LA) as [HQ _]. unfold S, T. rewrite <- !RN_abs. apply RN_le.
  pose proof ss_t as Ht. pose proof (Rabs_triang Q t) as TR. fold x in TR. rewrite Rabs_mult in *. pose proof (Rabs_pos_lt b (proj1 ss_b)).
  assert (bp s * Rabs b <= Rabs e * Rabs b) by (apply Rmult_le_compat_r; lra).
  assert (4503599627370496 * bp (s + be) <= bp s * Rabs b). { rewrite bpow_plus. pose proof (bp_pos s). pose proof (Lb (proj1 ss_b)). apply Rle_trans with (bp s * (4503599627370496 * bp be)); [lra|apply Rmult_le_compat_l; lra]. }
  rewrite eps_val in Ht. pose proof (bp_pos (s + be)). lra.
Qed.

(** the second addition *)
Local Lemma ss_common2 : exists r, grid r x' /\ A' < 3 / 4 * bp r.
Proof.
  destruct ss_grid as (s & G & La & Le & LA). destruct (ss_Q s La LA) as [_ HQ]. destruct ss_J1 as (r & Gr & Lr).
  assert (exists u, grid u T /\ A' < 3 / 4 * bp u) as (u & Gu & Lu).
  { destruct (Req_dec t 0) as [E|Nt].
    - (* the product is exact *)
      exists (s + be)%Z. split; [apply RN_grid, grid_mult; assumption|]. unfold A', h, S, x. rewrite E, Rplus_0_r, (RN_id Q) by apply I. rewrite Rminus_eq_0, Rabs_R0. lra.
    - assert (Gx : grid (s + be) (e * b)) by (apply grid_mult; assumption).
      assert (L0 : 0 < bp (s + be)) by apply bp_pos.
      destruct (round_step (e * b) (s + be) 0 Gx L0 Nt) as (c & C & B & _ & D & u & _ & _). change (e * b - RN (e * b)) with t in D. rewrite Rplus_0_l in D. exists c. split; [apply (RN_grid_exp (e * b) c C)|].
      assert (Hc : (s + be < c)%Z).
      { apply bp_lt_inv. apply Rle_lt_trans with (2 := D). apply grid_ge; [|exact Nt]. apply grid_sub; [exact Gx|apply RN_grid, Gx]. }
      assert (2 * bp (s + be) <= bp c) by (rewrite <- bp_S; apply bp_le; lia).
      destruct (Req_dec h 0) as [E|Nh]; [unfold A'; rewrite E, Rabs_R0; lra|].
      destruct (ss_round1 Nh) as (c1 & [C1 _] & L1). pose proof (Rabs_triang Q t) as TR. fold x in TR.
      assert (c1 + 52 < c + 52)%Z. { apply bp_lt_inv. apply Rle_lt_trans with (1 := C1). rewrite (bp_52 c). lra. }
      assert (bp c1 <= bp (c - 1)) by (apply bp_le; lia). rewrite bp_P in *. lra. }
  exists (Z.min r u). split; [apply grid_add; [apply grid_le with u|apply grid_le with r]; try assumption; lia|].
  destruct (Z.min_spec r u) as [[_ ->] | [_ ->]]; assumption.
Qed.
Lemma scale_emit2 : above (3 / 4) A' h'.
Proof. destruct ss_common2 as (r & G & L). exists r. split; [|exact L]. apply grid_sub; [exact G|apply RN_grid, G]. Qed.
Local Lemma ss_round2 : h' <> 0 -> exists c, bp (c + 52) <= Rabs x' < bp (c + 53) /\ A'' < bp c /\ exists s, grid s Q' /\ A'' < bp (s - 1) /\ (s = c \/ Rabs h' = bp (c - 1)).
Proof.
  intros NN. destruct ss_common2 as (r & G & L). assert (L' : A' < bp r) by (pose proof (bp_pos r); lra).
  destruct (round_step x' r A' G L' NN) as (c & C & _ & _ & D & s & _ & Gs & Ls & E). exists c. split; [exact C|]. split; [exact D|]. exists s. auto.
Qed.
Local Lemma ss_J2 : above (3 / 4) A'' Q'.
Proof.
  destruct (Req_dec h' 0) as [E|NN].
  - unfold A''. rewrite E, Rabs_R0, Rplus_0_r. replace Q' with x' by (unfold h' in E; lra). exact ss_common2.
  - destruct (ss_round2 NN) as (c & _ & _ & s & Gs & Ls & _). exists s. split; [exact Gs|]. rewrite bp_P in Ls. pose proof (bp_pos s). lra.
Qed.
Local Lemma ss_Q2 : Rabs Q' <= (a + Rabs e) * Rabs b + A''.
Proof.
  replace Q' with (Q + e * b + (- h + - h')) by (unfold h', x', h, x, t; ring). pose proof (s_Q _ _ _ I).
  pose proof (Rabs_triang (Q + e * b) (- h + - h')). pose proof (Rabs_triang Q (e * b)). pose proof (Rabs_triang (- h) (- h')). rewrite !Rabs_Ropp, Rabs_mult in *. unfold A'', A'. lra.
Qed.
Local Lemma ss_x' : Rabs x' <= (a + Rabs e) * Rabs b + A'.
Proof.
  replace x' with (Q + e * b + - h) by (unfold x', h, x, t; ring). pose proof (s_Q _ _ _ I).
  pose proof (Rabs_triang (Q + e * b) (- h)). pose proof (Rabs_triang Q (e * b)). rewrite !Rabs_Ropp, Rabs_mult in *. unfold A'. lra.
Qed.

(** [f] = 1/2 or 3/4 *)
Local Lemma ss_size s' f : 0 < f <= 3 / 4 -> a + Rabs e < f * bp s' -> (a + Rabs e) * Rabs b <= f * 9007199254740991 * bp (s' + be).
Proof.
  intros Hf H. pose proof (Rabs_pos b). pose proof (bp_pos s'). pose proof (bp_pos be). rewrite bpow_plus.
  apply Rle_trans with (f * bp s' * Rabs b); [apply Rmult_le_compat_r; lra|]. apply Rle_trans with (f * bp s' * (9007199254740991 * bp be)); [apply Rmult_le_compat_l; [|exact Ub]|lra].
  apply Rmult_le_pos; lra.
Qed.

(** two places apart: the first addition leaves little *)
Local Lemma ss_two s s' : grid s e -> a < 3 / 4 * bp s -> A < 3 / 4 * bp (s + be) -> (s <= s' - 2)%Z -> a + Rabs e < 3 / 4 * bp s' -> A' < / 4 * bp (s' + be).
Proof.
  intros G La LA Hs Hs'. destruct (ss_Q s La LA) as [_ HQ]. set (u := (s' + be)%Z) in *.
  assert (L : bp (s + be) <= / 4 * bp u). { apply Rle_trans with (bp (u - 1 - 1)); [apply bp_le; unfold u; lia|rewrite !bp_P; lra]. } pose proof (bp_pos u).
  destruct (Req_dec h 0) as [E|Nh]; [unfold A'; rewrite E, Rabs_R0; lra|]. destruct (ss_round1 Nh) as (c1 & [C1 _] & L1).
  assert (Ht : Rabs t <= bp (u + 53 - 54)).
  { apply RN_half. rewrite bp_53. rewrite Rabs_mult. pose proof (ss_size s' (3 / 4) ltac:(lra) Hs') as Z. fold u in Z. rewrite Rmult_plus_distr_r in Z. pose proof (s_a _ _ _ I). pose proof (Rabs_pos b).
    assert (0 <= a * Rabs b) by (apply Rmult_le_pos; assumption). lra. }
  replace (u + 53 - 54)%Z with (u - 1)%Z in Ht by ring. rewrite bp_P in Ht. pose proof (Rabs_triang Q t) as TR. fold x in TR.
  assert (c1 + 52 < u + 51)%Z. { apply bp_lt_inv. apply Rle_lt_trans with (1 := C1). replace (u + 51)%Z with (u + 52 - 1)%Z by ring. rewrite bp_P, bp_52. lra. }
  apply Rlt_le_trans with (1 := L1). apply Rle_trans with (bp (u - 1 - 1)); [apply bp_le; lia|rewrite !bp_P; lra].
Qed.

Local Lemma ss_P2 s' : a + Rabs e < / 2 * bp s' -> A'' < / 2 * bp (s' + be).
Proof.
  intros H. destruct ss_grid as (s & G & La & Le & LA). pose proof (s_a _ _ _ I). pose proof (bp_pos s') as P0. pose proof (bp_pos (s' + be)) as P1.
  assert (Hs : (s <= s' - 2)%Z). { assert (s < s' - 1)%Z; [|lia]. apply bp_lt_inv. rewrite bp_P. lra. }
  assert (H3 : a + Rabs e < 3 / 4 * bp s') by lra. pose proof (ss_two s s' G La LA Hs H3) as HA'.
  pose proof (ss_size s' (/ 2) ltac:(lra) H) as HS. pose proof ss_x' as HX.
  destruct (Req_dec h' 0) as [E|NN]; [unfold A''; rewrite E, Rabs_R0; lra|].
  destruct (ss_round2 NN) as (c & [C1 _] & D & _). apply Rlt_le_trans with (1 := D). apply Rle_trans with (bp (s' + be - 1)); [|rewrite bp_P; lra].
  apply bp_le. assert (c + 52 < s' + be + 52)%Z; [|lia]. apply bp_lt_inv. rewrite (bp_52 (s' + be)). lra.
Qed.
Local Lemma ss_P3 s' : a + Rabs e < 3 / 4 * bp s' -> A'' < 3 / 4 * bp (s' + be).
Proof.
  intros H. destruct ss_grid as (s & G & La & Le & LA). pose proof (s_a _ _ _ I). pose proof (bp_pos s') as P0. pose proof (bp_pos (s' + be)) as P1.
  assert (Hs : (s <= s' - 1)%Z). { assert (s < s')%Z; [|lia]. apply bp_lt_inv. lra. }
  assert (HA' : A' < / 4 * bp (s' + be)).
  { destruct (Z.eq_dec s (s' - 1)) as [E|NE]; [|apply (ss_two s s'); try assumption; lia].
    assert (E2 : bp s' = 2 * bp s) by (rewrite <- bp_S; f_equal; lia). pose proof (bp_pos s).
    assert (Ee : Rabs e = bp s).
    { apply Rle_antisym; [|exact Le]. apply Rnot_lt_le. intros L. apply grid_lt with (s := s) in L; [lra|apply grid_bp; lia|apply grid_abs, G]. }
    assert (A < / 2 * bp (s + be)) by (apply (s_P2 _ _ _ I); lra).
    assert (E3 : bp (s' + be) = 2 * bp (s + be)) by (rewrite <- bp_S; f_equal; lia).
    assert (t0 : t = 0).
    { unfold t, T. rewrite RN_id; [ring|]. apply (grid_fmt (s + be)); [apply grid_mult; assumption|]. rewrite Rabs_mult, Ee, bp_53, bpow_plus. pose proof (bp_pos be).
      apply Rle_trans with (bp s * (9007199254740991 * bp be)); [apply Rmult_le_compat_l; lra|]. apply Rle_trans with (9007199254740991 * (bp s * bp be)); [lra|]. assert (0 < bp s * bp be) by (apply Rmult_lt_0_compat; lra). lra. }
    assert (h0 : h = 0). { unfold h, S, x. rewrite t0, Rplus_0_r, (RN_id Q) by apply I. ring. }
    unfold A'. rewrite h0, Rabs_R0. lra. }
  pose proof (ss_size s' (3 / 4) ltac:(lra) H) as HS. pose proof ss_x' as HX.
  destruct (Req_dec h' 0) as [E|NN]; [unfold A''; rewrite E, Rabs_R0; lra|].
  destruct (ss_round2 NN) as (c & [C1 _] & D & r & _ & Lr & O).
  assert (c <= s' + be)%Z. { assert (c + 52 < s' + be + 53)%Z; [|lia]. apply bp_lt_inv. rewrite (bp_53 (s' + be)). lra. }
  assert (bp c <= bp (s' + be)) by (apply bp_le; assumption).
  destruct O as [-> | O]; [rewrite bp_P in Lr; lra|]. rewrite bp_P in O. unfold A''. lra.
Qed.

Local Lemma ss_K : A'' * 2251799813685248 <= (a + Rabs e) * Rabs b.
Proof.
  pose proof (s_a _ _ _ I). assert (E0 : 0 < Rabs e) by (apply Rabs_pos_lt, ss_b). set (a' := a + Rabs e). assert (P : 0 < a') by (unfold a'; lra).
  set (m := (mag radix2 (4 / 3 * a'))%Z). assert (NZ : 4 / 3 * a' <> 0) by lra.
  pose proof (bpow_mag_gt radix2 (4 / 3 * a')) as U. pose proof (bpow_mag_le radix2 (4 / 3 * a') NZ) as L. fold m in U, L. rewrite Rabs_pos_eq in U, L by lra. rewrite bp_P in L.
  assert (A'' < 3 / 4 * bp (m + be)) by (apply ss_P3; fold a'; lra). rewrite bpow_plus in H0. pose proof (Lb (proj1 ss_b)) as B. pose proof (bp_pos be).
  apply Rle_trans with (3 / 4 * (bp m * bp be) * 2251799813685248); [apply Rmult_le_compat_r; lra|].
  apply Rle_trans with (a' * (4503599627370496 * bp be)); [|apply Rmult_le_compat_l; lra].
  apply Rle_trans with (3 / 8 * bp m * (4503599627370496 * bp be)); [lra|]. apply Rmult_le_compat_r; lra.
Qed.

Lemma scale_step_nz : sinv (a + Rabs e) Q' A''.
Proof.
  split.
  - pose proof (s_a _ _ _ I). pose proof (Rabs_pos e). lra.
  - pose proof (s_A _ _ _ I). pose proof (Rabs_pos h). pose proof (Rabs_pos h'). unfold A'', A'. lra.
  - apply RN_fmt.
  - exact ss_Q2.
  - exact ss_J2.
  - exact ss_P3.
  - exact ss_P2.
  - exact ss_K.
Qed.
End Step.

(** one component, in the order of the code *)
Lemma scale_step a Q A e : sinv a Q A -> fmt e -> above (3 / 4) a e ->
  let T := RN (e * b) in let t := e * b - T in let S := RN (Q + t) in let h := Q + t - S in let Q' := RN (T + S) in let h' := T + S - Q' in
  (T = 0 \/ Rabs S <= Rabs T) /\ above (3 / 4) A h /\ above (3 / 4) (A + Rabs h) h' /\ sinv (a + Rabs e) Q' (A + Rabs h + Rabs h').
Proof.
  intros I Fe Ae T t S h Q' h'. destruct (Req_dec (e * b) 0) as [Z|N].
  - assert (T0 : T = 0) by (unfold T; rewrite Z; apply RN_0). assert (t0 : t = 0) by (unfold t; rewrite Z, T0; ring).
    assert (S0 : S = Q) by (unfold S; rewrite t0, Rplus_0_r; apply RN_id, I). assert (h0 : h = 0) by (unfold h; rewrite t0, S0; ring).
    assert (Q0 : Q' = Q) by (unfold Q'; rewrite T0, S0, Rplus_0_l; apply RN_id, I). assert (h'0 : h' = 0) by (unfold h'; rewrite T0, S0, Q0; ring).
    rewrite h0, h'0, Q0, !Rabs_R0, !Rplus_0_r. split; [auto|]. split; [apply above_0; lra|]. split; [apply above_0; lra|].
    pose proof (Rabs_pos e). pose proof (Rabs_pos b). pose proof (s_a _ _ _ I).
    assert (M : a * Rabs b <= (a + Rabs e) * Rabs b) by (apply Rmult_le_compat_r; lra).
    split; try apply I; try lra.
    + pose proof (s_Q _ _ _ I). lra.
    + intros s L. apply (s_P3 _ _ _ I). lra.
    + intros s L. apply (s_P2 _ _ _ I). lra.
    + pose proof (s_K _ _ _ I). lra.
  - split; [right; apply scale_fast with a A; assumption|]. split; [apply scale_emit1 with a; assumption|]. split; [apply scale_emit2 with a; assumption|].
    apply scale_step_nz; assumption.
Qed.
End Scale.

Lemma b_grid b : fmt b -> exists be, grid be b /\ Rabs b <= 9007199254740991 * bp be /\ (b <> 0 -> 4503599627370496 * bp be <= Rabs b).
Proof.
  intros F. destruct (Req_dec b 0) as [-> | N].
  - exists 0%Z. split; [apply grid_0|]. rewrite Rabs_R0. pose proof (bp_pos 0). split; [lra|intros H0; contradiction].
  - destruct (scale_ex b N) as (c & L & U). exists c. assert (G : grid c b) by (apply fmt_grid; assumption). split; [exact G|].
    assert (Rabs b + bp c <= bp (c + 53)) by (apply grid_lt; [apply grid_abs, G|apply grid_bp; lia|exact U]). rewrite bp_52, bp_53 in *. split; [lra|auto].
Qed.

Section Ops.
Variable op : R -> option R.
Variable mayfail : Prop.
Hypothesis Hop : forall x, sat mayfail (op x) (fun y => y = RN x).
Notation sat := (sat mayfail).

Lemma fast_sat0 a b : fmt a -> fmt b -> a = 0 \/ Rabs b <= Rabs a -> sat (fast_two_sum op a b) (eft (a + b)).
Proof. intros Fa Fb [-> | H]; [apply fast_two_sum_sat0|apply fast_two_sum_sat]; assumption. Qed.

Lemma scale_loop_sat b be : fmt b -> grid be b -> Rabs b <= 9007199254740991 * bp be -> (b <> 0 -> 4503599627370496 * bp be <= Rabs b) ->
  forall e a Q A, sinv b be a Q A -> Forall fmt e -> okx (3 / 4) a e ->
  sat (scale_loop op e b (hi b) (lo b) Q) (result (2 * length e) A (2 * ((a + asum e) * Rabs b)) (Q + sum e * b)).
Proof.
  intros Fb Gb Ub Lb. induction e as [|x e IH]; intros a Q A I F O; cbn [scale_loop].
  - apply sat_some. unfold result. cbn [fst snd sum asum length app]. split; [constructor|]. split; [apply I|]. split; [split; [apply I|exact Logic.I]|]. split; [ring|]. split; [lia|]. split; [constructor|].
    rewrite !Rplus_0_r. pose proof (s_K _ _ _ _ _ I). pose proof (s_A _ _ _ _ _ I). lra.
  - apply Forall_cons_iff in F. destruct F as [Fx F]. destruct O as [Ox O].
    destruct (scale_step b be Gb Ub Lb a Q A x I Fx Ox) as (Hf & E1 & E2 & I').
    eapply sat_bind; [apply two_product_presplit_sat; [exact Hop|exact Fx|exact Fb]|]. intros [p1 p0] T1. pose proof (eft_tail _ _ T1) as Tp. destruct T1 as (T1 & T2 & T3 & T4). cbn [fst snd] in *. subst p1. rewrite <- Tp in *.
    eapply sat_bind; [apply two_sum_sat; [exact Hop|apply I|exact T4]|]. intros [S h] U. pose proof (eft_tail _ _ U) as Up. destruct U as (U1 & U2 & U3 & U4). cbn [fst snd] in *. subst S. rewrite <- Up in *.
    eapply sat_bind; [apply fast_sat0; [exact T3|exact U3|exact Hf]|]. intros [Q' h'] W. pose proof (eft_tail _ _ W) as Wp. destruct W as (W1 & W2 & W3 & W4). cbn [fst snd] in *. subst Q'. rewrite <- Wp in *.
    eapply sat_bind; [apply (IH _ _ _ I' F O)|]. intros [hs Ql] R. apply sat_some.
    destruct R as (R1 & R2 & R3 & R4 & R5 & R6 & R7). unfold result. cbn [fst snd length sum asum] in *.
    split; [apply fmt_nonzero; [assumption|apply fmt_nonzero; assumption]|]. split; [exact R2|]. split.
    { replace (nonzero h (nonzero h' hs) ++ [Ql]) with (nonzero h (nonzero h' (hs ++ [Ql]))) by (unfold nonzero; destruct (eqb h 0), (eqb h' 0); reflexivity).
      apply okx_nonzero. split; [exact E1|]. apply okx_nonzero. split; [exact E2|exact R3]. }
    split; [rewrite !sum_nonzero; lra|].
    split; [pose proof (length_nonzero h (nonzero h' hs)); pose proof (length_nonzero h' hs); lia|]. split; [apply nz_nonzero, nz_nonzero, R6|].
    rewrite !asum_nonzero. replace (A + (Rabs h + (Rabs h' + asum hs))) with (A + Rabs h + Rabs h' + asum hs) by ring. replace (a + (Rabs x + asum e)) with (a + Rabs x + asum e) by ring. exact R7.
Qed.

(** the first component, as the code does it *)
Lemma scale_first b be e0 : grid be b -> Rabs b <= 9007199254740991 * bp be -> (b <> 0 -> 4503599627370496 * bp be <= Rabs b) -> fmt e0 ->
  sinv b be (Rabs e0) (RN (e0 * b)) (Rabs (e0 * b - RN (e0 * b))).
Proof.
  intros Gb Ub Lb F. assert (Ax : above (3 / 4) 0 e0).
  { destruct (Req_dec e0 0) as [-> | N]; [apply above_0; lra|]. destruct (scale_ex e0 N) as (c & L & _). exists c. split; [apply fmt_grid; assumption|]. pose proof (bp_pos c). lra. }
  destruct (scale_step b be Gb Ub Lb 0 0 0 e0 (sinv_start b be) F Ax) as (_ & _ & _ & I).
  assert (Ft : fmt (e0 * b - RN (e0 * b)) ).
  { destruct (Req_dec (e0 * b - RN (e0 * b)) 0) as [-> | N]; [apply fmt_0|].
    assert (Nx : e0 * b <> 0) by (intros Z; apply N; rewrite Z, RN_0; ring). assert (Ne : e0 <> 0) by (intros ->; apply Nx; ring). assert (Nb : b <> 0) by (intros ->; apply Nx; ring).
    destruct (scale_ex e0 Ne) as (c & L & U). assert (Ge : grid c e0) by (apply fmt_grid; assumption).
    assert (Gx : grid (c + be) (e0 * b)) by (apply grid_mult; assumption).
    apply (grid_fmt (c + be)); [apply grid_sub; [exact Gx|apply RN_grid, Gx]|].
    apply Rle_trans with (bp (c + be + 106 - 54)); [|apply bp_le; lia].
    apply RN_half. rewrite Rabs_mult. replace (c + be + 106)%Z with ((c + 53) + (be + 53))%Z by ring. rewrite bpow_plus. apply Rmult_le_compat; try apply Rabs_pos; [lra|]. rewrite bp_53. pose proof (bp_pos be). lra. }
  rewrite !Rplus_0_l in I. rewrite (RN_id _ Ft) in I. rewrite Rminus_eq_0, Rabs_R0, Rplus_0_l in I.
  replace (RN (e0 * b) + (e0 * b - RN (e0 * b))) with (e0 * b) in I by ring. exact I.
Qed.

Theorem scale_expansion_sat size n v e b : (2 * n <= size)%nat -> expansion (3 / 4) n v e -> fmt b ->
  sat (scale_expansion op size e b) (fun l => expansion (3 / 4) (2 * n) (v * b) l /\ zero_free l /\ low l * 4503599627370495 <= 2 * (asum e * Rabs b)).
Proof.
  intros Hs (Fe & Oe & Se & Le & Ne) Fb. unfold scale_expansion. destruct e as [|x e]; [contradiction|].
  destruct (b_grid b Fb) as (be & Gb & Ub & Lb).
  apply Forall_cons_iff in Fe. destruct Fe as [Fx Fe]. destruct Oe as [Ox Oe]. rewrite Rplus_0_l in Oe.
  eapply sat_bind; [apply split_sat; exact Hop|]. intros p ->.
  eapply sat_bind; [apply two_product_presplit_sat; [exact Hop|exact Fx|exact Fb]|]. intros [Q h] T. pose proof (eft_tail _ _ T) as Th. destruct T as (T1 & T2 & T3 & T4). cbn [fst snd] in *. subst Q.
  pose proof (scale_first b be x Gb Ub Lb Fx) as I. rewrite <- Th in I.
  eapply sat_bind; [apply (scale_loop_sat b be Fb Gb Ub Lb e _ _ _ I Fe Oe)|]. intros [hs Q] R.
  assert (R' : result (S (2 * length e)) 0 (2 * ((Rabs x + asum e) * Rabs b)) (v * b) (nonzero h hs, Q)).
  { replace (v * b) with (x * b + sum e * b) by (rewrite <- Se; cbn; ring). apply (result_cons _ _ _ _ _ h (hs, Q)); [exact T2|exact Th|exact T4| |rewrite Rplus_0_l; exact R].
    destruct (Req_dec h 0) as [E | N]; [rewrite E; apply above_0; lra|]. destruct (scale_ex h N) as (c & L & _). exists c. split; [apply fmt_grid; assumption|]. pose proof (bp_pos c). lra. }
  assert (TP : 0 <= 2 * ((Rabs x + asum e) * Rabs b)). { assert (0 <= (Rabs x + asum e) * Rabs b); [|lra]. apply Rmult_le_pos; [pose proof (Rabs_pos x); pose proof (asum_pos e); lra|apply Rabs_pos]. }
  pose proof (last_component_ok _ _ _ _ _ R' eq_refl TP) as (X & Z & K). destruct X as (X1 & X2 & X3 & X4 & X5). cbn [length fst snd asum] in *.
  eapply sat_weaken; [apply fits_sat; lia|]. intros l ->. split; [|split; assumption]. split; [exact X1|]. split; [exact X2|]. split; [exact X3|]. split; [lia|exact X5].
Qed.

(** a rounded product and its error *)
Lemma eft_above v p : eft v p -> (exists t, grid t v) -> above (/ 2) (Rabs (snd p)) (fst p).
Proof.
  intros T [t G]. pose proof (eft_tail _ _ T) as Tt. destruct T as (E & _). rewrite Tt, E. destruct (Req_dec (v - RN v) 0) as [Z|N]; [|].
  - rewrite Z, Rabs_R0. destruct (Req_dec v 0) as [-> | Nv]; [rewrite RN_0; apply above_0; lra|]. exists t. split; [apply RN_grid, G|]. pose proof (bp_pos t). lra.
  - destruct (round_step v t 0 G (bp_pos t) N) as (c & _ & _ & _ & _ & s & _ & Gs & Ls & _). exists s. split; [exact Gs|]. rewrite Rplus_0_l, bp_P in Ls. lra.
Qed.
Lemma above_half A x : above (/ 2) A x -> 0 <= A -> above (3 / 4) A x.
Proof. intros (s & G & L) _. exists s. split; [exact G|]. pose proof (bp_pos s). lra. Qed.
Lemma above_start g x : fmt x -> 0 < g -> above g 0 x.
Proof.
  intros F G. destruct (Req_dec x 0) as [-> | N]; [apply above_0, G|]. destruct (scale_ex x N) as (c & L & _). exists c. split; [apply fmt_grid; assumption|].
  apply Rmult_lt_0_compat; [exact G|apply bp_pos].
Qed.
Lemma fmt_has_grid x : fmt x -> exists t, grid t x.
Proof. intros F. destruct (Req_dec x 0) as [-> | N]; [exists 0%Z; apply grid_0|]. destruct (scale_ex x N) as (c & L & _). exists c. apply fmt_grid; assumption. Qed.
Lemma prod_has_grid x y : fmt x -> fmt y -> exists t, grid t (x * y).
Proof. intros Fx Fy. destruct (fmt_has_grid x Fx) as [s S]. destruct (fmt_has_grid y Fy) as [t T]. exists (s + t)%Z. apply grid_mult; assumption. Qed.

Lemma two_one_product_sat b a1 a0 : fmt b -> fmt a1 -> fmt a0 -> above (/ 2) (Rabs a0) a1 ->
  sat (two_one_product op (a1, a0) b) (expansion (3 / 4) 4 ((a0 + a1) * b)).
Proof.
  intros Fb F1 F0 H. unfold two_one_product. destruct (b_grid b Fb) as (be & Gb & Ub & Lb).
  eapply sat_bind; [apply split_sat; exact Hop|]. intros p ->.
  eapply sat_bind; [apply two_product_presplit_sat; [exact Hop|exact F0|exact Fb]|]. intros [i x0] T0. pose proof (eft_tail _ _ T0) as E0. destruct T0 as (Q0 & S0 & G0 & H0). cbn [fst snd] in *. subst i.
  pose proof (scale_first b be a0 Gb Ub Lb F0) as I. rewrite <- E0 in I.
  assert (H' : above (3 / 4) (Rabs a0) a1) by (apply above_half; [exact H|apply Rabs_pos]).
  destruct (scale_step b be Gb Ub Lb _ _ _ a1 I F1 H') as (Hf & E1 & E2 & I').
  eapply sat_bind; [apply two_product_presplit_sat; [exact Hop|exact F1|exact Fb]|]. intros [j z] T1. pose proof (eft_tail _ _ T1) as Ej. destruct T1 as (Q1 & S1 & G1 & H1). cbn [fst snd] in *. subst j. rewrite <- Ej in *.
  eapply sat_bind; [apply two_sum_sat; [exact Hop|exact G0|exact H1]|]. intros [k x1] T2. pose proof (eft_tail _ _ T2) as Ek. destruct T2 as (Q2 & S2 & G2 & H2). cbn [fst snd] in *. subst k. rewrite <- Ek in *.
  eapply sat_bind; [apply fast_sat0; [exact G1|exact G2|exact Hf]|]. intros [x3 x2] T3. pose proof (eft_tail _ _ T3) as E3. destruct T3 as (Q3 & S3 & G3 & H3). cbn [fst snd] in *. subst x3. rewrite <- E3 in *.
  apply sat_some. split; [repeat constructor; assumption|]. split.
  { cbn [okx]. rewrite Rplus_0_l. split; [apply above_start; [exact H0|lra]|]. split; [exact E1|]. split; [exact E2|]. split; [apply I'|exact Logic.I]. }
  split; [cbn [sum]; lra|]. split; [cbn; lia|discriminate].
Qed.

(** ** The difference of two products *)
(** [A] has been emitted; adding [g] to [Q], both coarser than twice [A] *)
Lemma grow_step A Q g : fmt Q -> fmt g -> above (/ 2) A Q -> above (/ 2) A g ->
  above (/ 2) A (Q + g - RN (Q + g)) /\ above (/ 2) (A + Rabs (Q + g - RN (Q + g))) (RN (Q + g)) /\ Rabs (Q + g - RN (Q + g)) <= Rabs g /\ Rabs (Q + g - RN (Q + g)) <= Rabs Q.
Proof.
  intros FQ Fg (s & Gs & Ls) (q & Gq & Lq). assert (exists t, grid t (Q + g) /\ A < / 2 * bp t) as (t & G & L).
  { exists (Z.min s q). split; [apply grid_add; [apply grid_le with s|apply grid_le with q]; try assumption; lia|]. destruct (Z.min_spec s q) as [[_ ->] | [_ ->]]; assumption. }
  split; [exists t; split; [apply grid_sub; [exact G|apply RN_grid, G]|exact L]|]. split; [|split].
  - destruct (Req_dec (Q + g - RN (Q + g)) 0) as [E|N].
    + rewrite E, Rabs_R0, Rplus_0_r. replace (RN (Q + g)) with (Q + g) by lra. exists t. auto.
    + assert (L' : A < bp t) by (pose proof (bp_pos t); lra). destruct (round_step _ t A G L' N) as (c & _ & _ & _ & _ & r & _ & Gr & Lr & _). exists r. split; [exact Gr|]. rewrite bp_P in Lr. lra.
  - apply Rle_trans with (1 := RN_nearest (Q + g) Q FQ). right. f_equal. ring.
  - apply Rle_trans with (1 := RN_nearest (Q + g) g Fg). right. f_equal. ring.
Qed.

Lemma above_opp g A x : above g A x -> above g A (- x).
Proof. intros (s & G & L). exists s. split; [apply grid_opp, G|exact L]. Qed.

Lemma two_two_diff_sat a1 a0 b1 b0 : fmt a1 -> fmt a0 -> fmt b1 -> fmt b0 -> above (/ 2) (Rabs a0) a1 -> above (/ 2) (Rabs b0) b1 ->
  sat (two_two_diff op (a1, a0) (b1, b0)) (expansion (/ 2) 4 ((a0 + a1) - (b0 + b1))).
Proof.
  intros Fa1 Fa0 Fb1 Fb0 Ha Hb. unfold two_two_diff, two_one_diff.
  (* a0 - b0 *)
  assert (Z0 : 0 < / 2) by lra. pose proof (grow_step 0 a0 (- b0) Fa0 (fmt_opp _ Fb0) (above_start _ _ Fa0 Z0) (above_opp _ _ _ (above_start _ _ Fb0 Z0))) as (P1 & P2 & P3 & P4).
  change (a0 + - b0) with (a0 - b0) in *. rewrite Rabs_Ropp in P3. rewrite Rplus_0_l in P2.
  eapply sat_bind with (P := fun r => exists i x0 x2 x1, r = (x2, x1, x0) /\ eft (a0 - b0) (i, x0) /\ eft (a1 + i) (x2, x1)).
  { eapply sat_bind; [apply two_diff_sat; [exact Hop|exact Fa0|exact Fb0]|]. intros [i x0] T. eapply sat_bind; [apply two_sum_sat; [exact Hop|exact Fa1|apply T]|]. intros [x2 x1] U. apply sat_some. exists i, x0, x2, x1. auto. }
  intros r (i & x0 & j & z & -> & T & U). pose proof (eft_tail _ _ T) as ET. destruct T as (T1 & T2 & T3 & T4). pose proof (eft_tail _ _ U) as EU. destruct U as (U1 & U2 & U3 & U4). cbn [fst snd] in *. subst i j. rewrite <- ET in *.
  (* a1 + i *)
  pose proof (grow_step (Rabs x0) (RN (a0 - b0)) a1 T3 Fa1 P2 (above_weaken _ _ _ _ P4 Ha)) as (R1 & R2 & R3 & R4). rewrite (Rplus_comm (RN (a0 - b0)) a1) in *. rewrite <- EU in *.
  (* z - b1 *)
  pose proof (grow_step (Rabs x0) z (- b1) U4 (fmt_opp _ Fb1) R1 (above_opp _ _ _ (above_weaken _ _ _ _ P3 Hb))) as (V1 & V2 & V3 & V4). change (z + - b1) with (z - b1) in *.
  eapply sat_bind with (P := fun r => exists i' x1 x3 x2, r = (x3, x2, x1) /\ eft (z - b1) (i', x1) /\ eft (RN (a1 + RN (a0 - b0)) + i') (x3, x2)).
  { eapply sat_bind; [apply two_diff_sat; [exact Hop|exact U4|exact Fb1]|]. intros [i' x1] W. eapply sat_bind; [apply two_sum_sat; [exact Hop|apply RN_fmt|apply W]|]. intros [x3 x2] X. apply sat_some. exists i', x1, x3, x2. auto. }
  intros r (i' & x1 & x3 & x2 & -> & W & X). pose proof (eft_tail _ _ W) as EW. destruct W as (W1 & W2 & W3 & W4). pose proof (eft_tail _ _ X) as EX. destruct X as (X1 & X2 & X3 & X4). cbn [fst snd] in *. subst i' x3. rewrite <- EW in *.
  assert (L1 : Rabs x0 + Rabs x1 <= Rabs x0 + Rabs z) by lra.
  pose proof (grow_step (Rabs x0 + Rabs x1) (RN (z - b1)) (RN (a1 + RN (a0 - b0))) W3 U3 V2 (above_weaken _ _ _ _ L1 R2)) as (Y1 & Y2 & Y3 & Y4). rewrite (Rplus_comm (RN (z - b1))) in *. rewrite <- EX in *.
  apply sat_some. split; [repeat constructor; assumption|]. split.
  { cbn [okx]. rewrite Rplus_0_l. split; [apply above_start; [exact T4|lra]|]. split; [exact V1|]. split; [exact Y1|]. split; [exact Y2|exact Logic.I]. }
  split; [cbn [sum]; lra|]. split; [cbn; lia|discriminate].
Qed.

(** of two exact products: a b - c d *)
Lemma diff_of_products_sat a b c d p q : fmt a -> fmt b -> fmt c -> fmt d -> eft (a * b) p -> eft (c * d) q -> sat (two_two_diff op p q) (expansion (/ 2) 4 (a * b - c * d)).
Proof.
  intros Fa Fb Fc Fd P Q. pose proof (eft_above _ _ P (prod_has_grid a b Fa Fb)) as HP. pose proof (eft_above _ _ Q (prod_has_grid c d Fc Fd)) as HQ. destruct P as (_ & P & P1 & P2). destruct Q as (_ & Q & Q1 & Q2).
  destruct p as [p1 p0], q as [q1 q0]. cbn [fst snd] in *. eapply sat_weaken; [apply two_two_diff_sat; assumption|]. intros l. replace (p0 + p1 - (q0 + q1)) with (a * b - c * d) by lra. exact (fun H => H).
Qed.
Lemma okx_half A l : okx (/ 2) A l -> 0 <= A -> okx (3 / 4) A l.
Proof. revert A. induction l as [|x l IH]; intros A; cbn; [auto|]. intros [H O] HA. split; [apply above_half; assumption|]. apply IH; [exact O|pose proof (Rabs_pos x); lra]. Qed.
Lemma expansion_half n v l : expansion (/ 2) n v l -> expansion (3 / 4) n v l.
Proof. intros (F & O & R). split; [exact F|]. split; [apply okx_half; [exact O|lra]|exact R]. Qed.
End Ops.
