(** C43 in double precision. *)
From Coq Require Import ZArith Reals Lra Lia Bool List.
From Flocq Require Import Core IEEE754.Binary IEEE754.Bits.
From Verif Require Import ShewModel ShewSpec ShewGrid ShewSum ShewExp ShewScale ShewEst Shew2d Shew3dBounds Shew3d Shew3dMain ShewProps ShewRange ShewRange2.
Import ListNotations.
Open Scope R_scope.

Lemma ordinary_coord x : ordinary x -> coord x.
Proof. intros (F & (m & E) & B). split; [split; [exists m; exact E|exact B]|apply is_float_fmt, F]. Qed.

(** On ordinary coordinates the predicates return in double precision, and what they return has the sign of the determinant. *)
Theorem C43_double_orient2d a b c : ordinary2 a -> ordinary2 b -> ordinary2 c -> exists r, orient2d double_op a b c = Some r /\ same_sign r (det2 a b c).
Proof.
  intros [A1 A2] [B1 B2] [C1 C2]. destruct C43_arithmetic_exists as [AR TOT].
  assert (FA : float2 a) by (split; [apply A1|apply A2]). assert (FB : float2 b) by (split; [apply B1|apply B2]). assert (FC : float2 c) by (split; [apply C1|apply C2]).
  destruct (C43_orient2d_total ee a b c AR TOT FA FB FC) as [r E].
  exists r. split; [|exact (C43_orient2d ee a b c r AR FA FB FC E)]. rewrite <- E. apply (orient2d_same a b c); apply ordinary_coord; assumption.
Qed.
Theorem C43_double_orient3d a b c d : ordinary3 a -> ordinary3 b -> ordinary3 c -> ordinary3 d -> exists r, orient3d double_op a b c d = Some r /\ same_sign r (det3 a b c d).
Proof.
  intros (A1 & A2 & A3) (B1 & B2 & B3) (C1 & C2 & C3) (D1 & D2 & D3). destruct C43_arithmetic_exists as [AR TOT].
  assert (FA : float3 a) by (split; [apply A1|split; [apply A2|apply A3]]). assert (FB : float3 b) by (split; [apply B1|split; [apply B2|apply B3]]). assert (FC : float3 c) by (split; [apply C1|split; [apply C2|apply C3]]). assert (FD : float3 d) by (split; [apply D1|split; [apply D2|apply D3]]).
  destruct (C43_orient3d_total ee a b c d AR TOT FA FB FC FD) as [r E].
  exists r. split; [|exact (C43_orient3d ee a b c d r AR FA FB FC FD E)]. rewrite <- E. destruct a as [[ax ay] az], b as [[bx by_] bz], c as [[cx cy] cz], d as [[dx dy] dz]. cbn [fst snd] in *.
  apply (orient3d_same ax ay az bx by_ bz cx cy cz dx dy dz); apply ordinary_coord; assumption.
Qed.

(** Every double of magnitude between 2^-197 and 2^250 is ordinary; so is zero. *)
Theorem C43_ordinary x : is_float x -> x = 0 \/ bpow radix2 (-197) <= Rabs x <= bpow radix2 250 -> ordinary x.
Proof.
  intros F H. split; [exact F|]. destruct H as [-> | [L U]]; [split; [exists 0%Z; ring|rewrite Rabs_R0; apply bpow_ge_0]|]. split; [|exact U].
  destruct (fmt_grid x (-249) (is_float_fmt x F) L) as [k K]. exists (2 * k)%Z. rewrite mult_IZR, K. change (-249)%Z with (-250 + 1)%Z. rewrite bp_S. ring.
Qed.

(** [double_op] is what the operations of IEEE double precision (Flocq's binary64, rounding to nearest even) compute. *)
Theorem C43_double_plus x y r : is_finite 53 1024 x = true -> is_finite 53 1024 y = true -> double_op (B2R 53 1024 x + B2R 53 1024 y) = Some r ->
  B2R 53 1024 (b64_plus BinarySingleNaN.mode_NE x y) = r /\ is_finite 53 1024 (b64_plus BinarySingleNaN.mode_NE x y) = true.
Proof.
  intros Fx Fy. unfold double_op. cbv zeta. set (z := _ + _). destruct (_ && _) eqn:B; [|discriminate]. apply andb_prop in B. destruct B as [B _]. intros E. injection E as E.
  pose proof (Bplus_correct 53 1024 (eq_refl _) (eq_refl _) binop_nan_pl64 BinarySingleNaN.mode_NE x y Fx Fy) as C. change (SpecFloat.fexp 53 1024) with (FLT_exp (-1074) 53) in C. cbn [BinarySingleNaN.round_mode] in C. fold z in C. rewrite B in C. destruct C as (C1 & C2 & _).
  split; [rewrite <- E; exact C1|exact C2].
Qed.
Theorem C43_double_minus x y r : is_finite 53 1024 x = true -> is_finite 53 1024 y = true -> double_op (B2R 53 1024 x - B2R 53 1024 y) = Some r ->
  B2R 53 1024 (b64_minus BinarySingleNaN.mode_NE x y) = r /\ is_finite 53 1024 (b64_minus BinarySingleNaN.mode_NE x y) = true.
Proof.
  intros Fx Fy. unfold double_op. cbv zeta. set (z := _ - _). destruct (_ && _) eqn:B; [|discriminate]. apply andb_prop in B. destruct B as [B _]. intros E. injection E as E.
  pose proof (Bminus_correct 53 1024 (eq_refl _) (eq_refl _) binop_nan_pl64 BinarySingleNaN.mode_NE x y Fx Fy) as C. change (SpecFloat.fexp 53 1024) with (FLT_exp (-1074) 53) in C. cbn [BinarySingleNaN.round_mode] in C. fold z in C. rewrite B in C. destruct C as (C1 & C2 & _).
  split; [rewrite <- E; exact C1|exact C2].
Qed.
Theorem C43_double_mult x y r : is_finite 53 1024 x = true -> is_finite 53 1024 y = true -> double_op (B2R 53 1024 x * B2R 53 1024 y) = Some r ->
  B2R 53 1024 (b64_mult BinarySingleNaN.mode_NE x y) = r /\ is_finite 53 1024 (b64_mult BinarySingleNaN.mode_NE x y) = true.
Proof.
  intros Fx Fy. unfold double_op. cbv zeta. set (z := _ * _). destruct (_ && _) eqn:B; [|discriminate]. apply andb_prop in B. destruct B as [B _]. intros E. injection E as E.
  pose proof (Bmult_correct 53 1024 (eq_refl _) (eq_refl _) binop_nan_pl64 BinarySingleNaN.mode_NE x y) as C. change (SpecFloat.fexp 53 1024) with (FLT_exp (-1074) 53) in C. cbn [BinarySingleNaN.round_mode] in C. fold z in C. rewrite B in C. destruct C as (C1 & C2 & _).
  split; [rewrite <- E; exact C1|rewrite Fx, Fy in C2; exact C2].
Qed.

(** A case: the points (1/2, 1/2), (12, 12), (24, 24 + 2^-48), not on a line though all products round to the same. *)
Example C43_case : exists r, orient2d double_op (/ 2, / 2) (12, 12) (24, 24 + bpow radix2 (-48)) = Some r /\ 0 < r.
Proof.
  assert (O1 : ordinary (/ 2)). { apply C43_ordinary; [exists 1%Z, (-1)%Z; split; [cbn; lra|lia]|right]. rewrite Rabs_pos_eq by lra. split; cbn; lra. }
  assert (O2 : ordinary 12). { apply C43_ordinary; [exists 12%Z, 0%Z; split; [cbn; lra|lia]|right]. rewrite Rabs_pos_eq by lra. split; [cbn; lra|apply Rle_trans with (bpow radix2 4); [cbn; lra|apply bpow_le; lia]]. }
  assert (O3 : ordinary 24). { apply C43_ordinary; [exists 24%Z, 0%Z; split; [cbn; lra|lia]|right]. rewrite Rabs_pos_eq by lra. split; [cbn; lra|apply Rle_trans with (bpow radix2 5); [cbn; lra|apply bpow_le; lia]]. }
  assert (O4 : ordinary (24 + bpow radix2 (-48))). { apply C43_ordinary; [exists 6755399441055745%Z, (-48)%Z; split; [cbn; lra|lia]|right]. rewrite Rabs_pos_eq by (cbn; lra). split; [cbn; lra|apply Rle_trans with (bpow radix2 5); [cbn; lra|apply bpow_le; lia]]. }
  destruct (C43_double_orient2d (/ 2, / 2) (12, 12) (24, 24 + bpow radix2 (-48)) (conj O1 O1) (conj O2 O2) (conj O3 O4)) as (r & E & S & _). exists r. split; [exact E|]. apply S. unfold det2. cbn [fst snd]. pose proof (bpow_gt_0 radix2 (-48)). lra.
Qed.

(** Underflow does have to be excluded: for the triangle (2^-600, 0), (0, 2^-600), (0, 0) double precision returns zero. *)
Theorem C43_underflow_excluded : let t := bpow radix2 (-600) in float2 (t, 0) /\ float2 (0, t) /\ float2 (0, 0) /\ orient2d gradual_op (t, 0) (0, t) (0, 0) = Some 0 /\ 0 < det2 (t, 0) (0, t) (0, 0).
Proof.
  cbv zeta. set (t := bpow radix2 (-600)). assert (T : is_float t) by (exists 1%Z, (-600)%Z; split; [unfold t; ring|lia]). assert (Z : is_float 0) by (exists 0%Z, 0%Z; split; [ring|lia]).
  split; [split; assumption|]. split; [split; assumption|]. split; [split; assumption|]. pose proof (bpow_gt_0 radix2 (-600)) as P. fold t in P. split; [|unfold det2; cbn [fst snd]; rewrite !Rminus_0_r; nra].
  assert (R0 : RT (-1074) 0 = 0) by (apply round_0; auto with typeclass_instances).
  assert (Rt : RT (-1074) t = t) by (apply round_generic; [auto with typeclass_instances|apply generic_format_bpow; unfold FLT_exp; lia]).
  assert (Rtt : RT (-1074) (t * t) = 0). { unfold t. rewrite <- bpow_plus. apply (round_N_small_pos radix2 (FLT_exp (-1074) 53) _ _ (-1199)); [split; [apply bpow_le; lia|apply bpow_lt; lia]|unfold FLT_exp; lia]. }
  unfold orient2d, gradual_op. rewrite !Rminus_0_r. cbn [bind]. rewrite Rt, R0. cbn [bind]. rewrite Rtt. cbn [bind]. rewrite !Rmult_0_l, R0. cbn [bind]. rewrite Rminus_0_r, R0. cbv zeta. unfold ltb.
  rewrite (Rlt_bool_false 0 0) by lra. reflexivity.
Qed.
