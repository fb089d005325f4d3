(** Exactness of the binary32 ancestor computation of bvh.cpp below 2^24 (and its failure
    above). *)
From Coq Require Import ZArith Reals Lia Lra Psatz.
From Flocq Require Import Core BinarySingleNaN.
From Verif Require Import Vec BvhModel.
Open Scope Z_scope.

Local Notation fexp32 := (SpecFloat.fexp 24 128).

Lemma fmt32 (m e : Z) :
  Z.abs m <= 2 ^ 24 -> -149 <= e -> generic_format radix2 fexp32 (IZR m * bpow radix2 e).
Proof.
  intros Hm He.
  apply (generic_format_FLT radix2 (-149) 24).
  destruct (Z.eq_dec (Z.abs m) (2 ^ 24)) as [E | N].
  - assert (Hc : m = 2 * (m / 2)) by (destruct (Z.abs_eq_or_opp m) as [A | A];
      rewrite A in E; [subst m | replace m with (- 2 ^ 24) by lia]; reflexivity).
    apply (FLT_spec radix2 (-149) 24 _ (Float radix2 (m / 2) (e + 1))); cbn [Fnum Fexp].
    + unfold F2R; cbn [Fnum Fexp]. rewrite bpow_plus. rewrite Hc at 1. rewrite mult_IZR.
      change (bpow radix2 1) with (IZR 2). ring.
    + change (radix2 ^ 24)%Z with (2 ^ 24)%Z. lia.
    + lia.
  - apply (FLT_spec radix2 (-149) 24 _ (Float radix2 m e)); cbn [Fnum Fexp].
    + reflexivity.
    + change (radix2 ^ 24)%Z with (2 ^ 24)%Z. lia.
    + lia.
Qed.

Lemma small32 (m e : Z) :
  Z.abs m <= 2 ^ 24 -> e <= 100 -> (Rabs (IZR m * bpow radix2 e) < bpow radix2 128)%R.
Proof.
  intros Hm He. rewrite Rabs_mult, <- abs_IZR, (Rabs_pos_eq (bpow radix2 e)) by apply bpow_ge_0.
  apply Rle_lt_trans with (IZR (2 ^ 24) * bpow radix2 100)%R.
  - apply Rmult_le_compat.
    + apply IZR_le; lia.
    + apply bpow_ge_0.
    + apply IZR_le; lia.
    + apply bpow_le; lia.
  - change (IZR (2 ^ 24)) with (bpow radix2 24). rewrite <- bpow_plus. apply bpow_lt; lia.
Qed.

(** [f] is finite with value [m * 2^e] *)
Definition repf (f : b32) (m e : Z) : Prop :=
  is_finite f = true /\ B2R f = (IZR m * bpow radix2 e)%R.

Lemma repf_of_int z : Z.abs z <= 2 ^ 24 -> repf (f32_of_int z) z 0.
Proof.
  intros Hz. unfold f32_of_int.
  pose proof (binary_normalize_correct 24 128 Hprec32 Hmax32 mode_NE z 0 false) as H.
  cbv zeta in H. cbn [round_mode] in H.
  assert (E : F2R (Float radix2 z 0) = (IZR z * bpow radix2 0)%R) by reflexivity.
  rewrite E in H.
  rewrite round_generic in H; [| typeclasses eauto | apply fmt32; lia].
  rewrite Rlt_bool_true in H by (apply small32; lia).
  split; tauto.
Qed.

(** Powers of two of any size are exact too. *)
Lemma repf_pow2 d : 0 <= d <= 100 -> repf (f32_of_int (2 ^ d)) 1 d.
Proof.
  intros Hd. unfold f32_of_int.
  pose proof (binary_normalize_correct 24 128 Hprec32 Hmax32 mode_NE (2 ^ d) 0 false) as H.
  cbv zeta in H. cbn [round_mode] in H.
  assert (E : F2R (Float radix2 (2 ^ d) 0) = (IZR 1 * bpow radix2 d)%R).
  { unfold F2R; cbn [Fnum Fexp]. change 2 with (radix_val radix2).
    rewrite (IZR_Zpower radix2) by lia. change (bpow radix2 0) with 1%R. ring. }
  rewrite E in H.
  rewrite round_generic in H; [| typeclasses eauto | apply fmt32; lia].
  rewrite Rlt_bool_true in H by (apply small32; lia).
  split; tauto.
Qed.

Lemma repf_div x y m d :
  repf x m 0 -> repf y 1 d -> Z.abs m <= 2 ^ 24 -> 0 <= d <= 100 ->
  repf (f32_div x y) m (- d).
Proof.
  intros [Fx Vx] [Fy Vy] Hm Hd. unfold f32_div.
  assert (Hy0 : B2R y <> 0%R).
  { rewrite Vy. rewrite Rmult_1_l. apply Rgt_not_eq, bpow_gt_0. }
  pose proof (Bdiv_correct 24 128 Hprec32 Hmax32 mode_NE x y Hy0) as H.
  cbn [round_mode] in H.
  assert (E : (B2R x / B2R y = IZR m * bpow radix2 (- d))%R).
  { rewrite Vx, Vy, bpow_opp. change (bpow radix2 0) with 1%R. field. apply Rgt_not_eq, bpow_gt_0. }
  rewrite E in H.
  rewrite round_generic in H; [| typeclasses eauto | apply fmt32; lia].
  rewrite Rlt_bool_true in H by (apply small32; lia).
  destruct H as [H1 [H2 _]]. split; [rewrite H2; exact Fx | exact H1].
Qed.

Lemma repf_add x y m n e :
  repf x m e -> repf y n e -> Z.abs (m + n) <= 2 ^ 24 -> -149 <= e <= 100 ->
  repf (f32_add x y) (m + n) e.
Proof.
  intros [Fx Vx] [Fy Vy] Hm Hd. unfold f32_add.
  pose proof (Bplus_correct 24 128 Hprec32 Hmax32 mode_NE x y Fx Fy) as H.
  cbn [round_mode] in H.
  assert (E : (B2R x + B2R y = IZR (m + n) * bpow radix2 e)%R).
  { rewrite Vx, Vy, plus_IZR. ring. }
  rewrite E in H.
  rewrite round_generic in H; [| typeclasses eauto | apply fmt32; lia].
  rewrite Rlt_bool_true in H by (apply small32; lia).
  split; tauto.
Qed.

Lemma repf_sub1 x m d :
  repf x m (- d) -> Z.abs (m - 2 ^ d) <= 2 ^ 24 -> 0 <= d <= 100 ->
  repf (f32_sub x (f32_of_int 1)) (m - 2 ^ d) (- d).
Proof.
  intros [Fx Vx] Hm Hd. unfold f32_sub.
  destruct (repf_of_int 1 ltac:(lia)) as [F1 V1].
  pose proof (Bminus_correct 24 128 Hprec32 Hmax32 mode_NE x (f32_of_int 1) Fx F1) as H.
  cbn [round_mode] in H.
  assert (E : (B2R x - B2R (f32_of_int 1) = IZR (m - 2 ^ d) * bpow radix2 (- d))%R).
  { rewrite Vx, V1, minus_IZR. change (2 ^ d)%Z with (radix_val radix2 ^ d)%Z.
    rewrite (IZR_Zpower radix2) by lia. rewrite Rmult_minus_distr_r, <- bpow_plus.
    replace (d + - d) with 0 by lia. change (bpow radix2 0) with 1%R. ring. }
  rewrite E in H.
  rewrite round_generic in H; [| typeclasses eauto | apply fmt32; lia].
  rewrite Rlt_bool_true in H by (apply small32; lia).
  split; tauto.
Qed.

Lemma repf_trunc x m d :
  repf x m (- d) -> 0 <= m -> 0 <= d -> @Btrunc 24 128 x = m / 2 ^ d.
Proof.
  intros [Fx Vx] Hm Hd.
  pose proof (Btrunc_correct 24 128 Hmax32 x) as H.
  apply eq_IZR. rewrite H, Vx.
  rewrite round_FIX_IZR.
  f_equal. rewrite Ztrunc_floor.
  - rewrite bpow_opp. change (bpow radix2 d) with (bpow radix2 d).
    rewrite <- (IZR_Zpower radix2) by lia.
    change (radix_val radix2) with 2.
    change (IZR m * / IZR (2 ^ d))%R with (IZR m / IZR (2 ^ d))%R.
    apply Zfloor_div. apply Z.pow_nonzero; lia.
  - apply Rmult_le_pos; [apply IZR_le; lia | apply bpow_ge_0].
Qed.

Lemma shiftl_pow2 d : 0 <= d -> Z.shiftl 1 d = 2 ^ d.
Proof. intros H. rewrite Z.shiftl_mul_pow2 by lia. lia. Qed.

Lemma f32_ancestor_exact i d :
  0 <= d <= 100 -> 2 ^ d <= i + 1 <= 2 ^ 24 ->
  f32_ancestor i d = (i + 1) / 2 ^ d - 1.
Proof.
  intros Hd Hi. unfold f32_ancestor. rewrite shiftl_pow2 by lia.
  assert (Hp : 0 < 2 ^ d) by (apply Z.pow_pos_nonneg; lia).
  assert (R1 : repf (f32_div (f32_of_int 1) (f32_of_int (2 ^ d))) 1 (- d)).
  { apply repf_div; [apply repf_of_int; lia | apply repf_pow2; lia | lia | lia]. }
  assert (R2 : repf (f32_div (f32_of_int i) (f32_of_int (2 ^ d))) i (- d)).
  { apply repf_div; [apply repf_of_int; lia | apply repf_pow2; lia | lia | lia]. }
  pose proof (repf_add _ _ _ _ _ R1 R2 ltac:(lia) ltac:(lia)) as R3.
  pose proof (repf_sub1 _ _ _ R3 ltac:(lia) ltac:(lia)) as R4.
  rewrite (repf_trunc _ _ _ R4) by lia.
  replace (1 + i - 2 ^ d) with (i + 1 + (-1) * 2 ^ d) by ring.
  rewrite Z.div_add by lia. lia.
Qed.
