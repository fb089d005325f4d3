(** Morton codes. *)
From Coq Require Import List ZArith Lia Bool Reals Lra.
From Coq Require Import ZifyBool.
From Flocq Require Import Core BinarySingleNaN.
From Verif Require Import Vec VecLemmas BvhModel BvhFloat BvhSpec.
Import ListNotations.
Open Scope Z_scope.

(** ** expandBits: finite sweep over the 1024 inputs *)

Definition expand_check (v : Z) : bool :=
  (0 <=? expandBits v) && (expandBits v <? 2 ^ 28) &&
  forallb (fun k => Bool.eqb (Z.testbit (expandBits v) (3 * k)) (Z.testbit v k) &&
                    negb (Z.testbit (expandBits v) (3 * k + 1)) &&
                    negb (Z.testbit (expandBits v) (3 * k + 2))) (zrange 10).

Lemma expand_sweep : forallb expand_check (zrange 1024) = true.
Proof. vm_compute. reflexivity. Qed.

Lemma expandBits_spec v : 0 <= v < 1024 ->
  0 <= expandBits v < 2 ^ 28 /\
  forall k, 0 <= k < 10 ->
    Z.testbit (expandBits v) (3 * k) = Z.testbit v k /\
    Z.testbit (expandBits v) (3 * k + 1) = false /\
    Z.testbit (expandBits v) (3 * k + 2) = false.
Proof.
  intros H. pose proof expand_sweep as S. rewrite forallb_forall in S.
  specialize (S v (proj2 (In_zrange 1024 v) H)). unfold expand_check in S.
  rewrite !andb_true_iff in S. destruct S as [[A B] C]. split; [lia|].
  intros k Hk. rewrite forallb_forall in C. specialize (C k (proj2 (In_zrange 10 k) Hk)).
  rewrite !andb_true_iff, !negb_true_iff, Bool.eqb_true_iff in C. tauto.
Qed.

(** ** adding the three shifted expansions is a bitwise or *)

Lemma land_0_add a b : Z.land a b = 0 -> a + b = Z.lor a b.
Proof. intros H. rewrite <- Z.lxor_lor by exact H. apply Z.add_nocarry_lxor. exact H. Qed.

Lemma testbit_div3 i : 0 <= i -> exists k r, i = 3 * k + r /\ 0 <= k /\ (r = 0 \/ r = 1 \/ r = 2).
Proof.
  intros H. exists (i / 3), (i mod 3). pose proof (Z.div_mod i 3). pose proof (Z.mod_pos_bound i 3).
  pose proof (Z.div_pos i 3). lia.
Qed.

Lemma expand_bit_high v i : 0 <= v < 1024 -> 28 <= i -> Z.testbit (expandBits v) i = false.
Proof.
  intros H Hi. destruct (expandBits_spec v H) as [[L U] _].
  destruct (Z.eq_dec (expandBits v) 0) as [E | N]; [rewrite E; apply Z.bits_0|].
  apply Z.bits_above_log2; [exact L|].
  assert (Z.log2 (expandBits v) < 28) by (apply Z.log2_lt_pow2; lia). lia.
Qed.

Lemma morton_combine x y z :
  0 <= x < 1024 -> 0 <= y < 1024 -> 0 <= z < 1024 ->
  interleaves x y z (u32 (u32 (expandBits x * 4) + u32 (expandBits y * 2) + expandBits z)).
Proof.
  intros Hx Hy Hz.
  destruct (expandBits_spec x Hx) as [Rx Bx]. destruct (expandBits_spec y Hy) as [Ry By].
  destruct (expandBits_spec z Hz) as [Rz Bz].
  set (a := expandBits x) in *. set (b := expandBits y) in *. set (c := expandBits z) in *.
  assert (U4 : u32 (a * 4) = a * 4) by (unfold u32; apply Z.mod_small; lia).
  assert (U2 : u32 (b * 2) = b * 2) by (unfold u32; apply Z.mod_small; lia).
  rewrite U4, U2.
  replace (a * 4) with (Z.shiftl a 2) by (rewrite Z.shiftl_mul_pow2 by lia; lia).
  replace (b * 2) with (Z.shiftl b 1) by (rewrite Z.shiftl_mul_pow2 by lia; lia).
  assert (Ha : forall i, 0 <= i -> (exists k, i = 3 * k) \/ Z.testbit a i = false).
  { intros i Hi. destruct (Z_lt_le_dec i 28) as [L | L]; [|right; apply expand_bit_high; lia].
    destruct (testbit_div3 i Hi) as (k & r & -> & Hk & Hr).
    assert (Hk10 : 0 <= k < 10) by lia.
    destruct Hr as [-> | [-> | ->]]; [left; exists k; lia | right | right]; apply Bx; lia. }
  assert (Hb : forall i, 0 <= i -> (exists k, i = 3 * k) \/ Z.testbit b i = false).
  { intros i Hi. destruct (Z_lt_le_dec i 28) as [L | L]; [|right; apply expand_bit_high; lia].
    destruct (testbit_div3 i Hi) as (k & r & -> & Hk & Hr).
    destruct Hr as [-> | [-> | ->]]; [left; exists k; lia | right | right]; apply By; lia. }
  assert (Hc : forall i, 0 <= i -> (exists k, i = 3 * k) \/ Z.testbit c i = false).
  { intros i Hi. destruct (Z_lt_le_dec i 28) as [L | L]; [|right; apply expand_bit_high; lia].
    destruct (testbit_div3 i Hi) as (k & r & -> & Hk & Hr).
    destruct Hr as [-> | [-> | ->]]; [left; exists k; lia | right | right]; apply Bz; lia. }
  assert (S2 : forall i, Z.testbit (Z.shiftl a 2) i = if i <? 2 then false else Z.testbit a (i - 2)).
  { intros i. destruct (Z.ltb_spec i 2).
    - destruct (Z_lt_le_dec i 0); [apply Z.testbit_neg_r; lia|].
      rewrite Z.shiftl_spec by lia. apply Z.testbit_neg_r; lia.
    - apply Z.shiftl_spec; lia. }
  assert (S1 : forall i, Z.testbit (Z.shiftl b 1) i = if i <? 1 then false else Z.testbit b (i - 1)).
  { intros i. destruct (Z.ltb_spec i 1).
    - destruct (Z_lt_le_dec i 0); [apply Z.testbit_neg_r; lia|].
      rewrite Z.shiftl_spec by lia. apply Z.testbit_neg_r; lia.
    - apply Z.shiftl_spec; lia. }
  assert (L1 : Z.land (Z.shiftl a 2) (Z.shiftl b 1) = 0).
  { apply Z.bits_inj'. intros i Hi. rewrite Z.land_spec, Z.bits_0, S2, S1.
    destruct (Z.ltb_spec i 2); [reflexivity|]. destruct (Z.ltb_spec i 1); [lia|].
    destruct (Ha (i - 2) ltac:(lia)) as [[k Ek] | ->]; [|reflexivity].
    destruct (Hb (i - 1) ltac:(lia)) as [[k' Ek'] | ->]; [lia | apply andb_false_r]. }
  rewrite (land_0_add _ _ L1).
  assert (L2 : Z.land (Z.lor (Z.shiftl a 2) (Z.shiftl b 1)) c = 0).
  { apply Z.bits_inj'. intros i Hi. rewrite Z.land_spec, Z.lor_spec, Z.bits_0, S2, S1.
    destruct (Hc i Hi) as [[k Ek] | ->]; [|apply andb_false_r].
    assert (E1 : (if i <? 2 then false else Z.testbit a (i - 2)) = false).
    { destruct (Z.ltb_spec i 2); [reflexivity|]. destruct (Ha (i - 2) ltac:(lia)) as [[k' Ek'] | ->]; [lia | reflexivity]. }
    assert (E2 : (if i <? 1 then false else Z.testbit b (i - 1)) = false).
    { destruct (Z.ltb_spec i 1); [reflexivity|]. destruct (Hb (i - 1) ltac:(lia)) as [[k' Ek'] | ->]; [lia | reflexivity]. }
    rewrite E1, E2. reflexivity. }
  assert (R : 0 <= Z.lor (Z.shiftl a 2) (Z.shiftl b 1) + c < 2 ^ 31).
  { rewrite <- (land_0_add _ _ L1). rewrite !Z.shiftl_mul_pow2 by lia. lia. }
  unfold u32. rewrite Z.mod_small by lia.
  rewrite (land_0_add _ _ L2) in *.
  set (code := Z.lor (Z.lor (Z.shiftl a 2) (Z.shiftl b 1)) c) in *.
  assert (T : forall i, Z.testbit code i =
     ((if i <? 2 then false else Z.testbit a (i - 2)) || (if i <? 1 then false else Z.testbit b (i - 1)) || Z.testbit c i)%bool).
  { intros i. unfold code. rewrite !Z.lor_spec, S2, S1. reflexivity. }
  split.
  - split; [lia|].
    destruct (Z.eq_dec code 0) as [-> | N]; [lia|].
    destruct (Z_lt_le_dec code (2 ^ 30)) as [L | L]; [exact L|]. exfalso.
    assert (Z.log2 code = 30).
    { apply Z.log2_unique; [lia|]. change (2 ^ Z.succ 30) with (2 ^ 31). lia. }
    pose proof (Z.bit_log2 code ltac:(lia)) as B. rewrite H, T in B.
    change (30 <? 2) with false in B. change (30 <? 1) with false in B. cbv iota in B.
    unfold a, b, c in B. rewrite !expand_bit_high in B by lia. discriminate.
  - intros k Hk. rewrite !T.
    assert (Ea0 : Z.testbit a (3 * k) = Z.testbit x k) by (apply Bx; lia).
    assert (Eb0 : Z.testbit b (3 * k) = Z.testbit y k) by (apply By; lia).
    assert (Ec0 : Z.testbit c (3 * k) = Z.testbit z k) by (apply Bz; lia).
    repeat split.
    + destruct (Z.ltb_spec (3 * k + 2) 2); [lia|]. destruct (Z.ltb_spec (3 * k + 2) 1); [lia|].
      replace (3 * k + 2 - 2) with (3 * k) by lia. replace (3 * k + 2 - 1) with (3 * k + 1) by lia.
      rewrite Ea0. destruct (By k Hk) as (_ & -> & _). destruct (Bz k Hk) as (_ & _ & ->).
      rewrite !orb_false_r. reflexivity.
    + destruct (Z.ltb_spec (3 * k + 1) 1); [lia|].
      replace (3 * k + 1 - 1) with (3 * k) by lia. rewrite Eb0. destruct (Bz k Hk) as (_ & -> & _).
      rewrite orb_false_r.
      destruct (Z.ltb_spec (3 * k + 1) 2); [reflexivity|].
      destruct (Ha (3 * k + 1 - 2) ltac:(lia)) as [[k' E] | ->]; [lia | reflexivity].
    + rewrite Ec0.
      assert (E1 : (if 3 * k <? 2 then false else Z.testbit a (3 * k - 2)) = false).
      { destruct (Z.ltb_spec (3 * k) 2); [reflexivity|]. destruct (Ha (3 * k - 2) ltac:(lia)) as [[k' E] | ->]; [lia | reflexivity]. }
      assert (E2 : (if 3 * k <? 1 then false else Z.testbit b (3 * k - 1)) = false).
      { destruct (Z.ltb_spec (3 * k) 1); [reflexivity|]. destruct (Hb (3 * k - 1) ltac:(lia)) as [[k' E] | ->]; [lia | reflexivity]. }
      rewrite E1, E2. reflexivity.
Qed.

(** ** The clamp *)

Lemma fmax_not_nan a b : is_nan a = false -> is_nan b = false ->
  f32_fmax a b = if f32_lt b a then a else b.
Proof. destruct a, b; cbn; intros; try discriminate; reflexivity. Qed.
Lemma fmin_not_nan a b : is_nan a = false -> is_nan b = false ->
  f32_fmin a b = if f32_lt a b then a else b.
Proof. destruct a, b; cbn; intros; try discriminate; reflexivity. Qed.

Lemma f32_lt_finite a b : is_finite a = true -> is_finite b = true ->
  f32_lt a b = true <-> (B2R a < B2R b)%R.
Proof.
  intros Ha Hb. unfold f32_lt. rewrite Bcompare_correct by assumption.
  destruct (Rcompare_spec (B2R a) (B2R b)); split; intros; try discriminate; try lra; reflexivity.
Qed.

Lemma finite_not_nan (a : b32) : is_finite a = true -> is_nan a = false.
Proof. destruct a; cbn; congruence. Qed.

Lemma int_val z : Z.abs z <= 2 ^ 24 -> is_finite (f32_of_int z) = true /\ B2R (f32_of_int z) = IZR z.
Proof.
  intros H. destruct (repf_of_int z H) as [F V]. split; [exact F|]. rewrite V. cbn. ring.
Qed.

Lemma trunc_floor (a : b32) : (0 <= B2R a)%R -> @Btrunc 24 128 a = Zfloor (B2R a).
Proof.
  intros H. pose proof (Btrunc_correct 24 128 Hmax32 a) as T. rewrite round_FIX_IZR in T.
  apply eq_IZR in T. rewrite T. apply Ztrunc_floor. exact H.
Qed.

Lemma to_u32_finite (a : b32) : is_finite a = true -> (0 <= B2R a < 1024)%R ->
  f32_to_u32 a = Some (Zfloor (B2R a)).
Proof.
  intros F H.
  assert (Z0 : 0 <= Zfloor (B2R a)) by (apply Zfloor_lub; cbn; lra).
  assert (Z1 : Zfloor (B2R a) < 1024).
  { apply lt_IZR. eapply Rle_lt_trans; [apply Zfloor_lb | cbn; lra]. }
  unfold f32_to_u32. rewrite trunc_floor by lra.
  destruct (Z.leb_spec 0 (Zfloor (B2R a))); [|lia].
  destruct (Z.ltb_spec (Zfloor (B2R a)) (2 ^ 32)); [|lia]. cbn [andb].
  destruct a; cbn in F; try discriminate; reflexivity.
Qed.

Lemma clamp_finite (y : b32) : is_finite y = true ->
  f32_to_u32 (f32_fmin (f32_fmax y (f32_of_int 0)) (f32_of_int 1023))
  = Some (Z.max 0 (Z.min 1023 (Zfloor (B2R y)))).
Proof.
  intros F. destruct (int_val 0 ltac:(lia)) as [F0 V0]. destruct (int_val 1023 ltac:(lia)) as [F1 V1].
  rewrite fmax_not_nan by (apply finite_not_nan; assumption).
  destruct (f32_lt (f32_of_int 0) y) eqn:L0.
  - apply f32_lt_finite in L0; try assumption. rewrite V0 in L0.
    rewrite fmin_not_nan by (apply finite_not_nan; assumption).
    destruct (f32_lt y (f32_of_int 1023)) eqn:L1.
    + apply f32_lt_finite in L1; try assumption. rewrite V1 in L1.
      rewrite to_u32_finite by (try assumption; lra). f_equal.
      assert (0 <= Zfloor (B2R y)) by (apply Zfloor_lub; cbn; lra).
      assert (Zfloor (B2R y) <= 1023).
      { apply le_IZR. eapply Rle_trans; [apply Zfloor_lb | lra]. }
      lia.
    + assert (~ (B2R y < 1023)%R).
      { rewrite <- V1. intros H. apply f32_lt_finite in H; try assumption. congruence. }
      rewrite to_u32_finite by (try assumption; rewrite V1; lra). f_equal. rewrite V1, Zfloor_IZR.
      assert (1023 <= Zfloor (B2R y)) by (apply Zfloor_lub; lra). lia.
  - assert (~ (0 < B2R y)%R).
    { rewrite <- V0. intros H. apply f32_lt_finite in H; try assumption. congruence. }
    rewrite fmin_not_nan by (apply finite_not_nan; assumption).
    destruct (f32_lt (f32_of_int 0) (f32_of_int 1023)) eqn:L1.
    + rewrite to_u32_finite by (try assumption; rewrite V0; lra). f_equal. rewrite V0, Zfloor_IZR.
      assert (Zfloor (B2R y) <= 0).
      { apply le_IZR. eapply Rle_trans; [apply Zfloor_lb | lra]. }
      lia.
    + exfalso. assert (f32_lt (f32_of_int 0) (f32_of_int 1023) = true); [|congruence].
      apply f32_lt_finite; try assumption. rewrite V0, V1. lra.
Qed.

Lemma clamp_overflow s :
  f32_to_u32 (f32_fmin (f32_fmax (B754_infinity s) (f32_of_int 0)) (f32_of_int 1023))
  = Some (if s then 0 else 1023).
Proof. destruct s; vm_compute; reflexivity. Qed.

(** the product by 1024 is exact or overflows *)
Lemma mul1024_exact (x : b32) : is_finite x = true ->
  round radix2 (SpecFloat.fexp 24 128) ZnearestE (B2R x * 1024) = (B2R x * 1024)%R.
Proof.
  intros F. apply round_generic; [typeclasses eauto|].
  assert (G : generic_format radix2 (SpecFloat.fexp 24 128) (B2R x)) by apply generic_format_B2R.
  change (SpecFloat.fexp 24 128) with (FLT_exp (-149) 24) in *.
  apply FLT_format_generic in G; [|exact Hprec32].
  destruct G as [f Ef Hf He].
  apply (generic_format_FLT radix2 (-149) 24).
  apply (FLT_spec radix2 (-149) 24 _ (Float radix2 (Fnum f) (Fexp f + 10))); cbn [Fnum Fexp]; [|exact Hf|lia].
  rewrite Ef. unfold F2R; cbn [Fnum Fexp]. rewrite bpow_plus. change (bpow radix2 10) with 1024%R. ring.
Qed.

Lemma clamp_quantised x : exists q, f32_to_u32 (morton_clamp x) = Some q /\ quantised x q /\ 0 <= q < 1024.
Proof.
  unfold morton_clamp.
  destruct (is_finite x) eqn:F.
  - destruct (int_val 1024 ltac:(lia)) as [F1 V1].
    pose proof (Bmult_correct 24 128 Hprec32 Hmax32 mode_NE x (f32_of_int 1024)) as M.
    cbn [round_mode] in M. rewrite V1 in M. rewrite mul1024_exact in M by exact F.
    fold f32_mul in M.
    assert (Q : quantised x (Z.max 0 (Z.min 1023 (Zfloor (B2R x * 1024))))).
    { destruct x; cbn in F; try discriminate; reflexivity. }
    destruct (Rlt_bool (Rabs (B2R x * 1024)) (bpow radix2 128)) eqn:O.
    + destruct M as (Mv & Mf & _). rewrite F, F1 in Mf. cbn [andb] in Mf.
      rewrite clamp_finite by exact Mf. change (@Bmult 24 128 Hprec32 Hmax32 mode_NE) with f32_mul in Mv.
      rewrite Mv. eexists. split; [reflexivity|]. split; [exact Q | lia].
    + change (@Bmult 24 128 Hprec32 Hmax32 mode_NE) with f32_mul in M.
      destruct (f32_mul x (f32_of_int 1024)) as [s|s| |s m e H] eqn:E; cbn [B2SF] in M; try discriminate.
      rewrite clamp_overflow. exists (if s then 0 else 1023). split; [reflexivity|].
      split; [|destruct s; lia].
      assert (Big : (bpow radix2 128 <= Rabs (B2R x * 1024))%R).
      { destruct (Rlt_bool_spec (Rabs (B2R x * 1024)) (bpow radix2 128)); [discriminate | assumption]. }
      assert (B1024 : (1024 <= bpow radix2 128)%R).
      { change 1024%R with (bpow radix2 10). apply bpow_le; lia. }
      injection M as Hs.
      assert (Sg : s = Bsign x).
      { rewrite Hs. replace (Bsign (f32_of_int 1024)) with false by (vm_compute; reflexivity). apply xorb_false_r. }
      destruct x as [sx|sx| |sx mx ex Hx]; cbn in F; try discriminate.
      cbn [quantised]. cbn [Bsign] in Sg. subst sx.
        destruct s.
        -- assert ((B2R (B754_finite true mx ex Hx) * 1024 <= 0)%R).
           { assert ((B2R (B754_finite true mx ex Hx) <= 0)%R); [|lra].
             cbn. apply Rlt_le. apply F2R_lt_0. reflexivity. }
           assert (Zfloor (B2R (B754_finite true mx ex Hx) * 1024) <= 0).
           { apply le_IZR. eapply Rle_trans; [apply Zfloor_lb | lra]. }
           lia.
        -- assert ((0 <= B2R (B754_finite false mx ex Hx) * 1024)%R).
           { assert ((0 <= B2R (B754_finite false mx ex Hx))%R); [|lra].
             cbn. apply Rlt_le. apply F2R_gt_0. reflexivity. }
           rewrite Rabs_pos_eq in Big by assumption.
           assert (1023 <= Zfloor (B2R (B754_finite false mx ex Hx) * 1024)) by (apply Zfloor_lub; cbn in *; lra).
           lia.
  - destruct x as [s|s| |s m e H]; cbn in F; try discriminate.
    + exists (if s then 0 else 1023). split; [destruct s; vm_compute; reflexivity|].
      split; [reflexivity | destruct s; lia].
    + exists 0. split; [vm_compute; reflexivity|]. split; [reflexivity | lia].
Qed.

Theorem morton3D_spec x y z :
  exists qx qy qz code,
    morton3D x y z = Some code /\
    quantised x qx /\ quantised y qy /\ quantised z qz /\
    0 <= qx < 1024 /\ 0 <= qy < 1024 /\ 0 <= qz < 1024 /\ interleaves qx qy qz code.
Proof.
  destruct (clamp_quantised x) as (qx & Ex & Qx & Rx).
  destruct (clamp_quantised y) as (qy & Ey & Qy & Ry).
  destruct (clamp_quantised z) as (qz & Ez & Qz & Rz).
  exists qx, qy, qz. unfold morton3D. rewrite Ex, Ey, Ez. cbn [obind].
  eexists. split; [reflexivity|].
  split; [exact Qx|]. split; [exact Qy|]. split; [exact Qz|].
  split; [exact Rx|]. split; [exact Ry|]. split; [exact Rz|].
  apply morton_combine; assumption.
Qed.

(** interleaving is injective *)
Lemma interleaves_inj qx qy qz px py pz code :
  0 <= qx < 1024 -> 0 <= qy < 1024 -> 0 <= qz < 1024 ->
  0 <= px < 1024 -> 0 <= py < 1024 -> 0 <= pz < 1024 ->
  interleaves qx qy qz code -> interleaves px py pz code -> qx = px /\ qy = py /\ qz = pz.
Proof.
  intros Hx Hy Hz Hx' Hy' Hz' [_ A] [_ B].
  assert (G : forall u v, 0 <= u < 1024 -> 0 <= v < 1024 ->
             (forall k, 0 <= k < 10 -> Z.testbit u k = Z.testbit v k) -> u = v).
  { intros u v Hu Hv H. apply Z.bits_inj'. intros k Hk.
    destruct (Z_lt_le_dec k 10) as [L | L]; [apply H; lia|].
    assert (Q : forall w, 0 <= w < 1024 -> Z.testbit w k = false).
    { intros w Hw. destruct (Z.eq_dec w 0) as [-> | N]; [apply Z.bits_0|].
      apply Z.bits_above_log2; [lia|]. assert (Z.log2 w < 10) by (apply Z.log2_lt_pow2; lia). lia. }
    rewrite !Q by assumption. reflexivity. }
  split; [|split]; apply G; try assumption; intros k Hk;
    destruct (A k Hk) as (A1 & A2 & A3); destruct (B k Hk) as (B1 & B2 & B3); congruence.
Qed.

Theorem morton3D_inj x y z x' y' z' code :
  morton3D x y z = Some code -> morton3D x' y' z' = Some code ->
  exists qx qy qz, quantised x qx /\ quantised x' qx /\ quantised y qy /\ quantised y' qy /\
                   quantised z qz /\ quantised z' qz.
Proof.
  intros H H'.
  destruct (morton3D_spec x y z) as (a & b & c & cd & E & Qa & Qb & Qc & Ra & Rb & Rc & I).
  destruct (morton3D_spec x' y' z') as (a' & b' & c' & cd' & E' & Qa' & Qb' & Qc' & Ra' & Rb' & Rc' & I').
  rewrite H in E. injection E as <-. rewrite H' in E'. injection E' as <-.
  destruct (interleaves_inj a b c a' b' c' code) as (-> & -> & ->); try assumption.
  exists a', b', c'. auto 10.
Qed.
