(** * The comparisons on bit patterns are the comparisons of the doubles *)

From Coq Require Import ZArith Reals Bool Lia Lra.
From Flocq Require Import Core IEEE754.Binary IEEE754.Bits.
From Verif Require Import ApiModel.
Local Open Scope Z_scope.

Definition zero64 : binary64 := B754_zero 53 1024 false.

(** The value of the double with the given bit pattern is at most zero. *)
Definition le_zero64 (x : binary64) : Prop :=
  x = B754_infinity 53 1024 true \/ (is_finite 53 1024 x = true /\ (B2R 53 1024 x <= 0)%R).

Definition gt_zero64 (x : binary64) : Prop :=
  x = B754_infinity 53 1024 false \/ (is_finite 53 1024 x = true /\ (0 < B2R 53 1024 x)%R).

Lemma bits_inv bits : 0 <= bits < 2 ^ 64 -> bits_of_b64 (b64_of_bits bits) = bits.
Proof.
  intro H. unfold bits_of_b64, b64_of_bits. apply bits_of_binary_float_of_bits.
  exact H.
Qed.

Lemma finite_mag s m e (H : SpecFloat.bounded 53 1024 m e = true) :
  let b := bits_of_b64 (B754_finite 53 1024 s m e H) in
  double_neg b = s /\ 0 < double_mag b < 9218868437227405312.
Proof.
  cbn zeta. unfold bits_of_b64, bits_of_binary_float.
  apply andb_prop in H as H'. destruct H' as [H1 H2].
  apply Z.leb_le in H2. change (1024 - 53) with 971 in H2.
  apply Zeq_bool_eq in H1.
  change (SpecFloat.fexp 53 1024 (Z.pos (SpecFloat.digits2_pos m) + e))
    with (Z.max (Z.pos (SpecFloat.digits2_pos m) + e - 53) (-1074)) in H1.
  change (SpecFloat.digits2_pos m) with (Digits.digits2_pos m) in H1.
  rewrite Zpos_digits2_pos in H1.
  assert (Z.pos m < 2 ^ 53) as Hm.
  { pose proof (Zdigits_correct radix2 (Z.pos m)) as [_ Hu].
    pose proof (Zdigits_ge_0 radix2 (Z.pos m)).
    apply Z.lt_le_trans with (2 ^ Zdigits radix2 (Z.pos m)); [exact Hu|].
    apply Z.pow_le_mono_r; lia. }
  assert (-1074 <= e) as He by lia.
  assert (2 ^ 52 <= Z.pos m \/ e = -1074) as Hn.
  { destruct (Z_le_gt_dec (2 ^ 52) (Z.pos m)); [auto|]. right.
    assert (Zdigits radix2 (Z.pos m) <= 52).
    { apply Zdigits_le_Zpower. cbn [Z.abs]. exact (Z.gt_lt _ _ g). }
    lia. }
  change (2 ^ 53) with 9007199254740992 in Hm.
  change (2 ^ 52) with 4503599627370496 in *.
  unfold join_bits.
  change (Z.pow_pos 2 52) with 4503599627370496.
  cbv zeta.
  destruct (Z.leb_spec 0 (Z.pos m - 4503599627370496)) as [L|L].
  - rewrite Z.shiftl_mul_pow2 by lia. change (2 ^ 52) with 4503599627370496.
    unfold double_neg, double_mag. change (2 ^ 11) with 2048.
    change (SpecFloat.emin (52 + 1) (2 ^ (11 - 1))) with (-1074).
    destruct s.
    + assert (((2048 + (e - -1074 + 1)) * 4503599627370496 + (Z.pos m - 4503599627370496))
              mod 9223372036854775808
              = (e + 1075) * 4503599627370496 + (Z.pos m - 4503599627370496)) as ->.
      { symmetry. apply Z.mod_unique with 1; lia. }
      split; [apply Z.leb_le; lia|lia].
    + rewrite Z.mod_small by lia. split; [apply Z.leb_gt; lia|lia].
  - destruct Hn as [Hn|Hn]; [lia|]. subst e.
    rewrite Z.shiftl_mul_pow2 by lia. change (2 ^ 52) with 4503599627370496.
    unfold double_neg, double_mag. change (2 ^ 11) with 2048.
    destruct s.
    + assert (((2048 + 0) * 4503599627370496 + Z.pos m) mod 9223372036854775808 = Z.pos m) as ->.
      { symmetry. apply Z.mod_unique with 1; lia. }
      split; [apply Z.leb_le; lia|lia].
    + rewrite Z.mod_small by lia. split; [apply Z.leb_gt; lia|lia].
Qed.

(** [double_le_zero] is "the double is at most zero" (false for NaN). *)
Lemma double_le_zero_spec bits : 0 <= bits < 2 ^ 64 ->
  double_le_zero bits = true <-> le_zero64 (b64_of_bits bits).
Proof.
  intro H. pose proof (bits_inv _ H) as E. unfold le_zero64.
  destruct (b64_of_bits bits) as [s|s|s pl Hpl|s m e Hb] eqn:Ex.
  - rewrite <- E. destruct s; cbn; (split; [intros _; right; split; [reflexivity|lra]|reflexivity]).
  - rewrite <- E. destruct s; cbn.
    + split; [auto|reflexivity].
    + split; [discriminate|]. intros [K|[K _]]; discriminate.
  - split; [|intros [K|[K _]]; discriminate]. intro K. exfalso.
    unfold double_le_zero in K. apply andb_prop in K. destruct K as [K _].
    apply negb_true_iff, Z.ltb_ge in K.
    assert (9218868437227405312 < double_mag bits) as L; [|lia].
    rewrite <- E. unfold bits_of_b64, bits_of_binary_float, join_bits, double_mag.
    rewrite Z.shiftl_mul_pow2 by lia.
    change (2 ^ 52) with 4503599627370496. change (2 ^ 11) with 2048.
    pose proof Hpl as Hq. unfold nan_pl in Hq. apply Z.ltb_lt in Hq.
    change (SpecFloat.digits2_pos pl) with (Digits.digits2_pos pl) in Hq.
    assert (Z.pos pl < 4503599627370496) as Hp.
    { change 4503599627370496 with (2 ^ 52).
      rewrite Zpos_digits2_pos in Hq.
      pose proof (Zdigits_correct radix2 (Z.pos pl)) as [_ Hu].
      apply Z.lt_le_trans with (2 ^ Zdigits radix2 (Z.pos pl)); [exact Hu|].
      apply Z.pow_le_mono_r; lia. }
    destruct s.
    + replace (((2048 + (2048 - 1)) * 4503599627370496 + Z.pos pl) mod 9223372036854775808)
        with (2047 * 4503599627370496 + Z.pos pl); [lia|].
      apply Z.mod_unique with 1; lia.
    + rewrite Z.mod_small by lia. lia.
  - destruct (finite_mag s m e Hb) as [F1 F2]. rewrite E in F1, F2.
    unfold double_le_zero, double_is_nan. rewrite F1.
    replace (9218868437227405312 <? double_mag bits) with false by (symmetry; apply Z.ltb_ge; lia).
    replace (double_mag bits =? 0) with false by (symmetry; apply Z.eqb_neq; lia).
    cbn [negb andb]. rewrite orb_false_r.
    destruct s.
    + split; [intros _; right; split; [reflexivity|]|reflexivity].
      cbn [B2R]. apply Rlt_le, F2R_lt_0. reflexivity.
    + split; [discriminate|]. intros [K|[_ K]]; [discriminate|].
      cbn [B2R] in K. exfalso. apply (Rle_not_lt _ _ K). apply F2R_gt_0. reflexivity.
Qed.

Lemma double_is_nan_spec bits : 0 <= bits < 2 ^ 64 ->
  double_is_nan bits = is_nan 53 1024 (b64_of_bits bits).
Proof.
  intro H. pose proof (bits_inv _ H) as E.
  destruct (b64_of_bits bits) as [s|s|s pl Hpl|s m e Hb] eqn:Ex.
  - rewrite <- E. destruct s; reflexivity.
  - rewrite <- E. destruct s; reflexivity.
  - cbn [is_nan]. apply Z.ltb_lt. rewrite <- E.
    unfold bits_of_b64, bits_of_binary_float, join_bits, double_mag.
    rewrite Z.shiftl_mul_pow2 by lia.
    change (2 ^ 52) with 4503599627370496. change (2 ^ 11) with 2048.
    pose proof Hpl as Hq. unfold nan_pl in Hq. apply Z.ltb_lt in Hq.
    change (SpecFloat.digits2_pos pl) with (Digits.digits2_pos pl) in Hq.
    assert (Z.pos pl < 4503599627370496) as Hp.
    { change 4503599627370496 with (2 ^ 52).
      rewrite Zpos_digits2_pos in Hq.
      pose proof (Zdigits_correct radix2 (Z.pos pl)) as [_ Hu].
      apply Z.lt_le_trans with (2 ^ Zdigits radix2 (Z.pos pl)); [exact Hu|].
      apply Z.pow_le_mono_r; lia. }
    destruct s.
    + replace (((2048 + (2048 - 1)) * 4503599627370496 + Z.pos pl) mod 9223372036854775808)
        with (2047 * 4503599627370496 + Z.pos pl); [lia|].
      apply Z.mod_unique with 1; lia.
    + rewrite Z.mod_small by lia. lia.
  - destruct (finite_mag s m e Hb) as [F1 F2]. rewrite E in F2.
    cbn [is_nan]. apply Z.ltb_ge. lia.
Qed.

Lemma le_val_range bs :
  List.Forall (fun b => 0 <= b < 256) bs -> 0 <= le_val bs < 256 ^ Z.of_nat (length bs).
Proof.
  induction 1 as [|b r Hb HF IH]; [cbn; lia|].
  cbn [le_val length]. rewrite Nat2Z.inj_succ, Z.pow_succ_r by lia. lia.
Qed.
