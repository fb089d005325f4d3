(** The error-free transformations: exact sums, differences and products of two numbers. *)
From Coq Require Import ZArith Reals Lra Lia Bool List.
From Flocq Require Import Core Relative Pff.Pff2Flocq.
From Verif Require Import ShewModel ShewGrid.
Import ListNotations.
Open Scope R_scope.

(** ** Without a smallest exponent *)
Notation RT emin := (round radix2 (FLT_exp emin 53) ZnearestE).

Lemma RT_RN emin x : x = 0 \/ bp (emin + 52) <= Rabs x -> RT emin x = RN x.
Proof.
  intros [-> | H]; [rewrite !round_0; auto with typeclass_instances|]. apply round_FLT_FLX. replace (emin + 53 - 1)%Z with (emin + 52)%Z by ring. exact H.
Qed.
Lemma far_below (x : R) : exists n, forall m, (m <= n)%Z -> x = 0 \/ bp (m + 200) <= Rabs x.
Proof.
  destruct (Req_dec x 0) as [E|N]; [exists 0%Z; auto|]. exists (mag radix2 x - 201)%Z. intros m H. right.
  apply Rle_trans with (bp (mag radix2 x - 1)); [apply bp_le; lia|apply bpow_mag_le, N].
Qed.
(** an exponent so small that it does not matter to finitely many numbers *)
Lemma emin_for (l : list R) : exists emin, (emin < 0)%Z /\ forall x, In x l -> x = 0 \/ bp (emin + 200) <= Rabs x.
Proof.
  assert (E : exists n, forall m, (m <= n)%Z -> forall x, In x l -> x = 0 \/ bp (m + 200) <= Rabs x).
  { induction l as [|a l (n & IH)]; [exists 0%Z; intros; contradiction|]. destruct (far_below a) as [k K].
    exists (Z.min n k). intros m H x [<- | I]; [apply K; lia|apply IH; [lia|exact I]]. }
  destruct E as [n E]. exists (Z.min n (-1)). split; [lia|]. apply E. lia.
Qed.
Lemma fmt_FLT emin x : fmt x -> x = 0 \/ bp (emin + 200) <= Rabs x -> generic_format radix2 (FLT_exp emin 53) x.
Proof.
  intros F [-> | H]; [apply generic_format_0|]. apply generic_format_FLT_FLX; [|exact F].
  apply Rle_trans with (2 := H). apply bp_le. lia.
Qed.
Lemma weaken200 emin x : x = 0 \/ bp (emin + 200) <= Rabs x -> x = 0 \/ bp (emin + 52) <= Rabs x.
Proof. intros [H|H]; [auto|right]. apply Rle_trans with (2 := H). apply bp_le. lia. Qed.
Lemma even_sym : forall x : Z, negb (Z.even x) = negb (negb (Z.even (- (x + 1)))).
Proof. intros x. rewrite Z.even_opp, Z.even_add. destruct (Z.even x); reflexivity. Qed.

Lemma fast_two_sum_R a b : fmt a -> fmt b -> Rabs b <= Rabs a -> RN (a + b) + RN (b - RN (RN (a + b) - a)) = a + b.
Proof.
  intros Fa Fb H.
  destruct (emin_for [a; b; a + b; a - RN (a + b); b + RN (a - RN (a + b))]) as (m & M & L).
  assert (C : forall x, In x [a + b; a - RN (a + b); b + RN (a - RN (a + b))] -> RT m x = RN x).
  { intros x I. apply RT_RN, weaken200, L. cbn [In] in *. tauto. }
  pose proof (Fast2Sum_correct m 53 (fun z => negb (Z.even z)) eq_refl (Z.lt_le_incl _ _ M) even_sym a b) as T.
  specialize (T (fmt_FLT m a Fa (L a (or_introl eq_refl))) (fmt_FLT m b Fb (L b (or_intror (or_introl eq_refl)))) H).
  rewrite (C (a + b)) in T by (cbn; tauto). rewrite (C (a - RN (a + b))) in T by (cbn; tauto). rewrite C in T by (cbn; tauto).
  replace (RN (a + b) - a) with (- (a - RN (a + b))) by ring. rewrite RN_opp. replace (b - - RN (a - RN (a + b))) with (b + RN (a - RN (a + b))) by ring. exact T.
Qed.

Lemma two_sum_R a b : fmt a -> fmt b ->
  let x := RN (a + b) in let bvirt := RN (x - a) in let avirt := RN (x - bvirt) in
  x + RN (RN (a - avirt) + RN (b - bvirt)) = a + b.
Proof.
  intros Fa Fb x bvirt avirt. unfold avirt, bvirt, x.
  set (l := [a; b; a + b; RN (a + b) - a; RN (a + b) - RN (RN (a + b) - a); a - RN (RN (a + b) - RN (RN (a + b) - a)); b - RN (RN (a + b) - a);
     RN (a - RN (RN (a + b) - RN (RN (a + b) - a))) + RN (b - RN (RN (a + b) - a))]).
  destruct (emin_for l) as (m & M & L).
  assert (C : forall x, In x l -> RT m x = RN x) by (intros y I; apply RT_RN, weaken200, L, I).
  pose proof (TwoSum_correct m 53 (fun z => negb (Z.even z)) eq_refl (Z.lt_le_incl _ _ M) even_sym a b) as T.
  specialize (T (fmt_FLT m a Fa (L a (or_introl eq_refl))) (fmt_FLT m b Fb (L b (or_intror (or_introl eq_refl))))).
  rewrite (C (a + b)) in T by (cbn; tauto). rewrite (C (RN (a + b) - a)) in T by (cbn; tauto). rewrite (C (b - RN (RN (a + b) - a))) in T by (cbn; tauto). rewrite (C (RN (a + b) - RN (RN (a + b) - a))) in T by (cbn; tauto).
  rewrite (C (a - RN (RN (a + b) - RN (RN (a + b) - a)))) in T by (cbn; tauto). rewrite C in T by (cbn; tauto). exact T.
Qed.

Lemma two_diff_R a b : fmt a -> fmt b ->
  let x := RN (a - b) in let bvirt := RN (a - x) in let avirt := RN (x + bvirt) in
  x + RN (RN (a - avirt) + RN (bvirt - b)) = a - b.
Proof.
  intros Fa Fb x bvirt avirt. pose proof (two_sum_R a (- b) Fa (fmt_opp b Fb)) as T. cbv zeta in T. change (a + - b) with (a - b) in T. fold x in T.
  assert (E : RN (x - a) = - bvirt) by (unfold bvirt; rewrite <- RN_opp; f_equal; ring). rewrite E in T.
  replace (x - - bvirt) with (x + bvirt) in T by ring. fold avirt in T. replace (- b - - bvirt) with (bvirt - b) in T by ring. exact T.
Qed.

Definition hi (a : R) : R := let c := RN ((bp 27 + 1) * a) in RN (c - RN (c - a)).
Definition lo (a : R) : R := RN (a - hi a).

Lemma two_product_R a b : fmt a -> fmt b ->
  let x := RN (a * b) in
  let err1 := RN (x - RN (hi a * hi b)) in let err2 := RN (err1 - RN (lo a * hi b)) in let err3 := RN (err2 - RN (hi a * lo b)) in
  x + RN (RN (lo a * lo b) - err3) = a * b.
Proof.
  intros Fa Fb x err1 err2 err3.
  destruct (Req_dec (a * b) 0) as [Z0|NZ].
  { assert (X0 : x = 0) by (unfold x; rewrite Z0; apply RN_0). unfold err3, err2, err1. rewrite X0, Z0.
    assert (H : hi a = 0 /\ lo a = 0 \/ hi b = 0 /\ lo b = 0).
    { assert (K : forall c, c = 0 -> hi c = 0 /\ lo c = 0).
      { intros c ->. unfold lo, hi. repeat (progress rewrite ?Rmult_0_r, ?Rminus_0_r, ?RN_0). auto. }
      apply Rmult_integral in Z0. destruct Z0; [left|right]; apply K; assumption. }
    destruct H as [[-> ->] | [-> ->]]; repeat (progress rewrite ?Rmult_0_l, ?Rmult_0_r, ?Rminus_0_r, ?RN_0); ring. }
  set (S c := c * (bp 27 + 1)).
  assert (HI : forall c, hi c = RN (RN (c - RN (S c)) + RN (S c))).
  { intros c. unfold hi. rewrite (Rmult_comm _ c). fold (S c). replace (RN (S c) - c) with (- (c - RN (S c))) by ring. rewrite RN_opp. f_equal. ring. }
  set (t1 := RN (- x + RN (hi b * hi a))). set (t2 := RN (t1 + RN (hi b * lo a))). set (t3 := RN (t2 + RN (lo b * hi a))).
  set (l := [a; b; a * b; S a; S b; a - RN (S a); b - RN (S b); RN (a - RN (S a)) + RN (S a); RN (b - RN (S b)) + RN (S b); a - hi a; b - hi b;
     b * a; hi b * hi a; hi b * lo a; lo b * hi a; lo b * lo a; - x + RN (hi b * hi a); t1 + RN (hi b * lo a); t2 + RN (lo b * hi a); t3 + RN (lo b * lo a)]).
  destruct (emin_for l) as (m & M & L).
  assert (C : forall x, In x l -> RT m x = RN x) by (intros y I; apply RT_RN, weaken200, L, I).
  assert (Fa' : generic_format radix2 (FLT_exp m 53) a) by (apply fmt_FLT; [exact Fa|apply L; cbn; tauto]).
  assert (Fb' : generic_format radix2 (FLT_exp m 53) b) by (apply fmt_FLT; [exact Fb|apply L; cbn; tauto]).
  assert (P4 : (4 <= 53)%Z) by lia.
  pose proof (proj1 (Dekker radix2 m 53 (fun z => negb (Z.even z)) P4 M b a Fb' Fa' (or_introl eq_refl))) as T.
  assert (U : b * a = 0 \/ bp (m + 2 * 53 - 1) <= Rabs (b * a)).
  { rewrite (Rmult_comm b a). destruct (L (a * b)) as [|U]; [cbn; tauto|contradiction|right]. apply Rle_trans with (2 := U). apply bp_le. lia. }
  specialize (T U). clear U. change (53 - Z.div2 53)%Z with 27%Z in T. fold (S a) in T. fold (S b) in T.
  assert (Ca : forall y, In y l -> round radix2 (FLT_exp m 53) (Znearest (fun z : Z => negb (Z.even z))) y = RN y) by exact C.
  rewrite (Ca (S a)) in T by (cbn; tauto). rewrite (Ca (S b)) in T by (cbn; tauto). rewrite (Ca (a - RN (S a))) in T by (cbn; tauto). rewrite (Ca (b - RN (S b))) in T by (cbn; tauto).
  rewrite (Ca (RN (a - RN (S a)) + RN (S a))) in T by (cbn; tauto). rewrite (Ca (RN (b - RN (S b)) + RN (S b))) in T by (cbn; tauto).
  rewrite <- !HI in T.
  rewrite (Ca (a - hi a)) in T by (cbn; tauto). rewrite (Ca (b - hi b)) in T by (cbn; tauto). fold (lo a) in T. fold (lo b) in T.
  rewrite (Ca (b * a)) in T by (cbn; tauto). rewrite (Ca (hi b * hi a)) in T by (cbn; tauto). rewrite (Ca (hi b * lo a)) in T by (cbn; tauto). rewrite (Ca (lo b * hi a)) in T by (cbn; tauto). rewrite (Ca (lo b * lo a)) in T by (cbn; tauto).
  replace (RN (b * a)) with x in T by (unfold x; f_equal; ring).
  rewrite (Ca (- x + RN (hi b * hi a))) in T by (cbn; tauto). fold t1 in T. rewrite (Ca (t1 + RN (hi b * lo a))) in T by (cbn; tauto). fold t2 in T. rewrite (Ca (t2 + RN (lo b * hi a))) in T by (cbn; tauto). fold t3 in T. rewrite (Ca (t3 + RN (lo b * lo a))) in T by (cbn; tauto).
  assert (E1 : err1 = - t1) by (unfold err1, t1; rewrite <- RN_opp; f_equal; rewrite (Rmult_comm (hi b)); ring).
  assert (E2 : err2 = - t2) by (unfold err2, t2; rewrite E1, <- RN_opp; f_equal; rewrite (Rmult_comm (hi b)); ring).
  assert (E3 : err3 = - t3) by (unfold err3, t3; rewrite E2, <- RN_opp; f_equal; rewrite (Rmult_comm (lo b)); ring).
  rewrite (Rmult_comm a b), T. f_equal. f_equal. rewrite E3, (Rmult_comm (lo b)). ring.
Qed.

(** ** Specifications of the operations: what holds of what they return; they fail only if the arithmetic can *)
Section Sat.
Variable op : R -> option R.
Variable mayfail : Prop.
Definition sat {A} (m : option A) (P : A -> Prop) : Prop := match m with Some a => P a | None => mayfail end.
Hypothesis Hop : forall x, sat (op x) (fun y => y = RN x).

Lemma sat_some {A} (a : A) (P : A -> Prop) : P a -> sat (Some a) P. Proof. exact (fun H => H). Qed.
Lemma sat_bind {A B} (m : option A) (k : A -> option B) P Q : sat m P -> (forall a, P a -> sat (k a) Q) -> sat (bind m k) Q.
Proof. destruct m as [a|]; cbn; [intros H K; apply K, H|intros H _; exact H]. Qed.
Lemma sat_weaken {A} (m : option A) (P Q : A -> Prop) : sat m P -> (forall a, P a -> Q a) -> sat m Q.
Proof. destruct m; cbn; auto. Qed.
Lemma sat_op {B} x (k : R -> option B) Q : sat (k (RN x)) Q -> sat (bind (op x) k) Q.
Proof. intros H. eapply sat_bind; [apply Hop|]. intros a ->. exact H. Qed.
Lemma sat_op_end x (Q : R -> Prop) : Q (RN x) -> sat (op x) Q.
Proof. intros H. eapply sat_weaken; [apply Hop|]. intros a ->. exact H. Qed.

(** the rounded sum and what was rounded off *)
Definition eft (v : R) (p : R * R) : Prop := fst p = RN v /\ fst p + snd p = v /\ fmt (fst p) /\ fmt (snd p).

Lemma eft_tail v p : eft v p -> snd p = v - RN v.
Proof. intros (E & S & _). rewrite <- E. lra. Qed.

Lemma fast_two_sum_sat a b : fmt a -> fmt b -> Rabs b <= Rabs a -> sat (fast_two_sum op a b) (eft (a + b)).
Proof.
  intros Fa Fb H. unfold fast_two_sum. do 3 apply sat_op. apply sat_some. unfold eft. cbn [fst snd]. split; [reflexivity|]. split; [|split; apply RN_fmt].
  apply fast_two_sum_R; assumption.
Qed.
(** also when the first is zero *)
Lemma fast_two_sum_sat0 b : fmt b -> sat (fast_two_sum op 0 b) (eft (0 + b)).
Proof.
  intros Fb. unfold fast_two_sum. do 3 apply sat_op. apply sat_some. unfold eft. cbn [fst snd]. rewrite Rplus_0_l, Rminus_0_r, (RN_id b Fb), (RN_id b Fb), Rminus_eq_0, RN_0.
  split; [reflexivity|]. split; [ring|]. split; [exact Fb|apply fmt_0].
Qed.
Lemma two_sum_sat a b : fmt a -> fmt b -> sat (two_sum op a b) (eft (a + b)).
Proof.
  intros Fa Fb. unfold two_sum. do 6 apply sat_op. apply sat_some. unfold eft. cbn [fst snd]. split; [reflexivity|]. split; [|split; apply RN_fmt].
  apply two_sum_R; assumption.
Qed.
Lemma two_diff_tail_sat a b : fmt a -> fmt b -> sat (two_diff_tail op a b (RN (a - b))) (fun y => RN (a - b) + y = a - b /\ fmt y).
Proof.
  intros Fa Fb. unfold two_diff_tail. do 4 apply sat_op. apply sat_op_end. split; [|apply RN_fmt]. apply two_diff_R; assumption.
Qed.
Lemma two_diff_sat a b : fmt a -> fmt b -> sat (two_diff op a b) (eft (a - b)).
Proof.
  intros Fa Fb. unfold two_diff. apply sat_op. eapply sat_bind; [apply two_diff_tail_sat; assumption|]. intros y [E F]. apply sat_some. unfold eft. cbn [fst snd].
  split; [reflexivity|]. split; [exact E|]. split; [apply RN_fmt|exact F].
Qed.

Lemma splitter_val : splitter = bp 27 + 1.
Proof.
  unfold splitter, lit. change (10 ^ 0)%Z with 1%Z. replace (134217729 / 1) with 134217729 by field. change (bp 27 + 1) with (134217728 + 1). replace (134217728 + 1) with 134217729 by lra.
  apply RN_id. apply (grid_fmt 0); [exists 134217729%Z; cbn; ring|]. change (bp (0 + 53)) with 9007199254740992. rewrite Rabs_pos_eq; lra.
Qed.
Lemma split_sat a : sat (split op a) (fun p => p = (hi a, lo a)).
Proof. unfold split. do 4 apply sat_op. apply sat_some. rewrite splitter_val. reflexivity. Qed.
Lemma product_tail_sat a b : fmt a -> fmt b -> sat (product_tail op (RN (a * b)) (hi a) (lo a) (hi b) (lo b)) (fun y => RN (a * b) + y = a * b /\ fmt y).
Proof.
  intros Fa Fb. unfold product_tail. do 7 apply sat_op. apply sat_op_end. split; [|apply RN_fmt]. apply two_product_R; assumption.
Qed.
Lemma two_product_sat a b : fmt a -> fmt b -> sat (two_product op a b) (eft (a * b)).
Proof.
  intros Fa Fb. unfold two_product. apply sat_op. eapply sat_bind; [apply split_sat|]. intros p ->. eapply sat_bind; [apply split_sat|]. intros p ->.
  eapply sat_bind; [apply product_tail_sat; assumption|]. intros y [E F]. apply sat_some. unfold eft. cbn [fst snd]. split; [reflexivity|]. split; [exact E|]. split; [apply RN_fmt|exact F].
Qed.
Lemma two_product_presplit_sat a b : fmt a -> fmt b -> sat (two_product_presplit op a b (hi b) (lo b)) (eft (a * b)).
Proof.
  intros Fa Fb. unfold two_product_presplit. apply sat_op. eapply sat_bind; [apply split_sat|]. intros p ->.
  eapply sat_bind; [apply product_tail_sat; assumption|]. intros y [E F]. apply sat_some. unfold eft. cbn [fst snd]. split; [reflexivity|]. split; [exact E|]. split; [apply RN_fmt|exact F].
Qed.
End Sat.
