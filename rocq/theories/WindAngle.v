(** Arguments of plane vectors, and the solid angle of a triangle as a sum over its edges. *)
From Coq Require Import List ZArith Reals Lra Psatz Bool.
From Verif Require Import GeoModel WindModel.
Import ListNotations.
Open Scope R_scope.

(** [t] is an argument of the plane vector (x, y) *)
Definition polar (x y t : R) : Prop := exists r, 0 < r /\ x = r * cos t /\ y = r * sin t.

Lemma polar_mul x y s x' y' t : polar x y s -> polar x' y' t -> polar (x * x' - y * y') (x * y' + y * x') (s + t).
Proof.
  intros (r & Hr & -> & ->) (r' & Hr' & -> & ->). exists (r * r'). split; [apply Rmult_lt_0_compat; assumption|].
  rewrite cos_plus, sin_plus. split; ring.
Qed.

Lemma polar_conj x y t : polar x y t -> polar x (- y) (- t).
Proof. intros (r & Hr & -> & ->). exists r. rewrite cos_neg, sin_neg. repeat split; try assumption; ring. Qed.

Lemma polar_scale k x y t : 0 < k -> polar x y t -> polar (k * x) (k * y) t.
Proof. intros Hk (r & Hr & -> & ->). exists (k * r). split; [apply Rmult_lt_0_compat; assumption|]. split; ring. Qed.

Lemma cos_one x : cos x = 1 -> exists k : Z, x = IZR k * (2 * PI).
Proof.
  intros H. assert (E : sin (x / 2) = 0).
  { assert (X : cos (2 * (x / 2)) = 1 - 2 * sin (x / 2) * sin (x / 2)) by apply cos_2a_sin.
    replace (2 * (x / 2)) with x in X by field. rewrite H in X. nra. }
  destruct (sin_eq_0_0 _ E) as (k & Ek). exists k. lra.
Qed.

Lemma polar_unique x y s t : polar x y s -> polar x y t -> exists k : Z, s = t + IZR k * (2 * PI).
Proof.
  intros (r & Hr & -> & ->) (r' & Hr' & E1 & E2).
  assert (Q : r * r = r' * r').
  { pose proof (sin2_cos2 s) as S. pose proof (sin2_cos2 t) as T. unfold Rsqr in *.
    assert (r * r * (sin s * sin s + cos s * cos s) = r' * r' * (sin t * sin t + cos t * cos t)).
    { transitivity ((r * cos s) * (r * cos s) + (r * sin s) * (r * sin s)); [ring|]. rewrite E1, E2. ring. }
    rewrite S, T in H. lra. }
  assert (r = r') by nra. subst r'.
  assert (cos s = cos t) by (apply (Rmult_eq_reg_l r); [exact E1|lra]).
  assert (sin s = sin t) by (apply (Rmult_eq_reg_l r); [exact E2|lra]).
  destruct (cos_one (s - t)) as (k & Ek).
  { rewrite cos_minus, H, H0. pose proof (sin2_cos2 t) as T. unfold Rsqr in T. lra. }
  exists k. lra.
Qed.

Lemma polar_nonzero x y t : polar x y t -> ~ (x = 0 /\ y = 0).
Proof.
  intros (r & Hr & -> & ->) [A B]. pose proof (sin2_cos2 t) as S. unfold Rsqr in S.
  assert (cos t = 0) by (apply (Rmult_eq_reg_l r); lra). assert (sin t = 0) by (apply (Rmult_eq_reg_l r); lra).
  rewrite H, H0 in S. lra.
Qed.

Lemma ltb_spec x y : reflect (x < y) (ltb x y).
Proof. unfold ltb. destruct (Rlt_dec x y); constructor; assumption. Qed.
Lemma leb_spec x y : reflect (x <= y) (leb x y).
Proof. unfold leb. destruct (Rle_dec x y); constructor; assumption. Qed.
Lemma eqb_spec x y : reflect (x = y) (eqb x y).
Proof. unfold eqb. destruct (Req_EM_T x y); constructor; assumption. Qed.

Lemma cos_atan_pos t : 0 < cos (atan t).
Proof. pose proof (atan_bound t). apply cos_gt_0; lra. Qed.

Lemma polar_atan x y : 0 < x -> polar x y (atan (y / x)).
Proof.
  intros Hx. pose proof (cos_atan_pos (y / x)) as C. exists (x / cos (atan (y / x))).
  split; [apply Rdiv_lt_0_compat; assumption|]. split; [field; lra|].
  pose proof (tan_atan (y / x)) as T. unfold tan in T.
  replace (x / cos (atan (y / x)) * sin (atan (y / x))) with (x * (sin (atan (y / x)) / cos (atan (y / x)))) by (field; lra).
  rewrite T. field. lra.
Qed.

Lemma polar_atan2 x y : y <> 0 \/ 0 < x -> polar x y (atan2 y x).
Proof.
  intros H. unfold atan2. destruct (ltb_spec 0 x) as [P|P]; [apply polar_atan; exact P|].
  destruct (ltb_spec x 0) as [N|N].
  - pose proof (polar_atan (- x) (- y)) as (r & Hr & E1 & E2); [lra|].
    replace (- y / - x) with (y / x) in E1, E2 by (field; lra).
    destruct (leb_spec 0 y) as [Y|Y]; exists r; (split; [exact Hr|]).
    + rewrite neg_cos, neg_sin. split; lra.
    + replace (atan (y / x) - PI) with (- (PI - atan (y / x))) by ring. rewrite cos_neg, sin_neg.
      rewrite Rtrigo_facts.cos_pi_minus, Rtrigo_facts.sin_pi_minus. split; lra.
  - assert (x = 0) by lra. subst x. destruct (ltb_spec 0 y) as [Y|Y].
    + exists y. rewrite cos_PI2, sin_PI2. repeat split; lra.
    + destruct (ltb_spec y 0) as [Y'|Y']; [|lra]. exists (- y). rewrite cos_neg, sin_neg, cos_PI2, sin_PI2. repeat split; lra.
Qed.

Lemma atan_pos t : 0 < t -> 0 < atan t.
Proof. intros H. rewrite <- atan_0. apply atan_increasing. exact H. Qed.
Lemma atan_neg t : t < 0 -> atan t < 0.
Proof. intros H. rewrite <- atan_0. apply atan_increasing. exact H. Qed.

Lemma atan2_pos x y : 0 < y -> 0 < atan2 y x < PI.
Proof.
  intros Y. pose proof PI_RGT_0 as P. unfold atan2. destruct (ltb_spec 0 x) as [X|X].
  - pose proof (atan_bound (y / x)). assert (0 < atan (y / x)) by (apply atan_pos, Rdiv_lt_0_compat; assumption). lra.
  - destruct (ltb_spec x 0) as [N|N].
    + destruct (leb_spec 0 y); [|lra]. pose proof (atan_bound (y / x)).
      assert (atan (y / x) < 0).
      { apply atan_neg. replace (y / x) with (- (y / - x)) by (field; lra). assert (0 < y / - x) by (apply Rdiv_lt_0_compat; lra). lra. }
      lra.
    + destruct (ltb_spec 0 y); lra.
Qed.

Lemma atan2_opp x y : y <> 0 -> atan2 (- y) x = - atan2 y x.
Proof.
  intros N. unfold atan2. destruct (ltb_spec 0 x) as [X|X].
  - rewrite <- atan_opp. f_equal. field. lra.
  - destruct (ltb_spec x 0) as [X'|X'].
    + assert (E : atan (- y / x) = - atan (y / x)) by (rewrite <- atan_opp; f_equal; field; lra).
      destruct (leb_spec 0 y), (leb_spec 0 (- y)); try lra; rewrite E; ring.
    + destruct (ltb_spec 0 y), (ltb_spec y 0), (ltb_spec 0 (- y)), (ltb_spec (- y) 0); lra.
Qed.

Lemma atan2_neg x y : y < 0 -> - PI < atan2 y x < 0.
Proof.
  intros Y. replace y with (- - y) by ring. rewrite atan2_opp by lra. pose proof (atan2_pos x (- y)). lra.
Qed.

Lemma atan2_zero x : 0 < x -> atan2 0 x = 0.
Proof. intros X. unfold atan2. destruct (ltb_spec 0 x); [|lra]. replace (0 / x) with 0 by (field; lra). apply atan_0. Qed.

Lemma atan2_odd x y : y <> 0 \/ 0 < x -> atan2 (- y) x = - atan2 y x.
Proof.
  intros [H|H]; [apply atan2_opp; exact H|]. destruct (Req_dec y 0) as [->|N]; [|apply atan2_opp; exact N].
  rewrite Ropp_0, atan2_zero by exact H. lra.
Qed.

Lemma atan2_range x y : y <> 0 \/ 0 < x -> - PI < atan2 y x < PI.
Proof.
  intros H. pose proof PI_RGT_0. destruct (Rtotal_order y 0) as [N | [Z | P]].
  - pose proof (atan2_neg x y N). lra.
  - subst y. rewrite atan2_zero; lra.
  - pose proof (atan2_pos x y P). lra.
Qed.

(** moving a point of the upper half plane to the right makes its argument smaller *)
Lemma atan2_right x y d : 0 < y -> 0 < d -> atan2 y (x + d) < atan2 y x.
Proof.
  intros Y D. pose proof (atan2_pos x y Y) as R1. pose proof (atan2_pos (x + d) y Y) as R2.
  destruct (polar_atan2 x y) as (r & Hr & E1 & E2); [left; lra|].
  destruct (polar_atan2 (x + d) y) as (r' & Hr' & E1' & E2'); [left; lra|].
  destruct (Rlt_le_dec (atan2 y (x + d)) (atan2 y x)) as [L|L]; [exact L|exfalso].
  assert (S : 0 <= sin (atan2 y (x + d) - atan2 y x)) by (apply sin_ge_0; lra).
  rewrite sin_minus in S.
  assert (X : r * r' * (sin (atan2 y (x + d)) * cos (atan2 y x) - cos (atan2 y (x + d)) * sin (atan2 y x)) = - (d * y)).
  { transitivity ((r' * sin (atan2 y (x + d))) * (r * cos (atan2 y x)) - (r' * cos (atan2 y (x + d))) * (r * sin (atan2 y x))); [ring|].
    rewrite <- E1, <- E1', <- E2, <- E2'. ring. }
  assert (0 < r * r') by (apply Rmult_lt_0_compat; assumption). assert (0 < d * y) by (apply Rmult_lt_0_compat; assumption). nra.
Qed.

(** a multiple of 2 PI in an open interval *)
Lemma multiple_zero k : - (2 * PI) < IZR k * (2 * PI) < 2 * PI -> k = 0%Z.
Proof.
  intros [A B]. pose proof PI_RGT_0 as P.
  assert (IZR (-1) < IZR k) by (apply (Rmult_lt_reg_r (2 * PI)); lra).
  assert (IZR k < IZR 1) by (apply (Rmult_lt_reg_r (2 * PI)); lra).
  apply lt_IZR in H, H0. lia.
Qed.
Lemma multiple_is k j : (IZR j - 1) * (2 * PI) < IZR k * (2 * PI) < (IZR j + 1) * (2 * PI) -> k = j.
Proof.
  intros H. cut ((k - j) = 0)%Z; [lia|]. apply multiple_zero. rewrite minus_IZR. lra.
Qed.
