(** Proofs for C77: the triangle in exact arithmetic. *)
From Coq Require Import List Arith Bool Reals Lra Lia Psatz.
From Verif Require Import SectionModel SectionSpec.
Import ListNotations.
Open Scope R_scope.

Definition id_ (x : R) : R := x.
Notation cr := (cross id_).
Notation ad := (add id_).
Notation sb := (sub id_).
Notation ml := (mul id_).

Ltac vecs := repeat match goal with v : vec |- _ => destruct v as [[? ?] ?] | v : point |- _ => destruct v as [[? ?] ?] end.
Ltac veq := apply f_equal2; [apply f_equal2|].
Ltac crunch := vecs; unfold scalar, minus, distance2, add, sub, mul, cross, dot, at_, foot, id_ in *.

Lemma dot_scalar a b : dot id_ a b = scalar a b. Proof. crunch. ring. Qed.
Lemma scalar_sym a b : scalar a b = scalar b a. Proof. crunch. ring. Qed.
Lemma scalar_add a b c : scalar a (ad b c) = scalar a b + scalar a c. Proof. crunch. ring. Qed.
Lemma scalar_sub a b c : scalar a (sb b c) = scalar a b - scalar a c. Proof. crunch. ring. Qed.
Lemma scalar_mul a b s : scalar a (ml b s) = s * scalar a b. Proof. crunch. ring. Qed.
Lemma scalar_at a p q t : scalar a (at_ p q t) = scalar a p + t * (scalar a q - scalar a p). Proof. crunch. ring. Qed.
Lemma scalar_pos a : 0 <= scalar a a. Proof. crunch. nra. Qed.
Lemma scalar_zero a : scalar a a = 0 -> a = (0, 0, 0).
Proof. crunch. intros H. assert (r = 0) by nra. assert (r0 = 0) by nra. assert (r1 = 0) by nra. subst. reflexivity. Qed.
Lemma cross_len a b : scalar (cr a b) (cr a b) = scalar a a * scalar b b - scalar a b * scalar a b. Proof. crunch. ring. Qed.
Lemma cross_l a b : scalar a (cr a b) = 0. Proof. crunch. ring. Qed.
Lemma cross_r a b : scalar b (cr a b) = 0. Proof. crunch. ring. Qed.
Lemma eqb_refl x : eqb x x = true. Proof. unfold eqb. destruct Req_EM_T; [reflexivity|contradiction]. Qed.
Lemma eqb_iff x y : eqb x y = true <-> x = y. Proof. unfold eqb. destruct Req_EM_T; split; intros; congruence. Qed.
Lemma eqb_no x y : x <> y -> eqb x y = false. Proof. unfold eqb. destruct Req_EM_T; congruence. Qed.

(** Normalization. *)
Lemma normalize_some a : a <> (0, 0, 0) -> normalize id_ a = Some (ml a (/ sqrt (scalar a a))).
Proof.
  intros N. assert (P : 0 < scalar a a). { destruct (scalar_pos a) as [P | P]; [exact P|]. exfalso. apply N, scalar_zero. lra. }
  unfold normalize, length, div. rewrite dot_scalar. change (id_ (sqrt (scalar a a))) with (sqrt (scalar a a)). rewrite eqb_no. 2:{ pose proof (sqrt_lt_R0 _ P). lra. }
  destruct a as [[x y] z]. reflexivity.
Qed.
Lemma normalize_zero : normalize id_ (0, 0, 0) = None.
Proof. unfold normalize, length, div. rewrite dot_scalar. cbn. replace (0 * 0 + 0 * 0 + 0 * 0) with 0 by ring. unfold id_. rewrite sqrt_0, eqb_refl. reflexivity. Qed.
Lemma normalize_unit a n : normalize id_ a = Some n -> scalar n n = 1 /\ exists l, 0 < l /\ a = ml n l /\ n = ml a (/ l).
Proof.
  intros E. destruct (Req_EM_T (scalar a a) 0) as [Z | NZ].
  - rewrite (scalar_zero a Z), normalize_zero in E. discriminate.
  - assert (A0 : a <> (0, 0, 0)) by (intros ->; apply NZ; cbn; ring). rewrite (normalize_some a A0) in E. injection E as <-.
    assert (P : 0 < scalar a a) by (pose proof (scalar_pos a); lra). pose proof (sqrt_lt_R0 _ P) as L. pose proof (sqrt_sqrt (scalar a a) (Rlt_le _ _ P)) as SS. set (l := sqrt (scalar a a)) in *. split.
    + rewrite scalar_mul, scalar_sym, scalar_mul, <- SS. field. lra.
    + exists l. repeat split; [exact L|]. destruct a as [[x y] z]. cbn. unfold id_. veq; field; lra.
Qed.

(** An orthonormal frame. *)
Record frame (n U V : vec) : Prop := { fn : scalar n n = 1; fu : scalar U U = 1; fv : scalar V V = 1; fnu : scalar n U = 0; fnv : scalar n V = 0; fuv : scalar U V = 0 }.
Lemma cross_cross n u : scalar n n = 1 -> scalar n u = 0 -> scalar (cr n u) (cr n u) = scalar u u.
Proof. intros N U. rewrite cross_len, N, U. ring. Qed.
Lemma frame_of n u l : scalar n n = 1 -> scalar n u = 0 -> 0 < l -> l * l = scalar u u -> frame n (ml u (/ l)) (ml (cr n u) (/ l)).
Proof.
  intros N U L LL. constructor; [exact N| | | | |].
  - rewrite scalar_mul, scalar_sym, scalar_mul, <- LL. field. lra.
  - rewrite scalar_mul, scalar_sym, scalar_mul, cross_cross, <- LL by assumption. field. lra.
  - rewrite scalar_mul, U. ring.
  - rewrite scalar_mul, cross_l. ring.
  - rewrite scalar_mul, scalar_sym, scalar_mul, scalar_sym, cross_r. ring.
Qed.

Lemma G1 a b s l : 0 < s -> 0 < l -> ml (ad a b) (/ (s * l)) = ml (ad (ml a (/ l)) (ml b (/ l))) (/ s).
Proof. intros. destruct a as [[x y] z], b as [[x' y'] z']. cbn. unfold id_. veq; field; lra. Qed.
Lemma G2 a b s l : 0 < s -> 0 < l -> ml (sb a b) (/ (s * l)) = ml (sb (ml a (/ l)) (ml b (/ l))) (/ s).
Proof. intros. destruct a as [[x y] z], b as [[x' y'] z']. cbn. unfold id_. veq; field; lra. Qed.
(** What the code makes of the two directions. *)
Lemma directions n u : scalar n n = 1 -> scalar n u = 0 -> u <> (0, 0, 0) ->
  exists U V, frame n U V /\ (exists k, 0 < k /\ U = ml u k /\ V = cr n U) /\
    normalize id_ (ad u (cr n u)) = Some (ml (ad U V) (/ sqrt 2)) /\ normalize id_ (sb u (cr n u)) = Some (ml (sb U V) (/ sqrt 2)) /\
    normalize id_ (ad (ml (ad U V) (/ sqrt 2)) (ml (sb U V) (/ sqrt 2))) = Some U.
Proof.
  intros N NU U0. assert (P : 0 < scalar u u). { destruct (scalar_pos u) as [P | P]; [exact P|]. exfalso. apply U0, scalar_zero. lra. }
  pose proof (sqrt_lt_R0 _ P) as L. pose proof (sqrt_sqrt (scalar u u) (Rlt_le _ _ P)) as LL. set (l := sqrt (scalar u u)) in *.
  pose proof (frame_of n u l N NU L LL) as F. exists (ml u (/ l)), (ml (cr n u) (/ l)). split; [exact F|].
  split. { exists (/ l). split; [apply Rinv_0_lt_compat, L|]. split; [reflexivity|]. clear. destruct n as [[a b] c], u as [[x y] z]. cbn. unfold id_. veq; ring. }
  assert (S2 : 0 < sqrt 2) by (apply sqrt_lt_R0; lra). pose proof (sqrt_sqrt 2 ltac:(lra)) as SS2.
  pose proof (cross_r n u) as UC. pose proof (cross_cross n u N NU) as CC.
  assert (E1 : scalar (ad u (cr n u)) (ad u (cr n u)) = 2 * scalar u u).
  { rewrite scalar_add, (scalar_sym _ u), (scalar_sym _ (cr n u)), !scalar_add, CC, UC, (scalar_sym (cr n u) u), UC. ring. }
  assert (E2 : scalar (sb u (cr n u)) (sb u (cr n u)) = 2 * scalar u u).
  { rewrite scalar_sub, (scalar_sym _ u), (scalar_sym _ (cr n u)), !scalar_sub, CC, UC, (scalar_sym (cr n u) u), UC. ring. }
  assert (SQ : sqrt (2 * scalar u u) = sqrt 2 * l) by (apply sqrt_mult; lra).
  assert (NZ : forall a, scalar a a = 2 * scalar u u -> a <> (0, 0, 0)) by (intros a A ->; cbn in A; lra).
  split; [|split].
  - rewrite normalize_some, E1, SQ by (apply NZ, E1). f_equal. apply G1; assumption.
  - rewrite normalize_some, E2, SQ by (apply NZ, E2). f_equal. apply G2; assumption.
  - set (U := ml u (/ l)) in *. set (V := ml (cr n u) (/ l)) in *.
    assert (E3 : ad (ml (ad U V) (/ sqrt 2)) (ml (sb U V) (/ sqrt 2)) = ml U (sqrt 2)).
    { assert (H : / sqrt 2 = sqrt 2 / 2) by (apply Rmult_eq_reg_l with (sqrt 2); [rewrite Rinv_r by lra; lra|lra]). assert (G : forall p q, (p + q) * / sqrt 2 + (p - q) * / sqrt 2 = p * sqrt 2) by (intros p q; rewrite H; lra).
      destruct U as [[x y] z], V as [[x' y'] z']. cbn. unfold id_. rewrite !G. reflexivity. }
    rewrite E3. assert (E4 : scalar (ml U (sqrt 2)) (ml U (sqrt 2)) = 2) by (rewrite scalar_mul, scalar_sym, scalar_mul, (fu _ _ _ F); lra).
    rewrite normalize_some, E4 by (intros Z; rewrite Z in E4; cbn in E4; lra). f_equal. destruct U as [[x y] z]. cbn. unfold id_. veq; field; lra.
Qed.

(** Coordinates in a frame. *)
Lemma frame_len n U V x : frame n U V -> scalar x x = scalar n x * scalar n x + scalar U x * scalar U x + scalar V x * scalar V x.
Proof.
  intros [N HU HV NU NV UV].
  (* the third vector is plus or minus the cross product of the others *)
  set (W := cr U V). assert (WW : scalar W W = 1) by (unfold W; rewrite cross_len, HU, HV, UV; ring).
  assert (NW : scalar n W * scalar n W = 1).
  { assert (G : scalar n W * scalar n W = scalar n n * (scalar U U * scalar V V - scalar U V * scalar U V) - scalar n U * (scalar n U * scalar V V - scalar U V * scalar n V) + scalar n V * (scalar n U * scalar U V - scalar U U * scalar n V)) by (unfold W; crunch; ring). rewrite G, N, HU, HV, NU, NV, UV. ring. }
  assert (D : scalar n W * scalar n W * scalar x x =
    (scalar n x * scalar n x) * (scalar U U * scalar V V - scalar U V * scalar U V) + (scalar U x * scalar U x) * (scalar n n * scalar V V - scalar n V * scalar n V) + (scalar V x * scalar V x) * (scalar n n * scalar U U - scalar n U * scalar n U)
    + 2 * (scalar n x * scalar U x) * (scalar U V * scalar n V - scalar n U * scalar V V) + 2 * (scalar n x * scalar V x) * (scalar n U * scalar U V - scalar n V * scalar U U) + 2 * (scalar U x * scalar V x) * (scalar n U * scalar n V - scalar U V * scalar n n)) by (unfold W; crunch; ring).
  rewrite NW, N, HU, HV, NU, NV, UV in D. lra.
Qed.
Lemma frame_eq n U V x y : frame n U V -> scalar n x = scalar n y -> scalar U x = scalar U y -> scalar V x = scalar V y -> x = y.
Proof.
  intros F A B C. assert (Z : scalar (sb x y) (sb x y) = 0) by (rewrite (frame_len n U V _ F), (scalar_sub n), (scalar_sub U), (scalar_sub V), A, B, C; ring). apply scalar_zero in Z. crunch. injection Z as Z1 Z2 Z3. veq; lra.
Qed.
