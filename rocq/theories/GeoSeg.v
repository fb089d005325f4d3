(** Intersection of two segments: proofs. *)
From Coq Require Import List Reals Lra Bool Ascii.
From Verif Require Import GeoModel GeoSpec.
Import ListNotations.
Open Scope R_scope.

Lemma ltb_true x y : ltb x y = true <-> x < y.
Proof. unfold ltb. destruct (Rlt_dec x y); split; intros; auto; discriminate. Qed.
Lemma ltb_false x y : ltb x y = false <-> y <= x.
Proof. unfold ltb. destruct (Rlt_dec x y); split; intros; auto; try discriminate; lra. Qed.
Lemma leb_true x y : leb x y = true <-> x <= y.
Proof. unfold leb. destruct (Rle_dec x y); split; intros; auto; discriminate. Qed.
Lemma leb_false x y : leb x y = false <-> y < x.
Proof. unfold leb. destruct (Rle_dec x y); split; intros; auto; try discriminate; lra. Qed.
Lemma eqb_true x y : eqb x y = true <-> x = y.
Proof. unfold eqb. destruct (Req_EM_T x y); split; intros; auto; try discriminate; contradiction. Qed.
Lemma eqb_false x y : eqb x y = false <-> x <> y.
Proof. unfold eqb. destruct (Req_EM_T x y); split; intros; auto; try discriminate; contradiction. Qed.
Lemma ltb_spec x y : (ltb x y = true /\ x < y) \/ (ltb x y = false /\ y <= x).
Proof. destruct (ltb x y) eqn:E; [left|right]; split; auto; [apply ltb_true, E|apply ltb_false, E]. Qed.
Lemma eqb_spec' x y : (eqb x y = true /\ x = y) \/ (eqb x y = false /\ x <> y).
Proof. destruct (eqb x y) eqn:E; [left|right]; split; auto; [apply eqb_true, E|apply eqb_false, E]. Qed.
Lemma leb_spec' x y : (leb x y = true /\ x <= y) \/ (leb x y = false /\ y < x).
Proof. destruct (leb x y) eqn:E; [left|right]; split; auto; [apply leb_true, E|apply leb_false, E]. Qed.

Lemma pair_neq (a b : vec2) : a <> b -> fst a <> fst b \/ snd a <> snd b.
Proof. destruct a as [x y], b as [u v]. cbn. intros N. destruct (Req_EM_T x u) as [->|]; [|auto]. destruct (Req_EM_T y v) as [->|]; [|auto]. elim N. reflexivity. Qed.

(** parameters of a point on a line *)
Lemma mid_le u v t : 0 <= t <= 1 -> (u <= v -> u <= u + t * (v - u) <= v) /\ (v <= u -> v <= u + t * (v - u) <= u).
Proof. intros H. split; intros L; split; nra. Qed.

Lemma between_spec a b c : a <> b -> orient2d a b c = 0 -> (between a b c = true <-> on_segment a b c).
Proof.
  intros N O. unfold orient2d, px, py in O. unfold between, px, py.
  destruct (eqb_spec' (fst a) (fst b)) as [[-> E]|[-> E]]; cbn [negb].
  - assert (Ny : snd a <> snd b) by (destruct (pair_neq a b N); [contradiction|assumption]).
    assert (Ex : fst c = fst a). { rewrite <- E in O. assert ((fst a - fst c) * (snd b - snd a) = 0) by nra. apply Rmult_integral in H. destruct H; lra. }
    rewrite orb_true_iff, !andb_true_iff, !leb_true. split.
    + intros H. exists ((snd c - snd a) / (snd b - snd a)). split.
      * destruct (Rlt_dec (snd a) (snd b)) as [L|L].
        -- assert (0 < snd b - snd a) by lra. split; [apply Rmult_le_pos; [lra|left; apply Rinv_0_lt_compat; lra]|]. apply Rmult_le_reg_r with (snd b - snd a); [lra|]. unfold Rdiv. rewrite Rmult_assoc, Rinv_l by lra. lra.
        -- assert (0 < snd a - snd b) by lra. replace ((snd c - snd a) / (snd b - snd a)) with ((snd a - snd c) / (snd a - snd b)) by (field; lra). split; [apply Rmult_le_pos; [lra|left; apply Rinv_0_lt_compat; lra]|]. apply Rmult_le_reg_r with (snd a - snd b); [lra|]. unfold Rdiv. rewrite Rmult_assoc, Rinv_l by lra. lra.
      * unfold at2. rewrite (surjective_pairing c) at 1. f_equal; [rewrite <- E; lra|]. field. lra.
    + intros (t & T & ->). cbn [at2 fst snd] in *. destruct (mid_le (snd a) (snd b) t T). destruct (Rle_dec (snd a) (snd b)); lra.
  - rewrite orb_true_iff, !andb_true_iff, !leb_true. split.
    + intros H. exists ((fst c - fst a) / (fst b - fst a)). split.
      * destruct (Rlt_dec (fst a) (fst b)) as [L|L].
        -- assert (0 < fst b - fst a) by lra. split; [apply Rmult_le_pos; [lra|left; apply Rinv_0_lt_compat; lra]|]. apply Rmult_le_reg_r with (fst b - fst a); [lra|]. unfold Rdiv. rewrite Rmult_assoc, Rinv_l by lra. lra.
        -- assert (0 < fst a - fst b) by lra. replace ((fst c - fst a) / (fst b - fst a)) with ((fst a - fst c) / (fst a - fst b)) by (field; lra). split; [apply Rmult_le_pos; [lra|left; apply Rinv_0_lt_compat; lra]|]. apply Rmult_le_reg_r with (fst a - fst b); [lra|]. unfold Rdiv. rewrite Rmult_assoc, Rinv_l by lra. lra.
      * unfold at2. rewrite (surjective_pairing c) at 1. f_equal; [field; lra|]. apply Rmult_eq_reg_r with (fst b - fst a); [|lra]. rewrite Rmult_plus_distr_r. replace ((fst c - fst a) / (fst b - fst a) * (snd b - snd a) * (fst b - fst a)) with ((fst c - fst a) * (snd b - snd a)) by (field; lra). nra.
    + intros (t & T & ->). cbn [at2 fst snd] in *. destruct (mid_le (fst a) (fst b) t T). destruct (Rle_dec (fst a) (fst b)); lra.
Qed.

Lemma on_line_orient a b p : (exists t, p = at2 a b t) -> orient2d a b p = 0.
Proof. intros (t & ->). unfold orient2d, at2, px, py. cbn [fst snd]. ring. Qed.
Lemma seg_orient a b p : on_segment a b p -> orient2d a b p = 0.
Proof. intros (t & _ & ->). apply on_line_orient. eauto. Qed.

(** ** parallel segments *)
Section Par.
Variables a b c d : vec2.
Hypothesis Nab : a <> b.
Hypothesis Ncd : c <> d.
Hypothesis Par : parallel a b c d.

Lemma par_abd : orient2d a b c = 0 -> orient2d a b d = 0.
Proof. unfold orient2d, px, py. unfold parallel in Par. nra. Qed.

Lemma lin_zero u v x y x' y' : (u <> 0 \/ v <> 0) -> u * y = v * x -> u * y' = v * x' -> x * y' = y * x'.
Proof.
  intros [H|H] E1 E2.
  - apply Rmult_eq_reg_l with u; [|exact H]. replace (u * (x * y')) with (x * (u * y')) by ring. rewrite E2. replace (u * (y * x')) with (x' * (u * y)) by ring. rewrite E1. ring.
  - apply Rmult_eq_reg_l with v; [|exact H]. replace (v * (x * y')) with ((v * x) * y') by ring. rewrite <- E1. replace (v * (y * x')) with (y * (v * x')) by ring. rewrite <- E2. ring.
Qed.

Lemma par_cda : orient2d a b c = 0 -> orient2d c d a = 0 /\ orient2d c d b = 0.
Proof.
  intros O. pose proof (par_abd O) as O'. unfold orient2d, px, py in *. unfold parallel in Par.
  assert (Nz : fst b - fst a <> 0 \/ snd b - snd a <> 0) by (destruct (pair_neq a b Nab); [left|right]; lra).
  pose proof (lin_zero (fst b - fst a) (snd b - snd a) (fst c - fst a) (snd c - snd a) (fst d - fst c) (snd d - snd c) Nz) as K. 
  assert (K' : (fst c - fst a) * (snd d - snd c) = (snd c - snd a) * (fst d - fst c)) by (apply K; nra).
  split; nra.
Qed.

Lemma ends_meet x : common a b c d x -> on_segment a b c \/ on_segment a b d \/ on_segment c d a \/ on_segment c d b.
Proof.
  intros [S1 S2].
  assert (O : orient2d a b c = 0).
  { destruct S1 as (t & T & E1), S2 as (u & U & E2). rewrite E1 in E2. unfold at2 in E2. injection E2 as Ex Ey. unfold orient2d, px, py. unfold parallel in Par.
    assert (Hx : fst a - fst c = u * (fst d - fst c) - t * (fst b - fst a)) by lra. assert (Hy : snd a - snd c = u * (snd d - snd c) - t * (snd b - snd a)) by lra.
    replace (fst b - fst c) with ((fst b - fst a) + (fst a - fst c)) by ring. replace (snd b - snd c) with ((snd b - snd a) + (snd a - snd c)) by ring. rewrite Hx, Hy.
    replace (_ - _) with (u * ((fst d - fst c) * (snd b - snd a) - (snd d - snd c) * (fst b - fst a))) by ring. replace (_ - _) with 0 by lra. ring. }
  pose proof (par_abd O) as Od. destruct (par_cda O) as [Oa Ob].
  rewrite <- (between_spec a b c Nab O), <- (between_spec a b d Nab Od), <- (between_spec c d a Ncd Oa), <- (between_spec c d b Ncd Ob).
  apply (between_spec a b x Nab (seg_orient a b x S1)) in S1. apply (between_spec c d x Ncd (seg_orient c d x S2)) in S2.
  unfold between, px, py in *. unfold parallel in Par.
  destruct (eqb_spec' (fst a) (fst b)) as [[Q E]|[Q E]]; destruct (eqb_spec' (fst c) (fst d)) as [[Q' E']|[Q' E']]; rewrite ?Q, ?Q' in *; cbn [negb] in *.
  - rewrite !orb_true_iff, !andb_true_iff, !leb_true in *. destruct S1, S2; lra.
  - exfalso. assert (H : (snd b - snd a) * (fst d - fst c) = 0) by (rewrite <- Par, E; ring). apply Rmult_integral in H. destruct (pair_neq a b Nab); lra.
  - exfalso. assert (H : (fst b - fst a) * (snd d - snd c) = 0) by (rewrite Par, E'; ring). apply Rmult_integral in H. destruct (pair_neq c d Ncd); lra.
  - rewrite !orb_true_iff, !andb_true_iff, !leb_true in *. destruct S1, S2; lra.
Qed.

Lemma seg_a u v : on_segment u v u. Proof. exists 0. split; [lra|]. unfold at2. rewrite (surjective_pairing u) at 1. f_equal; ring. Qed.
Lemma seg_b u v : on_segment u v v. Proof. exists 1. split; [lra|]. unfold at2. rewrite (surjective_pairing v) at 1. f_equal; ring. Qed.

Lemma parallel_ok :
  (exists x, common a b c d x /\ parallel_int a b c d = ("e"%char, Some x)) \/
  ((forall x, ~ common a b c d x) /\ parallel_int a b c d = ("0"%char, None)).
Proof.
  unfold parallel_int, collinear. destruct (eqb_spec' (orient2d a b c) 0) as [[-> O]|[-> O]]; cbn [negb].
  - pose proof (par_abd O) as Od. destruct (par_cda O) as [Oa Ob].
    destruct (between a b c) eqn:B1; [left; exists c; split; [split; [apply between_spec; assumption|apply seg_a]|reflexivity]|].
    destruct (between a b d) eqn:B2; [left; exists d; split; [split; [apply between_spec; assumption|apply seg_b]|reflexivity]|].
    destruct (between c d a) eqn:B3; [left; exists a; split; [split; [apply seg_a|apply between_spec; assumption]|reflexivity]|].
    destruct (between c d b) eqn:B4; [left; exists b; split; [split; [apply seg_b|apply between_spec; assumption]|reflexivity]|].
    right. split; [|reflexivity]. intros x K. apply ends_meet in K.
    rewrite <- (between_spec a b c Nab O), <- (between_spec a b d Nab Od), <- (between_spec c d a Ncd Oa), <- (between_spec c d b Ncd Ob) in K. rewrite B1, B2, B3, B4 in K. destruct K as [K|[K|[K|K]]]; discriminate.
  - right. split; [|reflexivity]. intros x [S1 S2]. apply O. destruct S1 as (t & T & E1), S2 as (u & U & E2). rewrite E1 in E2. unfold at2 in E2. injection E2 as Ex Ey. unfold orient2d, px, py. unfold parallel in Par.
    assert (Hx : fst a - fst c = u * (fst d - fst c) - t * (fst b - fst a)) by lra. assert (Hy : snd a - snd c = u * (snd d - snd c) - t * (snd b - snd a)) by lra.
    replace (fst b - fst c) with ((fst b - fst a) + (fst a - fst c)) by ring. replace (snd b - snd c) with ((snd b - snd a) + (snd a - snd c)) by ring. rewrite Hx, Hy.
    replace (_ - _) with (u * ((fst d - fst c) * (snd b - snd a) - (snd d - snd c) * (fst b - fst a))) by ring. replace (_ - _) with 0 by lra. ring.
Qed.
End Par.

(** ** segments that are not parallel *)
Definition sdenom (a b c d : vec2) := px a * (py d - py c) + px b * (py c - py d) + px d * (py b - py a) + px c * (py a - py b).
Definition snum1 (a c d : vec2) := px a * (py d - py c) + px c * (py a - py d) + px d * (py c - py a).
Definition snum2 (a b c : vec2) := - (px a * (py c - py b) + px b * (py a - py c) + px c * (py b - py a)).

Lemma sdenom_par a b c d : sdenom a b c d = 0 <-> parallel a b c d.
Proof. unfold sdenom, parallel, px, py. split; intros; lra. Qed.

Lemma cramer a b c d s t : sdenom a b c d <> 0 ->
  (at2 a b s = at2 c d t <-> s = snum1 a c d / sdenom a b c d /\ t = snum2 a b c / sdenom a b c d).
Proof.
  intros D. unfold at2. split.
  - intros E. injection E as Ex Ey. split.
    + apply Rmult_eq_reg_r with (sdenom a b c d); [|exact D]. unfold Rdiv. rewrite Rmult_assoc, Rinv_l by exact D. unfold sdenom, snum1, px, py.
      assert (Hx : fst a - fst c = t * (fst d - fst c) - s * (fst b - fst a)) by lra. assert (Hy : snd a - snd c = t * (snd d - snd c) - s * (snd b - snd a)) by lra.
      replace (_ * 1) with ((fst a - fst c) * (snd d - snd c) - (snd a - snd c) * (fst d - fst c)) by ring. rewrite Hx, Hy. ring.
    + apply Rmult_eq_reg_r with (sdenom a b c d); [|exact D]. unfold Rdiv. rewrite Rmult_assoc, Rinv_l by exact D. unfold sdenom, snum2, px, py.
      assert (Hx : fst a - fst c = t * (fst d - fst c) - s * (fst b - fst a)) by lra. assert (Hy : snd a - snd c = t * (snd d - snd c) - s * (snd b - snd a)) by lra.
      replace (- _ * 1) with ((fst a - fst c) * (snd b - snd a) - (snd a - snd c) * (fst b - fst a)) by ring. rewrite Hx, Hy. ring.
  - intros [-> ->]. unfold sdenom, snum1, snum2, px, py in *. f_equal; field; exact D.
Qed.

Lemma at2_inj a b s s' : a <> b -> at2 a b s = at2 a b s' -> s = s'.
Proof.
  intros N E. unfold at2 in E. injection E as Ex Ey. destruct (pair_neq a b N) as [K|K].
  - apply Rmult_eq_reg_r with (fst b - fst a); lra.
  - apply Rmult_eq_reg_r with (snd b - snd a); lra.
Qed.
Lemma at2_0 a b : at2 a b 0 = a. Proof. destruct a, b. unfold at2. cbn [fst snd]. f_equal; ring. Qed.
Lemma at2_1 a b : at2 a b 1 = b. Proof. destruct a, b. unfold at2. cbn [fst snd]. f_equal; ring. Qed.

(** the result, case by case *)
Lemma segment_intersection_cases a b c d : a <> b -> c <> d ->
  let r := segment_intersection a b c d in
  (parallel a b c d /\ snd r = None /\
     ((exists x, common a b c d x /\ fst r = ("e"%char, Some x)) \/ ((forall x, ~ common a b c d x) /\ fst r = ("0"%char, None)))) \/
  (~ parallel a b c d /\ exists s t x, snd r = Some (s, t) /\ x = at2 a b s /\ x = at2 c d t /\ (forall s' t', at2 a b s' = at2 c d t' -> s' = s /\ t' = t) /\
     ((0 < s < 1 /\ 0 < t < 1 /\ fst r = ("1"%char, Some x)) \/
      ((s < 0 \/ 1 < s \/ t < 0 \/ 1 < t) /\ fst r = ("0"%char, Some x)) \/
      (0 <= s <= 1 /\ 0 <= t <= 1 /\ (s = 0 \/ s = 1 \/ t = 0 \/ t = 1) /\ fst r = ("v"%char, Some x)))).
Proof.
  intros Nab Ncd. unfold segment_intersection. fold (sdenom a b c d). fold (snum1 a c d). fold (snum2 a b c).
  destruct (eqb_spec' (sdenom a b c d) 0) as [[-> E]|[-> E]].
  - left. apply sdenom_par in E. split; [exact E|]. split; [reflexivity|]. exact (parallel_ok a b c d Nab Ncd E).
  - right. split; [rewrite <- sdenom_par; exact E|].
    set (s := snum1 a c d / sdenom a b c d). set (t := snum2 a b c / sdenom a b c d).
    assert (S0 : snum1 a c d = s * sdenom a b c d) by (unfold s; field; exact E). assert (T0 : snum2 a b c = t * sdenom a b c d) by (unfold t; field; exact E).
    exists s, t, (at2 a b s). split; [reflexivity|]. split; [reflexivity|]. split; [apply cramer; [exact E|split; reflexivity]|].
    split; [intros s' t' K; apply cramer in K; [exact K|exact E]|]. cbn [fst].
    change (px a + s * (px b - px a), py a + s * (py b - py a)) with (at2 a b s).
    assert (Q1 : eqb (snum1 a c d) 0 = eqb s 0). { rewrite S0. destruct (eqb_spec' s 0) as [[-> Z]|[-> Z]]; [apply eqb_true; rewrite Z; ring|apply eqb_false]. intros H. apply Rmult_integral in H. tauto. }
    assert (Q2 : eqb (snum2 a b c) 0 = eqb t 0). { rewrite T0. destruct (eqb_spec' t 0) as [[-> Z]|[-> Z]]; [apply eqb_true; rewrite Z; ring|apply eqb_false]. intros H. apply Rmult_integral in H. tauto. }
    assert (Q3 : eqb (snum1 a c d) (sdenom a b c d) = eqb s 1). { rewrite S0. destruct (eqb_spec' s 1) as [[-> Z]|[-> Z]]; [apply eqb_true; rewrite Z; ring|apply eqb_false]. intros H. apply Z. apply Rmult_eq_reg_r with (sdenom a b c d); [lra|exact E]. }
    assert (Q4 : eqb (snum2 a b c) (sdenom a b c d) = eqb t 1). { rewrite T0. destruct (eqb_spec' t 1) as [[-> Z]|[-> Z]]; [apply eqb_true; rewrite Z; ring|apply eqb_false]. intros H. apply Z. apply Rmult_eq_reg_r with (sdenom a b c d); [lra|exact E]. }
    rewrite Q1, Q2, Q3, Q4. clear Q1 Q2 Q3 Q4 S0 T0. clearbody s t.
    destruct (ltb_spec 0 s) as [[-> H1]|[-> H1]], (ltb_spec s 1) as [[-> H2]|[-> H2]], (ltb_spec 0 t) as [[-> H3]|[-> H3]], (ltb_spec t 1) as [[-> H4]|[-> H4]];
      cbn [andb];
      try (left; split; [lra|split; [lra|reflexivity]]);
      destruct (ltb_spec s 0) as [[-> H5]|[-> H5]], (ltb_spec 1 s) as [[-> H6]|[-> H6]], (ltb_spec t 0) as [[-> H7]|[-> H7]], (ltb_spec 1 t) as [[-> H8]|[-> H8]];
      cbn [orb]; try (right; left; split; [lra|reflexivity]); try lra;
      right; right; (split; [lra|]); (split; [lra|]);
      destruct (eqb_spec' s 0) as [[-> H9]|[-> H9]], (eqb_spec' s 1) as [[-> H10]|[-> H10]], (eqb_spec' t 0) as [[-> H11]|[-> H11]], (eqb_spec' t 1) as [[-> H12]|[-> H12]];
      cbn [orb]; try lra; (split; [lra|reflexivity]).
Qed.
