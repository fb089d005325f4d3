(** Error bounds for the three-dimensional determinant, one of its three terms at a time. *)
From Coq Require Import ZArith Reals Lra Lia Bool List.
From Flocq Require Import Core.
From Verif Require Import ShewModel ShewSpec ShewGrid ShewSum ShewExp ShewScale ShewEst Shew2d.
Import ListNotations.
Open Scope R_scope.

Lemma RN_stepz z x b : Rabs (z * x) <= b -> Rabs (z * RN x - z * x) <= eps * b /\ Rabs (z * RN x) <= (1 + eps) * b.
Proof.
  intros H. assert (E : Rabs (z * RN x - z * x) <= eps * b).
  { replace (z * RN x - z * x) with (z * (RN x - x)) by ring. rewrite Rabs_mult in *. pose proof (RN_err x) as E. apply Rle_trans with (Rabs z * (eps * Rabs x)); [apply Rmult_le_compat_l; [apply Rabs_pos|exact E]|].
    replace (Rabs z * (eps * Rabs x)) with (eps * (Rabs z * Rabs x)) by ring. apply Rmult_le_compat_l; [rewrite eps_val; lra|exact H]. }
  split; [exact E|]. replace (z * RN x) with ((z * RN x - z * x) + z * x) by ring. eapply Rle_trans; [apply Rabs_triang|]. lra.
Qed.
Lemma RN_errz z x : Rabs (z * RN x - z * x) <= eps * Rabs (z * RN x).
Proof.
  replace (z * RN x - z * x) with (z * (RN x - x)) by ring. rewrite !Rabs_mult. pose proof (RN_err' x) as E. replace (eps * (Rabs z * Rabs (RN x))) with (Rabs z * (eps * Rabs (RN x))) by ring.
  apply Rmult_le_compat_l; [apply Rabs_pos|exact E].
Qed.
Lemma triple a b c z x y k l m : 0 <= k -> 0 <= l -> 0 <= m -> Rabs a <= k * Rabs z -> Rabs b <= l * Rabs x -> Rabs c <= m * Rabs y -> Rabs (a * (b * c)) <= k * (l * m) * Rabs (z * (x * y)).
Proof.
  intros Hk Hl Hm Ha Hb Hc. rewrite !Rabs_mult. replace (k * (l * m) * (Rabs z * (Rabs x * Rabs y))) with ((k * Rabs z) * ((l * Rabs x) * (m * Rabs y))) by ring.
  apply Rmult_le_compat; auto using Rabs_pos. - apply Rmult_le_pos; apply Rabs_pos. - apply Rmult_le_compat; auto using Rabs_pos.
Qed.
Lemma one_abs z : Rabs z <= 1 * Rabs z. Proof. lra. Qed.
Lemma eps_nonneg : 0 <= eps. Proof. rewrite eps_val; lra. Qed.
Ltac tri H1 H2 H3 := (apply abs_le; refine (triple _ _ _ _ _ _ _ _ _ _ _ _ H1 H2 H3); first [exact eps_nonneg | exact Rle_0_1]).

Section Block.
Variables z x y x2 y2 z' x' y' x2' y2' : R.
Hypothesis Hz : Rabs z' <= eps * Rabs z.
Hypothesis Hx : Rabs x' <= eps * Rabs x.
Hypothesis Hy : Rabs y' <= eps * Rabs y.
Hypothesis Hx2 : Rabs x2' <= eps * Rabs x2.
Hypothesis Hy2 : Rabs y2' <= eps * Rabs y2.
Let D := (z + z') * ((x + x') * (y2 + y2') - (x2 + x2') * (y + y')).
Let P := Rabs (z * (x * y2)) + Rabs (z * (x2 * y)).
Let v := z * (x * y2 - x2 * y).

Lemma block_near : Rabs (v - D) <= (3 * eps + 3 * (eps * eps) + eps * (eps * eps)) * P.
Proof.
  pose proof (one_abs z) as Oz. pose proof (one_abs x) as Ox. pose proof (one_abs y) as Oy. pose proof (one_abs x2) as Ox2. pose proof (one_abs y2) as Oy2.
  assert (A1 := ltac:(tri Hz Ox Oy2)). assert (A2 := ltac:(tri Oz Hx Oy2)). assert (A3 := ltac:(tri Oz Ox Hy2)). assert (A4 := ltac:(tri Hz Hx Oy2)). assert (A5 := ltac:(tri Hz Ox Hy2)). assert (A6 := ltac:(tri Oz Hx Hy2)). assert (A7 := ltac:(tri Hz Hx Hy2)).
  assert (B1 := ltac:(tri Hz Ox2 Oy)). assert (B2 := ltac:(tri Oz Hx2 Oy)). assert (B3 := ltac:(tri Oz Ox2 Hy)). assert (B4 := ltac:(tri Hz Hx2 Oy)). assert (B5 := ltac:(tri Hz Ox2 Hy)). assert (B6 := ltac:(tri Oz Hx2 Hy)). assert (B7 := ltac:(tri Hz Hx2 Hy)).
  clear Hz Hx Hy Hx2 Hy2 Oz Ox Oy Ox2 Oy2. unfold v, D, P. rewrite eps_val in *. apply Rabs_le. split; lra.
Qed.

(** the first stage *)
Let b1 := RN (x * y2).
Let b2 := RN (x2 * y).
Let d := RN (b1 - b2).
Let m := RN (z * d).
Let T := Rabs (z * b1) + Rabs (z * b2).
Lemma block_P : P <= (1 + eps) * T.
Proof.
  pose proof (RN_errz z (x * y2)) as A. pose proof (RN_errz z (x2 * y)) as B. fold b1 in A. fold b2 in B. unfold P, T.
  assert (Rabs (z * (x * y2)) <= (1 + eps) * Rabs (z * b1)). { replace (z * (x * y2)) with (z * b1 - (z * b1 - z * (x * y2))) by ring. eapply Rle_trans; [apply Rabs_triang|]. rewrite Rabs_Ropp. lra. }
  assert (Rabs (z * (x2 * y)) <= (1 + eps) * Rabs (z * b2)). { replace (z * (x2 * y)) with (z * b2 - (z * b2 - z * (x2 * y))) by ring. eapply Rle_trans; [apply Rabs_triang|]. rewrite Rabs_Ropp. lra. }
  lra.
Qed.
Lemma block_first : Rabs (m - D) <= (6 * eps + 9 * (eps * eps)) * T /\ Rabs m <= (1 + 3 * eps) * T.
Proof.
  pose proof block_P as HP. pose proof block_near as HN.
  pose proof (RN_errz z (x * y2)) as A. pose proof (RN_errz z (x2 * y)) as B. fold b1 in A. fold b2 in B.
  assert (S : Rabs (z * (b1 - b2)) <= T). { replace (z * (b1 - b2)) with (z * b1 + - (z * b2)) by ring. eapply Rle_trans; [apply Rabs_triang|]. rewrite Rabs_Ropp. unfold T. lra. }
  destruct (RN_stepz _ _ _ S) as [S1 S2]. fold d in S1, S2. destruct (RN_step _ _ S2) as [S3 S4]. fold m in S3, S4.
  pose proof (Rabs_pos (z * b1)) as N1. pose proof (Rabs_pos (z * b2)) as N2.
  assert (HN' : Rabs (v - D) <= (3 * eps + 3 * (eps * eps) + eps * (eps * eps)) * ((1 + eps) * T)).
  { eapply Rle_trans; [exact HN|]. apply Rmult_le_compat_l; [rewrite eps_val; lra|exact HP]. }
  split.
  - apply abs_le in A, B, S1, S3, HN'. clear HN HP S S2 S4. unfold T in *. unfold v in *. rewrite eps_val in *. apply Rabs_le. split; lra.
  - eapply Rle_trans; [exact S4|]. assert (0 <= T) by (unfold T; lra). clear - H. rewrite eps_val in *. lra.
Qed.
Lemma block_permanent : let t := RN (RN (absolute b1 + absolute b2) * absolute z) in 0 <= t /\ T <= (1 + eps) * (1 + eps) * t.
Proof.
  rewrite !absolute_val. pose proof (Rabs_pos b1). pose proof (Rabs_pos b2). pose proof (Rabs_pos z) as Nz. destruct (RN_back (Rabs b1 + Rabs b2)) as (S1 & S2 & _); [lra|]. set (s := RN (Rabs b1 + Rabs b2)) in *.
  destruct (RN_back (s * Rabs z)) as (T1 & T2 & _); [apply Rmult_le_pos; assumption|]. cbv zeta. set (t := RN (s * Rabs z)) in *. split; [exact T1|].
  unfold T. rewrite !Rabs_mult. apply Rle_trans with ((1 + eps) * (s * Rabs z)).
  - replace (Rabs z * Rabs b1 + Rabs z * Rabs b2) with ((Rabs b1 + Rabs b2) * Rabs z) by ring. rewrite <- Rmult_assoc. apply Rmult_le_compat_r; assumption.
  - rewrite Rmult_assoc. apply Rmult_le_compat_l; [rewrite eps_val; lra|exact T2].
Qed.

(** the correction of the third stage *)
Let c := RN (RN (z * RN (RN (RN (x * y2') + RN (y2 * x')) - RN (RN (y * x2') + RN (x2 * y')))) + RN (z' * RN (RN (x * y2) - RN (y * x2)))).
Lemma block_correction : Rabs (v + c - D) <= (17 + 100 * eps) * (eps * eps) * P /\ Rabs c <= (3 + 30 * eps) * eps * P.
Proof.
  pose proof (one_abs z) as Oz. pose proof (one_abs x) as Ox. pose proof (one_abs y) as Oy. pose proof (one_abs x2) as Ox2. pose proof (one_abs y2) as Oy2.
  assert (N1 : 0 <= Rabs (z * (x * y2))) by apply Rabs_pos. assert (N2 : 0 <= Rabs (z * (x2 * y))) by apply Rabs_pos.
  assert (A4 := ltac:(tri Hz Hx Oy2)). assert (A5 := ltac:(tri Hz Ox Hy2)). assert (A6 := ltac:(tri Oz Hx Hy2)). assert (A7 := ltac:(tri Hz Hx Hy2)).
  assert (B4 := ltac:(tri Hz Hx2 Oy)). assert (B5 := ltac:(tri Hz Ox2 Hy)). assert (B6 := ltac:(tri Oz Hx2 Hy)). assert (B7 := ltac:(tri Hz Hx2 Hy)).
  assert (C1 : Rabs (z * (x * y2')) <= eps * Rabs (z * (x * y2))). { replace (eps * _) with (1 * (1 * eps) * Rabs (z * (x * y2))) by ring. apply triple; auto using Rle_0_1, eps_nonneg. }
  assert (C2 : Rabs (z * (y2 * x')) <= eps * Rabs (z * (x * y2))). { rewrite (Rmult_comm y2 x'). replace (eps * _) with (1 * (eps * 1) * Rabs (z * (x * y2))) by ring. apply triple; auto using Rle_0_1, eps_nonneg. }
  assert (C3 : Rabs (z * (y * x2')) <= eps * Rabs (z * (x2 * y))). { rewrite (Rmult_comm y x2'). replace (eps * _) with (1 * (eps * 1) * Rabs (z * (x2 * y))) by ring. apply triple; auto using Rle_0_1, eps_nonneg. }
  assert (C4 : Rabs (z * (x2 * y')) <= eps * Rabs (z * (x2 * y))). { replace (eps * _) with (1 * (1 * eps) * Rabs (z * (x2 * y))) by ring. apply triple; auto using Rle_0_1, eps_nonneg. }
  assert (C5 : Rabs (z' * (x * y2)) <= eps * Rabs (z * (x * y2))). { replace (eps * _) with (eps * (1 * 1) * Rabs (z * (x * y2))) by ring. apply triple; auto using Rle_0_1, eps_nonneg. }
  assert (C6 : Rabs (z' * (y * x2)) <= eps * Rabs (z * (x2 * y))). { rewrite (Rmult_comm y x2). replace (eps * _) with (eps * (1 * 1) * Rabs (z * (x2 * y))) by ring. apply triple; auto using Rle_0_1, eps_nonneg. }
  clear Hz Hx Hy Hx2 Hy2 Oz Ox Oy Ox2 Oy2. unfold P in *.
  destruct (RN_stepz _ _ _ C1) as [D1 E1]. destruct (RN_stepz _ _ _ C2) as [D2 E2]. destruct (RN_stepz _ _ _ C3) as [D3 E3]. destruct (RN_stepz _ _ _ C4) as [D4 E4]. destruct (RN_stepz _ _ _ C5) as [D5 E5]. destruct (RN_stepz _ _ _ C6) as [D6 E6].
  set (p1 := RN (x * y2')) in *. set (p2 := RN (y2 * x')) in *. set (q1 := RN (y * x2')) in *. set (q2 := RN (x2 * y')) in *. set (r1 := RN (x * y2)) in *. set (r2 := RN (y * x2)) in *.
  set (F := Rabs (z * (x * y2))) in *. set (G := Rabs (z * (x2 * y))) in *.
  assert (S1 : Rabs (z * (p1 + p2)) <= (1 + eps) * (2 * eps * F)). { rewrite Rmult_plus_distr_l. eapply Rle_trans; [apply Rabs_triang|]. clear - E1 E2. rewrite eps_val in *. lra. }
  assert (S2 : Rabs (z * (q1 + q2)) <= (1 + eps) * (2 * eps * G)). { rewrite Rmult_plus_distr_l. eapply Rle_trans; [apply Rabs_triang|]. clear - E3 E4. rewrite eps_val in *. lra. }
  destruct (RN_stepz _ _ _ S1) as [S1' S1'']. destruct (RN_stepz _ _ _ S2) as [S2' S2'']. set (p := RN (p1 + p2)) in *. set (q := RN (q1 + q2)) in *.
  assert (S3 : Rabs (z * (p - q)) <= (1 + eps) * ((1 + eps) * (2 * eps * (F + G)))). { replace (z * (p - q)) with (z * p + - (z * q)) by ring. eapply Rle_trans; [apply Rabs_triang|]. rewrite Rabs_Ropp. clear - S1'' S2''. rewrite eps_val in *. lra. }
  destruct (RN_stepz _ _ _ S3) as [S3' S3'']. set (dd := RN (p - q)) in *. destruct (RN_step _ _ S3'') as [S4' S4'']. set (mm := RN (z * dd)) in *.
  assert (S5 : Rabs (z' * (r1 - r2)) <= (1 + eps) * (eps * (F + G))). { replace (z' * (r1 - r2)) with (z' * r1 + - (z' * r2)) by ring. eapply Rle_trans; [apply Rabs_triang|]. rewrite Rabs_Ropp. clear - E5 E6. rewrite eps_val in *. lra. }
  destruct (RN_stepz _ _ _ S5) as [S5' S5'']. set (r := RN (r1 - r2)) in *. destruct (RN_step _ _ S5'') as [S6' S6'']. set (n := RN (z' * r)) in *.
  assert (S7 : Rabs (mm + n) <= (1 + eps) * (1 + eps) * (1 + eps) * (1 + eps) * (3 * eps * (F + G))). { eapply Rle_trans; [apply Rabs_triang|]. clear - S4'' S6'' N1 N2. rewrite eps_val in *. lra. }
  destruct (RN_step _ _ S7) as [S7' S7'']. unfold c. fold p q dd mm r n. set (cc := RN (mm + n)) in *. fold c. change c with cc.
  split.
  - apply abs_le in S7', S6', S5', S4', S3', S2', S1', D1, D2, D3, D4, D5, D6. clear C1 C2 C3 C4 C5 C6 E1 E2 E3 E4 E5 E6 S1 S2 S3 S5 S7 S7'' S1'' S2'' S3'' S4'' S5'' S6''. unfold v, D. rewrite eps_val in *. apply Rabs_le. split; lra.
  - clear - S7'' N1 N2. rewrite eps_val in *. lra.
Qed.
End Block.
