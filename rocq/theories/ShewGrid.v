(** Facts about rounding to 53 bits (unbounded exponents, nearest, ties to even), and grids 2^s Z. *)
From Coq Require Import ZArith Reals Lra Lia Bool List.
From Flocq Require Import Core Relative.
Import ListNotations.
Open Scope R_scope.

#[global] Instance prec53 : Prec_gt_0 53 := eq_refl.
Notation bp := (bpow radix2).
Notation RN := (round radix2 (FLX_exp 53) ZnearestE).
Notation fmt := (generic_format radix2 (FLX_exp 53)).
Definition eps : R := bp (-53).

Lemma bp_pos e : 0 < bp e. Proof. apply bpow_gt_0. Qed.
Lemma bp_S e : bp (e + 1) = 2 * bp e. Proof. rewrite bpow_plus. change (bp 1) with 2. ring. Qed.
Lemma bp_P e : bp (e - 1) = bp e / 2. Proof. replace e with (e - 1 + 1)%Z at 2 by ring. rewrite bp_S. field. Qed.
Lemma bp_53 e : bp (e + 53) = 9007199254740992 * bp e. Proof. rewrite bpow_plus. change (bp 53) with 9007199254740992. ring. Qed.
Lemma bp_52 e : bp (e + 52) = 4503599627370496 * bp e. Proof. rewrite bpow_plus. change (bp 52) with 4503599627370496. ring. Qed.
Lemma bp_le a b : (a <= b)%Z -> bp a <= bp b. Proof. apply bpow_le. Qed.
Lemma bp_lt a b : (a < b)%Z -> bp a < bp b. Proof. apply bpow_lt. Qed.
Lemma bp_lt_inv a b : bp a < bp b -> (a < b)%Z. Proof. apply lt_bpow. Qed.
Lemma bp_le_inv a b : bp a <= bp b -> (a <= b)%Z. Proof. apply le_bpow. Qed.
Lemma eps_val : eps = / 9007199254740992. Proof. reflexivity. Qed.

Lemma RN_fmt x : fmt (RN x). Proof. apply generic_format_round; typeclasses eauto. Qed.
Lemma RN_id x : fmt x -> RN x = x. Proof. apply round_generic. typeclasses eauto. Qed.
Lemma RN_0 : RN 0 = 0. Proof. apply round_0. typeclasses eauto. Qed.
Lemma RN_opp x : RN (- x) = - RN x. Proof. apply round_NE_opp. Qed.
Lemma RN_le x y : x <= y -> RN x <= RN y. Proof. apply round_le; typeclasses eauto. Qed.
Lemma RN_abs x : RN (Rabs x) = Rabs (RN x). Proof. symmetry. rewrite <- round_NE_abs; [reflexivity|typeclasses eauto]. Qed.
Lemma fmt_bp e : fmt (bp e). Proof. apply generic_format_bpow. unfold FLX_exp. lia. Qed.
Lemma fmt_opp x : fmt x -> fmt (- x). Proof. apply generic_format_opp. Qed.
Lemma fmt_0 : fmt 0. Proof. apply generic_format_0. Qed.
Lemma half_eps : / 2 * bp (- (53) + 1) = eps. Proof. unfold eps. rewrite bp_S. change (bp (- (53))) with (bp (-53)). lra. Qed.
Lemma RN_err x : Rabs (RN x - x) <= eps * Rabs x.
Proof. apply Rle_trans with (1 := relative_error_N_FLX radix2 53 eq_refl _ x). rewrite half_eps. apply Rle_refl. Qed.
Lemma RN_err' x : Rabs (RN x - x) <= eps * Rabs (RN x).
Proof. apply Rle_trans with (1 := relative_error_N_FLX_round radix2 53 eq_refl _ x). rewrite half_eps. apply Rle_refl. Qed.
Lemma RN_pos x : 0 < x -> 0 < RN x.
Proof.
  intros H. pose proof (RN_err x) as E. rewrite (Rabs_pos_eq x) in E by lra. rewrite eps_val in E. apply Rabs_le_inv in E. lra.
Qed.
Lemma RN_neg x : x < 0 -> RN x < 0.
Proof. intros H. pose proof (RN_pos (- x)) as P. rewrite RN_opp in P. lra. Qed.
Lemma RN_pos_iff x : 0 < RN x <-> 0 < x.
Proof. split; [|apply RN_pos]. intros H. destruct (Rtotal_order 0 x) as [|[<-|N]]; [assumption|rewrite RN_0 in H; lra|apply RN_neg in N; lra]. Qed.
Lemma RN_neg_iff x : RN x < 0 <-> x < 0.
Proof. split; [|apply RN_neg]. intros H. destruct (Rtotal_order x 0) as [|[->|N]]; [assumption|rewrite RN_0 in H; lra|apply RN_pos in N; lra]. Qed.
Lemma RN_zero_iff x : RN x = 0 <-> x = 0.
Proof. split; [|intros ->; apply RN_0]. intros H. destruct (Rtotal_order x 0) as [N|[|N]]; [apply RN_neg in N; lra|assumption|apply RN_pos in N; lra]. Qed.

(** ** Grids *)
Definition grid (s : Z) (x : R) : Prop := exists k : Z, x = IZR k * bp s.

Lemma grid_0 s : grid s 0. Proof. exists 0%Z. ring. Qed.
Lemma grid_add s x y : grid s x -> grid s y -> grid s (x + y).
Proof. intros [a ->] [b ->]. exists (a + b)%Z. rewrite plus_IZR. ring. Qed.
Lemma grid_opp s x : grid s x -> grid s (- x).
Proof. intros [a ->]. exists (- a)%Z. rewrite opp_IZR. ring. Qed.
Lemma grid_sub s x y : grid s x -> grid s y -> grid s (x - y).
Proof. intros. apply grid_add; [assumption|apply grid_opp; assumption]. Qed.
Lemma grid_abs s x : grid s x -> grid s (Rabs x).
Proof. intros H. unfold Rabs. destruct (Rcase_abs x); [apply grid_opp|]; exact H. Qed.
Lemma grid_bp s t : (s <= t)%Z -> grid s (bp t).
Proof. intros H. exists (2 ^ (t - s))%Z. replace t with (t - s + s)%Z at 1 by ring. rewrite bpow_plus. f_equal. rewrite <- IZR_Zpower by lia. reflexivity. Qed.
Lemma grid_mult s t x y : grid s x -> grid t y -> grid (s + t) (x * y).
Proof. intros [a ->] [b ->]. exists (a * b)%Z. rewrite mult_IZR, bpow_plus. ring. Qed.
Lemma grid_le s t x : (s <= t)%Z -> grid t x -> grid s x.
Proof. intros H [a ->]. destruct (grid_bp s t H) as [k ->]. exists (a * k)%Z. rewrite mult_IZR. ring. Qed.
Lemma grid_ge s x : grid s x -> x <> 0 -> bp s <= Rabs x.
Proof.
  intros [a ->] N. rewrite Rabs_mult, (Rabs_pos_eq (bp s)) by (pose proof (bp_pos s); lra).
  assert (a <> 0)%Z by (intros ->; apply N; ring). assert (1 <= Rabs (IZR a)) by (rewrite <- abs_IZR; apply IZR_le; lia). pose proof (bp_pos s). nra.
Qed.
(** two points of a grid: strictly below means at least one unit below *)
Lemma grid_lt s x y : grid s x -> grid s y -> x < y -> x + bp s <= y.
Proof.
  intros X Y H. assert (D : grid s (y - x)) by (apply grid_sub; assumption). apply grid_ge in D; [|lra]. rewrite Rabs_pos_eq in D by lra. lra.
Qed.
Lemma grid_fmt s x : grid s x -> Rabs x <= bp (s + 53) -> fmt x.
Proof.
  intros [k E] H. destruct (Req_dec (Rabs x) (bp (s + 53))) as [Q|Q].
  - unfold Rabs in Q. destruct (Rcase_abs x); [replace x with (- bp (s + 53)) by lra; apply fmt_opp, fmt_bp|rewrite Q; apply fmt_bp].
  - apply generic_format_FLX. exists (Float radix2 k s); [rewrite E; reflexivity|]. cbn [Fnum]. apply lt_IZR. rewrite abs_IZR.
    apply Rmult_lt_reg_r with (bp s); [apply bp_pos|]. change (IZR (radix2 ^ 53)) with 9007199254740992. rewrite <- bp_53. rewrite <- (Rabs_pos_eq (bp s)) at 1 by (pose proof (bp_pos s); lra). rewrite <- Rabs_mult, <- E. lra.
Qed.
Lemma fmt_grid x m : fmt x -> bp (m + 52) <= Rabs x -> grid m x.
Proof.
  intros F H. assert (N : x <> 0) by (intros ->; rewrite Rabs_R0 in H; pose proof (bp_pos (m + 52)); lra).
  apply grid_le with (cexp radix2 (FLX_exp 53) x).
  - unfold cexp, FLX_exp. assert (m + 52 < mag radix2 x)%Z; [|lia]. apply bp_lt_inv. apply Rle_lt_trans with (1 := H). apply bpow_mag_gt.
  - exists (Ztrunc (scaled_mantissa radix2 (FLX_exp 53) x)). exact F.
Qed.

(** the exponent of the last bit of a nonzero number with 53 bits *)
Lemma scale_ex x : x <> 0 -> exists c, bp (c + 52) <= Rabs x < bp (c + 53).
Proof.
  intros N. exists (mag radix2 x - 53)%Z. replace (mag radix2 x - 53 + 53)%Z with (mag radix2 x : Z) by ring. replace (mag radix2 x - 53 + 52)%Z with (mag radix2 x - 1)%Z by ring.
  split; [apply bpow_mag_le, N|apply bpow_mag_gt].
Qed.
Lemma scale_cexp x c : bp (c + 52) <= Rabs x < bp (c + 53) -> cexp radix2 (FLX_exp 53) x = c.
Proof.
  intros H. unfold cexp, FLX_exp. rewrite (mag_unique radix2 x (c + 53)); [ring|]. replace (c + 53 - 1)%Z with (c + 52)%Z by ring. exact H.
Qed.

Lemma RN_grid_exp x c : bp (c + 52) <= Rabs x < bp (c + 53) -> grid c (RN x) /\ Rabs (x - RN x) <= bp (c - 1) /\ bp (c + 52) <= Rabs (RN x) <= bp (c + 53) /\
  (Rabs (x - RN x) = bp (c - 1) -> grid (c + 1) (RN x)).
Proof.
  intros H. pose proof (scale_cexp x c H) as E.
  assert (R : RN x = IZR (ZnearestE (x * bp (- c))) * bp c).
  { unfold round, F2R, scaled_mantissa. rewrite E. reflexivity. }
  set (m := x * bp (- c)) in *. assert (X : x = m * bp c) by (unfold m; rewrite Rmult_assoc, <- bpow_plus; replace (- c + c)%Z with 0%Z by ring; cbn; ring).
  assert (P := bp_pos c). split; [exists (ZnearestE m); exact R|].
  assert (D : Rabs (x - RN x) = Rabs (m - IZR (ZnearestE m)) * bp c).
  { rewrite R, X. replace (_ - _) with ((m - IZR (ZnearestE m)) * bp c) by ring. rewrite Rabs_mult, (Rabs_pos_eq (bp c)) by lra. reflexivity. }
  split; [|split].
  - rewrite D, bp_P. pose proof (Znearest_half (fun z => negb (Z.even z)) m) as Z. nra.
  - rewrite <- RN_abs. split.
    + rewrite <- (RN_id (bp (c + 52))) by apply fmt_bp. apply RN_le. lra.
    + rewrite <- (RN_id (bp (c + 53))) by apply fmt_bp. apply RN_le. lra.
  - rewrite D, bp_P. intros T. assert (T' : Rabs (m - IZR (ZnearestE m)) = / 2) by (apply Rmult_eq_reg_r with (bp c); lra).
    assert (Ev : Z.even (ZnearestE m) = true).
    { revert T'. unfold Znearest. destruct (Rcompare_spec (m - IZR (Zfloor m)) (/ 2)) as [L|Q|L].
      - intros T'. rewrite Rabs_pos_eq in T' by (pose proof (Zfloor_lb m); lra). lra.
      - intros _. destruct (Z.even (Zfloor m)) eqn:Ef; cbn [negb]; [exact Ef|]. rewrite Zceil_floor_neq by (intros K; lra). rewrite Z.even_add, Ef. reflexivity.
      - intros T'. exfalso. assert (N : IZR (Zfloor m) <> m) by (intros K; lra). rewrite (Zceil_floor_neq m N) in T'. rewrite plus_IZR in T'. pose proof (Zfloor_ub m). rewrite Rabs_left in T' by lra. lra. }
    apply Z.even_spec in Ev. destruct Ev as [k K]. exists k. rewrite R, K, mult_IZR, bp_S. ring.
Qed.

Lemma RN_grid s x : grid s x -> grid s (RN x).
Proof.
  intros G. destruct (Req_dec x 0) as [->|N]; [rewrite RN_0; exact G|]. destruct (scale_ex x N) as [c C].
  destruct (Z_le_gt_dec c s) as [L|L].
  - rewrite RN_id; [exact G|]. apply (grid_fmt c); [apply grid_le with s; assumption|lra].
  - apply grid_le with c; [lia|]. apply (RN_grid_exp x c C).
Qed.
Lemma RN_half x m : Rabs x <= bp m -> Rabs (x - RN x) <= bp (m - 54).
Proof.
  intros H. destruct (Req_dec x 0) as [->|N]; [rewrite RN_0, Rminus_0_r, Rabs_R0; pose proof (bp_pos (m - 54)); lra|].
  destruct (scale_ex x N) as [c C]. destruct (Req_dec (Rabs x) (bp m)) as [Q|Q].
  - rewrite RN_id; [rewrite Rminus_eq_0, Rabs_R0; pose proof (bp_pos (m - 54)); lra|]. unfold Rabs in Q. destruct (Rcase_abs x); [replace x with (- bp m) by lra; apply fmt_opp, fmt_bp|rewrite Q; apply fmt_bp].
  - destruct (RN_grid_exp x c C) as (_ & E & _). apply Rle_trans with (1 := E). apply bp_le. assert (c + 52 < m)%Z; [|lia]. apply bp_lt_inv. lra.
Qed.
(** rounding to nearest *)
Lemma RN_nearest x y : fmt y -> Rabs (x - RN x) <= Rabs (x - y).
Proof.
  intros F. rewrite (Rabs_minus_sym x), (Rabs_minus_sym x y). apply (proj2 (round_N_pt radix2 (FLX_exp 53) (fun z => negb (Z.even z)) x)). exact F.
Qed.
Lemma RN_bound x m : Rabs x <= bp m -> Rabs (RN x) <= bp m.
Proof. intros H. rewrite <- RN_abs, <- (RN_id (bp m)) by apply fmt_bp. apply RN_le, H. Qed.

(** The key lemma.  [A] bounds what was rounded off before, and is below the grid of [x].  If [x] is rounded, what is rounded off altogether is
    below half the grid of the result. *)
Lemma round_step x t A : grid t x -> A < bp t -> x - RN x <> 0 ->
  exists c, bp (c + 52) <= Rabs x < bp (c + 53) /\ bp (c + 52) <= Rabs (RN x) /\ grid t (x - RN x) /\ A + Rabs (x - RN x) < bp c /\
    exists s, (c <= s)%Z /\ grid s (RN x) /\ A + Rabs (x - RN x) < bp (s - 1) /\ (s = c \/ Rabs (x - RN x) = bp (c - 1)).
Proof.
  intros G HA N. assert (X0 : x <> 0) by (intros ->; apply N; rewrite RN_0; ring).
  destruct (scale_ex x X0) as [c C]. destruct (RN_grid_exp x c C) as (Gr & H & B & T). exists c. split; [exact C|]. split; [apply B|].
  assert (L : (t < c)%Z). { destruct (Z_lt_le_dec t c) as [|L]; [assumption|exfalso]. apply N. rewrite RN_id; [ring|]. apply (grid_fmt c); [apply grid_le with t; assumption|lra]. }
  assert (Gh : grid t (x - RN x)) by (apply grid_sub; [exact G|apply RN_grid, G]). split; [exact Gh|].
  destruct (Rle_lt_or_eq_dec _ _ H) as [S|S].
  - assert (K : Rabs (x - RN x) + bp t <= bp (c - 1)) by (apply grid_lt; [apply grid_abs, Gh|apply grid_bp; lia|exact S]). pose proof (bp_P c). pose proof (bp_pos c). split; [lra|]. exists c. split; [lia|]. split; [exact Gr|]. split; [lra|auto].
  - assert (K : bp t <= bp (c - 1)) by (apply bp_le; lia). pose proof (bp_P c). split; [lra|]. exists (c + 1)%Z. split; [lia|]. split; [apply T, S|]. split; [|auto]. replace (c + 1 - 1)%Z with c by ring. lra.
Qed.
