(** orient2d returns a number with the sign of the determinant. *)
From Coq Require Import ZArith Reals Lra Lia Bool List.
From Flocq Require Import Core.
From Verif Require Import ShewModel ShewSpec ShewGrid ShewSum ShewExp ShewScale ShewEst.
Import ListNotations.
Open Scope R_scope.

(** ** Bounds *)
Lemma abs_le x a : Rabs x <= a -> - a <= x <= a. Proof. apply Rabs_le_inv. Qed.
Lemma RN_step x b : Rabs x <= b -> Rabs (RN x - x) <= eps * b /\ Rabs (RN x) <= (1 + eps) * b.
Proof.
  intros H. pose proof (RN_err x) as E. assert (eps * Rabs x <= eps * b) by (apply Rmult_le_compat_l; [rewrite eps_val; lra|exact H]).
  split; [lra|]. replace (RN x) with ((RN x - x) + x) by ring. eapply Rle_trans; [apply Rabs_triang|]. lra.
Qed.
Lemma RN_back x : 0 <= x -> 0 <= RN x /\ x <= (1 + eps) * RN x /\ RN x <= (1 + eps) * x.
Proof.
  intros H. assert (0 <= RN x) by (rewrite <- RN_0; apply RN_le, H). split; [assumption|]. pose proof (RN_err' x) as E. pose proof (RN_err x) as E'. rewrite (Rabs_pos_eq (RN x)) in E by assumption. rewrite (Rabs_pos_eq x) in E' by assumption. apply abs_le in E, E'. lra.
Qed.
Lemma abs_mult_le a b c d : Rabs a <= c -> Rabs b <= d -> Rabs (a * b) <= c * d.
Proof. intros. rewrite Rabs_mult. apply Rmult_le_compat; auto using Rabs_pos. Qed.
Lemma tail_mult_r x y y' : Rabs y' <= eps * Rabs y -> Rabs (x * y') <= eps * Rabs (x * y).
Proof. intros H. rewrite !Rabs_mult. replace (eps * (Rabs x * Rabs y)) with (Rabs x * (eps * Rabs y)) by ring. apply Rmult_le_compat_l; [apply Rabs_pos|exact H]. Qed.
Lemma tail_mult_l x x' y : Rabs x' <= eps * Rabs x -> Rabs (x' * y) <= eps * Rabs (x * y).
Proof. intros H. rewrite (Rmult_comm x'), (Rmult_comm x). apply tail_mult_r, H. Qed.
Lemma tail_mult_2 x x' y y' : Rabs x' <= eps * Rabs x -> Rabs y' <= eps * Rabs y -> Rabs (x' * y') <= eps * eps * Rabs (x * y).
Proof. intros H H'. eapply Rle_trans; [apply tail_mult_l, H|]. rewrite Rmult_assoc. apply Rmult_le_compat_l; [rewrite eps_val; lra|]. apply tail_mult_r, H'. Qed.
Lemma absolute_val a : absolute a = Rabs a.
Proof. unfold absolute, leb. destruct (Rle_bool_spec 0 a); [rewrite Rabs_pos_eq; auto|rewrite Rabs_left; auto]. Qed.
Lemma decided_le d e : decided d e = true -> e <= Rabs d.
Proof. unfold decided, leb. intros H. apply orb_prop in H. pose proof (Rle_abs d). pose proof (Rle_abs (- d)). rewrite Rabs_Ropp in *. destruct (Rle_bool_spec e d), (Rle_bool_spec e (- d)); try lra; destruct H; discriminate. Qed.
Lemma is_float_fmt x : is_float x -> fmt x.
Proof. intros (m & e & -> & H). apply generic_format_FLX. exists (Float radix2 m e); [reflexivity|exact H]. Qed.
Lemma tail_small a b y : RN (a - b) + y = a - b -> Rabs y <= eps * Rabs (RN (a - b)).
Proof. intros H. pose proof (RN_err' (a - b)) as E. rewrite Rabs_minus_sym in E. replace (a - b - RN (a - b)) with y in E by lra. exact E. Qed.
Lemma tail_zero a b : RN (a - b) = 0 -> a - b = 0. Proof. apply RN_zero_iff. Qed.

(** ** The differences and their tails *)
Section Cross.
Variables x y z w x' y' z' w' : R.
Hypothesis Hx : Rabs x' <= eps * Rabs x.
Hypothesis Hy : Rabs y' <= eps * Rabs y.
Hypothesis Hz : Rabs z' <= eps * Rabs z.
Hypothesis Hw : Rabs w' <= eps * Rabs w.
Let D := (x + x') * (y + y') - (z + z') * (w + w').
Let P := Rabs (x * y) + Rabs (z * w).

Lemma det_near : Rabs (x * y - z * w - D) <= (2 * eps + eps * eps) * P.
Proof.
  pose proof (abs_le _ _ (tail_mult_r x y y' Hy)) as A. pose proof (abs_le _ _ (tail_mult_l x x' y Hx)) as B. pose proof (abs_le _ _ (tail_mult_2 x x' y y' Hx Hy)) as C.
  pose proof (abs_le _ _ (tail_mult_r z w w' Hw)) as A'. pose proof (abs_le _ _ (tail_mult_l z z' w Hz)) as B'. pose proof (abs_le _ _ (tail_mult_2 z z' w w' Hz Hw)) as C'.
  unfold D, P. apply Rabs_le. rewrite eps_val in *. split; lra.
Qed.

(** the correction of the third stage *)
Let d := RN (RN (RN (x * y') + RN (y * x')) - RN (RN (z * w') + RN (w * z'))).
Lemma correction_near : Rabs (x * y - z * w + d - D) <= (7 + 50 * eps) * (eps * eps) * P.
Proof.
  pose proof (Rabs_pos (x * y)) as N1. pose proof (Rabs_pos (z * w)) as N2.
  pose proof (tail_mult_r x y y' Hy) as A. pose proof (tail_mult_l x x' y Hx) as B. pose proof (tail_mult_2 x x' y y' Hx Hy) as C.
  pose proof (tail_mult_r z w w' Hw) as A'. pose proof (tail_mult_l z z' w Hz) as B'. pose proof (tail_mult_2 z z' w w' Hz Hw) as C'.
  rewrite (Rmult_comm x') in B. rewrite (Rmult_comm z') in B'.
  destruct (RN_step _ _ A) as [A1 A2]. destruct (RN_step _ _ B) as [B1 B2]. destruct (RN_step _ _ A') as [A1' A2']. destruct (RN_step _ _ B') as [B1' B2'].
  assert (S : Rabs (RN (x * y') + RN (y * x')) <= (1 + eps) * (2 * eps * Rabs (x * y))) by (eapply Rle_trans; [apply Rabs_triang|rewrite eps_val in *; lra]).
  assert (S' : Rabs (RN (z * w') + RN (w * z')) <= (1 + eps) * (2 * eps * Rabs (z * w))) by (eapply Rle_trans; [apply Rabs_triang|rewrite eps_val in *; lra]).
  destruct (RN_step _ _ S) as [S1 S2]. destruct (RN_step _ _ S') as [S1' S2'].
  assert (T : Rabs (RN (RN (x * y') + RN (y * x')) - RN (RN (z * w') + RN (w * z'))) <= (1 + eps) * (1 + eps) * (2 * eps * P)).
  { eapply Rle_trans; [apply Rabs_triang|]. rewrite Rabs_Ropp. unfold P. rewrite eps_val in *. lra. }
  destruct (RN_step _ _ T) as [T1 _]. fold d in T1. unfold P in *.
  apply abs_le in A1, B1, A1', B1', S1, S1', T1, C, C'. unfold D. apply Rabs_le. clear - A1 B1 A1' B1' S1 S1' T1 C C' N1 N2. rewrite eps_val in *. split; lra.
Qed.
End Cross.

(** a comparison with a rounded bound *)
Lemma errbound_ge c s : 0 <= c -> 0 <= s -> c * s <= (1 + eps) * RN (c * s) /\ 0 <= RN (c * s).
Proof. intros Hc Hs. assert (0 <= c * s) by (apply Rmult_le_pos; assumption). destruct (RN_back (c * s)) as (A & B & _); auto. Qed.

Section Orient2d.
Variable op : R -> option R.
Variable mayfail : Prop.
Hypothesis Hop : forall x, sat mayfail (op x) (fun y => y = RN x).
Notation sat := (sat mayfail).

Lemma sub_tails ax cx : (RN (ax - cx) = 0 -> ax - cx = 0). Proof. apply RN_zero_iff. Qed.

Lemma orient2dadapt_sat ax ay bx by_ cx cy s : fmt ax -> fmt ay -> fmt bx -> fmt by_ -> fmt cx -> fmt cy -> 0 < s ->
  Rabs (RN (ax - cx) * RN (by_ - cy)) + Rabs (RN (ay - cy) * RN (bx - cx)) <= (1 + eps) * (1 + eps) * s ->
  sat (orient2dadapt op (ax, ay) (bx, by_) (cx, cy) s) (fun r => same_sign r (det2 (ax, ay) (bx, by_) (cx, cy))).
Proof.
  intros Fax Fay Fbx Fby Fcx Fcy Hs HP. unfold orient2dadapt. do 4 (apply sat_op; [exact Hop|]).
  pose proof (RN_fmt (ax - cx)) as Fx. pose proof (RN_fmt (bx - cx)) as Fw. pose proof (RN_fmt (ay - cy)) as Fz. pose proof (RN_fmt (by_ - cy)) as Fy.
  eapply sat_bind; [apply (two_product_sat op mayfail Hop _ _ Fx Fy)|]. intros p Hp. eapply sat_bind; [apply (two_product_sat op mayfail Hop _ _ Fz Fw)|]. intros q Hq.
  eapply sat_bind; [apply (diff_of_products_sat op mayfail Hop _ _ _ _ _ _ Fx Fy Fz Fw Hp Hq)|]. intros B HB.
  eapply sat_bind; [apply (estimate_12 op mayfail Hop _ _ _ HB)|]. intros est Hest. cbv beta in Hest.
  apply sat_op; [exact Hop|].
  pose proof (two_diff_tail_sat op mayfail Hop ax cx Fax Fcx) as Tx. pose proof (two_diff_tail_sat op mayfail Hop bx cx Fbx Fcx) as Tw. pose proof (two_diff_tail_sat op mayfail Hop ay cy Fay Fcy) as Tz. pose proof (two_diff_tail_sat op mayfail Hop by_ cy Fby Fcy) as Ty.
  pose proof (RN_err' (ax - cx)) as Ex. pose proof (RN_err' (by_ - cy)) as Ey. pose proof (RN_err' (ay - cy)) as Ez. pose proof (RN_err' (bx - cx)) as Ew. rewrite Rabs_minus_sym in Ex, Ey, Ez, Ew.
  unfold det2. cbn [fst snd].
  set (x := RN (ax - cx)) in *. set (y := RN (by_ - cy)) in *. set (z := RN (ay - cy)) in *. set (w := RN (bx - cx)) in *.
  set (v := x * y - z * w) in *. set (P := Rabs (x * y) + Rabs (z * w)) in *.
  assert (HB' := expansion_half _ _ _ HB).
  destruct (decided _ _) eqn:DB.
  - apply sat_some. apply decided_le in DB. pose proof (det_near x y z w (ax - cx - x) (by_ - cy - y) (ay - cy - z) (bx - cx - w) Ex Ey Ez Ew) as N.
    replace (x + (ax - cx - x)) with (ax - cx) in N by ring. replace (y + (by_ - cy - y)) with (by_ - cy) in N by ring. replace (z + (ay - cy - z)) with (ay - cy) in N by ring. replace (w + (bx - cx - w)) with (bx - cx) in N by ring.
    fold v P in N. destruct (errbound_ge ccwerrboundB s) as [E1 E2]; [rewrite ccwerrboundB_val, eps_val; lra|lra|]. rewrite ccwerrboundB_val in *.
    set (e := RN ((2 + 12 * eps) * eps * s)) in *. apply near_sign.
    assert (V : Rabs v <= (1 + 2 * eps) * Rabs est). { replace v with (est - (est - v)) by ring. pose proof (Rabs_triang est (- (est - v))) as U. rewrite Rabs_Ropp in U. fold (est - (est - v)) in U. replace (est - (est - v)) with v in * by ring. pose proof (Rabs_pos v). rewrite eps_val in *. lra. }
    set (dt := (ax - cx) * (by_ - cy) - (ay - cy) * (bx - cx)) in *. replace (est - dt) with ((est - v) + (v - dt)) by ring. eapply Rle_lt_trans; [apply Rabs_triang|]. pose proof (Rabs_pos est). rewrite eps_val in *. lra.
  - clear DB. eapply sat_bind; [exact Tx|]. intros x' [Hx Fx']. eapply sat_bind; [exact Tw|]. intros w' [Hw Fw']. eapply sat_bind; [exact Tz|]. intros z' [Hz Fz']. eapply sat_bind; [exact Ty|]. intros y' [Hy Fy'].
    rewrite <- Hx, <- Hy, <- Hz, <- Hw in *. replace (x + x' - x) with x' in Ex by ring. replace (y + y' - y) with y' in Ey by ring. replace (z + z' - z) with z' in Ez by ring. replace (w + w' - w) with w' in Ew by ring.
    assert (V : Rabs (est - v) <= (5 / 3 + 2 * eps) * eps * Rabs est).
    { assert (Rabs v <= (1 + 2 * eps) * Rabs est). { pose proof (Rabs_triang est (- (est - v))) as U. rewrite Rabs_Ropp in U. fold (est - (est - v)) in U. replace (est - (est - v)) with v in * by ring. pose proof (Rabs_pos v). rewrite eps_val in *. lra. }
      pose proof (Rabs_pos est). rewrite eps_val in *. lra. }
    destruct (eqb x' 0 && eqb z' 0 && eqb w' 0 && eqb y' 0) eqn:Z.
    + apply andb_prop in Z. destruct Z as [Z Z4]. apply andb_prop in Z. destruct Z as [Z Z3]. apply andb_prop in Z. destruct Z as [Z1 Z2]. unfold eqb in *. destruct (Req_bool_spec x' 0), (Req_bool_spec y' 0), (Req_bool_spec z' 0), (Req_bool_spec w' 0); try discriminate.
      subst x' y' z' w'. rewrite !Rplus_0_r. fold v. apply sat_some. destruct (Req_dec est 0) as [-> | N].
      * rewrite Rabs_R0, Rmult_0_r in V. replace v with 0; [apply same_sign_refl|]. pose proof (Rabs_pos (0 - v)). assert (0 - v = 0) by (destruct (Req_dec (0 - v) 0); [assumption|]; pose proof (Rabs_pos_lt (0 - v)); tauto || lra). lra.
      * apply near_sign. apply Rabs_pos_lt in N. rewrite eps_val in *. lra.
    + clear Z. do 11 (apply sat_op; [exact Hop|]). rewrite absolute_val.
      destruct (decided _ _) eqn:DC.
      * apply sat_some. apply decided_le in DC.
        pose proof (correction_near x y z w x' y' z' w' Ex Ey Ez Ew) as N. cbv zeta in N. fold v P in N. set (d := RN (RN (RN (x * y') + RN (y * x')) - RN (RN (z * w') + RN (w * z')))) in *. set (dt := (x + x') * (y + y') - (z + z') * (w + w')) in *.
        assert (CP : 0 <= ccwerrboundC) by (rewrite ccwerrboundC_val, eps_val; lra). destruct (errbound_ge ccwerrboundC s) as [E1 E2]; [exact CP|lra|]. destruct (errbound_ge resulterrbound (Rabs est)) as [E3 E4]; [rewrite resulterrbound_val, eps_val; lra|apply Rabs_pos|]. rewrite ccwerrboundC_val, resulterrbound_val in *.
        set (e1 := RN ((9 + 64 * eps) * (eps * eps) * s)) in *. set (e2 := RN ((3 + 8 * eps) * eps * Rabs est)) in *. destruct (RN_back (e1 + e2)) as (E5 & E6 & _); [lra|]. set (e := RN (e1 + e2)) in *.
        pose proof (RN_err' (est + d)) as R'. set (D2 := RN (est + d)) in *. apply near_sign. replace (D2 - dt) with ((D2 - (est + d)) + ((est - v) + (v + d - dt))) by ring.
        eapply Rle_lt_trans; [apply Rabs_triang|]. pose proof (Rabs_triang (est - v) (v + d - dt)) as U. pose proof (Rabs_pos est). clear - E1 E2 E3 E4 E5 E6 R' U N V DC H Hs HP. rewrite eps_val in *. lra.
      * clear DC. eapply sat_bind; [apply (two_product_sat op mayfail Hop _ _ Fx' Fy)|]. intros s1 H1. eapply sat_bind; [apply (two_product_sat op mayfail Hop _ _ Fz' Fw)|]. intros t1 H2.
        eapply sat_bind; [apply (diff_of_products_sat op mayfail Hop _ _ _ _ _ _ Fx' Fy Fz' Fw H1 H2)|]. intros u1 U1.
        eapply sat_bind; [apply (fast_expansion_sum_sat op mayfail Hop 8 4 4 _ _ _ _ (le_n _) HB' (expansion_half _ _ _ U1))|]. intros C1 (X1 & _ & _).
        eapply sat_bind; [apply (two_product_sat op mayfail Hop _ _ Fx Fy')|]. intros s2 H3. eapply sat_bind; [apply (two_product_sat op mayfail Hop _ _ Fz Fw')|]. intros t2 H4.
        eapply sat_bind; [apply (diff_of_products_sat op mayfail Hop _ _ _ _ _ _ Fx Fy' Fz Fw' H3 H4)|]. intros u2 U2.
        eapply sat_bind; [apply (fast_expansion_sum_sat op mayfail Hop 12 8 4 _ _ _ _ (le_n _) X1 (expansion_half _ _ _ U2))|]. intros C2 (X2 & _ & _).
        eapply sat_bind; [apply (two_product_sat op mayfail Hop _ _ Fx' Fy')|]. intros s3 H5. eapply sat_bind; [apply (two_product_sat op mayfail Hop _ _ Fz' Fw')|]. intros t3 H6.
        eapply sat_bind; [apply (diff_of_products_sat op mayfail Hop _ _ _ _ _ _ Fx' Fy' Fz' Fw' H5 H6)|]. intros u3 U3.
        eapply sat_bind; [apply (fast_expansion_sum_sat op mayfail Hop 16 12 4 _ _ _ _ (le_n _) X2 (expansion_half _ _ _ U3))|]. intros D3 (X3 & Z3 & _).
        apply sat_some. pose proof (largest_sign _ _ _ X3 Z3) as L. replace ((x + x') * (y + y') - (z + z') * (w + w')) with (v + (x' * y - z' * w) + (x * y' - z * w') + (x' * y' - z' * w')) by (unfold v; ring). exact L.
Qed.

(** the signs of the products that the first stage compares *)
Lemma prod_pos a b : (0 < RN (RN a * RN b) <-> 0 < a * b) /\ (RN (RN a * RN b) < 0 <-> a * b < 0).
Proof.
  rewrite RN_pos_iff, RN_neg_iff. pose proof (RN_pos_iff a) as Pa. pose proof (RN_neg_iff a) as Na. pose proof (RN_zero_iff a) as Za. pose proof (RN_pos_iff b) as Pb. pose proof (RN_neg_iff b) as Nb. pose proof (RN_zero_iff b) as Zb.
  set (u := RN a) in *. set (t := RN b) in *.
  destruct (Rtotal_order a 0) as [A | [A | A]], (Rtotal_order b 0) as [B | [B | B]];
    try (assert (u < 0) by tauto); try (assert (u = 0) by tauto); try (assert (0 < u) by tauto); try (assert (t < 0) by tauto); try (assert (t = 0) by tauto); try (assert (0 < t) by tauto);
    try (rewrite A); try (rewrite B); try (replace u with 0 by auto); try (replace t with 0 by auto); split; nra.
Qed.

Theorem orient2d_sat ax ay bx by_ cx cy : fmt ax -> fmt ay -> fmt bx -> fmt by_ -> fmt cx -> fmt cy ->
  sat (orient2d op (ax, ay) (bx, by_) (cx, cy)) (fun r => same_sign r (det2 (ax, ay) (bx, by_) (cx, cy))).
Proof.
  intros Fax Fay Fbx Fby Fcx Fcy. unfold orient2d. do 7 (apply sat_op; [exact Hop|]). cbv zeta.
  destruct (prod_pos (ax - cx) (by_ - cy)) as [LP LN]. destruct (prod_pos (ay - cy) (bx - cx)) as [RP RM].
  pose proof (orient2dadapt_sat ax ay bx by_ cx cy) as AD.
  pose proof (RN_err' (ax - cx)) as Ex. pose proof (RN_err' (by_ - cy)) as Ey. pose proof (RN_err' (ay - cy)) as Ez. pose proof (RN_err' (bx - cx)) as Ew. rewrite Rabs_minus_sym in Ex, Ey, Ez, Ew.
  pose proof (det_near _ _ _ _ _ _ _ _ Ex Ey Ez Ew) as N.
  set (x := RN (ax - cx)) in *. set (y := RN (by_ - cy)) in *. set (z := RN (ay - cy)) in *. set (w := RN (bx - cx)) in *.
  replace (x + (ax - cx - x)) with (ax - cx) in N by ring. replace (y + (by_ - cy - y)) with (by_ - cy) in N by ring. replace (z + (ay - cy - z)) with (ay - cy) in N by ring. replace (w + (bx - cx - w)) with (bx - cx) in N by ring.
  pose proof (RN_err' (x * y)) as EL. pose proof (RN_err' (z * w)) as ER. 
  set (L := RN (x * y)) in *. set (R_ := RN (z * w)) in *. set (D := RN (L - R_)).
  assert (Dsign : same_sign D (L - R_)) by (unfold D; split; [apply RN_pos_iff|apply RN_neg_iff]).
  assert (PL : Rabs (x * y) <= (1 + eps) * Rabs L). { replace (x * y) with (L - (L - x * y)) by ring. eapply Rle_trans; [apply Rabs_triang|]. rewrite Rabs_Ropp. lra. }
  assert (PR : Rabs (z * w) <= (1 + eps) * Rabs R_). { replace (z * w) with (R_ - (R_ - z * w)) by ring. eapply Rle_trans; [apply Rabs_triang|]. rewrite Rabs_Ropp. lra. }
  assert (ADAPT : forall t, 0 < t -> t = Rabs L + Rabs R_ -> sat (let* detsum := op t in let* errbound := op (ccwerrboundA * detsum) in if decided D errbound then Some D else orient2dadapt op (ax, ay) (bx, by_) (cx, cy) detsum) (fun r => same_sign r (det2 (ax, ay) (bx, by_) (cx, cy)))).
  { intros t Ht Et. do 2 (apply sat_op; [exact Hop|]). destruct (RN_back t) as (_ & S2 & _); [lra|]. pose proof (RN_pos t Ht) as S1. set (s := RN t) in *.
    destruct (errbound_ge ccwerrboundA s) as [E1 E2]; [rewrite ccwerrboundA_val, eps_val; lra|lra|]. rewrite ccwerrboundA_val in *.
    destruct (decided _ _) eqn:DA.
    - apply sat_some. apply decided_le in DA. set (e := RN ((3 + 16 * eps) * eps * s)) in *. unfold det2. cbn [fst snd]. set (dt := (ax - cx) * (by_ - cy) - (ay - cy) * (bx - cx)) in *. apply near_sign. pose proof (RN_err' (L - R_)) as ED. fold D in ED.
      replace (D - dt) with ((D - (L - R_)) + ((L - x * y) + (- (R_ - z * w) + (x * y - z * w - dt)))) by ring. eapply Rle_lt_trans; [apply Rabs_triang|].
      pose proof (Rabs_triang (L - x * y) (- (R_ - z * w) + (x * y - z * w - dt))) as U1. pose proof (Rabs_triang (- (R_ - z * w)) (x * y - z * w - dt)) as U2. rewrite Rabs_Ropp in U2.
      clear - E1 E2 DA ED U1 U2 EL ER PL PR N S1 S2 Et Ht. rewrite eps_val in *. lra.
    - apply AD; try assumption. clear - PL PR S1 S2 Et. rewrite eps_val in *. lra. }
  clear AD N EL ER PL PR Ex Ey Ez Ew. unfold ltb, leb.
  destruct (Rlt_bool_spec 0 L) as [L0 | L0].
  - destruct (Rle_bool_spec R_ 0) as [R0 | R0].
    + apply sat_some. unfold det2. cbn [fst snd]. assert (0 < D) by (apply Dsign; lra). assert (0 < (ax - cx) * (by_ - cy)) by (apply LP, L0). assert (~ 0 < (ay - cy) * (bx - cx)) by (rewrite <- RP; lra). split; split; lra.
    + apply ADAPT; [lra|rewrite !Rabs_pos_eq; lra].
  - destruct (Rlt_bool_spec L 0) as [L1 | L1].
    + destruct (Rle_bool_spec 0 R_) as [R0 | R0].
      * apply sat_some. unfold det2. cbn [fst snd]. assert (D < 0) by (apply Dsign; lra). assert ((ax - cx) * (by_ - cy) < 0) by (apply LN, L1). assert (~ (ay - cy) * (bx - cx) < 0) by (rewrite <- RM; lra). split; split; lra.
      * apply ADAPT; [lra|rewrite !Rabs_left; lra].
    + apply sat_some. unfold det2. cbn [fst snd]. assert (A0 : ~ 0 < (ax - cx) * (by_ - cy)) by (rewrite <- LP; lra). assert (A1 : ~ (ax - cx) * (by_ - cy) < 0) by (rewrite <- LN; lra).
      destruct Dsign as [D1 D2]. split; split; intros H.
      * apply D1 in H. assert (R_ < 0) by lra. assert ((ay - cy) * (bx - cx) < 0) by tauto. lra.
      * apply D1. assert ((ay - cy) * (bx - cx) < 0) by lra. assert (R_ < 0) by tauto. lra.
      * apply D2 in H. assert (0 < R_) by lra. assert (0 < (ay - cy) * (bx - cx)) by tauto. lra.
      * apply D2. assert (0 < (ay - cy) * (bx - cx)) by lra. assert (0 < R_) by tauto. lra.
Qed.
End Orient2d.
