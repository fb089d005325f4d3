(** orient3d returns a number with the sign of the determinant: the stages put together. *)
From Coq Require Import ZArith Reals Lra Lia Bool List.
From Flocq Require Import Core.
From Verif Require Import ShewModel ShewSpec ShewGrid ShewSum ShewExp ShewScale ShewEst Shew2d Shew3dBounds Shew3d.
Import ListNotations.
Open Scope R_scope.

Lemma block_size_pos z x y x2 y2 : 0 <= block_size z x y x2 y2.
Proof. unfold block_size. pose proof (Rabs_pos (z * (x * y2))). pose proof (Rabs_pos (z * (x2 * y))). lra. Qed.

(** comparing an estimate with the error bounds *)
Lemma stage_B est v D lw P s E : 0 < s -> Rabs (est - v) <= eps * Rabs est + 176 / 100 * eps * lw -> lw * 4503599627370495 <= (1 + 60 * eps) * P -> P <= (1 + 5 * eps + 11 * (eps * eps)) * s ->
  Rabs (v - D) <= (3 * eps + 3 * (eps * eps) + eps * (eps * eps)) * P -> (3 + 28 * eps) * eps * s <= (1 + eps) * E -> E <= Rabs est -> close est D.
Proof.
  intros Hs H1 H2 H3 H4 H5 H6. left. replace (est - D) with ((est - v) + (v - D)) by ring. eapply Rle_lt_trans; [apply Rabs_triang|]. pose proof (Rabs_pos est). rewrite eps_val in *. lra.
Qed.
Lemma stage_exact est v lw : Rabs (est - v) <= eps * Rabs est + 176 / 100 * eps * lw -> lw <= 3 * Rabs v -> close est v.
Proof.
  intros H1 H2. apply close_half.
  assert (V : Rabs v <= Rabs est + Rabs (est - v)). { replace v with (est - (est - v)) at 1 by ring. eapply Rle_trans; [apply Rabs_triang|]. rewrite Rabs_Ropp. lra. }
  pose proof (Rabs_pos est). rewrite eps_val in *. lra.
Qed.
Lemma stage_C est v D d lw P s e1 e2 E D2 : 0 < s -> 0 <= P -> Rabs (est - v) <= eps * Rabs est + 176 / 100 * eps * lw -> lw * 4503599627370495 <= (1 + 60 * eps) * P -> lw <= 3 * Rabs v -> P <= (1 + 5 * eps + 11 * (eps * eps)) * s ->
  Rabs (v + d - D) <= (23 + 300 * eps) * (eps * eps) * P -> (26 + 288 * eps) * (eps * eps) * s <= (1 + eps) * e1 -> (3 + 8 * eps) * eps * Rabs est <= (1 + eps) * e2 -> e1 + e2 <= (1 + eps) * E ->
  Rabs (D2 - (est + d)) <= eps * Rabs D2 -> E <= Rabs D2 -> close D2 D.
Proof.
  intros Hs HP H1 H2 H3 H4 H5 H6 H7 H8 H9 H10. left.
  assert (V : Rabs v <= Rabs est + Rabs (est - v)). { replace v with (est - (est - v)) at 1 by ring. eapply Rle_trans; [apply Rabs_triang|]. rewrite Rabs_Ropp. lra. }
  replace (D2 - D) with ((D2 - (est + d)) + ((est - v) + (v + d - D))) by ring. eapply Rle_lt_trans; [apply Rabs_triang|]. pose proof (Rabs_triang (est - v) (v + d - D)). pose proof (Rabs_pos est). pose proof (Rabs_pos (est - v)).
  rewrite eps_val in *. lra.
Qed.

Section Main.
Variable op : R -> option R.
Variable mayfail : Prop.
Hypothesis Hop : forall x, sat mayfail (op x) (fun y => y = RN x).
Notation sat := (sat mayfail).

Lemma correction_sat z zt x y xt yt x' y' xt' yt' : sat (correction op z zt x y xt yt x' y' xt' yt') (fun c => c = corr z x y x' y' zt xt yt xt' yt').
Proof. unfold correction. do 12 (apply sat_op; [exact Hop|]). apply sat_op_end; [exact Hop|]. reflexivity. Qed.

Lemma decided_0 d : decided d 0 = true.
Proof. unfold decided, leb. destruct (Rle_bool_spec 0 d), (Rle_bool_spec 0 (- d)); try reflexivity. lra. Qed.

Lemma orient3dadapt_sat ax ay az bx by_ bz cx cy cz dx dy dz s :
  fmt ax -> fmt ay -> fmt az -> fmt bx -> fmt by_ -> fmt bz -> fmt cx -> fmt cy -> fmt cz -> fmt dx -> fmt dy -> fmt dz -> 0 <= s ->
  block_size (RN (az - dz)) (RN (bx - dx)) (RN (by_ - dy)) (RN (cx - dx)) (RN (cy - dy)) + block_size (RN (bz - dz)) (RN (cx - dx)) (RN (cy - dy)) (RN (ax - dx)) (RN (ay - dy))
    + block_size (RN (cz - dz)) (RN (ax - dx)) (RN (ay - dy)) (RN (bx - dx)) (RN (by_ - dy)) <= (1 + 5 * eps + 11 * (eps * eps)) * s ->
  sat (orient3dadapt op (ax, ay, az) (bx, by_, bz) (cx, cy, cz) (dx, dy, dz) s) (fun r => close r (det3 (ax, ay, az) (bx, by_, bz) (cx, cy, cz) (dx, dy, dz))).
Proof.
  intros Fax Fay Faz Fbx Fby Fbz Fcx Fcy Fcz Fdx Fdy Fdz Hs HP. unfold orient3dadapt. do 9 (apply sat_op; [exact Hop|]).
  pose proof (RN_fmt (ax - dx)) as F1. pose proof (RN_fmt (ay - dy)) as F2. pose proof (RN_fmt (az - dz)) as F3. pose proof (RN_fmt (bx - dx)) as F4. pose proof (RN_fmt (by_ - dy)) as F5. pose proof (RN_fmt (bz - dz)) as F6. pose proof (RN_fmt (cx - dx)) as F7. pose proof (RN_fmt (cy - dy)) as F8. pose proof (RN_fmt (cz - dz)) as F9.
  pose proof (two_diff_tail_sat op mayfail Hop ax dx Fax Fdx) as T1. pose proof (two_diff_tail_sat op mayfail Hop ay dy Fay Fdy) as T2. pose proof (two_diff_tail_sat op mayfail Hop az dz Faz Fdz) as T3.
  pose proof (two_diff_tail_sat op mayfail Hop bx dx Fbx Fdx) as T4. pose proof (two_diff_tail_sat op mayfail Hop by_ dy Fby Fdy) as T5. pose proof (two_diff_tail_sat op mayfail Hop bz dz Fbz Fdz) as T6.
  pose proof (two_diff_tail_sat op mayfail Hop cx dx Fcx Fdx) as T7. pose proof (two_diff_tail_sat op mayfail Hop cy dy Fcy Fdy) as T8. pose proof (two_diff_tail_sat op mayfail Hop cz dz Fcz Fdz) as T9.
  pose proof (RN_err' (ax - dx)) as E1. pose proof (RN_err' (ay - dy)) as E2. pose proof (RN_err' (az - dz)) as E3. pose proof (RN_err' (bx - dx)) as E4. pose proof (RN_err' (by_ - dy)) as E5. pose proof (RN_err' (bz - dz)) as E6. pose proof (RN_err' (cx - dx)) as E7. pose proof (RN_err' (cy - dy)) as E8. pose proof (RN_err' (cz - dz)) as E9.
  rewrite Rabs_minus_sym in E1, E2, E3, E4, E5, E6, E7, E8, E9. unfold det3. cbn [fst snd].
  set (xa := RN (ax - dx)) in *. set (ya := RN (ay - dy)) in *. set (za := RN (az - dz)) in *. set (xb := RN (bx - dx)) in *. set (yb := RN (by_ - dy)) in *. set (zb := RN (bz - dz)) in *. set (xc := RN (cx - dx)) in *. set (yc := RN (cy - dy)) in *. set (zc := RN (cz - dz)) in *.
  pose proof (det3_near xa ya za xb yb zb xc yc zc _ _ _ _ _ _ _ _ _ E1 E2 E3 E4 E5 E6 E7 E8 E9) as NB. cbv zeta in NB.
  replace (xa + (ax - dx - xa)) with (ax - dx) in NB by ring. replace (ya + (ay - dy - ya)) with (ay - dy) in NB by ring. replace (za + (az - dz - za)) with (az - dz) in NB by ring.
  replace (xb + (bx - dx - xb)) with (bx - dx) in NB by ring. replace (yb + (by_ - dy - yb)) with (by_ - dy) in NB by ring. replace (zb + (bz - dz - zb)) with (bz - dz) in NB by ring.
  replace (xc + (cx - dx - xc)) with (cx - dx) in NB by ring. replace (yc + (cy - dy - yc)) with (cy - dy) in NB by ring. replace (zc + (cz - dz - zc)) with (cz - dz) in NB by ring.
  set (P := block_size za xb yb xc yc + block_size zb xc yc xa ya + block_size zc xa ya xb yb) in *.
  set (v := za * (xb * yc - xc * yb) + zb * (xc * ya - xa * yc) + zc * (xa * yb - xb * ya)) in *.
  assert (P0 : 0 <= P) by (unfold P; pose proof (block_size_pos za xb yb xc yc); pose proof (block_size_pos zb xc yc xa ya); pose proof (block_size_pos zc xa ya xb yb); lra).
  eapply sat_bind; [apply (two_product_sat op mayfail Hop _ _ F4 F8)|]. intros p1 Hp1. eapply sat_bind; [apply (two_product_sat op mayfail Hop _ _ F7 F5)|]. intros q1 Hq1.
  eapply sat_bind; [apply (diff_of_products_sat op mayfail Hop _ _ _ _ _ _ F4 F8 F7 F5 Hp1 Hq1)|]. intros bc Ebc. apply expansion_half in Ebc.
  eapply sat_bind; [apply (scale_expansion_sat op mayfail Hop 8 4 _ _ za (le_n _) Ebc F3)|]. intros adet (Ea & _ & La). apply (scaled_asum _ _ _ _ _ Ebc Ea) in La.
  eapply sat_bind; [apply (two_product_sat op mayfail Hop _ _ F7 F2)|]. intros p2 Hp2. eapply sat_bind; [apply (two_product_sat op mayfail Hop _ _ F1 F8)|]. intros q2 Hq2.
  eapply sat_bind; [apply (diff_of_products_sat op mayfail Hop _ _ _ _ _ _ F7 F2 F1 F8 Hp2 Hq2)|]. intros ca Eca. apply expansion_half in Eca.
  eapply sat_bind; [apply (scale_expansion_sat op mayfail Hop 8 4 _ _ zb (le_n _) Eca F6)|]. intros bdet (Eb & _ & Lb). apply (scaled_asum _ _ _ _ _ Eca Eb) in Lb.
  eapply sat_bind; [apply (two_product_sat op mayfail Hop _ _ F1 F5)|]. intros p3 Hp3. eapply sat_bind; [apply (two_product_sat op mayfail Hop _ _ F4 F2)|]. intros q3 Hq3.
  eapply sat_bind; [apply (diff_of_products_sat op mayfail Hop _ _ _ _ _ _ F1 F5 F4 F2 Hp3 Hq3)|]. intros ab Eab. apply expansion_half in Eab.
  eapply sat_bind; [apply (scale_expansion_sat op mayfail Hop 8 4 _ _ zc (le_n _) Eab F9)|]. intros cdet (Ec & _ & Lc). apply (scaled_asum _ _ _ _ _ Eab Ec) in Lc.
  eapply sat_bind; [apply (fast_expansion_sum_sat op mayfail Hop 16 8 8 _ _ _ _ (le_n _) Ea Eb)|]. intros abdet (Eabd & _ & Labd). apply (sum_asum_bound _ _ _ _ _ _ Eabd) in Labd; [|exact La|exact Lb].
  assert (SZ : (2 * 4 + 2 * 4 + 2 * 4 <= fin_size)%nat) by (unfold fin_size; lia).
  eapply sat_bind; [apply (fast_expansion_sum_sat op mayfail Hop fin_size _ _ _ _ _ _ SZ Eabd Ec)|]. intros fin (Ef & Zf & Lf).
  apply (expansion_eq _ _ v) in Ef; [|unfold v; ring].
  assert (Lfin : low fin * 4503599627370495 <= (1 + 60 * eps) * P).
  { pose proof (block_abs za xb yb xc yc) as B1. pose proof (block_abs zb xc yc xa ya) as B2. pose proof (block_abs zc xa ya xb yb) as B3. fold (block_size za xb yb xc yc) in B1. fold (block_size zb xc yc xa ya) in B2. fold (block_size zc xa ya xb yb) in B3.
    pose proof (block_size_pos za xb yb xc yc) as N1. pose proof (block_size_pos zb xc yc xa ya) as N2. pose proof (block_size_pos zc xa ya xb yb) as N3. clear - Lf Labd Lc B1 B2 B3 N1 N2 N3. unfold P in *. rewrite eps_val in *. lra. }
  pose proof (low_value _ _ _ Ef Zf) as Lv. clear Lf Labd La Lb Lc Ea Eb Ec Eabd.
  eapply sat_bind; [apply (estimate_34 op mayfail Hop _ _ _ Ef)|]. intros est Hest. cbv beta in Hest.
  apply sat_op; [exact Hop|]. destruct (decided _ _) eqn:DB.
  - apply sat_some. apply decided_le in DB. destruct (Req_dec s 0) as [S0 | S0].
    + assert (PZ : P = 0) by (rewrite S0 in HP; rewrite eps_val in HP; lra). rewrite PZ, Rmult_0_r in NB. set (dt := (az - dz) * _ + _ + _) in *. 
      assert (v - dt = 0) by (destruct (Req_dec (v - dt) 0) as [e|n]; [exact e|apply Rabs_pos_lt in n; lra]). replace dt with v by lra. apply (stage_exact _ _ _ Hest Lv).
    + destruct (errbound_ge o3derrboundB s) as [X1 X2]; [rewrite o3derrboundB_val, eps_val; lra|exact Hs|]. rewrite o3derrboundB_val in *. assert (Hs' : 0 < s) by lra.
      apply (stage_B _ _ _ _ _ _ _ Hs' Hest Lfin HP NB X1 DB).
  - assert (Hs' : 0 < s). { destruct (Req_dec s 0) as [S0 | S0]; [|lra]. rewrite S0, Rmult_0_r, RN_0, decided_0 in DB. discriminate. }
    clear DB NB.
    eapply sat_bind; [exact T1|]. intros xa' [H1 G1]. eapply sat_bind; [exact T4|]. intros xb' [H4 G4]. eapply sat_bind; [exact T7|]. intros xc' [H7 G7].
    eapply sat_bind; [exact T2|]. intros ya' [H2 G2]. eapply sat_bind; [exact T5|]. intros yb' [H5 G5]. eapply sat_bind; [exact T8|]. intros yc' [H8 G8].
    eapply sat_bind; [exact T3|]. intros za' [H3 G3]. eapply sat_bind; [exact T6|]. intros zb' [H6 G6]. eapply sat_bind; [exact T9|]. intros zc' [H9 G9].
    clear T1 T2 T3 T4 T5 T6 T7 T8 T9. rewrite <- H1, <- H2, <- H3, <- H4, <- H5, <- H6, <- H7, <- H8, <- H9 in *. clear H1 H2 H3 H4 H5 H6 H7 H8 H9.
    replace (xa + xa' - xa) with xa' in E1 by ring. replace (ya + ya' - ya) with ya' in E2 by ring. replace (za + za' - za) with za' in E3 by ring.
    replace (xb + xb' - xb) with xb' in E4 by ring. replace (yb + yb' - yb) with yb' in E5 by ring. replace (zb + zb' - zb) with zb' in E6 by ring.
    replace (xc + xc' - xc) with xc' in E7 by ring. replace (yc + yc' - yc) with yc' in E8 by ring. replace (zc + zc' - zc) with zc' in E9 by ring.
    match goal with |- sat (if ?b then _ else _) _ => destruct b eqn:Z end.
    + repeat (apply andb_prop in Z; destruct Z as [Z ?]). unfold eqb in *.
      repeat match goal with H : Req_bool ?a 0 = true |- _ => destruct (Req_bool_spec a 0); [clear H; subst a|discriminate] end.
      rewrite !Rplus_0_r. fold v. apply sat_some. apply (stage_exact _ _ _ Hest Lv).
    + clear Z. do 3 (apply sat_op; [exact Hop|]). rewrite absolute_val.
      eapply sat_bind; [apply correction_sat|]. intros c1 ->. eapply sat_bind; [apply correction_sat|]. intros c2 ->. eapply sat_bind; [apply correction_sat|]. intros c3 ->.
      do 3 (apply sat_op; [exact Hop|]).
      destruct (decided _ _) eqn:DC.
      * apply sat_some. apply decided_le in DC.
        pose proof (correction3_near xa ya za xb yb zb xc yc zc xa' ya' za' xb' yb' zb' xc' yc' zc' E1 E2 E3 E4 E5 E6 E7 E8 E9) as N. cbv zeta in N. fold P v in N.
        set (d := RN (RN (_ + _) + _)) in *.
        destruct (errbound_ge o3derrboundC s) as [X1 X2]; [rewrite o3derrboundC_val, eps_val; lra|lra|]. destruct (errbound_ge resulterrbound (Rabs est)) as [X3 X4]; [rewrite resulterrbound_val, eps_val; lra|apply Rabs_pos|].
        destruct (RN_back (RN (o3derrboundC * s) + RN (resulterrbound * Rabs est))) as (X5 & X6 & _); [lra|].
        rewrite o3derrboundC_val, resulterrbound_val in *.
        apply (stage_C _ _ _ _ _ _ _ _ _ _ _ Hs' P0 Hest Lfin Lv HP N X1 X3 X6 (RN_err' (est + d)) DC).
      * clear DC. apply orient3dexact_sat; try assumption. split; [|exact Zf]. exact Ef.
Qed.

Theorem orient3d_sat ax ay az bx by_ bz cx cy cz dx dy dz :
  fmt ax -> fmt ay -> fmt az -> fmt bx -> fmt by_ -> fmt bz -> fmt cx -> fmt cy -> fmt cz -> fmt dx -> fmt dy -> fmt dz ->
  sat (orient3d op (ax, ay, az) (bx, by_, bz) (cx, cy, cz) (dx, dy, dz)) (fun r => close r (det3 (ax, ay, az) (bx, by_, bz) (cx, cy, cz) (dx, dy, dz))).
Proof.
  intros Fax Fay Faz Fbx Fby Fbz Fcx Fcy Fcz Fdx Fdy Fdz. unfold orient3d. do 32 (apply sat_op; [exact Hop|]).
  pose proof (fun s => orient3dadapt_sat ax ay az bx by_ bz cx cy cz dx dy dz s Fax Fay Faz Fbx Fby Fbz Fcx Fcy Fcz Fdx Fdy Fdz) as AD.
  pose proof (RN_err' (ax - dx)) as E1. pose proof (RN_err' (ay - dy)) as E2. pose proof (RN_err' (az - dz)) as E3. pose proof (RN_err' (bx - dx)) as E4. pose proof (RN_err' (by_ - dy)) as E5. pose proof (RN_err' (bz - dz)) as E6. pose proof (RN_err' (cx - dx)) as E7. pose proof (RN_err' (cy - dy)) as E8. pose proof (RN_err' (cz - dz)) as E9.
  rewrite Rabs_minus_sym in E1, E2, E3, E4, E5, E6, E7, E8, E9. unfold det3 in *. cbn [fst snd] in *.
  set (xa := RN (ax - dx)) in *. set (ya := RN (ay - dy)) in *. set (za := RN (az - dz)) in *. set (xb := RN (bx - dx)) in *. set (yb := RN (by_ - dy)) in *. set (zb := RN (bz - dz)) in *. set (xc := RN (cx - dx)) in *. set (yc := RN (cy - dy)) in *. set (zc := RN (cz - dz)) in *.
  pose proof (block_first za xb yb xc yc _ _ _ _ _ E3 E4 E5 E7 E8) as [A1 A2]. pose proof (block_first zb xc yc xa ya _ _ _ _ _ E6 E7 E8 E1 E2) as [B1 B2]. pose proof (block_first zc xa ya xb yb _ _ _ _ _ E9 E1 E2 E4 E5) as [C1 C2]. cbv zeta in *.
  replace (xa + (ax - dx - xa)) with (ax - dx) in * by ring. replace (ya + (ay - dy - ya)) with (ay - dy) in * by ring. replace (za + (az - dz - za)) with (az - dz) in * by ring.
  replace (xb + (bx - dx - xb)) with (bx - dx) in * by ring. replace (yb + (by_ - dy - yb)) with (by_ - dy) in * by ring. replace (zb + (bz - dz - zb)) with (bz - dz) in * by ring.
  replace (xc + (cx - dx - xc)) with (cx - dx) in * by ring. replace (yc + (cy - dy - yc)) with (cy - dy) in * by ring. replace (zc + (cz - dz - zc)) with (cz - dz) in * by ring.
  clear E1 E2 E3 E4 E5 E6 E7 E8 E9.
  pose proof (block_P za xb yb xc yc) as PA. pose proof (block_P zb xc yc xa ya) as PB. pose proof (block_P zc xa ya xb yb) as PC.
  pose proof (block_permanent za xb yb xc yc) as [QA RA]. pose proof (block_permanent zb xc yc xa ya) as [QB RB]. pose proof (block_permanent zc xa ya xb yb) as [QC RC]. cbv zeta in *.
  fold (block_size za xb yb xc yc) in PA. fold (block_size zb xc yc xa ya) in PB. fold (block_size zc xa ya xb yb) in PC.
  set (TA := Rabs (za * RN (xb * yc)) + Rabs (za * RN (xc * yb))) in *. set (TB := Rabs (zb * RN (xc * ya)) + Rabs (zb * RN (xa * yc))) in *. set (TC := Rabs (zc * RN (xa * yb)) + Rabs (zc * RN (xb * ya))) in *.
  set (t1 := RN (RN (absolute (RN (xb * yc)) + absolute (RN (xc * yb))) * absolute za)) in *. set (t2 := RN (RN (absolute (RN (xc * ya)) + absolute (RN (xa * yc))) * absolute zb)) in *. set (t3 := RN (RN (absolute (RN (xa * yb)) + absolute (RN (xb * ya))) * absolute zc)) in *.
  set (m1 := RN (za * RN (RN (xb * yc) - RN (xc * yb)))) in *. set (m2 := RN (zb * RN (RN (xc * ya) - RN (xa * yc)))) in *. set (m3 := RN (zc * RN (RN (xa * yb) - RN (xb * ya)))) in *.
  destruct (RN_back (t1 + t2)) as (U1 & U2 & _); [lra|]. set (t12 := RN (t1 + t2)) in *. destruct (RN_back (t12 + t3)) as (U3 & U4 & _); [lra|]. set (s := RN (t12 + t3)) in *.
  set (blocks := block_size za xb yb xc yc + block_size zb xc yc xa ya + block_size zc xa ya xb yb) in *.
  assert (HT : TA + TB + TC <= (1 + 4 * eps + 65 / 10 * (eps * eps)) * s). { clear - QA QB QC RA RB RC U1 U2 U3 U4. rewrite eps_val in *. lra. }
  assert (HB : blocks <= (1 + eps) * (TA + TB + TC)) by (unfold blocks; lra).
  match goal with |- sat (if ?b then _ else _) _ => destruct b eqn:DA end.
  - apply sat_some. unfold ltb in DA. apply orb_prop in DA.
    set (dt1 := (az - dz) * ((bx - dx) * (cy - dy) - (cx - dx) * (by_ - dy))) in *. set (dt2 := (bz - dz) * ((cx - dx) * (ay - dy) - (ax - dx) * (cy - dy))) in *. set (dt3 := (cz - dz) * ((ax - dx) * (by_ - dy) - (bx - dx) * (ay - dy))) in *.
    destruct (errbound_ge o3derrboundA s) as [X1 X2]; [rewrite o3derrboundA_val, eps_val; lra|exact U3|]. rewrite o3derrboundA_val in *. set (E := RN ((7 + 56 * eps) * eps * s)) in *.
    assert (T0 : 0 <= TA /\ 0 <= TB /\ 0 <= TC). { unfold TA, TB, TC. pose proof (Rabs_pos (za * RN (xb * yc))). pose proof (Rabs_pos (za * RN (xc * yb))). pose proof (Rabs_pos (zb * RN (xc * ya))). pose proof (Rabs_pos (zb * RN (xa * yc))). pose proof (Rabs_pos (zc * RN (xa * yb))). pose proof (Rabs_pos (zc * RN (xb * ya))). lra. }
    assert (M : Rabs (m1 + m2) <= (1 + 3 * eps) * (TA + TB)) by (eapply Rle_trans; [apply Rabs_triang|lra]). destruct (RN_step _ _ M) as [M1 _]. set (m12 := RN (m1 + m2)) in *.
    pose proof (RN_err' (m12 + m3)) as M2. set (det := RN (m12 + m3)) in *.
    assert (DE : E < Rabs det). { pose proof (Rle_abs det). pose proof (Rle_abs (- det)) as Q. rewrite Rabs_Ropp in Q. destruct (Rlt_bool_spec E det), (Rlt_bool_spec E (- det)); try lra; destruct DA; discriminate. }
    left. apply abs_le in A1, B1, C1, M1, M2. apply Rle_lt_trans with (eps * Rabs det + (7 * eps + 12 * (eps * eps)) * (TA + TB + TC)).
    + clear - A1 B1 C1 M1 M2 T0. destruct T0 as (? & ? & ?). apply Rabs_le. rewrite eps_val in *. split; lra.
    + clear - HT X1 X2 DE U3. rewrite eps_val in *. lra.
  - apply AD; [exact U3|]. fold blocks. clear - HB HT U3. rewrite eps_val in *. lra.
Qed.
End Main.
