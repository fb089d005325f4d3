(** orient3d returns a number with the sign of the determinant. *)
From Coq Require Import ZArith Reals Lra Lia Bool List.
From Flocq Require Import Core.
From Verif Require Import ShewModel ShewSpec ShewGrid ShewSum ShewExp ShewScale ShewEst Shew2d Shew3dBounds.
Import ListNotations.
Open Scope R_scope.

(** what is returned is nearer to the determinant than to zero *)
Definition close (r d : R) : Prop := Rabs (r - d) < Rabs r \/ r = 0 /\ d = 0.
Lemma close_sign r d : close r d -> same_sign r d.
Proof. intros [H | [-> ->]]; [apply near_sign, H|apply same_sign_refl]. Qed.
Lemma close_half x y : Rabs (x - y) <= / 2 * Rabs x -> close x y.
Proof. intros H. destruct (Req_dec x 0) as [-> | N]; [right|left; apply Rabs_pos_lt in N; lra]. split; [reflexivity|]. rewrite Rabs_R0, Rmult_0_r in H. destruct (Req_dec (0 - y) 0) as [e|n]; [lra|apply Rabs_pos_lt in n; lra]. Qed.
Lemma largest_close n v l : expansion (3 / 4) n v l -> zero_free l -> close (largest l) v.
Proof.
  intros X Z. destruct (largest_split n v l X Z) as (q & -> & D & [E | [L N]]).
  - subst l. destruct X as (_ & _ & S & _). cbn in S. unfold low in D. cbn in D. right. replace v with 0 in * by lra. split; [|reflexivity]. unfold Rabs in D. destruct (Rcase_abs (0 - q)); lra.
  - left. apply Rabs_pos_lt in N. rewrite Rabs_minus_sym. lra.
Qed.

(** an expansion has no more than seven times the magnitude of its value *)
Lemma asum7 l : okx (3 / 4) 0 l -> asum l <= 7 * Rabs (sum l).
Proof.
  induction l as [|x l IH] using rev_ind; intros O; [cbn; rewrite Rabs_R0; lra|]. apply okx_app in O. destruct O as [O [(s & G & L) _]]. rewrite asum_app, sum_app. cbn [asum sum]. rewrite !Rplus_0_r. rewrite Rplus_0_l in L.
  destruct (Req_dec x 0) as [-> | N]; [rewrite Rabs_R0, !Rplus_0_r; apply IH, O|]. apply grid_ge in G; [|exact N].
  pose proof (sum_asum l) as H. pose proof (Rabs_triang (sum l + x) (- sum l)) as T. rewrite Rabs_Ropp in T. replace (sum l + x + - sum l) with x in T by ring. lra.
Qed.
Lemma expansion_asum7 n v l : expansion (3 / 4) n v l -> asum l <= 7 * Rabs v.
Proof. intros (_ & O & <- & _). apply asum7, O. Qed.
Lemma expansion_le n m v l : (n <= m)%nat -> expansion (3 / 4) n v l -> expansion (3 / 4) m v l.
Proof. intros H (F & O & S & L & N). repeat split; try assumption. lia. Qed.
Lemma expansion_eq n v w l : v = w -> expansion (3 / 4) n v l -> expansion (3 / 4) n w l.
Proof. intros ->. auto. Qed.
Lemma expansion_0 : expansion (3 / 4) 1 0 [0].
Proof. repeat split; [repeat constructor; apply fmt_0|apply above_0; lra|cbn; ring|cbn; lia|discriminate]. Qed.
Lemma pair_expansion x y p : fmt x -> fmt y -> eft (x * y) p -> expansion (3 / 4) 2 (x * y) [snd p; fst p].
Proof.
  intros Fx Fy H. pose proof (eft_above _ _ H (prod_has_grid x y Fx Fy)) as A. destruct H as (_ & S & F1 & F2).
  repeat split; [repeat constructor; assumption|apply above_start; [assumption|lra]| |cbn [sum]; lra|cbn; lia|discriminate]. rewrite Rplus_0_l. apply above_half; [exact A|apply Rabs_pos].
Qed.

Definition fin_ok (n : nat) (v : R) (l : list R) : Prop := expansion (3 / 4) n v l /\ zero_free l.
Lemma fin_ok_eq n m v w l : (n <= m)%nat -> v = w -> fin_ok n v l -> fin_ok m w l.
Proof. intros H -> [E Z]. split; [eapply expansion_le; eassumption|exact Z]. Qed.

Section Orient3d.
Variable op : R -> option R.
Variable mayfail : Prop.
Hypothesis Hop : forall x, sat mayfail (op x) (fun y => y = RN x).
Notation sat := (sat mayfail).

Lemma tail_products_sat xt yt px py qx qy : fmt xt -> fmt yt -> fmt px -> fmt py -> fmt qx -> fmt qy ->
  sat (tail_products op xt yt px py qx qy) (fun r => expansion (3 / 4) 4 (xt * py - yt * px) (fst r) /\ expansion (3 / 4) 4 (yt * qx - xt * qy) (snd r)).
Proof.
  intros Fxt Fyt Fpx Fpy Fqx Fqy. unfold tail_products, eqb. destruct (Req_bool_spec xt 0) as [-> | Nx], (Req_bool_spec yt 0) as [-> | Ny].
  - apply sat_some. cbn [fst snd]. split; (eapply expansion_eq; [|eapply expansion_le; [|exact expansion_0]; lia]; ring).
  - eapply sat_bind; [apply (two_product_sat op mayfail Hop _ _ (fmt_opp _ Fyt) Fpx)|]. intros [l1 s1] H1. eapply sat_bind; [apply (two_product_sat op mayfail Hop _ _ Fyt Fqx)|]. intros [l2 s2] H2. apply sat_some. cbn [fst snd].
    apply (pair_expansion _ _ _ (fmt_opp _ Fyt) Fpx) in H1. apply (pair_expansion _ _ _ Fyt Fqx) in H2. cbn [fst snd] in *.
    split; (eapply expansion_eq; [|eapply expansion_le; [|eassumption]; lia]; ring).
  - eapply sat_bind; [apply (two_product_sat op mayfail Hop _ _ Fxt Fpy)|]. intros [l1 s1] H1. eapply sat_bind; [apply (two_product_sat op mayfail Hop _ _ (fmt_opp _ Fxt) Fqy)|]. intros [l2 s2] H2. apply sat_some. cbn [fst snd].
    apply (pair_expansion _ _ _ Fxt Fpy) in H1. apply (pair_expansion _ _ _ (fmt_opp _ Fxt) Fqy) in H2. cbn [fst snd] in *.
    split; (eapply expansion_eq; [|eapply expansion_le; [|eassumption]; lia]; ring).
  - eapply sat_bind; [apply (two_product_sat op mayfail Hop _ _ Fxt Fpy)|]. intros s H1. eapply sat_bind; [apply (two_product_sat op mayfail Hop _ _ Fyt Fpx)|]. intros t H2.
    eapply sat_bind; [apply (diff_of_products_sat op mayfail Hop _ _ _ _ _ _ Fxt Fpy Fyt Fpx H1 H2)|]. intros u U.
    eapply sat_bind; [apply (two_product_sat op mayfail Hop _ _ Fyt Fqx)|]. intros s' H3. eapply sat_bind; [apply (two_product_sat op mayfail Hop _ _ Fxt Fqy)|]. intros t' H4.
    eapply sat_bind; [apply (diff_of_products_sat op mayfail Hop _ _ _ _ _ _ Fyt Fqx Fxt Fqy H3 H4)|]. intros u' U'.
    apply sat_some. split; apply expansion_half; assumption.
Qed.

Lemma add_sat size n k v w fin e : fin_ok n v fin -> expansion (3 / 4) k w e -> (n + k <= size)%nat -> sat (fast_expansion_sum op size fin e) (fin_ok (n + k) (v + w)).
Proof. intros [X _] E H. eapply sat_weaken; [apply (fast_expansion_sum_sat op mayfail Hop size n k v w fin e H X E)|]. intros l (A & B & _). split; assumption. Qed.
Lemma scale_sat size k w e b : expansion (3 / 4) k w e -> fmt b -> (2 * k <= size)%nat -> sat (scale_expansion op size e b) (fin_ok (2 * k) (w * b)).
Proof. intros E F H. eapply sat_weaken; [apply (scale_expansion_sat op mayfail Hop size k w e b H E F)|]. intros l (A & B & _). split; assumption. Qed.

Lemma add_scaled_sat size n k v w fin e zt : fin_ok n v fin -> expansion (3 / 4) k w e -> fmt zt -> (2 * k <= size)%nat -> (n + 2 * k <= fin_size)%nat ->
  sat (add_scaled op size fin e zt) (fin_ok (n + 2 * k) (v + w * zt)).
Proof.
  intros X E F H1 H2. unfold add_scaled, eqb. destruct (Req_bool_spec zt 0) as [-> | N].
  - apply sat_some. eapply fin_ok_eq; [| |exact X]; [lia|ring].
  - eapply sat_bind; [apply (scale_sat size k w e zt E F H1)|]. intros l [L _]. exact (add_sat fin_size n (2 * k) _ _ _ _ X L H2).
Qed.
Lemma add_tails_sat n v fin xt yt z zt : fin_ok n v fin -> fmt xt -> fmt yt -> fmt z -> fmt zt -> (n + 8 <= fin_size)%nat -> sat (add_tails op fin xt yt z zt) (fin_ok (n + 8) (v + xt * yt * (z + zt))).
Proof.
  intros X Fx Fy Fz Fzt H. unfold add_tails, eqb. destruct (Req_bool_spec yt 0) as [-> | N].
  - apply sat_some. eapply fin_ok_eq; [| |exact X]; [lia|ring].
  - eapply sat_bind; [apply (two_product_sat op mayfail Hop _ _ Fx Fy)|]. intros [p1 p0] Hp. pose proof (eft_above _ _ Hp (prod_has_grid xt yt Fx Fy)) as A. destruct Hp as (_ & S & F1 & F2). cbn [fst snd] in *.
    eapply sat_bind; [apply (two_one_product_sat op mayfail Hop z p1 p0 Fz F1 F2 A)|]. intros u U.
    eapply sat_bind; [apply (add_sat fin_size n 4 _ _ _ _ X U); unfold fin_size in *; lia|]. intros fin' X'.
    destruct (Req_bool_spec zt 0) as [-> | Nz].
    + apply sat_some. eapply fin_ok_eq; [| |exact X']; [lia|]. rewrite <- S. ring.
    + eapply sat_bind; [apply (two_one_product_sat op mayfail Hop zt p1 p0 Fzt F1 F2 A)|]. intros u' U'.
      eapply sat_weaken; [apply (add_sat fin_size (n + 4) 4 _ _ _ _ X' U'); unfold fin_size in *; lia|]. intros l Hl. eapply fin_ok_eq; [| |exact Hl]; [lia|]. rewrite <- S. ring.
Qed.

Lemma orient3dexact_sat bc ca ab fin adx ady adz bdx bdy bdz cdx cdy cdz adxt adyt adzt bdxt bdyt bdzt cdxt cdyt cdzt :
  fmt adx -> fmt ady -> fmt adz -> fmt bdx -> fmt bdy -> fmt bdz -> fmt cdx -> fmt cdy -> fmt cdz -> fmt adxt -> fmt adyt -> fmt adzt -> fmt bdxt -> fmt bdyt -> fmt bdzt -> fmt cdxt -> fmt cdyt -> fmt cdzt ->
  expansion (3 / 4) 4 (bdx * cdy - cdx * bdy) bc -> expansion (3 / 4) 4 (cdx * ady - adx * cdy) ca -> expansion (3 / 4) 4 (adx * bdy - bdx * ady) ab ->
  fin_ok 24 (adz * (bdx * cdy - cdx * bdy) + bdz * (cdx * ady - adx * cdy) + cdz * (adx * bdy - bdx * ady)) fin ->
  sat (orient3dexact op bc ca ab fin adx ady adz bdx bdy bdz cdx cdy cdz adxt adyt adzt bdxt bdyt bdzt cdxt cdyt cdzt)
    (fun r => close r ((adz + adzt) * ((bdx + bdxt) * (cdy + cdyt) - (cdx + cdxt) * (bdy + bdyt)) + (bdz + bdzt) * ((cdx + cdxt) * (ady + adyt) - (adx + adxt) * (cdy + cdyt)) + (cdz + cdzt) * ((adx + adxt) * (bdy + bdyt) - (bdx + bdxt) * (ady + adyt)))).
Proof.
  intros F1 F2 F3 F4 F5 F6 F7 F8 F9 G1 G2 G3 G4 G5 G6 G7 G8 G9 Ebc Eca Eab X. unfold orient3dexact.
  eapply sat_bind; [apply (tail_products_sat adxt adyt bdx bdy cdx cdy); assumption|]. intros [at_b at_c] [Eab1 Eac1]. cbn [fst snd] in *.
  eapply sat_bind; [apply (tail_products_sat bdxt bdyt cdx cdy adx ady); assumption|]. intros [bt_c bt_a] [Ebc1 Eba1]. cbn [fst snd] in *.
  eapply sat_bind; [apply (tail_products_sat cdxt cdyt adx ady bdx bdy); assumption|]. intros [ct_a ct_b] [Eca1 Ecb1]. cbn [fst snd] in *.
  eapply sat_bind; [apply (fast_expansion_sum_sat op mayfail Hop 8 4 4 _ _ _ _ (le_n _) Ebc1 Ecb1)|]. intros bct (Ebct & _).
  eapply sat_bind; [apply (scale_sat 16 8 _ _ _ Ebct F3 (le_n _))|]. intros w1 [W1 _].
  eapply sat_bind; [apply (add_sat fin_size _ _ _ _ _ _ X W1); unfold fin_size; lia|]. clear X W1 w1 fin. intros fin X.
  eapply sat_bind; [apply (fast_expansion_sum_sat op mayfail Hop 8 4 4 _ _ _ _ (le_n _) Eca1 Eac1)|]. intros cat (Ecat & _).
  eapply sat_bind; [apply (scale_sat 16 8 _ _ _ Ecat F6 (le_n _))|]. intros w1 [W1 _].
  eapply sat_bind; [apply (add_sat fin_size _ _ _ _ _ _ X W1); unfold fin_size; lia|]. clear X W1 w1 fin. intros fin X.
  eapply sat_bind; [apply (fast_expansion_sum_sat op mayfail Hop 8 4 4 _ _ _ _ (le_n _) Eab1 Eba1)|]. intros abt (Eabt & _).
  eapply sat_bind; [apply (scale_sat 16 8 _ _ _ Eabt F9 (le_n _))|]. intros w1 [W1 _].
  eapply sat_bind; [apply (add_sat fin_size _ _ _ _ _ _ X W1); unfold fin_size; lia|]. clear X W1 w1 fin. intros fin X.
  eapply sat_bind; [apply (add_scaled_sat 12 _ 4 _ _ _ _ adzt X Ebc G3); unfold fin_size; lia|]. clear X fin. intros fin X.
  eapply sat_bind; [apply (add_scaled_sat 12 _ 4 _ _ _ _ bdzt X Eca G6); unfold fin_size; lia|]. clear X fin. intros fin X.
  eapply sat_bind; [apply (add_scaled_sat 12 _ 4 _ _ _ _ cdzt X Eab G9); unfold fin_size; lia|]. clear X fin. intros fin X.
  match type of X with fin_ok ?n ?v _ => set (n1 := n) in X; set (v1 := v) in X end.
  eapply sat_bind with (P := fin_ok (n1 + 16) (v1 + adxt * bdyt * (cdz + cdzt) + - adxt * cdyt * (bdz + bdzt))).
  { unfold eqb. destruct (Req_bool_spec adxt 0) as [E | N]; [apply sat_some; eapply fin_ok_eq; [| |exact X]; [lia|rewrite E; ring]|].
    eapply sat_bind; [apply (add_tails_sat _ _ _ adxt bdyt cdz cdzt X); try assumption; unfold n1, fin_size; lia|]. intros fin' X'.
    eapply sat_weaken; [apply (add_tails_sat _ _ _ (- adxt) cdyt bdz bdzt X'); try assumption; [apply fmt_opp; assumption|unfold n1, fin_size; lia]|]. intros l Hl. eapply fin_ok_eq; [| |exact Hl]; [lia|reflexivity]. }
  clear X fin. intros fin X. match type of X with fin_ok ?n ?v _ => set (n2 := n) in X; set (v2 := v) in X end.
  eapply sat_bind with (P := fin_ok (n2 + 16) (v2 + bdxt * cdyt * (adz + adzt) + - bdxt * adyt * (cdz + cdzt))).
  { unfold eqb. destruct (Req_bool_spec bdxt 0) as [E | N]; [apply sat_some; eapply fin_ok_eq; [| |exact X]; [lia|rewrite E; ring]|].
    eapply sat_bind; [apply (add_tails_sat _ _ _ bdxt cdyt adz adzt X); try assumption; unfold n2, n1, fin_size; lia|]. intros fin' X'.
    eapply sat_weaken; [apply (add_tails_sat _ _ _ (- bdxt) adyt cdz cdzt X'); try assumption; [apply fmt_opp; assumption|unfold n2, n1, fin_size; lia]|]. intros l Hl. eapply fin_ok_eq; [| |exact Hl]; [lia|reflexivity]. }
  clear X fin. intros fin X. match type of X with fin_ok ?n ?v _ => set (n3 := n) in X; set (v3 := v) in X end.
  eapply sat_bind with (P := fin_ok (n3 + 16) (v3 + cdxt * adyt * (bdz + bdzt) + - cdxt * bdyt * (adz + adzt))).
  { unfold eqb. destruct (Req_bool_spec cdxt 0) as [E | N]; [apply sat_some; eapply fin_ok_eq; [| |exact X]; [lia|rewrite E; ring]|].
    eapply sat_bind; [apply (add_tails_sat _ _ _ cdxt adyt bdz bdzt X); try assumption; unfold n3, n2, n1, fin_size; lia|]. intros fin' X'.
    eapply sat_weaken; [apply (add_tails_sat _ _ _ (- cdxt) bdyt adz adzt X'); try assumption; [apply fmt_opp; assumption|unfold n3, n2, n1, fin_size; lia]|]. intros l Hl. eapply fin_ok_eq; [| |exact Hl]; [lia|reflexivity]. }
  clear X fin. intros fin X. match type of X with fin_ok ?n ?v _ => set (n4 := n) in X; set (v4 := v) in X end.
  eapply sat_bind; [apply (add_scaled_sat 16 _ 8 _ _ _ _ adzt X Ebct G3); unfold n4, n3, n2, n1, fin_size; lia|]. clear X fin. intros fin X.
  eapply sat_bind; [apply (add_scaled_sat 16 _ 8 _ _ _ _ bdzt X Ecat G6); unfold n4, n3, n2, n1, fin_size; lia|]. clear X fin. intros fin X.
  eapply sat_bind; [apply (add_scaled_sat 16 _ 8 _ _ _ _ cdzt X Eabt G9); unfold n4, n3, n2, n1, fin_size; lia|]. clear X fin. intros fin [X Z].
  apply sat_some. pose proof (largest_close _ _ _ X Z) as L. match type of L with close _ ?v => match goal with |- close _ ?w => replace w with v by (unfold v4, v3, v2, v1; ring) end end. exact L.
Qed.

(** the second stage: how small the lower components of the sum of the three scaled expansions are *)
Lemma scaled_asum n v bc z l : expansion (3 / 4) 4 v bc -> expansion (3 / 4) n (v * z) l -> low l * 4503599627370495 <= 2 * (asum bc * Rabs z) -> asum l <= (1 + 60 * eps) * Rabs (v * z).
Proof.
  intros B E L. pose proof (expansion_asum7 _ _ _ B) as A. pose proof (asum_bound _ _ _ E) as C. rewrite Rabs_mult in *. pose proof (Rabs_pos z) as Z. pose proof (Rabs_pos v) as V.
  assert (A' : asum bc * Rabs z <= 7 * (Rabs v * Rabs z)) by (rewrite <- Rmult_assoc; apply Rmult_le_compat_r; assumption). assert (0 <= Rabs v * Rabs z) by (apply Rmult_le_pos; assumption). rewrite eps_val. lra.
Qed.
Lemma sum_asum_bound n v w e f l : expansion (3 / 4) n (v + w) l -> low l * 4503599627370495 <= asum e + asum f -> asum e <= (1 + 60 * eps) * Rabs v -> asum f <= (1 + 60 * eps) * Rabs w -> asum l <= (1 + 10 * eps) * (Rabs v + Rabs w).
Proof.
  intros E L A B. pose proof (asum_bound _ _ _ E) as C. pose proof (Rabs_triang v w). pose proof (Rabs_pos v). pose proof (Rabs_pos w). rewrite eps_val in *. lra.
Qed.
Lemma block_abs z x y x2 y2 : Rabs ((x * y2 - x2 * y) * z) <= Rabs (z * (x * y2)) + Rabs (z * (x2 * y)).
Proof. replace ((x * y2 - x2 * y) * z) with (z * (x * y2) + - (z * (x2 * y))) by ring. eapply Rle_trans; [apply Rabs_triang|]. rewrite Rabs_Ropp. lra. Qed.

Definition block_size (z x y x2 y2 : R) : R := Rabs (z * (x * y2)) + Rabs (z * (x2 * y)).

Section Adapt.
Variables xa ya za xb yb zb xc yc zc : R.
Let P := block_size za xb yb xc yc + block_size zb xc yc xa ya + block_size zc xa ya xb yb.
Let v := za * (xb * yc - xc * yb) + zb * (xc * ya - xa * yc) + zc * (xa * yb - xb * ya).

Section Tails.
Variables xa' ya' za' xb' yb' zb' xc' yc' zc' : R.
Hypothesis Hxa : Rabs xa' <= eps * Rabs xa.
Hypothesis Hya : Rabs ya' <= eps * Rabs ya.
Hypothesis Hza : Rabs za' <= eps * Rabs za.
Hypothesis Hxb : Rabs xb' <= eps * Rabs xb.
Hypothesis Hyb : Rabs yb' <= eps * Rabs yb.
Hypothesis Hzb : Rabs zb' <= eps * Rabs zb.
Hypothesis Hxc : Rabs xc' <= eps * Rabs xc.
Hypothesis Hyc : Rabs yc' <= eps * Rabs yc.
Hypothesis Hzc : Rabs zc' <= eps * Rabs zc.
Let D := (za + za') * ((xb + xb') * (yc + yc') - (xc + xc') * (yb + yb')) + (zb + zb') * ((xc + xc') * (ya + ya') - (xa + xa') * (yc + yc')) + (zc + zc') * ((xa + xa') * (yb + yb') - (xb + xb') * (ya + ya')).

Lemma det3_near : Rabs (v - D) <= (3 * eps + 3 * (eps * eps) + eps * (eps * eps)) * P.
Proof.
  pose proof (block_near za xb yb xc yc za' xb' yb' xc' yc' Hza Hxb Hyb Hxc Hyc) as A. pose proof (block_near zb xc yc xa ya zb' xc' yc' xa' ya' Hzb Hxc Hyc Hxa Hya) as B. pose proof (block_near zc xa ya xb yb zc' xa' ya' xb' yb' Hzc Hxa Hya Hxb Hyb) as C.
  unfold P, block_size, v, D. apply abs_le in A, B, C. apply Rabs_le. lra.
Qed.

Definition corr (z x y x2 y2 z' x' y' x2' y2' : R) : R :=
  RN (RN (z * RN (RN (RN (x * y2') + RN (y2 * x')) - RN (RN (y * x2') + RN (x2 * y')))) + RN (z' * RN (RN (x * y2) - RN (y * x2)))).
Lemma correction3_near : Rabs (v + RN (RN (corr za xb yb xc yc za' xb' yb' xc' yc' + corr zb xc yc xa ya zb' xc' yc' xa' ya') + corr zc xa ya xb yb zc' xa' ya' xb' yb') - D) <= (23 + 300 * eps) * (eps * eps) * P.
Proof.
  pose proof (block_correction za xb yb xc yc za' xb' yb' xc' yc' Hza Hxb Hyb Hxc Hyc) as [A A']. pose proof (block_correction zb xc yc xa ya zb' xc' yc' xa' ya' Hzb Hxc Hyc Hxa Hya) as [B B']. pose proof (block_correction zc xa ya xb yb zc' xa' ya' xb' yb' Hzc Hxa Hya Hxb Hyb) as [C C'].
  cbv zeta in *. fold (corr za xb yb xc yc za' xb' yb' xc' yc') in A, A'. fold (corr zb xc yc xa ya zb' xc' yc' xa' ya') in B, B'. fold (corr zc xa ya xb yb zc' xa' ya' xb' yb') in C, C'.
  set (c1 := corr za xb yb xc yc za' xb' yb' xc' yc') in *. set (c2 := corr zb xc yc xa ya zb' xc' yc' xa' ya') in *. set (c3 := corr zc xa ya xb yb zc' xa' ya' xb' yb') in *.
  fold (block_size za xb yb xc yc) in A, A'. fold (block_size zb xc yc xa ya) in B, B'. fold (block_size zc xa ya xb yb) in C, C'. unfold P.
  assert (N1 : 0 <= block_size za xb yb xc yc) by (unfold block_size; pose proof (Rabs_pos (za * (xb * yc))); pose proof (Rabs_pos (za * (xc * yb))); lra).
  assert (N2 : 0 <= block_size zb xc yc xa ya) by (unfold block_size; pose proof (Rabs_pos (zb * (xc * ya))); pose proof (Rabs_pos (zb * (xa * yc))); lra).
  assert (N3 : 0 <= block_size zc xa ya xb yb) by (unfold block_size; pose proof (Rabs_pos (zc * (xa * yb))); pose proof (Rabs_pos (zc * (xb * ya))); lra).
  set (P1 := block_size za xb yb xc yc) in *. set (P2 := block_size zb xc yc xa ya) in *. set (P3 := block_size zc xa ya xb yb) in *.
  assert (S1 : Rabs (c1 + c2) <= (3 + 30 * eps) * eps * (P1 + P2)) by (eapply Rle_trans; [apply Rabs_triang|]; rewrite eps_val in *; lra).
  destruct (RN_step _ _ S1) as [S2 S3]. set (c12 := RN (c1 + c2)) in *.
  assert (S4 : Rabs (c12 + c3) <= (3 + 40 * eps) * eps * (P1 + P2 + P3)) by (eapply Rle_trans; [apply Rabs_triang|]; clear - S3 C' N1 N2 N3; rewrite eps_val in *; lra).
  destruct (RN_step _ _ S4) as [S5 _]. set (c := RN (c12 + c3)) in *.
  apply abs_le in A, B, C, S2, S5. clear - A B C S2 S5 N1 N2 N3. unfold v, D. apply Rabs_le. rewrite eps_val in *. split; lra.
Qed.
End Tails.
End Adapt.
End Orient3d.
