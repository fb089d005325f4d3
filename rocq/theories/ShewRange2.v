(** The predicates in double precision on an ordinary range of coordinates. *)
From Coq Require Import ZArith Reals Lra Lia Bool List.
From Flocq Require Import Core.
From Verif Require Import ShewModel ShewSpec ShewGrid ShewSum ShewExp ShewScale ShewEst Shew2d Shew3dBounds Shew3d Shew3dMain ShewProps ShewRange.
Import ListNotations.
Open Scope R_scope.

(** the difference of two coordinates, or its tail *)
Definition dif (x : R) : Prop := inr 251 (-250) x /\ fmt x.
Definition coord (x : R) : Prop := inr 250 (-250) x /\ fmt x.
Lemma dif_opp x : dif x -> dif (- x). Proof. intros [A F]. split; [apply inr_opp, A|apply fmt_opp, F]. Qed.
Lemma dif_RN a b : coord a -> coord b -> dif (RN (a - b)). Proof. intros [A _] [B _]. split; [rng|apply RN_fmt]. Qed.
Lemma dif_same {B} Q a b (f g : R -> option B) : coord a -> coord b -> (dif (RN (a - b)) -> same Q (f (RN (a - b))) (g (RN (a - b)))) -> same Q (bind (double_op (a - b)) f) (bind (ee (a - b)) g).
Proof. intros A B' H. pose proof (dif_RN a b A B') as D. destruct A as [A _], B' as [B' _]. step. apply H, D. Qed.
Lemma tail_same a b : coord a -> coord b -> same dif (two_diff_tail double_op a b (RN (a - b))) (two_diff_tail ee a b (RN (a - b))).
Proof.
  intros A B. pose proof (dif_RN a b A B) as [[_ D] _]. destruct A as [A FA], B as [B FB]. eapply same_weaken; [apply (same_sat _ _ _ _ (two_diff_tail_same a b 250 (-250) A B ltac:(lia) ltac:(lia)) (two_diff_tail_sat ee False ee_sat a b FA FB))|].
  intros y ([G _] & E & F). split; [|exact F]. split; [exact G|]. apply tail_small in E. pose proof (Rabs_pos (RN (a - b))). apply Rle_trans with (1 := E), Rle_trans with (2 := D). rewrite eps_val. lra.
Qed.
Definition prod (v : R) (p : R * R) : Prop := eft v p /\ inr 502 (-500) (fst p) /\ inr 572 (-500) (snd p).
Lemma prod_same a b : dif a -> dif b -> same (prod (a * b)) (two_product double_op a b) (two_product ee a b).
Proof.
  intros [A FA] [B FB]. eapply same_weaken; [apply (same_sat _ _ _ _ (two_product_same a b 251 (-250) 251 (-250) A B ltac:(lia) ltac:(lia) ltac:(lia) ltac:(lia) ltac:(lia) ltac:(lia)) (two_product_sat ee False ee_sat a b FA FB))|].
  intros p ([H1 H2] & E). split; [exact E|]. split; [exact H1|exact H2].
Qed.
Lemma two_one_diff_same a1 a0 b k s : inr k s a1 -> inr k s a0 -> inr k s b -> (k <= 900)%Z -> (-1022 <= s)%Z ->
  same (fun r => inr (k + 7) s (fst (fst r)) /\ inr (k + 7) s (snd (fst r)) /\ inr (k + 7) s (snd r)) (two_one_diff double_op a1 a0 b) (two_one_diff ee a1 a0 b).
Proof.
  intros A1 A0 B Hk Hs. unfold two_one_diff. eapply same_bind; [apply (two_diff_same a0 b k s); try assumption; lia|]. intros [i x0] [I X0]. cbn [fst snd] in *.
  eapply same_bind with (P := fun p => inr (k + 2) s (fst p) /\ inr (k + 7) s (snd p)).
  { unfold two_sum. do 6 step. apply same_some. cbn [fst snd]. split; rng. }
  intros [x2 x1] [X2 X1]. apply same_some. cbn [fst snd] in *. refine (conj _ (conj _ _)); rng.
Qed.
Lemma diff_same a b c d p q : dif a -> dif b -> dif c -> dif d -> prod (a * b) p -> prod (c * d) q -> same (xr 4 503 (-500)) (two_two_diff double_op p q) (two_two_diff ee p q).
Proof.
  intros [Ha Fa] [Hb Fb] [Hc Fc] [Hd Fd] (Ep & P1 & P0) (Eq & Q1 & Q0).
  assert (S : same (Forall (grid (-500))) (two_two_diff double_op p q) (two_two_diff ee p q)).
  { destruct p as [p1 p0], q as [q1 q0]. cbn [fst snd] in *. unfold two_two_diff.
    eapply same_bind; [apply (two_one_diff_same p1 p0 q0 572 (-500)); try assumption; [rng|lia|lia]|]. intros [[j z] x0] (J & Z & X0). cbn [fst snd] in *.
    eapply same_bind; [apply (two_one_diff_same j z q1 579 (-500)); [exact J|exact Z|rng|lia|lia]|]. intros [[x3 x2] x1] (X3 & X2 & X1). cbn [fst snd] in *.
    apply same_some. repeat (constructor; [first [apply X0|apply X1|apply X2|apply X3]|]). constructor. }
  eapply same_weaken; [apply (same_sat _ _ _ _ S (diff_of_products_sat ee False ee_sat a b c d p q Fa Fb Fc Fd Ep Eq))|]. intros l (G & X).
  exists (a * b - c * d). split; [apply expansion_half, X|]. split; [|exact G]. assert (inr 503 (-500) (a * b - c * d)) by rng. apply H.
Qed.
Lemma diff2_same {B} Q a b c d (f g : list R -> option B) : dif a -> dif b -> dif c -> dif d -> (forall l, xr 4 503 (-500) l -> same Q (f l) (g l)) ->
  same Q (let* p := two_product double_op a b in let* q := two_product double_op c d in let* l := two_two_diff double_op p q in f l) (let* p := two_product ee a b in let* q := two_product ee c d in let* l := two_two_diff ee p q in g l).
Proof.
  intros A B' C D H. eapply same_bind; [apply (prod_same a b A B')|]. intros p P. eapply same_bind; [apply (prod_same c d C D)|]. intros q Q'.
  eapply same_bind; [apply (diff_same a b c d p q A B' C D P Q')|]. exact H.
Qed.
Lemma sum_same' {B} Q size n m k s e f (F G : list R -> option B) : xr n k s e -> xr m k s f -> (n + m <= size)%nat -> (k + 3 + Z.of_nat (n + m) <= 1000)%Z -> (-1022 <= s)%Z -> (forall l, xr (n + m) (k + 1) s l -> same Q (F l) (G l)) ->
  same Q (bind (fast_expansion_sum double_op size e f) F) (bind (fast_expansion_sum ee size e f) G).
Proof. intros. eapply same_bind; [apply (sum_same size n m k s); assumption|assumption]. Qed.

(** ** orient2d *)
Lemma inr_const c n : Rabs c <= 1 -> grid (-159) c -> n = 0%Z -> inr n (-159) c. Proof. intros H G ->. split; [exact G|exact H]. Qed.
Lemma eps_grid1 a b : grid (-159) ((IZR a + IZR b * eps) * eps).
Proof.
  exists (a * 2 ^ 106 + b * 2 ^ 53)%Z. rewrite plus_IZR, !mult_IZR. change (IZR (2 ^ 106)) with (bp 106). change (IZR (2 ^ 53)) with (bp 53). unfold eps.
  replace ((IZR a + IZR b * bp (-53)) * bp (-53)) with (IZR a * bp (-53) + IZR b * (bp (-53) * bp (-53))) by ring.
  rewrite <- bpow_plus. replace (bp (-53)) with (bp 106 * bp (-159)) by (rewrite <- bpow_plus; reflexivity). replace (bp (-53 + -53)) with (bp 53 * bp (-159)) by (rewrite <- bpow_plus; reflexivity). ring.
Qed.
Lemma eps_grid2 a b : grid (-159) ((IZR a + IZR b * eps) * (eps * eps)).
Proof.
  exists (a * 2 ^ 53 + b)%Z. rewrite plus_IZR, !mult_IZR. change (IZR (2 ^ 53)) with (bp 53). unfold eps.
  replace ((IZR a + IZR b * bp (-53)) * (bp (-53) * bp (-53))) with (IZR a * (bp (-53) * bp (-53)) + IZR b * (bp (-53) * bp (-53) * bp (-53))) by ring.
  rewrite <- !bpow_plus. replace (bp (-53 + -53)) with (bp 53 * bp (-159)) by (rewrite <- bpow_plus; reflexivity). change (-53 + -53 + -53)%Z with (-159)%Z. ring.
Qed.
Lemma inr_rb : inr 0 (-159) resulterrbound. Proof. rewrite resulterrbound_val. split; [apply (eps_grid1 3 8)|rewrite Rabs_pos_eq; rewrite eps_val; cbn; lra]. Qed.
Lemma inr_ccwA : inr 0 (-159) ccwerrboundA. Proof. rewrite ccwerrboundA_val. split; [apply (eps_grid1 3 16)|rewrite Rabs_pos_eq; rewrite eps_val; cbn; lra]. Qed.
Lemma inr_ccwB : inr 0 (-159) ccwerrboundB. Proof. rewrite ccwerrboundB_val. split; [apply (eps_grid1 2 12)|rewrite Rabs_pos_eq; rewrite eps_val; cbn; lra]. Qed.
Lemma inr_ccwC : inr 0 (-159) ccwerrboundC. Proof. rewrite ccwerrboundC_val. split; [apply (eps_grid2 9 64)|rewrite Rabs_pos_eq; rewrite eps_val; cbn; lra]. Qed.
Lemma inr_o3dA : inr 0 (-159) o3derrboundA. Proof. rewrite o3derrboundA_val. split; [apply (eps_grid1 7 56)|rewrite Rabs_pos_eq; rewrite eps_val; cbn; lra]. Qed.
Lemma inr_o3dB : inr 0 (-159) o3derrboundB. Proof. rewrite o3derrboundB_val. split; [apply (eps_grid1 3 28)|rewrite Rabs_pos_eq; rewrite eps_val; cbn; lra]. Qed.
Lemma inr_o3dC : inr 0 (-159) o3derrboundC. Proof. rewrite o3derrboundC_val. split; [apply (eps_grid2 26 288)|rewrite Rabs_pos_eq; rewrite eps_val; cbn; lra]. Qed.

Lemma orient2dadapt_same a b c s : coord (fst a) -> coord (snd a) -> coord (fst b) -> coord (snd b) -> coord (fst c) -> coord (snd c) -> inr 504 (-500) s -> same (fun _ => True) (orient2dadapt double_op a b c s) (orient2dadapt ee a b c s).
Proof.
  destruct a as [ax ay], b as [bx by_], c as [cx cy]. cbn [fst snd]. intros Hax Hay Hbx Hby Hcx Hcy Hs. unfold orient2dadapt.
  apply dif_same; [assumption|assumption|intros D1]. apply dif_same; [assumption|assumption|intros D2]. apply dif_same; [assumption|assumption|intros D3]. apply dif_same; [assumption|assumption|intros D4].
  apply diff2_same; try assumption. intros B XB.
  eapply same_bind; [apply (estimate_same 4 503 (-500) B XB); cbn; lia|]. intros est Hest. change (503 + 3 + Z.of_nat 4)%Z with 510%Z in Hest.
  pose proof inr_ccwB. pose proof inr_ccwC. pose proof inr_rb. step.
  destruct (decided _ _); [apply same_some; exact I|].
  eapply same_bind; [apply (tail_same ax cx); assumption|]. intros x' X'. eapply same_bind; [apply (tail_same bx cx); assumption|]. intros w' W'. eapply same_bind; [apply (tail_same ay cy); assumption|]. intros z' Z'. eapply same_bind; [apply (tail_same by_ cy); assumption|]. intros y' Y'.
  destruct (_ && _); [apply same_some; exact I|].
  pose proof D1 as [I1 _]. pose proof D2 as [I2 _]. pose proof D3 as [I3 _]. pose proof D4 as [I4 _]. pose proof X' as [I5 _]. pose proof W' as [I6 _]. pose proof Z' as [I7 _]. pose proof Y' as [I8 _].
  do 11 step. destruct (decided _ _); [apply same_some; exact I|].
  apply diff2_same; try assumption. intros u1 U1. apply (sum_same' _ 8 4 4 503 (-500)); try assumption; [lia|cbn; lia|lia|]. intros C1 X1.
  apply diff2_same; try assumption. intros u2 U2. apply (sum_same' _ 12 8 4 504 (-500)); try assumption; [eapply xr_up; [exact U2|lia|lia|lia]|lia|cbn; lia|lia|]. intros C2 X2.
  apply diff2_same; try assumption. intros u3 U3. apply (sum_same' _ 16 12 4 505 (-500)); try assumption; [eapply xr_up; [exact U3|lia|lia|lia]|lia|cbn; lia|lia|]. intros C3 X3.
  apply same_some. exact I.
Qed.
Lemma orient2d_same a b c : coord (fst a) -> coord (snd a) -> coord (fst b) -> coord (snd b) -> coord (fst c) -> coord (snd c) -> same (fun _ => True) (orient2d double_op a b c) (orient2d ee a b c).
Proof.
  destruct a as [ax ay], b as [bx by_], c as [cx cy]. cbn [fst snd]. intros Hax Hay Hbx Hby Hcx Hcy. pose proof (orient2dadapt_same (ax, ay) (bx, by_) (cx, cy)) as AD. cbn [fst snd] in AD. unfold orient2d.
  apply dif_same; [assumption|assumption|intros [D1 _]]. apply dif_same; [assumption|assumption|intros [D2 _]]. step. apply dif_same; [assumption|assumption|intros [D3 _]]. apply dif_same; [assumption|assumption|intros [D4 _]]. step. step. cbv zeta. pose proof inr_ccwA.
  destruct (ltb 0 _); [destruct (leb _ 0); [apply same_some; exact I|]|destruct (ltb _ 0); [destruct (leb 0 _); [apply same_some; exact I|]|apply same_some; exact I]];
    (step; step; destruct (decided _ _); [apply same_some; exact I|apply AD; try assumption; rng]).
Qed.

(** ** orient3d *)
Lemma xr_zero : xr 4 503 (-500) [0].
Proof. exists 0. split; [eapply expansion_le; [|exact expansion_0]; lia|]. split; [rewrite Rabs_R0; apply bpow_ge_0|repeat constructor; apply grid_0]. Qed.
Lemma xr_pair x y p : dif x -> dif y -> prod (x * y) p -> xr 4 503 (-500) [snd p; fst p].
Proof.
  intros [X FX] [Y FY] (E & P1 & P0). exists (x * y). split; [eapply expansion_le; [|exact (pair_expansion x y p FX FY E)]; lia|]. split; [|repeat constructor; [apply P0|apply P1]].
  assert (inr 503 (-500) (x * y)) by rng. apply H.
Qed.
Lemma tail_products_same xt yt px py qx qy : dif xt -> dif yt -> dif px -> dif py -> dif qx -> dif qy ->
  same (fun r => xr 4 503 (-500) (fst r) /\ xr 4 503 (-500) (snd r)) (tail_products double_op xt yt px py qx qy) (tail_products ee xt yt px py qx qy).
Proof.
  intros Hxt Hyt Hpx Hpy Hqx Hqy. unfold tail_products. destruct (eqb xt 0), (eqb yt 0).
  - apply same_some. split; apply xr_zero.
  - eapply same_bind; [apply prod_same; [apply dif_opp, Hyt|exact Hpx]|]. intros [l1 s1] P1. eapply same_bind; [apply prod_same; [exact Hyt|exact Hqx]|]. intros [l2 s2] P2.
    apply xr_pair in P1; [|apply dif_opp; assumption|assumption]. apply xr_pair in P2; [|assumption|assumption]. apply same_some. split; assumption.
  - eapply same_bind; [apply prod_same; [exact Hxt|exact Hpy]|]. intros [l1 s1] P1. eapply same_bind; [apply prod_same; [apply dif_opp, Hxt|exact Hqy]|]. intros [l2 s2] P2.
    apply xr_pair in P1; [|assumption|assumption]. apply xr_pair in P2; [|apply dif_opp; assumption|assumption]. apply same_some. split; assumption.
  - apply diff2_same; try assumption. intros u U. apply diff2_same; try assumption. intros u' U'. apply same_some. split; assumption.
Qed.
Lemma scale_dif {B} Q size n k e z (F G : list R -> option B) : xr n k (-500) e -> dif z -> (2 * n <= size)%nat -> (k <= 505)%Z -> (n <= 8)%nat -> (forall l, xr (2 * n) (k + 251) (-750) l -> same Q (F l) (G l)) ->
  same Q (bind (scale_expansion double_op size e z) F) (bind (scale_expansion ee size e z) G).
Proof. intros X [Z FZ] H1 H2 H3 K. eapply same_bind; [apply (scale_same size n k (-500) 251 (-250) e z); try assumption; lia|]. exact K. Qed.
Lemma add_scaled_same {B} Q size n m k fin e z (F G : list R -> option B) : xr n k (-750) fin -> xr m 504 (-500) e -> dif z -> (2 * m <= size)%nat -> (m <= 8)%nat -> (755 <= k <= 790)%Z -> (n + 2 * m <= 192)%nat ->
  (forall l, xr (n + 2 * m) (k + 1) (-750) l -> same Q (F l) (G l)) -> same Q (bind (add_scaled double_op size fin e z) F) (bind (add_scaled ee size fin e z) G).
Proof.
  intros XF XE Z H1 H2 H3 H4 K. unfold add_scaled. destruct (eqb z 0).
  - cbn [bind]. apply K. eapply xr_up; [exact XF|lia|lia|lia].
  - eapply same_bind; [|exact K]. apply (scale_dif _ size m 504); try assumption; [lia|]. intros l L. apply (sum_same fin_size n (2 * m) k (-750)); [exact XF|eapply xr_up; [exact L|lia|lia|lia]|exact H4|lia|lia].
Qed.
Lemma two_one_product_same p x y b : dif x -> dif y -> prod (x * y) p -> dif b -> same (xr 4 753 (-750)) (two_one_product double_op p b) (two_one_product ee p b).
Proof.
  intros [X FX] [Y FY] (E & P1 & P0) [B FB]. pose proof (eft_above _ _ E (prod_has_grid x y FX FY)) as A. destruct E as (_ & S & F1 & F0). destruct p as [a1 a0]. cbn [fst snd] in *.
  assert (SM : same (Forall (grid (-750))) (two_one_product double_op (a1, a0) b) (two_one_product ee (a1, a0) b)).
  { unfold two_one_product. eapply same_bind; [apply (split_same b 251 (-250)); [exact B|lia|lia]|]. intros [bhi blo] [B1 B2]. cbn [fst snd] in *.
    eapply same_bind; [apply (two_product_presplit_same a0 b bhi blo 572 (-500) 251 (-250)); try assumption; lia|]. intros [i x0] [I1 X0]. cbn [fst snd] in *.
    eapply same_bind; [apply (two_product_presplit_same a1 b bhi blo 502 (-500) 251 (-250)); try assumption; lia|]. intros [j z] [J Z]. cbn [fst snd] in *.
    eapply same_bind; [apply (two_sum_same i z 823 (-750)); [rng|rng|lia|lia]|]. intros [k x1] [K X1]. cbn [fst snd] in *.
    eapply same_bind; [apply (fast_two_sum_same j k 824 (-750)); [rng|rng|lia|lia]|]. intros [x3 x2] [X3 X2]. cbn [fst snd] in *.
    apply same_some. repeat (constructor; [first [apply X0|exact X1|exact X2|apply X3]|]). constructor. }
  eapply same_weaken; [apply (same_sat _ _ _ _ SM (two_one_product_sat ee False ee_sat b a1 a0 FB F1 F0 A))|]. intros l (G & XX). exists ((a0 + a1) * b). split; [exact XX|]. split; [|exact G].
  replace (a0 + a1) with (x * y) by lra. assert (inr 753 (-750) (x * y * b)) by rng. apply H.
Qed.
Lemma add_tails_same {B} Q n k fin xt yt z zt (F G : list R -> option B) : xr n k (-750) fin -> dif xt -> dif yt -> dif z -> dif zt -> (755 <= k <= 785)%Z -> (n + 8 <= 192)%nat ->
  (forall l, xr (n + 8) (k + 2) (-750) l -> same Q (F l) (G l)) -> same Q (bind (add_tails double_op fin xt yt z zt) F) (bind (add_tails ee fin xt yt z zt) G).
Proof.
  intros XF X Y Z ZT Hk Hn K. unfold add_tails. destruct (eqb yt 0); [cbn [bind]; apply K; eapply xr_up; [exact XF|lia|lia|lia]|].
  eapply same_bind; [|exact K]. eapply same_bind; [apply (prod_same xt yt X Y)|]. intros p P. eapply same_bind; [apply (two_one_product_same p xt yt z X Y P Z)|]. intros u U.
  apply (sum_same' _ fin_size n 4 k (-750)); [exact XF|eapply xr_up; [exact U|lia|lia|lia]|unfold fin_size; lia|lia|lia|]. intros fin' XF'.
  destruct (eqb zt 0); [apply same_some; eapply xr_up; [exact XF'|lia|lia|lia]|].
  eapply same_bind; [apply (two_one_product_same p xt yt zt X Y P ZT)|]. intros u' U'. eapply same_weaken; [apply (sum_same fin_size (n + 4) 4 (k + 1) (-750)); [exact XF'|eapply xr_up; [exact U'|lia|lia|lia]|unfold fin_size; lia|lia|lia]|].
  intros l L. eapply xr_up; [exact L|lia|lia|lia].
Qed.
Lemma orient3dexact_same bc ca ab fin adx ady adz bdx bdy bdz cdx cdy cdz adxt adyt adzt bdxt bdyt bdzt cdxt cdyt cdzt :
  dif adx -> dif ady -> dif adz -> dif bdx -> dif bdy -> dif bdz -> dif cdx -> dif cdy -> dif cdz -> dif adxt -> dif adyt -> dif adzt -> dif bdxt -> dif bdyt -> dif bdzt -> dif cdxt -> dif cdyt -> dif cdzt ->
  xr 4 503 (-500) bc -> xr 4 503 (-500) ca -> xr 4 503 (-500) ab -> xr 24 756 (-750) fin ->
  same (fun _ => True) (orient3dexact double_op bc ca ab fin adx ady adz bdx bdy bdz cdx cdy cdz adxt adyt adzt bdxt bdyt bdzt cdxt cdyt cdzt) (orient3dexact ee bc ca ab fin adx ady adz bdx bdy bdz cdx cdy cdz adxt adyt adzt bdxt bdyt bdzt cdxt cdyt cdzt).
Proof.
  intros F1 F2 F3 F4 F5 F6 F7 F8 F9 G1 G2 G3 G4 G5 G6 G7 G8 G9 Xbc Xca Xab X. unfold orient3dexact.
  eapply same_bind; [apply (tail_products_same adxt adyt bdx bdy cdx cdy); assumption|]. intros [at_b at_c] [Eab1 Eac1]. cbn [fst snd] in *.
  eapply same_bind; [apply (tail_products_same bdxt bdyt cdx cdy adx ady); assumption|]. intros [bt_c bt_a] [Ebc1 Eba1]. cbn [fst snd] in *.
  eapply same_bind; [apply (tail_products_same cdxt cdyt adx ady bdx bdy); assumption|]. intros [ct_a ct_b] [Eca1 Ecb1]. cbn [fst snd] in *.
  apply (sum_same' _ 8 4 4 503 (-500)); try assumption; [lia|lia|lia|]. intros bct Xbct. cbn in Xbct.
  apply (scale_dif _ 16 8 504); try assumption; [lia|lia|lia|]. intros w1 W1. cbn in W1.
  apply (sum_same' _ fin_size 24 16 756 (-750)); [exact X|eapply xr_up; [exact W1|lia|lia|lia]|unfold fin_size; lia|lia|lia|]. clear X W1 w1 fin. intros fin X. cbn in X.
  apply (sum_same' _ 8 4 4 503 (-500)); try assumption; [lia|lia|lia|]. intros cat Xcat. cbn in Xcat.
  apply (scale_dif _ 16 8 504); try assumption; [lia|lia|lia|]. intros w1 W1. cbn in W1.
  apply (sum_same' _ fin_size 40 16 757 (-750)); [exact X|eapply xr_up; [exact W1|lia|lia|lia]|unfold fin_size; lia|lia|lia|]. clear X W1 w1 fin. intros fin X. cbn in X.
  apply (sum_same' _ 8 4 4 503 (-500)); try assumption; [lia|lia|lia|]. intros abt Xabt. cbn in Xabt.
  apply (scale_dif _ 16 8 504); try assumption; [lia|lia|lia|]. intros w1 W1. cbn in W1.
  apply (sum_same' _ fin_size 56 16 758 (-750)); [exact X|eapply xr_up; [exact W1|lia|lia|lia]|unfold fin_size; lia|lia|lia|]. clear X W1 w1 fin. intros fin X. cbn in X.
  apply (xr_up 4 4 503 504 (-500) (-500)) in Xbc; [|lia|lia|lia]. apply (xr_up 4 4 503 504 (-500) (-500)) in Xca; [|lia|lia|lia]. apply (xr_up 4 4 503 504 (-500) (-500)) in Xab; [|lia|lia|lia].
  apply (add_scaled_same _ 12 72 4 759); try assumption; [lia|lia|lia|lia|]. clear X fin. intros fin X. cbn in X.
  apply (add_scaled_same _ 12 80 4 760); try assumption; [lia|lia|lia|lia|]. clear X fin. intros fin X. cbn in X.
  apply (add_scaled_same _ 12 88 4 761); try assumption; [lia|lia|lia|lia|]. clear X fin. intros fin X. cbn in X.
  eapply same_bind with (P := xr 112 766 (-750)).
  { destruct (eqb adxt 0); [apply same_some; eapply xr_up; [exact X|lia|lia|lia]|]. apply (add_tails_same _ 96 762); try assumption; [lia|lia|]. intros l L. cbn in L. eapply same_weaken; [|intros l' L'; exact L'].
    pose proof (add_tails_same (xr 112 766 (-750)) 104 764 l (- adxt) cdyt bdz bdzt Some Some L (dif_opp _ G1) G8 F6 G6 ltac:(lia) ltac:(lia)) as S. unfold bind in S. destruct S as [S1 S2]; [intros l' L'; apply same_some, L'|].
    split; [|intros r R; apply S2; rewrite R; reflexivity]. destruct (add_tails double_op l _ _ _ _), (add_tails ee l _ _ _ _); congruence. }
  clear X fin. intros fin X.
  eapply same_bind with (P := xr 128 770 (-750)).
  { destruct (eqb bdxt 0); [apply same_some; eapply xr_up; [exact X|lia|lia|lia]|]. apply (add_tails_same _ 112 766); try assumption; [lia|lia|]. intros l L. cbn in L.
    pose proof (add_tails_same (xr 128 770 (-750)) 120 768 l (- bdxt) adyt cdz cdzt Some Some L (dif_opp _ G4) G2 F9 G9 ltac:(lia) ltac:(lia)) as S. unfold bind in S. destruct S as [S1 S2]; [intros l' L'; apply same_some, L'|].
    split; [|intros r R; apply S2; rewrite R; reflexivity]. destruct (add_tails double_op l _ _ _ _), (add_tails ee l _ _ _ _); congruence. }
  clear X fin. intros fin X.
  eapply same_bind with (P := xr 144 774 (-750)).
  { destruct (eqb cdxt 0); [apply same_some; eapply xr_up; [exact X|lia|lia|lia]|]. apply (add_tails_same _ 128 770); try assumption; [lia|lia|]. intros l L. cbn in L.
    pose proof (add_tails_same (xr 144 774 (-750)) 136 772 l (- cdxt) bdyt adz adzt Some Some L (dif_opp _ G7) G5 F3 G3 ltac:(lia) ltac:(lia)) as S. unfold bind in S. destruct S as [S1 S2]; [intros l' L'; apply same_some, L'|].
    split; [|intros r R; apply S2; rewrite R; reflexivity]. destruct (add_tails double_op l _ _ _ _), (add_tails ee l _ _ _ _); congruence. }
  clear X fin. intros fin X.
  apply (add_scaled_same _ 16 144 8 774); try assumption; [lia|lia|lia|lia|]. clear X fin. intros fin X. cbn in X.
  apply (add_scaled_same _ 16 160 8 775); try assumption; [lia|lia|lia|lia|]. clear X fin. intros fin X. cbn in X.
  apply (add_scaled_same _ 16 176 8 776); try assumption; [lia|lia|lia|lia|]. clear X fin. intros fin X.
  apply same_some. exact I.
Qed.

Lemma correction_same {B} Q z zt x y xt yt x' y' xt' yt' (F G : R -> option B) : dif z -> dif zt -> dif x -> dif y -> dif xt -> dif yt -> dif x' -> dif y' -> dif xt' -> dif yt' ->
  (forall c, inr 760 (-750) c -> same Q (F c) (G c)) -> same Q (bind (correction double_op z zt x y xt yt x' y' xt' yt') F) (bind (correction ee z zt x y xt yt x' y' xt' yt') G).
Proof.
  intros [? _] [? _] [? _] [? _] [? _] [? _] [? _] [? _] [? _] [? _] K. eapply same_bind; [|exact K]. unfold correction. do 12 step. eapply same_op_end; [rng0|lia|lia|intros ?]. rng.
Qed.

Lemma orient3dadapt_same ax ay az bx by_ bz cx cy cz dx dy dz s :
  coord ax -> coord ay -> coord az -> coord bx -> coord by_ -> coord bz -> coord cx -> coord cy -> coord cz -> coord dx -> coord dy -> coord dz -> inr 760 (-750) s ->
  same (fun _ => True) (orient3dadapt double_op (ax, ay, az) (bx, by_, bz) (cx, cy, cz) (dx, dy, dz) s) (orient3dadapt ee (ax, ay, az) (bx, by_, bz) (cx, cy, cz) (dx, dy, dz) s).
Proof.
  intros Hax Hay Haz Hbx Hby Hbz Hcx Hcy Hcz Hdx Hdy Hdz Hs. unfold orient3dadapt.
  apply dif_same; [assumption|assumption|intros D1]. apply dif_same; [assumption|assumption|intros D2]. apply dif_same; [assumption|assumption|intros D3]. apply dif_same; [assumption|assumption|intros D4]. apply dif_same; [assumption|assumption|intros D5]. apply dif_same; [assumption|assumption|intros D6]. apply dif_same; [assumption|assumption|intros D7]. apply dif_same; [assumption|assumption|intros D8]. apply dif_same; [assumption|assumption|intros D9].
  apply diff2_same; try assumption. intros bc Xbc. apply (scale_dif _ 8 4 503); try assumption; [lia|lia|lia|]. intros adet Xa. cbn in Xa.
  apply diff2_same; try assumption. intros ca Xca. apply (scale_dif _ 8 4 503); try assumption; [lia|lia|lia|]. intros bdet Xb. cbn in Xb.
  apply diff2_same; try assumption. intros ab Xab. apply (scale_dif _ 8 4 503); try assumption; [lia|lia|lia|]. intros cdet Xc. cbn in Xc.
  apply (sum_same' _ 16 8 8 754 (-750)); try assumption; [lia|lia|lia|]. intros abdet Xabd. cbn in Xabd.
  apply (sum_same' _ fin_size 16 8 755 (-750)); [assumption|eapply xr_up; [exact Xc|lia|lia|lia]|unfold fin_size; lia|lia|lia|]. intros fin Xf. cbn in Xf.
  eapply same_bind; [apply (estimate_same 24 756 (-750) fin Xf); cbn; lia|]. intros est Hest. change (756 + 3 + Z.of_nat 24)%Z with 783%Z in Hest.
  pose proof inr_o3dB. pose proof inr_o3dC. pose proof inr_rb. step.
  destruct (decided _ _); [apply same_some; exact I|].
  eapply same_bind; [apply (tail_same ax dx); assumption|]. intros xa' A1. eapply same_bind; [apply (tail_same bx dx); assumption|]. intros xb' A2. eapply same_bind; [apply (tail_same cx dx); assumption|]. intros xc' A3.
  eapply same_bind; [apply (tail_same ay dy); assumption|]. intros ya' A4. eapply same_bind; [apply (tail_same by_ dy); assumption|]. intros yb' A5. eapply same_bind; [apply (tail_same cy dy); assumption|]. intros yc' A6.
  eapply same_bind; [apply (tail_same az dz); assumption|]. intros za' A7. eapply same_bind; [apply (tail_same bz dz); assumption|]. intros zb' A8. eapply same_bind; [apply (tail_same cz dz); assumption|]. intros zc' A9.
  match goal with |- same _ (if ?b then _ else _) _ => destruct b end; [apply same_some; exact I|].
  do 3 step. apply correction_same; try assumption. intros c1 C1. apply correction_same; try assumption. intros c2 C2. apply correction_same; try assumption. intros c3 C3.
  do 3 step. destruct (decided _ _); [apply same_some; exact I|]. apply orient3dexact_same; assumption.
Qed.
Lemma orient3d_same ax ay az bx by_ bz cx cy cz dx dy dz :
  coord ax -> coord ay -> coord az -> coord bx -> coord by_ -> coord bz -> coord cx -> coord cy -> coord cz -> coord dx -> coord dy -> coord dz ->
  same (fun _ => True) (orient3d double_op (ax, ay, az) (bx, by_, bz) (cx, cy, cz) (dx, dy, dz)) (orient3d ee (ax, ay, az) (bx, by_, bz) (cx, cy, cz) (dx, dy, dz)).
Proof.
  intros Hax Hay Haz Hbx Hby Hbz Hcx Hcy Hcz Hdx Hdy Hdz. pose proof (fun s => orient3dadapt_same ax ay az bx by_ bz cx cy cz dx dy dz s Hax Hay Haz Hbx Hby Hbz Hcx Hcy Hcz Hdx Hdy Hdz) as AD. unfold orient3d.
  apply dif_same; [assumption|assumption|intros [D1 _]]. apply dif_same; [assumption|assumption|intros [D2 _]]. apply dif_same; [assumption|assumption|intros [D3 _]]. apply dif_same; [assumption|assumption|intros [D4 _]]. apply dif_same; [assumption|assumption|intros [D5 _]]. apply dif_same; [assumption|assumption|intros [D6 _]]. apply dif_same; [assumption|assumption|intros [D7 _]]. apply dif_same; [assumption|assumption|intros [D8 _]]. apply dif_same; [assumption|assumption|intros [D9 _]].
  pose proof inr_o3dA. do 23 step. match goal with |- same _ (if ?b then _ else _) _ => destruct b end; [apply same_some; exact I|]. apply AD. rng.
Qed.
