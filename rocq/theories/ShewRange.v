(** A range of coordinates for which no operation of the predicates overflows or underflows in double precision. *)
From Coq Require Import ZArith Reals Lra Lia Bool List.
From Flocq Require Import Core.
From Verif Require Import ShewModel ShewSpec ShewGrid ShewSum ShewExp ShewScale ShewEst Shew2d Shew3dBounds Shew3d Shew3dMain ShewProps.
Import ListNotations.
Open Scope R_scope.

Notation ee := exact_exponent.
Lemma ee_sat x : sat False (ee x) (fun y => y = RN x). Proof. reflexivity. Qed.

(** a multiple of 2^s of magnitude at most 2^k *)
Definition inr (k s : Z) (x : R) : Prop := grid s x /\ Rabs x <= bp k.

Lemma inr_up k s k' s' x : inr k s x -> (k <= k')%Z -> (s' <= s)%Z -> inr k' s' x.
Proof. intros [G B] H1 H2. split; [eapply grid_le; eassumption|]. apply Rle_trans with (1 := B), bp_le, H1. Qed.
Lemma inr_add k s l t x y : inr k s x -> inr l t y -> inr (Z.max k l + 1) (Z.min s t) (x + y).
Proof.
  intros X Y. apply (inr_up _ _ (Z.max k l) (Z.min s t)) in X; [|lia|lia]. apply (inr_up _ _ (Z.max k l) (Z.min s t)) in Y; [|lia|lia]. destruct X as [G B], Y as [G' B'].
  split; [apply grid_add; assumption|]. rewrite bp_S. eapply Rle_trans; [apply Rabs_triang|]. lra.
Qed.
Lemma inr_opp k s x : inr k s x -> inr k s (- x). Proof. intros [G B]. split; [apply grid_opp, G|rewrite Rabs_Ropp; exact B]. Qed.
Lemma inr_sub k s l t x y : inr k s x -> inr l t y -> inr (Z.max k l + 1) (Z.min s t) (x - y).
Proof. intros X Y. apply inr_add; [exact X|apply inr_opp, Y]. Qed.
Lemma inr_mul k s l t x y : inr k s x -> inr l t y -> inr (k + l) (s + t) (x * y).
Proof. intros [G B] [G' B']. split; [apply grid_mult; assumption|]. rewrite bpow_plus. apply abs_mult_le; assumption. Qed.
Lemma inr_RN k s x : inr k s x -> inr k s (RN x). Proof. intros [G B]. split; [apply RN_grid, G|apply RN_bound, B]. Qed.
Lemma inr_abs k s x : inr k s x -> inr k s (absolute x).
Proof. intros [G B]. rewrite absolute_val. split; [apply grid_abs, G|rewrite Rabs_Rabsolu; exact B]. Qed.
Lemma inr_splitter : inr 28 0 splitter.
Proof. rewrite splitter_val. split; [exists 134217729%Z; cbn; lra|]. rewrite Rabs_pos_eq; cbn; lra. Qed.

Lemma double_op_ok x k s : inr k s x -> (k <= 1023)%Z -> (-1022 <= s)%Z -> double_op x = Some (RN x).
Proof.
  intros [G B] Hk Hs. unfold double_op. assert (E : RT (-1074) x = RN x). { apply RT_RN. destruct (Req_dec x 0) as [Z|N]; [auto|right]. apply grid_ge in G; [|exact N]. apply Rle_trans with (2 := G), bp_le. lia. }
  rewrite E. assert (L : Rabs (RN x) < bp 1024). { apply Rle_lt_trans with (bp k); [apply RN_bound, B|apply bp_lt; lia]. }
  rewrite (Rlt_bool_true _ _ L), (Req_bool_true _ _ eq_refl). reflexivity.
Qed.

(** the same computation, with the double-precision operations and with operations that do not fail *)
Definition same {A} (P : A -> Prop) (m m' : option A) : Prop := m = m' /\ forall r, m' = Some r -> P r.
Lemma same_bind {A B} P Q (m m' : option A) (f g : A -> option B) : same P m m' -> (forall a, P a -> same Q (f a) (g a)) -> same Q (bind m f) (bind m' g).
Proof. intros [-> H] K. destruct m' as [a|]; cbn; [apply K, H; reflexivity|split; [reflexivity|discriminate]]. Qed.
Lemma same_weaken {A} (P Q : A -> Prop) m m' : same P m m' -> (forall a, P a -> Q a) -> same Q m m'.
Proof. intros [E H] K. split; [exact E|]. intros r R. apply K, H, R. Qed.
Lemma same_some {A} (P : A -> Prop) a : P a -> same P (Some a) (Some a).
Proof. intros H. split; [reflexivity|]. intros r E. injection E as <-. exact H. Qed.
Lemma same_sat {A} (P R : A -> Prop) m m' : same P m m' -> sat False m' R -> same (fun a => P a /\ R a) m m'.
Proof. intros [-> H] S. split; [reflexivity|]. intros r E. split; [apply H, E|]. rewrite E in S. exact S. Qed.
Lemma same_op {B} Q x k s (f g : R -> option B) : inr k s x -> (k <= 1023)%Z -> (-1022 <= s)%Z -> (inr k s (RN x) -> same Q (f (RN x)) (g (RN x))) -> same Q (bind (double_op x) f) (bind (ee x) g).
Proof. intros H Hk Hs K. rewrite (double_op_ok x k s H Hk Hs). cbn. apply K, inr_RN, H. Qed.
Lemma same_op_end (Q : R -> Prop) x k s : inr k s x -> (k <= 1023)%Z -> (-1022 <= s)%Z -> (inr k s (RN x) -> Q (RN x)) -> same Q (double_op x) (ee x).
Proof. intros H Hk Hs K. rewrite (double_op_ok x k s H Hk Hs). apply same_some, K, inr_RN, H. Qed.

(** ranges of expressions *)
Ltac rng0 := first [ eassumption | apply inr_RN; rng0 | apply inr_abs; rng0 | eapply inr_add; rng0 | eapply inr_sub; rng0 | eapply inr_opp; rng0 | eapply inr_mul; rng0 | exact inr_splitter ].
Ltac rng := eapply inr_up; [rng0 | lia | lia].
Ltac step := eapply same_op; [rng0 | lia | lia | intros ?].
Ltac stepn n := do n step.

Lemma two_sum_same a b k s : inr k s a -> inr k s b -> (k <= 1000)%Z -> (-1022 <= s)%Z -> same (fun p => inr (k + 1) s (fst p) /\ grid s (snd p)) (two_sum double_op a b) (two_sum ee a b).
Proof. intros A B Hk Hs. unfold two_sum. do 6 step. apply same_some. cbn [fst snd]. split; [rng|]. eapply (inr_up _ _ (k + 10) s); [rng0|lia|lia]. Qed.
Lemma fast_two_sum_same a b k s : inr k s a -> inr k s b -> (k <= 1000)%Z -> (-1022 <= s)%Z -> same (fun p => inr (k + 1) s (fst p) /\ grid s (snd p)) (fast_two_sum double_op a b) (fast_two_sum ee a b).
Proof. intros A B Hk Hs. unfold fast_two_sum. do 3 step. apply same_some. cbn [fst snd]. split; [rng|]. eapply (inr_up _ _ (k + 10) s); [rng0|lia|lia]. Qed.
Lemma two_diff_tail_same a b k s : inr k s a -> inr k s b -> (k <= 1000)%Z -> (-1022 <= s)%Z -> same (inr (k + 6) s) (two_diff_tail double_op a b (RN (a - b))) (two_diff_tail ee a b (RN (a - b))).
Proof. intros A B Hk Hs. unfold two_diff_tail. assert (inr (k + 1) s (RN (a - b))) by rng. do 4 step. eapply same_op_end; [rng0|lia|lia|intros ?]. rng. Qed.
Lemma two_diff_same a b k s : inr k s a -> inr k s b -> (k <= 1000)%Z -> (-1022 <= s)%Z -> same (fun p => inr (k + 1) s (fst p) /\ inr (k + 6) s (snd p)) (two_diff double_op a b) (two_diff ee a b).
Proof. intros A B Hk Hs. unfold two_diff. step. eapply same_bind; [apply (two_diff_tail_same a b k s); assumption|]. intros y Y. apply same_some. split; [rng|exact Y]. Qed.
Lemma split_same a k s : inr k s a -> (k <= 900)%Z -> (-1022 <= s)%Z -> same (fun p => inr (k + 31) s (fst p) /\ inr (k + 32) s (snd p)) (split double_op a) (split ee a).
Proof. intros A Hk Hs. unfold split. do 4 step. apply same_some. cbn [fst snd]. split; rng. Qed.
Lemma product_tail_same a b ahi alo bhi blo k s l t : inr k s a -> inr l t b -> inr (k + 31) s ahi -> inr (k + 32) s alo -> inr (l + 31) t bhi -> inr (l + 32) t blo -> (k + l <= 900)%Z -> (-1022 <= s + t)%Z ->
  same (inr (k + l + 70) (s + t)) (product_tail double_op (RN (a * b)) ahi alo bhi blo) (product_tail ee (RN (a * b)) ahi alo bhi blo).
Proof. intros A B H1 H2 H3 H4 Hk Hs. unfold product_tail. assert (inr (k + l) (s + t) (RN (a * b))) by rng. do 7 step. eapply same_op_end; [rng0|lia|lia|intros ?]. rng. Qed.
Lemma two_product_same a b k s l t : inr k s a -> inr l t b -> (k <= 900)%Z -> (l <= 900)%Z -> (-1022 <= s)%Z -> (-1022 <= t)%Z -> (k + l <= 900)%Z -> (-1022 <= s + t)%Z ->
  same (fun p => inr (k + l) (s + t) (fst p) /\ inr (k + l + 70) (s + t) (snd p)) (two_product double_op a b) (two_product ee a b).
Proof.
  intros A B H1 H2 H3 H4 H5 H6. unfold two_product. step. eapply same_bind; [apply (split_same a k s); assumption|]. intros [ahi alo] [S1 S2]. eapply same_bind; [apply (split_same b l t); assumption|]. intros [bhi blo] [S3 S4].
  eapply same_bind; [apply (product_tail_same a b _ _ _ _ k s l t); assumption|]. intros y Y. apply same_some. split; [rng|exact Y].
Qed.
Lemma two_product_presplit_same a b bhi blo k s l t : inr k s a -> inr l t b -> inr (l + 31) t bhi -> inr (l + 32) t blo -> (k <= 900)%Z -> (-1022 <= s)%Z -> (k + l <= 900)%Z -> (-1022 <= s + t)%Z ->
  same (fun p => inr (k + l) (s + t) (fst p) /\ inr (k + l + 70) (s + t) (snd p)) (two_product_presplit double_op a b bhi blo) (two_product_presplit ee a b bhi blo).
Proof.
  intros A B S3 S4 H1 H2 H3 H4. unfold two_product_presplit. step. eapply same_bind; [apply (split_same a k s); assumption|]. intros [ahi alo] [S1 S2].
  eapply same_bind; [apply (product_tail_same a b _ _ _ _ k s l t); assumption|]. intros y Y. apply same_some. split; [rng|exact Y].
Qed.

(** ** Expansions *)
(** at most n components, a value of magnitude at most 2^k, the components multiples of 2^s *)
Definition xr (n : nat) (k s : Z) (l : list R) : Prop := exists v, expansion (3 / 4) n v l /\ Rabs v <= bp k /\ Forall (grid s) l.
Lemma xr_up n m k k' s s' l : xr n k s l -> (n <= m)%nat -> (k <= k')%Z -> (s' <= s)%Z -> xr m k' s' l.
Proof.
  intros (v & E & B & G) H1 H2 H3. exists v. split; [eapply expansion_le; eassumption|]. split; [apply Rle_trans with (1 := B), bp_le, H2|]. revert G. apply Forall_impl. intros x. apply grid_le, H3.
Qed.
Lemma asum_In x l : In x l -> Rabs x <= asum l.
Proof. induction l as [|y l IH]; [contradiction|]. cbn. pose proof (asum_pos l). pose proof (Rabs_pos y). intros [-> | I]; [lra|]. apply IH in I. lra. Qed.
Lemma xr_inr n k s l : xr n k s l -> Forall (inr (k + 3) s) l.
Proof.
  intros (v & E & B & G). apply expansion_asum7 in E. apply Forall_forall. intros x I. rewrite Forall_forall in G. split; [apply G, I|].
  apply Rle_trans with (1 := asum_In x l I). replace (k + 3)%Z with (k + 1 + 1 + 1)%Z by ring. rewrite !bp_S. pose proof (bp_pos k). lra.
Qed.
Lemma xr_length n k s l : xr n k s l -> (length l <= n)%nat. Proof. intros (v & (_ & _ & _ & L & _) & _). exact L. Qed.

Definition gr (s : Z) (r : list R * R) : Prop := Forall (grid s) (fst r) /\ grid s (snd r).
Lemma gr_nonzero s h r : grid s h -> gr s r -> gr s (nonzero h (fst r), snd r).
Proof. intros G [H1 H2]. split; [|exact H2]. cbn. unfold nonzero. destruct (eqb h 0); [exact H1|constructor; assumption]. Qed.

Lemma sum_rest_same g : forall Q k s, inr k s Q -> Forall (inr k s) g -> (k + Z.of_nat (length g) <= 1000)%Z -> (-1022 <= s)%Z -> same (gr s) (sum_rest double_op Q g) (sum_rest ee Q g).
Proof.
  induction g as [|x g IH]; intros Q k s HQ F Hk Hs; cbn [sum_rest length] in *; [apply same_some; split; [constructor|apply HQ]|]. apply Forall_cons_iff in F. destruct F as [Fx F].
  eapply same_bind; [apply (two_sum_same Q x k s); [assumption|assumption|lia|lia]|]. intros [q h] [H1 H2]. cbn [fst snd] in *.
  eapply same_bind; [apply (IH q (k + 1)%Z s); [assumption| |lia|lia]|].
  { revert F. apply Forall_impl. intros y Y. rng. }
  intros [l Ql] H. apply same_some. apply (gr_nonzero s h (l, Ql)); assumption.
Qed.
Lemma sum_loop_same e : forall f Q k s, inr k s Q -> Forall (inr k s) e -> Forall (inr k s) f -> (k + Z.of_nat (length e + length f) <= 1000)%Z -> (-1022 <= s)%Z -> same (gr s) (sum_loop double_op e f Q) (sum_loop ee e f Q).
Proof.
  induction e as [|x e IHe]; [intros f; destruct f; intros; apply (sum_rest_same _ _ k s); assumption|].
  induction f as [|y f IHf]; intros Q k s HQ Fe Ff Hk Hs.
  - cbn [sum_loop]. apply (sum_rest_same _ _ k s); try assumption. cbn [length] in *. lia.
  - cbn [sum_loop] in *. fold (sum_loop double_op (x :: e)) in *. fold (sum_loop ee (x :: e)) in *. pose proof Fe as Fe'. pose proof Ff as Ff'. apply Forall_cons_iff in Fe', Ff'. destruct Fe' as [Fx Fe'], Ff' as [Fy Ff']. cbn [length] in *.
    destruct (from_e x y).
    + eapply same_bind; [apply (two_sum_same Q x k s); [assumption|assumption|lia|lia]|]. intros [q h] [H1 H2]. cbn [fst snd] in *.
      eapply same_bind; [apply (IHe (y :: f) q (k + 1)%Z s); [assumption| | |cbn [length]; lia|lia]|].
      { revert Fe'. apply Forall_impl. intros z Z. rng. } { revert Ff. apply Forall_impl. intros z Z. rng. }
      intros [l Ql] H. apply same_some. apply (gr_nonzero s h (l, Ql)); assumption.
    + eapply same_bind; [apply (two_sum_same Q y k s); [assumption|assumption|lia|lia]|]. intros [q h] [H1 H2]. cbn [fst snd] in *.
      eapply same_bind; [apply (IHf q (k + 1)%Z s); [assumption| | |cbn [length]; lia|lia]|].
      { revert Fe. apply Forall_impl. intros z Z. rng. } { revert Ff'. apply Forall_impl. intros z Z. rng. }
      intros [l Ql] H. apply same_some. apply (gr_nonzero s h (l, Ql)); assumption.
Qed.
Lemma Forall_up k s l : Forall (inr k s) l -> Forall (inr (k + 1) s) l. Proof. apply Forall_impl. intros z Z. rng. Qed.
Lemma sum_first_same e f Q k s : inr k s Q -> Forall (inr k s) e -> Forall (inr k s) f -> (k + Z.of_nat (length e + length f) <= 1000)%Z -> (-1022 <= s)%Z -> same (gr s) (sum_first double_op e f Q) (sum_first ee e f Q).
Proof.
  intros HQ Fe Ff Hk Hs. destruct e as [|x e]; [destruct f; apply (sum_loop_same _ _ _ k s); assumption|]. destruct f as [|y f]; [apply (sum_loop_same _ _ _ k s); assumption|]. cbn [sum_first length] in *.
  pose proof Fe as Fe'. pose proof Ff as Ff'. apply Forall_cons_iff in Fe', Ff'. destruct Fe' as [Fx Fe'], Ff' as [Fy Ff']. destruct (from_e x y).
  - eapply same_bind; [apply (fast_two_sum_same x Q k s); [assumption|assumption|lia|lia]|]. intros [q h] [H1 H2]. cbn [fst snd] in *.
    eapply same_bind; [apply (sum_loop_same e (y :: f) q (k + 1)%Z s); [assumption|apply Forall_up, Fe'|apply Forall_up, Ff|cbn [length]; lia|lia]|]. intros [l Ql] H. apply same_some. apply (gr_nonzero s h (l, Ql)); assumption.
  - eapply same_bind; [apply (fast_two_sum_same y Q k s); [assumption|assumption|lia|lia]|]. intros [q h] [H1 H2]. cbn [fst snd] in *.
    eapply same_bind; [apply (sum_loop_same (x :: e) f q (k + 1)%Z s); [assumption|apply Forall_up, Fe|apply Forall_up, Ff'|cbn [length]; lia|lia]|]. intros [l Ql] H. apply same_some. apply (gr_nonzero s h (l, Ql)); assumption.
Qed.
Lemma last_component_gr s r : gr s r -> Forall (grid s) (last_component (fst r) (snd r)).
Proof. intros [F Q]. unfold last_component. destruct (_ || _); [apply Forall_app; split; [exact F|repeat constructor; exact Q]|exact F]. Qed.
Lemma fits_same size s l : Forall (grid s) l -> same (Forall (grid s)) (fits size l) (fits size l).
Proof. intros F. unfold fits. destruct (Nat.leb _ _); [apply same_some, F|split; [reflexivity|discriminate]]. Qed.

Lemma sum_same size n m k s e f : xr n k s e -> xr m k s f -> (n + m <= size)%nat -> (k + 3 + Z.of_nat (n + m) <= 1000)%Z -> (-1022 <= s)%Z ->
  same (xr (n + m) (k + 1) s) (fast_expansion_sum double_op size e f) (fast_expansion_sum ee size e f).
Proof.
  intros He Hf Hn Hk Hs. pose proof (xr_inr _ _ _ _ He) as Fe. pose proof (xr_inr _ _ _ _ Hf) as Ff. pose proof (xr_length _ _ _ _ He) as Le. pose proof (xr_length _ _ _ _ Hf) as Lf.
  assert (S : same (Forall (grid s)) (fast_expansion_sum double_op size e f) (fast_expansion_sum ee size e f)).
  { unfold fast_expansion_sum. destruct e as [|x e]; [split; [reflexivity|discriminate]|]. destruct f as [|y f]; [split; [reflexivity|discriminate]|]. cbn [length] in *.
    pose proof Fe as Fe'. pose proof Ff as Ff'. apply Forall_cons_iff in Fe', Ff'. destruct Fe' as [Fx Fe'], Ff' as [Fy Ff'].
    eapply same_bind; [|intros [l Q] H; apply fits_same, (last_component_gr s (l, Q) H)].
    destruct (from_e x y); apply (sum_first_same _ _ _ (k + 3) s); try assumption; cbn [length]; lia. }
  destruct He as (v & Ev & Bv & _), Hf as (w & Ew & Bw & _).
  eapply same_weaken; [apply (same_sat _ _ _ _ S (fast_expansion_sum_sat ee False ee_sat size n m v w e f Hn Ev Ew))|]. intros l (G & X & _).
  exists (v + w). split; [exact X|]. split; [|exact G]. rewrite bp_S. eapply Rle_trans; [apply Rabs_triang|lra].
Qed.

Lemma scale_loop_same e b bhi blo : forall Q q k s l t, inr q (s + t) Q -> Forall (inr k s) e -> inr l t b -> inr (l + 31) t bhi -> inr (l + 32) t blo -> (k + l + 70 <= q)%Z -> (q + 2 * Z.of_nat (length e) <= 980)%Z -> (k <= 800)%Z -> (k + l <= 900)%Z -> (-1022 <= s)%Z -> (-1022 <= s + t)%Z ->
  same (gr (s + t)) (scale_loop double_op e b bhi blo Q) (scale_loop ee e b bhi blo Q).
Proof.
  induction e as [|x e IH]; intros Q q k s l t HQ F B B1 B2 H1 H2 H3 H4 H5 H6; cbn [scale_loop length] in *; [apply same_some; split; [constructor|apply HQ]|].
  apply Forall_cons_iff in F. destruct F as [Fx F].
  eapply same_bind; [apply (two_product_presplit_same x b bhi blo k s l t); try assumption; lia|]. intros [p1 p0] [P1 P0]. cbn [fst snd] in *.
  eapply same_bind; [apply (two_sum_same Q p0 q (s + t)); [assumption|rng|lia|lia]|]. intros [sm hh] [S1 S2]. cbn [fst snd] in *.
  eapply same_bind; [apply (fast_two_sum_same p1 sm (q + 1) (s + t)); [rng|assumption|lia|lia]|]. intros [Q' hh'] [S3 S4]. cbn [fst snd] in *.
  eapply same_bind; [apply (IH Q' (q + 1 + 1)%Z k s l t); try assumption; lia|]. intros [h Ql] H. apply same_some. apply (gr_nonzero _ hh (nonzero hh' h, Ql)); [assumption|]. apply (gr_nonzero _ hh' (h, Ql)); assumption.
Qed.
Lemma scale_same size n k s l t e b : xr n k s e -> inr l t b -> fmt b -> (2 * n <= size)%nat -> (k + l + 73 + 2 * Z.of_nat n <= 900)%Z -> (k <= 750)%Z -> (l <= 900)%Z -> (-1022 <= s)%Z -> (-1022 <= t)%Z -> (-1022 <= s + t)%Z ->
  same (xr (2 * n) (k + l) (s + t)) (scale_expansion double_op size e b) (scale_expansion ee size e b).
Proof.
  intros He Hb Fb Hn H1 H2 H3 H4 H5 H6. pose proof (xr_inr _ _ _ _ He) as Fe. pose proof (xr_length _ _ _ _ He) as Le.
  assert (S : same (Forall (grid (s + t))) (scale_expansion double_op size e b) (scale_expansion ee size e b)).
  { unfold scale_expansion. destruct e as [|x e]; [split; [reflexivity|discriminate]|]. cbn [length] in *. apply Forall_cons_iff in Fe. destruct Fe as [Fx Fe].
    eapply same_bind; [apply (split_same b l t); assumption|]. intros [bhi blo] [B1 B2]. cbn [fst snd] in *.
    eapply same_bind; [apply (two_product_presplit_same x b bhi blo (k + 3) s l t); try assumption; lia|]. intros [Q hh] [P1 P0]. cbn [fst snd] in *.
    eapply same_bind; [apply (scale_loop_same e b bhi blo Q (k + 3 + l + 70)%Z (k + 3)%Z s l t); try assumption; [rng|lia|lia|lia|lia]|]. intros [h Ql] H.
    apply fits_same. apply (last_component_gr _ (nonzero hh h, Ql)). apply (gr_nonzero _ hh (h, Ql)); [apply P0|exact H]. }
  destruct He as (v & Ev & Bv & _). eapply same_weaken; [apply (same_sat _ _ _ _ S (scale_expansion_sat ee False ee_sat size n v e b Hn Ev Fb))|]. intros r (G & X & _).
  exists (v * b). split; [exact X|]. split; [|exact G]. rewrite bpow_plus. apply abs_mult_le; [exact Bv|apply Hb].
Qed.
Lemma estimate_same n k s l : xr n k s l -> (k + 3 + Z.of_nat n <= 1000)%Z -> (-1022 <= s)%Z -> same (inr (k + 3 + Z.of_nat n) s) (estimate double_op l) (estimate ee l).
Proof.
  intros X H1 H2. pose proof (xr_inr _ _ _ _ X) as F. pose proof (xr_length _ _ _ _ X) as L. destruct l as [|x l]; [split; [reflexivity|discriminate]|]. cbn [estimate length] in *. apply Forall_cons_iff in F. destruct F as [Fx F].
  assert (Hk : (k + 3 + Z.of_nat (length l) <= k + 3 + Z.of_nat n)%Z) by lia. revert Hk H1 F Fx. generalize (k + 3 + Z.of_nat n)%Z as top. generalize (k + 3)%Z as q. clear - H2. revert x.
  induction l as [|y l IH]; intros x q top Hk H1 F Fx; cbn [estimate_loop length] in *; [apply same_some; rng|]. apply Forall_cons_iff in F. destruct F as [Fy F]. step.
  apply (IH _ (q + 1)%Z top); [lia|lia|apply Forall_up, F|rng].
Qed.
