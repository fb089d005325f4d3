(** C64: the tests for collinear points and planar faces. *)
From Coq Require Import ZArith Reals Lra Lia Bool List.
From Flocq Require Import Core.
From Verif Require Import ShewModel ShewSpec ShewGrid ShewSum ShewEst Shew3d ShewProps ShewRange ShewRange2 ShewDouble PlanarModel PlanarSpec.
Import ListNotations.
Open Scope R_scope.

Lemma planar_det a b c d vs : planar vs -> In a vs -> In b vs -> In c vs -> In d vs -> det3 a b c d = 0.
Proof.
  intros (nx & ny & nz & k & N & F) Ia Ib Ic Id. rewrite Forall_forall in F. pose proof (F a Ia) as A. pose proof (F b Ib) as B. pose proof (F c Ic) as C. pose proof (F d Id) as D. cbn beta in *.
  destruct a as [[ax ay] az], b as [[bx by_] bz], c as [[cx cy] cz], d as [[dx dy] dz]. unfold det3. cbn [fst snd] in *.
  set (xa := ax - dx). set (ya := ay - dy). set (za := az - dz). set (xb := bx - dx). set (yb := by_ - dy). set (zb := bz - dz). set (xc := cx - dx). set (yc := cy - dy). set (zc := cz - dz).
  assert (A' : nx * xa + ny * ya + nz * za = 0) by (unfold xa, ya, za; lra). assert (B' : nx * xb + ny * yb + nz * zb = 0) by (unfold xb, yb, zb; lra). assert (C' : nx * xc + ny * yc + nz * zc = 0) by (unfold xc, yc, zc; lra).
  set (D0 := za * _ + _ + _).
  assert (X : nx * D0 = 0).
  { transitivity ((nx * xa + ny * ya + nz * za) * (zc * yb - zb * yc) + (nx * xb + ny * yb + nz * zb) * (za * yc - zc * ya) + (nx * xc + ny * yc + nz * zc) * (zb * ya - za * yb)); [unfold D0; ring|]. rewrite A', B', C'. ring. }
  assert (Y : ny * D0 = 0).
  { transitivity ((nx * xa + ny * ya + nz * za) * (xc * zb - xb * zc) + (nx * xb + ny * yb + nz * zb) * (xa * zc - xc * za) + (nx * xc + ny * yc + nz * zc) * (xb * za - xa * zb)); [unfold D0; ring|]. rewrite A', B', C'. ring. }
  assert (Z : nz * D0 = 0).
  { transitivity ((nx * xa + ny * ya + nz * za) * (yc * xb - yb * xc) + (nx * xb + ny * yb + nz * zb) * (ya * xc - yc * xa) + (nx * xc + ny * yc + nz * zc) * (yb * xa - ya * xb)); [unfold D0; ring|]. rewrite A', B', C'. ring. }
  destruct (Req_dec D0 0) as [E|E]; [exact E|]. exfalso. apply N. apply Rmult_integral in X, Y, Z. split; [|split]; [destruct X|destruct Y|destruct Z]; try assumption; contradiction.
Qed.
Lemma ordinary3_float3 p : ordinary3 p -> float3 p.
Proof. intros (A & B & C). split; [apply A|split; [apply B|apply C]]. Qed.
Lemma double_close a b c d : ordinary3 a -> ordinary3 b -> ordinary3 c -> ordinary3 d -> exists r, orient3d double_op a b c d = Some r /\ close r (det3 a b c d).
Proof.
  intros A B C D. destruct (C43_double_orient3d a b c d A B C D) as (r & E & _). exists r. split; [exact E|].
  apply (orient3d_close double_op); [exact C43_double|apply ordinary3_float3; assumption ..|exact E].
Qed.
Lemma lit47 : 399999 / 1000000000000 <= lit 4 7 <= 400001 / 1000000000000.
Proof. decimal 7555786372591432%Z 74%Z. rewrite bpow_opp. change (bpow radix2 74) with (IZR (2 ^ 74)). split; apply Rmult_le_reg_r with (IZR (2 ^ 74)); try (apply IZR_lt; lia); rewrite ?Rmult_assoc, ?Rinv_l by (apply not_eq_sym, Rlt_not_eq, IZR_lt; lia); simpl Z.pow; lra. Qed.
Lemma absolute_Rabs x : absolute x = Rabs x.
Proof. unfold absolute, leb. destruct (Rle_bool_spec 0 x) as [H|H]; [rewrite Rabs_pos_eq by lra; reflexivity|rewrite Rabs_left by lra; reflexivity]. Qed.
Lemma coplaner_zero a b c d : ordinary3 a -> ordinary3 b -> ordinary3 c -> ordinary3 d -> det3 a b c d = 0 -> coplaner double_op a b c d = Some true.
Proof.
  intros A B C D Z. destruct (double_close a b c d A B C D) as (r & E & K). unfold coplaner. rewrite E. cbn [bind]. rewrite Z in K. assert (r = 0) as ->.
  { destruct K as [K|[K _]]; [|exact K]. rewrite Rminus_0_r in K. lra. }
  f_equal. rewrite absolute_Rabs, Rabs_R0. unfold leb. apply Rle_bool_true. pose proof lit47. lra.
Qed.
Lemma coplaner_far a b c d : ordinary3 a -> ordinary3 b -> ordinary3 c -> ordinary3 d -> 81 / 100000000 <= Rabs (det3 a b c d) -> coplaner double_op a b c d = Some false.
Proof.
  intros A B C D Z. destruct (double_close a b c d A B C D) as (r & E & K). unfold coplaner. rewrite E. cbn [bind]. f_equal. rewrite absolute_Rabs. unfold leb. apply Rle_bool_false. pose proof lit47.
  destruct K as [K|[_ K]]; [|rewrite K, Rabs_R0 in Z; lra]. pose proof (Rabs_triang_inv (det3 a b c d) r) as T. rewrite Rabs_minus_sym in T. lra.
Qed.
Lemma coplaner_total a b c d : ordinary3 a -> ordinary3 b -> ordinary3 c -> ordinary3 d -> exists x, coplaner double_op a b c d = Some x.
Proof. intros A B C D. destruct (double_close a b c d A B C D) as (r & E & K). unfold coplaner. rewrite E. cbn [bind]. eexists. reflexivity. Qed.

(** The collinearity test in double precision is exact on ordinary coordinates. *)
Theorem C64_collinear a b c : ordinary2 a -> ordinary2 b -> ordinary2 c -> exists x, collinear double_op a b c = Some x /\ (x = true <-> det2 a b c = 0).
Proof.
  intros A B C. destruct (C43_double_orient2d a b c A B C) as (r & E & [P N]). exists (eqb r 0). split; [unfold collinear; rewrite E; reflexivity|]. unfold eqb. destruct (Req_bool_spec r 0) as [Z|Z].
  - split; [intros _|reflexivity]. subst r. destruct (Rtotal_order (det2 a b c) 0) as [L|[L|L]]; [apply N in L; lra|exact L|apply P in L; lra].
  - split; [discriminate|]. intros D. rewrite D in *. exfalso. destruct (Rtotal_order r 0) as [L|[L|L]]; [apply N in L; lra|contradiction|apply P in L; lra].
Qed.

Lemma is_coplanar_zero vs : Forall ordinary3 vs -> (forall a b c d, consecutive vs a b c d -> det3 a b c d = 0) -> is_coplanar double_op vs = Some true.
Proof.
  induction vs as [|a vs IH]; [reflexivity|]. intros F H. destruct vs as [|b [|c [|d vs]]]; try reflexivity. inversion_clear F as [|? ? Fa F']. pose proof F' as F''. inversion_clear F'' as [|? ? Fb G]. inversion_clear G as [|? ? Fc G']. inversion_clear G' as [|? ? Fd G].
  cbn [is_coplanar]. rewrite (coplaner_zero a b c d Fa Fb Fc Fd (H a b c d (ex_intro _ [] (ex_intro _ vs eq_refl)))). cbn [bind]. apply IH; [exact F'|]. intros w x y z (l1 & l2 & E). apply H. exists (a :: l1), l2. rewrite E. reflexivity.
Qed.
(** No planar face is found to be not coplanar. *)
Theorem C64_planar vs : Forall ordinary3 vs -> planar vs -> is_coplanar double_op vs = Some true.
Proof. intros F P. apply is_coplanar_zero; [exact F|]. intros a b c d (l1 & l2 & ->). eapply planar_det; [exact P| | | |]; rewrite in_app_iff; cbn [In]; auto 8. Qed.
Theorem C64_total vs : Forall ordinary3 vs -> exists x, is_coplanar double_op vs = Some x.
Proof.
  induction vs as [|a vs IH]; [eexists; reflexivity|]. intros F. destruct vs as [|b [|c [|d vs]]]; try (eexists; reflexivity). inversion_clear F as [|? ? Fa F']. pose proof F' as F''. inversion_clear F'' as [|? ? Fb G]. inversion_clear G as [|? ? Fc G']. inversion_clear G' as [|? ? Fd G].
  cbn [is_coplanar]. destruct (coplaner_total a b c d Fa Fb Fc Fd) as [x ->]. cbn [bind]. destruct x; [apply IH; exact F'|eexists; reflexivity].
Qed.
(** A face with four consecutive vertices spanning a tetrahedron of six-fold volume 8.1e-7 or more is found to be not coplanar. *)
Theorem C64_bent vs a b c d : Forall ordinary3 vs -> consecutive vs a b c d -> 81 / 100000000 <= Rabs (det3 a b c d) -> is_coplanar double_op vs = Some false.
Proof.
  intros F (l1 & l2 & E) D. revert vs F E. induction l1 as [|p l1 IH]; intros vs F E.
  - subst vs. inversion_clear F as [|? ? Fa F']. inversion_clear F' as [|? ? Fb G]. inversion_clear G as [|? ? Fc G']. inversion_clear G' as [|? ? Fd G]. cbn [app is_coplanar]. rewrite coplaner_far; [reflexivity|assumption ..].
  - subst vs. cbn [app] in *. inversion_clear F as [|? ? Fp F']. specialize (IH _ F' eq_refl).
    assert (L : exists q r s t, l1 ++ a :: b :: c :: d :: l2 = q :: r :: s :: t). { destruct l1 as [|q [|r [|s t]]]; cbn [app]; repeat eexists. }
    destruct L as (q & r & s & t & L). rewrite L in *. cbn [is_coplanar]. pose proof F' as F''. inversion_clear F'' as [|? ? Fq G]. inversion_clear G as [|? ? Fr G']. inversion_clear G' as [|? ? Fs G]. 
    destruct (coplaner_total p q r s Fp Fq Fr Fs) as [x ->]. cbn [bind]. destruct x; [exact IH|reflexivity].
Qed.

(** What the check of an input mesh reports: the indices of some faces, never of a planar one, always of one that is bent that much. *)
Theorem C64_reported faces : Forall (Forall ordinary3) faces -> exists l, reported double_op faces 0 = Some l /\
  (forall i vs, nth_error faces i = Some vs -> planar vs -> ~ In i l) /\
  (forall i vs a b c d, nth_error faces i = Some vs -> consecutive vs a b c d -> 81 / 100000000 <= Rabs (det3 a b c d) -> In i l).
Proof.
  intros F. assert (G : forall n, exists l, reported double_op faces n = Some l /\ (forall i, In i l -> (n <= i)%nat) /\ forall i vs, nth_error faces i = Some vs -> (In (n + i)%nat l <-> is_coplanar double_op vs = Some false)).
  { induction F as [|vs faces Fv F IH]; intros n; [exists []; split; [reflexivity|split; [intros i []|]]; intros [|i] vs; discriminate|]. cbn [reported]. destruct (C64_total vs Fv) as [x E]. rewrite E. cbn [bind]. destruct (IH (S n)) as (l & El & LB & Sp). rewrite El. cbn [bind].
    exists (if x then l else n :: l). split; [reflexivity|]. split.
    - intros i I. destruct x; [|destruct I as [->|I]; [lia|]]; apply LB in I; lia.
    - intros [|i] ws K; cbn [nth_error] in K.
      + injection K as ->. rewrite Nat.add_0_r, E. destruct x; [|split; [reflexivity|intros _; left; reflexivity]]. split; [intros I; apply LB in I; lia|discriminate].
      + specialize (Sp i ws K). replace (S n + i)%nat with (n + S i)%nat in Sp by lia. rewrite <- Sp. destruct x; [reflexivity|]. split; [intros [I|I]; [lia|exact I]|intros I; right; exact I]. }
  destruct (G 0%nat) as (l & E & _ & S). cbn [Nat.add] in S. exists l. split; [exact E|]. split.
  - intros i vs K P I. apply (S i vs K) in I. rewrite C64_planar in I; [discriminate| |exact P]. rewrite Forall_forall in F. apply F. eapply nth_error_In, K.
  - intros i vs a b c d K W D. apply (S i vs K). eapply C64_bent; [|exact W|exact D]. rewrite Forall_forall in F. apply F. eapply nth_error_In, K.
Qed.

Lemma ordinary_small m e : (Z.abs m < 2 ^ 53)%Z -> (-197 <= e)%Z -> (e <= 100)%Z -> ordinary (IZR m * bpow radix2 e).
Proof.
  intros M L U. apply C43_ordinary; [exists m, e; split; [reflexivity|exact M]|]. destruct (Z.eq_dec m 0) as [->|N]; [left; ring|right]. rewrite Rabs_mult, (Rabs_pos_eq (bpow radix2 e)) by apply bpow_ge_0. rewrite <- abs_IZR.
  assert (1 <= IZR (Z.abs m)) by (apply IZR_le; lia). assert (IZR (Z.abs m) <= bpow radix2 53) by (change (bpow radix2 53) with (IZR (2 ^ 53)); apply IZR_le; lia).
  assert (bpow radix2 (-197) <= bpow radix2 e) by (apply bpow_le; lia). assert (bpow radix2 e <= bpow radix2 100) by (apply bpow_le; lia). assert (bpow radix2 53 * bpow radix2 100 <= bpow radix2 250) by (rewrite <- bpow_plus; apply bpow_le; lia).
  pose proof (bpow_gt_0 radix2 e). pose proof (bpow_gt_0 radix2 100). split; [nra|]. eapply Rle_trans; [|eassumption]. apply Rmult_le_compat; lra.
Qed.
Lemma ordinary_int m : (Z.abs m < 2 ^ 53)%Z -> ordinary (IZR m).
Proof. intros M. replace (IZR m) with (IZR m * bpow radix2 0) by (cbn; ring). apply ordinary_small; lia. Qed.

(** The quadrilateral (0,0,0), (2,0,0), (2,2,2), (0,2,0) with the middles of its edges: not planar, and not reported. *)
Definition bent8 : list (R * R * R) := [(0, 0, 0); (1, 0, 0); (2, 0, 0); (2, 1, 1); (2, 2, 2); (1, 2, 1); (0, 2, 0); (0, 1, 0)].
Lemma bent8_ordinary : Forall ordinary3 bent8.
Proof. assert (O0 := ordinary_int 0 ltac:(lia)). assert (O1 := ordinary_int 1 ltac:(lia)). assert (O2 := ordinary_int 2 ltac:(lia)). unfold bent8. repeat (apply Forall_cons; [split; [|split]; assumption|]). apply Forall_nil. Qed.
Theorem C64_bent_refuted : Forall ordinary3 bent8 /\ ~ planar bent8 /\ det3 (0, 0, 0) (2, 0, 0) (2, 2, 2) (0, 2, 0) = 8 /\ is_coplanar double_op bent8 = Some true /\ reported double_op [bent8] 0 = Some [].
Proof.
  assert (W : is_coplanar double_op bent8 = Some true).
  { apply is_coplanar_zero; [exact bent8_ordinary|]. intros a b c d (l1 & l2 & E). unfold bent8 in E.
    pose proof (f_equal (@length _) E) as L. rewrite app_length in L. cbn [length] in L.
    destruct l1 as [|q1 [|q2 [|q3 [|q4 [|q5 l1]]]]]; cbn [length] in L; try lia; cbn [app] in E; injection E; intros; subst; unfold det3; cbn [fst snd]; ring. }
  assert (D : det3 (0, 0, 0) (2, 0, 0) (2, 2, 2) (0, 2, 0) = 8) by (unfold det3; cbn [fst snd]; ring).
  split; [exact bent8_ordinary|]. split; [|split; [exact D|split; [exact W|]]].
  - intros P. assert (Z : det3 (0, 0, 0) (2, 0, 0) (2, 2, 2) (0, 2, 0) = 0) by (eapply planar_det; [exact P| | | |]; unfold bent8; cbn [In]; auto 12). lra.
  - cbn [reported]. rewrite W. reflexivity.
Qed.
(** The threshold does not depend on the size of the mesh: a bent quadrilateral with edges of 2^-9 is not reported; the same one 2^9 times as large is. *)
Definition bent4 (t : R) : list (R * R * R) := [(0, 0, 0); (t, 0, 0); (t, t, t); (0, t, 0)].
Lemma double_exact x v : x = v -> ordinary v -> double_op x = Some v.
Proof. intros -> O. pose proof (ordinary_coord v O) as [I F]. rewrite (double_op_ok v 250 (-250)); [|exact I|lia|lia]. f_equal. apply RN_id, F. Qed.
Lemma absolute_opp x : 0 <= x -> absolute (- x) = x.
Proof. intros H. rewrite absolute_Rabs, Rabs_Ropp, Rabs_pos_eq by exact H. reflexivity. Qed.
Lemma absolute_id x : 0 <= x -> absolute x = x.
Proof. intros H. rewrite absolute_Rabs, Rabs_pos_eq by exact H. reflexivity. Qed.
Lemma exact_bind {B} x v (f : R -> option B) r : x = v -> ordinary v -> f v = r -> bind (double_op x) f = r.
Proof. intros E O F. rewrite (double_exact x v E O). exact F. Qed.
Ltac exact_op O v := apply (exact_bind _ v); [try ring|exact O|cbv beta].
Lemma bent4_value : let t := bpow radix2 (-9) in orient3d double_op (0, 0, 0) (t, 0, 0) (t, t, t) (0, t, 0) = Some (t * t * t).
Proof.
  cbv zeta. set (t := bpow radix2 (-9)). assert (T : t = / 512) by (unfold t; cbn; lra).
  assert (O1 : ordinary t). { replace t with (IZR 1 * bpow radix2 (-9)) by (unfold t; ring). apply ordinary_small; lia. }
  assert (O1' : ordinary (- t)). { replace (- t) with (IZR (-1) * bpow radix2 (-9)) by (unfold t; ring). apply ordinary_small; lia. }
  assert (O2 : ordinary (t * t)). { replace (t * t) with (IZR 1 * bpow radix2 (-9 + -9)) by (rewrite bpow_plus; unfold t; ring). apply ordinary_small; lia. }
  assert (O2' : ordinary (- (t * t))). { replace (- (t * t)) with (IZR (-1) * bpow radix2 (-9 + -9)) by (rewrite bpow_plus; unfold t; ring). apply ordinary_small; lia. }
  assert (O3 : ordinary (t * t * t)). { replace (t * t * t) with (IZR 1 * bpow radix2 (-9 + -9 + -9)) by (rewrite !bpow_plus; unfold t; ring). apply ordinary_small; lia. }
  assert (O0 : ordinary 0) by (apply (ordinary_int 0); lia).
  assert (P2 : 0 <= t * t) by (rewrite T; lra).
  unfold orient3d.
  exact_op O0 0. exact_op O1 t. exact_op O1 t. exact_op O1' (- t). exact_op O1' (- t). exact_op O0 0. exact_op O0 0. exact_op O0 0. exact_op O1 t.
  exact_op O0 0. exact_op O2' (- (t * t)). exact_op O2' (- (t * t)). exact_op O0 0. exact_op O0 0. exact_op O2' (- (t * t)).
  exact_op O2 (t * t). exact_op O0 0. exact_op O2' (- (t * t)). exact_op O0 0. exact_op O0 0. exact_op O2 (t * t). exact_op O3 (t * t * t). exact_op O3 (t * t * t).
  rewrite !(absolute_opp (t * t)) by exact P2. rewrite !(absolute_id 0) by lra. rewrite !(absolute_id t) by (rewrite T; lra).
  exact_op O2 (t * t). exact_op O0 0. exact_op O2 (t * t). exact_op O0 0. exact_op O0 0. exact_op O2 (t * t). exact_op O3 (t * t * t). exact_op O3 (t * t * t).
  rewrite (double_op_ok _ (0 + 250) (-159 + -250)); [|apply inr_mul; [exact inr_o3dA|apply ordinary_coord, O3]|lia|lia]. cbn [bind].
  set (E := RN _). assert (L : E <= t * t * t / 2).
  { assert (H : Rabs (RN (o3derrboundA * (t * t * t))) <= bpow radix2 (-28)). { apply RN_bound. rewrite o3derrboundA_val, eps_val, T, Rabs_pos_eq by lra. cbn. lra. }
    fold E in H. apply Rle_trans with (1 := Rle_abs E). apply Rle_trans with (1 := H). rewrite T. cbn. lra. }
  unfold ltb. rewrite (Rlt_bool_true E) by (rewrite T in *; lra). reflexivity.
Qed.
Theorem C64_size_refuted : let t := bpow radix2 (-9) in Forall ordinary3 (bent4 t) /\ ~ planar (bent4 t) /\ is_coplanar double_op (bent4 t) = Some true /\ Forall ordinary3 (bent4 1) /\ is_coplanar double_op (bent4 1) = Some false.
Proof.
  cbv zeta. pose proof bent4_value as V. cbv zeta in V. set (t := bpow radix2 (-9)) in *. assert (T : t = / 512) by (unfold t; cbn; lra).
  assert (O1 : ordinary t). { replace t with (IZR 1 * bpow radix2 (-9)) by (unfold t; ring). apply ordinary_small; lia. }
  assert (O0 : ordinary 0) by (apply (ordinary_int 0); lia). assert (One : ordinary 1) by (apply (ordinary_int 1); lia).
  assert (F : forall u, ordinary u -> Forall ordinary3 (bent4 u)). { intros u U. unfold bent4. repeat (apply Forall_cons; [split; [|split]; assumption|]). apply Forall_nil. }
  split; [apply F, O1|]. split; [|split; [|split; [apply F, One|]]].
  - intros P. assert (Z : det3 (0, 0, 0) (t, 0, 0) (t, t, t) (0, t, 0) = 0) by (eapply planar_det; [exact P| | | |]; unfold bent4; cbn [In]; auto 12). unfold det3 in Z. cbn [fst snd] in Z. rewrite T in Z. lra.
  - unfold bent4. cbn [is_coplanar]. unfold coplaner. rewrite V. cbn [bind]. rewrite absolute_id by (rewrite T; lra). unfold leb. rewrite Rle_bool_true; [reflexivity|]. pose proof lit47. rewrite T. lra.
  - apply (C64_bent _ (0, 0, 0) (1, 0, 0) (1, 1, 1) (0, 1, 0)); [apply F, One|exists [], []; reflexivity|]. unfold det3. cbn [fst snd]. match goal with |- _ <= Rabs ?e => replace e with 1 by ring end. rewrite Rabs_R1. lra.
Qed.

(** A case: the square (0,0,1), (1,0,1), (1,1,1), (0,1,1) is planar and ordinary. *)
Example C64_case : Forall ordinary3 [(0, 0, 1); (1, 0, 1); (1, 1, 1); (0, 1, 1)] /\ planar [(0, 0, 1); (1, 0, 1); (1, 1, 1); (0, 1, 1)].
Proof.
  assert (O0 : ordinary 0) by (apply (ordinary_int 0); lia). assert (One : ordinary 1) by (apply (ordinary_int 1); lia). split.
  - repeat (apply Forall_cons; [split; [|split]; assumption|]). apply Forall_nil.
  - exists 0, 0, 1, 1. split; [lra|]. repeat (apply Forall_cons; [cbn [fst snd]; lra|]). apply Forall_nil.
Qed.
