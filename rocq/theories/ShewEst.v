(** The one-word estimate of an expansion, its largest component, and the error bounds. *)
From Coq Require Import ZArith Reals Lra Lia Bool List.
From Flocq Require Import Core.
From Verif Require Import ShewModel ShewSpec ShewGrid ShewSum ShewExp ShewScale.
Import ListNotations.
Open Scope R_scope.

(** ** Signs *)
Lemma near_sign x y : Rabs (x - y) < Rabs x -> same_sign x y.
Proof. unfold same_sign, Rabs. destruct (Rcase_abs x), (Rcase_abs (x - y)); intros H; split; split; lra. Qed.
Lemma near_sign' x y : Rabs (x - y) < Rabs y -> same_sign x y.
Proof. unfold same_sign, Rabs. destruct (Rcase_abs y), (Rcase_abs (x - y)); intros H; split; split; lra. Qed.
Lemma same_sign_refl x : same_sign x x. Proof. split; tauto. Qed.

(** ** The largest component *)
Lemma last_split (l : list R) : l <> [] -> l = removelast l ++ [last l 0].
Proof. apply app_removelast_last. Qed.
Lemma largest_split n v l : expansion (3 / 4) n v l -> zero_free l -> exists q, largest l = q /\ Rabs (v - q) <= low l /\ (l = [0] \/ low l <= 3 / 4 * Rabs q /\ q <> 0).
Proof.
  intros (F & O & S & _ & N) Z. exists (last l 0). split; [reflexivity|]. pose proof (last_split l N) as E.
  assert (V : v - last l 0 = sum (removelast l)) by (rewrite <- S, E at 1; rewrite sum_app; cbn; ring).
  split; [rewrite V; apply sum_asum|].
  destruct Z as [Z | ->]; [right|auto].
  rewrite E in O, Z. apply okx_app in O. destruct O as [_ [(s & G & L) _]]. apply Forall_app in Z. destruct Z as [_ Z]. apply Forall_cons_iff in Z. destruct Z as [Z _].
  split; [|exact Z]. apply grid_ge in G; [|exact Z]. unfold low. lra.
Qed.
Lemma largest_sign n v l : expansion (3 / 4) n v l -> zero_free l -> same_sign (largest l) v.
Proof.
  intros X Z. destruct (largest_split n v l X Z) as (q & -> & D & [E | [L N]]).
  - subst l. destruct X as (_ & _ & S & _). cbn in S. unfold low in D. cbn in D. replace v with 0 in * by lra. replace q with 0; [apply same_sign_refl|]. unfold Rabs in D. destruct (Rcase_abs (0 - q)); lra.
  - apply near_sign. apply Rabs_pos_lt in N. rewrite Rabs_minus_sym. lra.
Qed.
Lemma low_value n v l : expansion (3 / 4) n v l -> zero_free l -> low l <= 3 * Rabs v.
Proof.
  intros X Z. destruct (largest_split n v l X Z) as (q & _ & D & [-> | [L N]]); [unfold low; cbn; pose proof (Rabs_pos v); lra|].
  unfold Rabs in *. destruct (Rcase_abs q), (Rcase_abs (v - q)), (Rcase_abs v); lra.
Qed.
Lemma asum_low l : asum l = low l + Rabs (last l 0).
Proof. destruct l as [|x l]; [unfold low; cbn; rewrite Rabs_R0; ring|]. rewrite (last_split (x :: l)) at 1 by discriminate. rewrite asum_app. cbn [asum]. unfold low. ring. Qed.
Lemma asum_bound n v l : expansion (3 / 4) n v l -> asum l <= Rabs v + 2 * low l.
Proof.
  intros (F & O & S & _ & N). rewrite asum_low. assert (V : v = sum (removelast l) + last l 0) by (rewrite <- S; rewrite (last_split l N) at 1; rewrite sum_app; cbn; ring).
  pose proof (sum_asum (removelast l)) as H. unfold low. replace (last l 0) with (v - sum (removelast l)) by lra. pose proof (Rabs_triang v (- sum (removelast l))). rewrite Rabs_Ropp in *. unfold Rminus. lra.
Qed.

(** ** The estimate *)
Section Est.
Variable op : R -> option R.
Variable mayfail : Prop.
Hypothesis Hop : forall x, sat mayfail (op x) (fun y => y = RN x).
Notation sat := (sat mayfail).

Lemma low_cons x l : l <> [] -> low (x :: l) = Rabs x + low l.
Proof. intros N. unfold low. destruct l; [contradiction|reflexivity]. Qed.

(** for the expansions that the sums and products of expansions return *)
Lemma estimate_loop_34 e : forall Q E a, fmt Q -> Rabs (Q - E) <= 176 / 100 * eps * a -> Rabs E <= a -> Forall fmt e -> okx (3 / 4) a e -> e <> [] ->
  sat (estimate_loop op Q e) (fun r => Rabs (r - (E + sum e)) <= eps * Rabs r + 176 / 100 * eps * (a + low e)).
Proof.
  induction e as [|x e IH]; intros Q E a FQ D HE F O N; [contradiction|]. cbn [estimate_loop]. apply sat_op; [exact Hop|].
  apply Forall_cons_iff in F. destruct F as [Fx F]. destruct O as [Ox O]. assert (0 <= a) by (pose proof (Rabs_pos E); lra). pose proof (RN_err' (Q + x)) as R'. pose proof (RN_err (Q + x)) as R1.
  destruct e as [|y e].
  - cbn [estimate_loop]. apply sat_some. cbn [sum]. unfold low. cbn [removelast asum]. rewrite !Rplus_0_r.
    replace (RN (Q + x) - (E + x)) with ((RN (Q + x) - (Q + x)) + (Q - E)) by ring. eapply Rle_trans; [apply Rabs_triang|]. lra.
  - eapply sat_weaken; [apply (IH (RN (Q + x)) (E + x) (a + Rabs x)); [apply RN_fmt| |eapply Rle_trans; [apply Rabs_triang|lra]|exact F|exact O|discriminate]|].
    + destruct (Req_dec x 0) as [-> | Nx].
      * rewrite !Rplus_0_r, Rabs_R0, Rplus_0_r, (RN_id Q FQ). exact D.
      * destruct Ox as (s & G & L). apply grid_ge in G; [|exact Nx]. assert (A1 : a <= 3 / 4 * Rabs x) by lra.
        replace (RN (Q + x) - (E + x)) with ((RN (Q + x) - (Q + x)) + (Q - E)) by ring. eapply Rle_trans; [apply Rabs_triang|].
        assert (S : Rabs (Q + x) <= a + Rabs x + 176 / 100 * eps * a). { replace (Q + x) with (E + x + (Q - E)) by ring. eapply Rle_trans; [apply Rabs_triang|]. pose proof (Rabs_triang E x). lra. }
        rewrite eps_val in *. lra.
    + intros r H1. rewrite low_cons by discriminate. cbn [sum] in *. replace (E + (x + (y + sum e))) with (E + x + (y + sum e)) by ring. replace (a + (Rabs x + low (y :: e))) with (a + Rabs x + low (y :: e)) by ring. exact H1.
Qed.
Lemma estimate_34 n v l : expansion (3 / 4) n v l -> sat (estimate op l) (fun r => Rabs (r - v) <= eps * Rabs r + 176 / 100 * eps * low l).
Proof.
  intros (F & O & S & _ & N). destruct l as [|x l]; [contradiction|]. cbn [estimate]. apply Forall_cons_iff in F. destruct F as [Fx F]. destruct O as [Ox O]. rewrite Rplus_0_l in O.
  destruct l as [|y l].
  - cbn [estimate_loop]. apply sat_some. cbn in S. replace (x - v) with 0 by lra. rewrite Rabs_R0. unfold low. cbn [removelast asum]. pose proof (Rabs_pos x). rewrite eps_val. lra.
  - eapply sat_weaken; [apply (estimate_loop_34 (y :: l) x x (Rabs x)); try assumption; [|lra|discriminate]|].
    + rewrite Rminus_eq_0, Rabs_R0. pose proof (Rabs_pos x). rewrite eps_val. lra.
    + intros r H. rewrite low_cons by discriminate. rewrite <- S. exact H.
Qed.

(** for the difference of two products: the error is smaller *)
Definition Vinv (a Q E : R) : Prop := forall m, a < bp m -> Rabs Q <= bp m /\ Rabs (Q - E) <= 4 / 3 * bp (m - 54).
Lemma estimate_loop_12 e : forall Q E a, fmt Q -> 0 <= a -> Rabs E <= a -> Vinv a Q E -> Rabs (Q - E) <= eps * Rabs Q + 2 / 3 * eps * Rabs E -> Forall fmt e -> okx (/ 2) a e ->
  sat (estimate_loop op Q e) (fun r => Rabs (r - (E + sum e)) <= eps * Rabs r + 2 / 3 * eps * Rabs (E + sum e)).
Proof.
  induction e as [|x e IH]; intros Q E a FQ Ha HE V D F O; cbn [estimate_loop].
  - apply sat_some. cbn [sum]. rewrite !Rplus_0_r. exact D.
  - apply sat_op; [exact Hop|]. apply Forall_cons_iff in F. destruct F as [Fx F]. destruct O as [Ox O].
    replace (E + sum (x :: e)) with (E + x + sum e) by (cbn; ring).
    apply (IH (RN (Q + x)) (E + x) (a + Rabs x)); try assumption; [apply RN_fmt|pose proof (Rabs_pos x); lra|eapply Rle_trans; [apply Rabs_triang|lra]| |].
    + destruct (Req_dec x 0) as [-> | Nx]; [rewrite !Rplus_0_r, Rabs_R0, Rplus_0_r, (RN_id Q FQ); exact V|].
      destruct Ox as (s & G & L). pose proof (grid_ge _ _ G Nx) as Gx. intros m Hm. pose proof (bp_pos s).
      assert (Hs : (s < m)%Z) by (apply bp_lt_inv; lra).
      assert (La : a < bp (s - 1)) by (rewrite bp_P; lra). destruct (V _ La) as [V1 V2]. rewrite bp_P in V1.
      assert (Bx : Rabs x + bp s <= bp m) by (apply grid_lt; [apply grid_abs, G|apply grid_bp; lia|lra]).
      assert (Bs : Rabs (Q + x) <= bp m) by (eapply Rle_trans; [apply Rabs_triang|lra]).
      split; [apply RN_bound, Bs|]. pose proof (RN_half _ _ Bs) as R1. rewrite Rabs_minus_sym in R1.
      replace (RN (Q + x) - (E + x)) with ((RN (Q + x) - (Q + x)) + (Q - E)) by ring. eapply Rle_trans; [apply Rabs_triang|].
      assert (bp (s - 1 - 54) <= bp (m - 54) / 4). { apply Rle_trans with (bp (m - 54 - 1 - 1)); [apply bp_le; lia|rewrite !bp_P; lra]. } lra.
    + destruct (Req_dec x 0) as [-> | Nx]; [rewrite !Rplus_0_r, (RN_id Q FQ); exact D|].
      destruct Ox as (s & G & L). pose proof (grid_ge _ _ G Nx) as Gx. pose proof (bp_pos s).
      assert (La : a < bp (s - 1)) by (rewrite bp_P; lra). destruct (V _ La) as [V1 V2].
      assert (Lv : bp s / 2 <= Rabs (E + x)). { pose proof (Rabs_triang (E + x) (- E)). replace (E + x + - E) with x in * by ring. rewrite Rabs_Ropp in *. lra. }
      replace (RN (Q + x) - (E + x)) with ((RN (Q + x) - (Q + x)) + (Q - E)) by ring. eapply Rle_trans; [apply Rabs_triang|]. pose proof (RN_err' (Q + x)).
      assert (bp (s - 1 - 54) = eps * (bp s / 4)). { unfold eps. replace (s - 1 - 54)%Z with (-53 + (s - 1 - 1))%Z by ring. rewrite bpow_plus, !bp_P. field. }
      rewrite H1 in V2. rewrite eps_val in *. lra.
Qed.
Lemma estimate_12 n v l : expansion (/ 2) n v l -> sat (estimate op l) (fun r => Rabs (r - v) <= eps * Rabs r + 2 / 3 * eps * Rabs v).
Proof.
  intros (F & O & S & _ & N). destruct l as [|x l]; [contradiction|]. cbn [estimate]. apply Forall_cons_iff in F. destruct F as [Fx F]. destruct O as [Ox O]. rewrite Rplus_0_l in O.
  rewrite <- S. cbn [sum]. apply (estimate_loop_12 l x x (Rabs x)); try assumption; [apply Rabs_pos|lra| |].
  - intros m H. split; [lra|]. rewrite Rminus_eq_0, Rabs_R0. pose proof (bp_pos (m - 54)). lra.
  - rewrite Rminus_eq_0, Rabs_R0. rewrite eps_val. pose proof (Rabs_pos x). lra.
Qed.
End Est.

(** ** The constants *)
Lemma RN_unique x v c : grid c v -> bp (c + 52) <= x < bp (c + 53) -> Rabs (x - v) < bp (c - 1) -> RN x = v.
Proof.
  intros G B D. assert (X : Rabs x = x) by (apply Rabs_pos_eq; pose proof (bp_pos (c + 52)); lra).
  destruct (RN_grid_exp x c) as (Gr & H & _); [rewrite X; exact B|].
  destruct (Req_dec (RN x - v) 0) as [E|N]; [lra|]. exfalso. assert (Gd : grid c (RN x - v)) by (apply grid_sub; assumption). apply grid_ge in Gd; [|exact N].
  assert (Rabs (RN x - v) <= Rabs (x - RN x) + Rabs (x - v)). { replace (RN x - v) with (- (x - RN x) + (x - v)) by ring. eapply Rle_trans; [apply Rabs_triang|]. rewrite Rabs_Ropp. lra. }
  rewrite bp_P in *. lra.
Qed.
Lemma lit_val m k n j : (0 <= j)%Z -> (0 <= k)%Z -> (2 ^ 52 * 10 ^ k <=? m * 2 ^ j)%Z && (m * 2 ^ j <? 2 ^ 53 * 10 ^ k)%Z && (2 * Z.abs (m * 2 ^ j - n * 10 ^ k) <? 10 ^ k)%Z = true -> lit m k = IZR n * bp (- j).
Proof.
  intros Hj Hk H. apply andb_prop in H. destruct H as [H H3]. apply andb_prop in H. destruct H as [H1 H2]. apply Z.leb_le, IZR_le in H1. apply Z.ltb_lt, IZR_lt in H2, H3.
  rewrite mult_IZR, abs_IZR, minus_IZR, !mult_IZR in H3. rewrite !mult_IZR in H1, H2.
  assert (T : 0 < IZR (10 ^ k)) by (apply IZR_lt; apply Z.pow_pos_nonneg; lia).
  assert (J : IZR (2 ^ j) = bp j) by (apply (IZR_Zpower radix2); exact Hj).
  rewrite J in *. change (IZR (2 ^ 52)) with (bp 52) in *. change (IZR (2 ^ 53)) with (bp 53) in *. set (t := IZR (10 ^ k)) in *.
  assert (E : bp j * bp (- j) = 1) by (rewrite <- bpow_plus, Z.add_opp_diag_r; reflexivity).
  pose proof (bp_pos (- j)) as P.
  unfold lit. fold t. assert (X : IZR m / t = IZR m * bp j * (bp (- j) / t)). { transitivity (IZR m * (bp j * bp (- j)) / t); [rewrite E; field; lra|field; lra]. }
  assert (Q : 0 < bp (- j) / t) by (apply Rdiv_lt_0_compat; assumption).
  apply (RN_unique _ _ (- j)).
  - exists n. reflexivity.
  - rewrite X. replace (- j + 52)%Z with (52 + - j)%Z by ring. replace (- j + 53)%Z with (53 + - j)%Z by ring. rewrite !bpow_plus.
    replace (bp 52 * bp (- j)) with (bp 52 * t * (bp (- j) / t)) by (field; lra). replace (bp 53 * bp (- j)) with (bp 53 * t * (bp (- j) / t)) by (field; lra).
    split; [apply Rmult_le_compat_r; lra|apply Rmult_lt_compat_r; lra].
  - rewrite X. replace (IZR m * bp j * (bp (- j) / t) - IZR n * bp (- j)) with ((IZR m * bp j - IZR n * t) * (bp (- j) / t)) by (field; lra).
    rewrite Rabs_mult, (Rabs_pos_eq (bp (- j) / t)) by lra. replace (bp (- j - 1)) with (t / 2 * (bp (- j) / t)) by (rewrite bp_P; field; lra). apply Rmult_lt_compat_r; lra.
Qed.
Ltac decimal n j := rewrite (lit_val _ _ n j); [|lia|lia|vm_compute; reflexivity].
Lemma bp_eps2 : eps * eps = bp (-106). Proof. unfold eps. rewrite <- bpow_plus. reflexivity. Qed.
Lemma bp_104 : bp (-104) = 4 * (eps * eps). Proof. rewrite bp_eps2. change (-104)%Z with (2 + -106)%Z. rewrite bpow_plus. reflexivity. Qed.
Lemma bp_103 : bp (-103) = 8 * (eps * eps). Proof. rewrite bp_eps2. change (-103)%Z with (3 + -106)%Z. rewrite bpow_plus. reflexivity. Qed.
Lemma bp_155 : bp (-155) = 16 * (eps * eps * eps). Proof. rewrite bp_eps2. unfold eps. rewrite <- bpow_plus. change (-155)%Z with (4 + (-106 + -53))%Z. rewrite bpow_plus. reflexivity. Qed.
Lemma bp_154 : bp (-154) = 32 * (eps * eps * eps). Proof. rewrite bp_eps2. unfold eps. rewrite <- bpow_plus. change (-154)%Z with (5 + (-106 + -53))%Z. rewrite bpow_plus. reflexivity. Qed.
Lemma eps_53 : 9007199254740992 * eps = 1. Proof. rewrite eps_val. lra. Qed.

(** the values the literals stand for *)
Lemma resulterrbound_val : resulterrbound = (3 + 8 * eps) * eps.
Proof. unfold resulterrbound. decimal 6755399441055746%Z 104%Z. change (- (104))%Z with (-104)%Z. rewrite bp_104. replace 3 with (3 * (9007199254740992 * eps)) by (rewrite eps_53; ring). ring. Qed.
Lemma ccwerrboundA_val : ccwerrboundA = (3 + 16 * eps) * eps.
Proof. unfold ccwerrboundA. decimal 6755399441055748%Z 104%Z. change (- (104))%Z with (-104)%Z. rewrite bp_104. replace 3 with (3 * (9007199254740992 * eps)) by (rewrite eps_53; ring). ring. Qed.
Lemma ccwerrboundB_val : ccwerrboundB = (2 + 12 * eps) * eps.
Proof. unfold ccwerrboundB. decimal 4503599627370499%Z 104%Z. change (- (104))%Z with (-104)%Z. rewrite bp_104. replace 2 with (2 * (9007199254740992 * eps)) by (rewrite eps_53; ring). ring. Qed.
Lemma ccwerrboundC_val : ccwerrboundC = (9 + 64 * eps) * (eps * eps).
Proof. unfold ccwerrboundC. decimal 5066549580791812%Z 155%Z. change (- (155))%Z with (-155)%Z. rewrite bp_155. replace 9 with (9 * (9007199254740992 * eps)) by (rewrite eps_53; ring). ring. Qed.
Lemma o3derrboundA_val : o3derrboundA = (7 + 56 * eps) * eps.
Proof. unfold o3derrboundA. decimal 7881299347898375%Z 103%Z. change (- (103))%Z with (-103)%Z. rewrite bp_103. replace 7 with (7 * (9007199254740992 * eps)) by (rewrite eps_53; ring). ring. Qed.
Lemma o3derrboundB_val : o3derrboundB = (3 + 28 * eps) * eps.
Proof. unfold o3derrboundB. decimal 6755399441055751%Z 104%Z. change (- (104))%Z with (-104)%Z. rewrite bp_104. replace 3 with (3 * (9007199254740992 * eps)) by (rewrite eps_53; ring). ring. Qed.
Lemma o3derrboundC_val : o3derrboundC = (26 + 288 * eps) * (eps * eps).
Proof. unfold o3derrboundC. decimal 7318349394477065%Z 154%Z. change (- (154))%Z with (-154)%Z. rewrite bp_154. replace 26 with (26 * (9007199254740992 * eps)) by (rewrite eps_53; ring). ring. Qed.
