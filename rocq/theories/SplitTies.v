(** C70: two intersection points whose rounded projections coincide may come in the wrong order. *)
From Coq Require Import List Arith Bool ZArith Reals Lra Lia Permutation Sorting.
From Flocq Require Import Core.
From Verif Require Import CutModel CutProofs SplitModel SplitSpec SplitProofs SplitGeo SplitProps.
Import ListNotations.
Open Scope R_scope.

(** rounding to double *)
Definition RD : R -> R := round radix2 (FLT_exp (-1074) 53) ZnearestE.
Local Instance p53 : Prec_gt_0 53 := eq_refl.
Lemma RD_le x y : x <= y -> RD x <= RD y. Proof. apply round_le; typeclasses eauto. Qed.
Lemma RD_0 : RD 0 = 0. Proof. apply round_0. typeclasses eauto. Qed.
Lemma RD_eval (x : R) (m k : Z) : (-1000 <= k)%Z -> bpow radix2 (k + 52) <= x < bpow radix2 (k + 53) -> Rabs (x * bpow radix2 (- k) - IZR m) < / 2 -> RD x = IZR m * bpow radix2 k.
Proof.
  intros K [L U] E. unfold RD, round, scaled_mantissa, cexp. assert (M : mag radix2 x = (k + 53)%Z :> Z). { apply mag_unique_pos. replace (k + 53 - 1)%Z with (k + 52)%Z by lia. auto. }
  assert (C : FLT_exp (-1074) 53 (mag radix2 x) = k) by (rewrite M; unfold FLT_exp; lia). rewrite C. unfold F2R. cbn [Fnum Fexp]. f_equal. f_equal. apply Znearest_imp, E.
Qed.
(** the insertion sort that libstdc++ uses for up to sixteen elements *)
Fixpoint insert (x : nat * R) (l : list (nat * R)) : list (nat * R) := match l with [] => [x] | y :: l' => if Rlt_dec (snd x) (snd y) then x :: l else y :: insert x l' end.
Definition insertion_sort (l : list (nat * R)) : list (nat * R) := fold_left (fun a x => insert x a) l [].
Lemma insert_perm x l : Permutation (insert x l) (x :: l).
Proof. induction l as [|y l IH]; [reflexivity|]. cbn. destruct (Rlt_dec (snd x) (snd y)); [reflexivity|]. rewrite IH. apply perm_swap. Qed.
Lemma insert_sorted x l : StronglySorted (fun a b => snd a <= snd b) l -> StronglySorted (fun a b => snd a <= snd b) (insert x l).
Proof.
  induction 1 as [|y l S IH F]; [constructor; constructor|]. cbn. destruct (Rlt_dec (snd x) (snd y)) as [L|L].
  - constructor; [constructor; assumption|]. constructor; [lra|]. eapply Forall_impl; [|exact F]. intros a H. cbn in *. lra.
  - constructor; [exact IH|]. rewrite Forall_forall in *. intros z I. apply (Permutation_in _ (insert_perm x l)) in I. destruct I as [<-|I]; [lra|apply F, I].
Qed.
Lemma insertion_sorting : sorting insertion_sort.
Proof.
  intros l. unfold insertion_sort. assert (G : forall a, StronglySorted (fun a b => snd a <= snd b) a -> Permutation (fold_left (fun a x => insert x a) l a) (a ++ l) /\ StronglySorted (fun a b => snd a <= snd b) (fold_left (fun a x => insert x a) l a)).
  { induction l as [|x l IH]; intros a S; [rewrite app_nil_r; split; [reflexivity|exact S]|]. cbn. destruct (IH (insert x a) (insert_sorted x a S)) as [P S']. split; [|exact S']. rewrite P, insert_perm. cbn. apply Permutation_middle. }
  apply (G []). constructor.
Qed.

(** An edge from (0, 0, 0) to (-3, -4, 0), and two points on it (up to rounding) with neighbouring x and the same y. *)
Definition eps : R := / 4503599627370496.
Definition px : R := 3 / 2 + 13 * eps.
Definition qx : R := 3 / 2 + 14 * eps.
Definition py : R := 2 + 18 * eps.
Definition tie_position (v : nat) : point := match v with O => (0, 0, 0) | S O => (-3, -4, 0) | S (S O) => (- px, - py, 0) | _ => (- qx, - py, 0) end.
Definition tie_ends (_ : nat) : nat * nat := (0, 1)%nat.
Definition tie_faces (_ : nat) : option nat * option nat := (Some 0, None)%nat.
Definition tie_points : list (nat * list nat) := [(0, [3; 2])]%nat.
Definition tie_way (_ : nat) : list nat := [0; 2; 3; 1]%nat.
Definition tie_state : state := {| edges := []; iface := [(0, [])]%nat; incoming := []; along := []; same := [] |}.
Definition tie_result : state := {| edges := [(0, 3); (3, 2); (2, 1)]; iface := [(0, [0; 1; 2])]; incoming := [(3, [0; 3]); (2, [2; 5])]; along := [(0, [0; 1; 2])]; same := [] |}%nat.

Lemma RD_q x m k u : bpow radix2 k = u -> (-1000 <= k)%Z -> 4503599627370496 * u <= x < 9007199254740992 * u -> - (u / 2) < x - IZR m * u < u / 2 -> RD x = IZR m * u.
Proof.
  intros B K [L U] [E1 E2]. pose proof (bpow_gt_0 radix2 k) as P. rewrite <- B. apply RD_eval; [exact K| |].
  - rewrite !bpow_plus. change (bpow radix2 52) with 4503599627370496. change (bpow radix2 53) with 9007199254740992. rewrite B. lra.
  - replace (x * bpow radix2 (- k) - IZR m) with ((x - IZR m * u) * bpow radix2 (- k)) by (rewrite <- B; rewrite Rmult_minus_distr_r, Rmult_assoc, <- bpow_plus; replace (k + - k)%Z with 0%Z by lia; cbn; ring).
    rewrite Rabs_mult, (Rabs_pos_eq (bpow radix2 (- k))) by apply bpow_ge_0. rewrite bpow_opp, B. assert (Rabs (x - IZR m * u) < u / 2) by (apply Rabs_def1; lra). apply Rmult_lt_reg_r with u; [lra|]. rewrite Rmult_assoc, Rinv_l by lra. lra.
Qed.
Definition gx : R := 5404319552844595 * / 9007199254740992.
Definition gy : R := 7205759403792794 * / 9007199254740992.

Notation u53 := (/ 9007199254740992). Notation u52 := (/ 4503599627370496). Notation u51 := (/ 2251799813685248). Notation u50 := (/ 1125899906842624).
Lemma b53 : bpow radix2 (-53) = u53. Proof. reflexivity. Qed.
Lemma b52 : bpow radix2 (-52) = u52. Proof. reflexivity. Qed.
Lemma b51 : bpow radix2 (-51) = u51. Proof. reflexivity. Qed.
Lemma b50 : bpow radix2 (-50) = u50. Proof. reflexivity. Qed.
Ltac ev := intros; unfold gx, gy, px, qx, py, eps; lra.
Lemma e3 : RD 3 = 3. Proof. rewrite (RD_q 3 6755399441055744 (-51) u51 b51); [lra|lia|lra|lra]. Qed.
Lemma e4 : RD 4 = 4. Proof. rewrite (RD_q 4 4503599627370496 (-50) u50 b50); [lra|lia|lra|lra]. Qed.
Lemma e5 : RD 5 = 5. Proof. rewrite (RD_q 5 5629499534213120 (-50) u50 b50); [lra|lia|lra|lra]. Qed.
Lemma e9 : RD 9 = 9. Proof. rewrite (RD_q 9 5066549580791808 (-49) (/ 562949953421312) eq_refl); [lra|lia|lra|lra]. Qed.
Lemma e16 : RD 16 = 16. Proof. rewrite (RD_q 16 4503599627370496 (-48) (/ 281474976710656) eq_refl); [lra|lia|lra|lra]. Qed.
Lemma e25 : RD 25 = 25. Proof. rewrite (RD_q 25 7036874417766400 (-48) (/ 281474976710656) eq_refl); [lra|lia|lra|lra]. Qed.
Lemma egx : RD (3 / 5) = gx. Proof. rewrite (RD_q (3 / 5) 5404319552844595 (-53) u53 b53); [reflexivity|lia|lra|lra]. Qed.
Lemma egy : RD (4 / 5) = gy. Proof. rewrite (RD_q (4 / 5) 7205759403792794 (-53) u53 b53); [reflexivity|lia|lra|lra]. Qed.
Lemma epx : RD px = px. Proof. rewrite (RD_q px 6755399441055757 (-52) u52 b52); [ev|lia|ev|ev]. Qed.
Lemma eqx : RD qx = qx. Proof. rewrite (RD_q qx 6755399441055758 (-52) u52 b52); [ev|lia|ev|ev]. Qed.
Lemma epy : RD py = py. Proof. rewrite (RD_q py 4503599627370505 (-51) u51 b51); [ev|lia|ev|ev]. Qed.
Lemma epg : RD (px * gx) = 8106479329266908 * u53. Proof. apply (RD_q _ 8106479329266908 (-53) u53 b53); [lia|ev|ev]. Qed.
Lemma eqg : RD (qx * gx) = 8106479329266909 * u53. Proof. apply (RD_q _ 8106479329266909 (-53) u53 b53); [lia|ev|ev]. Qed.
Lemma eyg : RD (py * gy) = 7205759403792808 * u52. Proof. apply (RD_q _ 7205759403792808 (-52) u52 b52); [lia|ev|ev]. Qed.
Lemma epp : RD (8106479329266908 * u53) = 8106479329266908 * u53. Proof. apply (RD_q _ 8106479329266908 (-53) u53 b53); [lia|ev|ev]. Qed.
Lemma eqq : RD (8106479329266909 * u53) = 8106479329266909 * u53. Proof. apply (RD_q _ 8106479329266909 (-53) u53 b53); [lia|ev|ev]. Qed.
Lemma eps1 : RD (8106479329266908 * u53 + 7205759403792808 * u52) = 5629499534213131 * u51. Proof. apply (RD_q _ 5629499534213131 (-51) u51 b51); [lia|ev|ev]. Qed.
Lemma eps2 : RD (8106479329266909 * u53 + 7205759403792808 * u52) = 5629499534213131 * u51. Proof. apply (RD_q _ 5629499534213131 (-51) u51 b51); [lia|ev|ev]. Qed.
Lemma eps3 : RD (5629499534213131 * u51) = 5629499534213131 * u51. Proof. apply (RD_q _ 5629499534213131 (-51) u51 b51); [lia|ev|ev]. Qed.

Lemma direction : normalize RD (vminus RD (0, 0, 0) (-3, -4, 0)) = (gx, gy, 0).
Proof.
  unfold vminus. rewrite !Rminus_0_r, RD_0. replace (0 - -3) with 3 by lra. replace (0 - -4) with 4 by lra. rewrite e3, e4. unfold normalize, dot_product.
  replace (3 * 3) with 9 by lra. replace (4 * 4) with 16 by lra. rewrite Rmult_0_l, RD_0, Rplus_0_l, e9, e16, e9. replace (9 + 16) with 25 by lra. rewrite e25, Rplus_0_r, e25.
  replace (sqrt 25) with 5 by (replace 25 with (5 * 5) by lra; rewrite sqrt_square; lra). rewrite e5, egx, egy. unfold Rdiv. rewrite Rmult_0_l, RD_0. reflexivity.
Qed.
Definition K : R := 5629499534213131 * u51.
Lemma key0 : projection RD (0, 0, 0) (-3, -4, 0) (0, 0, 0) = 0.
Proof. unfold projection. rewrite direction. unfold vminus, dot_product. rewrite Rminus_0_r, RD_0, !Rmult_0_l, !RD_0, !Rplus_0_r, !RD_0. reflexivity. Qed.
Lemma key2 : projection RD (0, 0, 0) (-3, -4, 0) (- px, - py, 0) = K.
Proof. unfold projection. rewrite direction. unfold vminus, dot_product. replace (0 - - px) with px by lra. replace (0 - - py) with py by lra. rewrite Rminus_0_r, RD_0, epx, epy, epg, eyg, Rmult_0_l, RD_0, Rplus_0_l, epp, Rplus_0_r, eps1, eps3. reflexivity. Qed.
Lemma key3 : projection RD (0, 0, 0) (-3, -4, 0) (- qx, - py, 0) = K.
Proof. unfold projection. rewrite direction. unfold vminus, dot_product. replace (0 - - qx) with qx by lra. replace (0 - - py) with py by lra. rewrite Rminus_0_r, RD_0, eqx, epy, eqg, eyg, Rmult_0_l, RD_0, Rplus_0_l, eqq, Rplus_0_r, eps2, eps3. reflexivity. Qed.
Lemma key1 : K < projection RD (0, 0, 0) (-3, -4, 0) (-3, -4, 0).
Proof.
  unfold projection. rewrite direction. unfold vminus, dot_product. replace (0 - -3) with 3 by lra. replace (0 - -4) with 4 by lra. rewrite Rminus_0_r, RD_0, e3, e4, Rmult_0_l, RD_0, Rplus_0_l, Rplus_0_r.
  assert (A : 3 <= RD (4 * gy)) by (rewrite <- e3; apply RD_le; unfold gy; lra). assert (B : 0 <= RD (RD (3 * gx))) by (rewrite <- RD_0; apply RD_le; rewrite <- RD_0; apply RD_le; unfold gx; lra).
  assert (C : 3 <= RD (RD (RD (3 * gx)) + RD (4 * gy))) by (rewrite <- e3 at 1; apply RD_le; lra). assert (D : 3 <= RD (RD (RD (RD (3 * gx)) + RD (4 * gy)))) by (rewrite <- e3 at 1; apply RD_le, C). unfold K. lra.
Qed.

Lemma tie_divided : divide_edges RD insertion_sort tie_position tie_ends tie_faces tie_points 2 (fun _ m => m) [] [0%nat] tie_state = Some tie_result.
Proof.
  unfold divide_edges, part1. cbn [many tie_points filter snd length Nat.ltb Nat.leb fold_left bind]. unfold sorted_vertices, linear_projection_sort, tie_ends. cbn [fst snd app map tie_position].
  rewrite key0, key2, key3. pose proof key1 as K1. set (k1 := projection RD (0, 0, 0) (-3, -4, 0) (-3, -4, 0)) in *. assert (KP : 0 < K) by (unfold K; lra).
  assert (IS : insertion_sort [(0%nat, 0); (1%nat, k1); (3%nat, K); (2%nat, K)] = [(0%nat, 0); (3%nat, K); (2%nat, K); (1%nat, k1)]).
  { unfold insertion_sort. cbn -[Rlt_dec K k1]. repeat (match goal with |- context [Rlt_dec ?a ?b] => destruct (Rlt_dec a b) end; [|]; cbn -[Rlt_dec K k1]; try (exfalso; cbn -[K k1] in *; lra)). reflexivity. }
  rewrite IS. reflexivity.
Qed.
(** Every hypothesis of C70_double_partial holds but one: two points have the same projection. *)
Theorem C70_ties_refuted :
  exists n pends psf points cnt s position sort shuffle way blocks master r,
    given n pends psf points cnt s /\ sorting sort /\ iteration shuffle /\ concat blocks ++ master = seq 0 n /\
    (forall e, (e < n)%nat -> on_edge pends points e (way e) /\ monotone position (way e)) /\
    (forall v w, In v (way 0%nat) -> In w (way 0%nat) -> position v = position w -> v = w) /\
    divide_edges RD sort position pends psf points cnt shuffle blocks master s = Some r /\ ~ outcome n way psf s r.
Proof.
  exists 1%nat, tie_ends, tie_faces, tie_points, 2%nat, tie_state, tie_position, insertion_sort, (fun _ m => m), tie_way, [], [0%nat], tie_result.
  split; [|split; [apply insertion_sorting|split; [intros A m; reflexivity|split; [reflexivity|split; [|split; [|split; [apply tie_divided|]]]]]]].
  - constructor.
    + repeat constructor. intros [].
    + intros e l [E|[]]. injection E as <- <-. split; [lia|]. intros v [<-|[<-|[]]]; lia.
    + intros e _. cbn. lia.
    + intros e _. repeat constructor. intros [].
    + intros e l f [E|[]] _ [<-|[]]. left. reflexivity.
    + repeat split; repeat constructor; intros [].
  - intros e L. assert (e = 0%nat) as -> by lia. split; [exists [2; 3]%nat; split; [reflexivity|apply perm_swap]|].
    intros i. right. unfold tie_way. repeat first [apply SSorted_cons | apply SSorted_nil | apply Forall_cons | apply Forall_nil]; cbn [tie_position]; destruct i as [|[|i]]; cbn [coord]; unfold px, qx, py, eps; lra.
  - assert (D : forall x x' y y' z z' : R, (x, y, z) = (x', y', z') -> x = x') by (intros x x' y y' z z' E; injection E; auto).
    intros v w [<-|[<-|[<-|[<-|[]]]]] [<-|[<-|[<-|[<-|[]]]]] E; try reflexivity; exfalso; apply D in E; revert E; unfold px, qx, eps; lra.
  - intros (order & pieces & S). pose proof (s_joined _ _ _ _ _ _ _ _ _ _ _ _ _ S 0%nat ltac:(lia)) as J. cbn [tie_way joined] in J. destruct (pieces 0%nat) as [|e es]; [destruct J|]. destruct J as [J _]. cbn [edges tie_result] in J. destruct e as [|[|[|e]]]; cbn in J; destruct J as [J|J]; try discriminate. all: destruct e; discriminate.
Qed.
