(** Lemmas about the checked containers of [Vec]. *)
From Coq Require Import List ZArith Lia Permutation.
From Coq Require Import ZifyBool ZifyNat.
From Verif Require Import Vec.
Import ListNotations.
Open Scope Z_scope.

Lemma lset_length {A} (v : list A) i x : length (lset v i x) = length v.
Proof. revert i; induction v as [|y r IH]; intros [|i]; cbn; try reflexivity. rewrite IH. reflexivity. Qed.

Lemma nth_error_lset_eq {A} (v : list A) i x : (i < length v)%nat -> nth_error (lset v i x) i = Some x.
Proof.
  revert i; induction v as [|y r IH]; intros [|i] H; cbn in *; try lia; [reflexivity|].
  apply IH. lia.
Qed.

Lemma nth_error_lset_neq {A} (v : list A) i j x : i <> j -> nth_error (lset v i x) j = nth_error v j.
Proof.
  revert i j; induction v as [|y r IH]; intros [|i] [|j] H; cbn; try reflexivity; try lia.
  apply IH. lia.
Qed.

Lemma zlen_nonneg {A} (v : list A) : 0 <= zlen v.
Proof. unfold zlen. lia. Qed.

Lemma vget_Some_range {A} (v : list A) i x : vget v i = Some x -> 0 <= i < zlen v.
Proof.
  unfold vget, zlen. destruct (Z.ltb_spec i 0); [discriminate|]. intros H0.
  assert (nth_error v (Z.to_nat i) <> None) by congruence.
  apply nth_error_Some in H1. lia.
Qed.

Lemma vget_range_Some {A} (v : list A) i : 0 <= i < zlen v -> exists x, vget v i = Some x.
Proof.
  unfold vget, zlen. intros H. destruct (Z.ltb_spec i 0); [lia|].
  destruct (nth_error v (Z.to_nat i)) eqn:E; [eauto|].
  apply nth_error_None in E. lia.
Qed.

Lemma vget_None {A} (v : list A) i : ~ (0 <= i < zlen v) -> vget v i = None.
Proof.
  intros H. destruct (vget v i) eqn:E; [|reflexivity]. apply vget_Some_range in E. lia.
Qed.

Lemma vset_Some {A} (v : list A) i x : 0 <= i < zlen v -> vset v i x = Some (lset v (Z.to_nat i) x).
Proof.
  unfold vset, zlen. intros H. destruct (Z.ltb_spec i 0); [lia|].
  destruct (Nat.ltb_spec (Z.to_nat i) (length v)); [reflexivity | lia].
Qed.

Lemma vset_inv {A} (v w : list A) i x : vset v i x = Some w -> 0 <= i < zlen v /\ w = lset v (Z.to_nat i) x.
Proof.
  unfold vset, zlen. destruct (Z.ltb_spec i 0); [discriminate|].
  destruct (Nat.ltb_spec (Z.to_nat i) (length v)); [|discriminate].
  intros E. injection E as <-. split; [lia | reflexivity].
Qed.

Lemma vset_len {A} (v w : list A) i x : vset v i x = Some w -> zlen w = zlen v.
Proof. intros H. apply vset_inv in H. destruct H as [_ ->]. unfold zlen. rewrite lset_length. reflexivity. Qed.

Lemma vget_vset_eq {A} (v w : list A) i x : vset v i x = Some w -> vget w i = Some x.
Proof.
  intros H. apply vset_inv in H. destruct H as [Hr ->]. unfold vget, zlen in *.
  destruct (Z.ltb_spec i 0); [lia|]. apply nth_error_lset_eq. lia.
Qed.

Lemma vget_vset_neq {A} (v w : list A) i j x : vset v i x = Some w -> i <> j -> vget w j = vget v j.
Proof.
  intros H N. apply vset_inv in H. destruct H as [Hr ->]. unfold vget, zlen in *.
  destruct (Z.ltb_spec j 0); [reflexivity|]. apply nth_error_lset_neq. lia.
Qed.

Lemma In_zrange n i : In i (zrange n) <-> 0 <= i < n.
Proof.
  unfold zrange. rewrite in_map_iff. split.
  - intros (k & E & H). apply in_seq in H. lia.
  - intros H. exists (Z.to_nat i). split; [lia|]. apply in_seq. lia.
Qed.

Lemma NoDup_zrange n : NoDup (zrange n).
Proof.
  unfold zrange. apply FinFun.Injective_map_NoDup; [|apply seq_NoDup].
  intros x y H. lia.
Qed.

Lemma length_zrange n : length (zrange n) = Z.to_nat n.
Proof. unfold zrange. rewrite map_length, seq_length. reflexivity. Qed.

Lemma zlen_repeat {A} (x : A) n : 0 <= n -> zlen (repeat x (Z.to_nat n)) = n.
Proof. intros H. unfold zlen. rewrite repeat_length. lia. Qed.

Lemma zlen_app {A} (a b : list A) : zlen (a ++ b) = zlen a + zlen b.
Proof. unfold zlen. rewrite app_length. lia. Qed.

Lemma vget_In {A} (v : list A) i x : vget v i = Some x -> In x v.
Proof. unfold vget. destruct (i <? 0); [discriminate|]. apply nth_error_In. Qed.

Lemma In_vget {A} (v : list A) x : In x v -> exists i, vget v i = Some x.
Proof.
  intros H. apply In_nth_error in H. destruct H as [n H]. exists (Z.of_nat n).
  unfold vget. destruct (Z.ltb_spec (Z.of_nat n) 0); [lia|]. rewrite Nat2Z.id. exact H.
Qed.

Lemma NoDup_vget_inj {A} (v : list A) i j x :
  NoDup v -> vget v i = Some x -> vget v j = Some x -> i = j.
Proof.
  intros N Hi Hj. pose proof (vget_Some_range _ _ _ Hi). pose proof (vget_Some_range _ _ _ Hj).
  unfold vget, zlen in *. destruct (Z.ltb_spec i 0); [lia|]. destruct (Z.ltb_spec j 0); [lia|].
  assert (Z.to_nat i = Z.to_nat j); [|lia].
  apply (proj1 (NoDup_nth_error v) N); [lia | congruence].
Qed.

Lemma ofold_app {A B} (f : B -> A -> option B) l1 l2 b :
  ofold f (l1 ++ l2) b = obind (ofold f l1 b) (ofold f l2).
Proof.
  revert b; induction l1 as [|a r IH]; intros b; cbn; [reflexivity|].
  destruct (f b a); cbn; [apply IH | reflexivity].
Qed.
