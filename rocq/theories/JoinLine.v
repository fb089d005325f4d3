(** Six affine functions on a line: where all are not negative.  For C74. *)
From Coq Require Import List Arith Bool Lia Reals Lra.
Open Scope R_scope.

Section Line.
Variables A B : nat -> R.
Definition w (k : nat) (t : R) : R := A k + B k * t.
Definition all (t : R) : Prop := forall k, (k < 6)%nat -> 0 <= w k t.

Lemma max_exists (C D : nat -> R) N : (exists k, (k < N)%nat /\ 0 < D k) -> exists i, (i < N)%nat /\ 0 < D i /\ forall k, (k < N)%nat -> 0 < D k -> - C k / D k <= - C i / D i.
Proof.
  induction N as [|N IH]; intros (k & L & P); [lia|].
  destruct (Classical_Prop.classic (exists k, (k < N)%nat /\ 0 < D k)) as [X|X].
  - destruct (IH X) as (i & Li & Pi & M). destruct (Rlt_dec 0 (D N)) as [PN|NN]; [destruct (Rle_dec (- C N / D N) (- C i / D i)) as [LE|GT]|].
    + exists i. split; [lia|]. split; [exact Pi|]. intros m Lm Pm. destruct (Nat.eq_dec m N) as [->|]; [exact LE|]. apply M; [lia|exact Pm].
    + exists N. split; [lia|]. split; [exact PN|]. intros m Lm Pm. destruct (Nat.eq_dec m N) as [->|]; [lra|]. apply Rle_trans with (- C i / D i); [apply M; [lia|exact Pm]|lra].
    + exists i. split; [lia|]. split; [exact Pi|]. intros m Lm Pm. destruct (Nat.eq_dec m N) as [->|]; [contradiction|]. apply M; [lia|exact Pm].
  - assert (k = N) as -> by (destruct (Nat.eq_dec k N); [assumption|]; exfalso; apply X; exists k; split; [lia|exact P]). exists N. split; [lia|]. split; [exact P|]. intros m Lm Pm. destruct (Nat.eq_dec m N) as [->|]; [lra|]. exfalso. apply X. exists m. split; [lia|exact Pm].
Qed.

Hypothesis start : all 0.
Hypothesis up : exists k, (k < 6)%nat /\ 0 < B k.
Hypothesis down : exists k, (k < 6)%nat /\ B k < 0.
(** 0, 1, 2 belong together and 3, 4, 5 *)
Definition side (k : nat) : bool := Nat.ltb k 3.
Hypothesis V1 : forall t k m, all t -> (k < 6)%nat -> (m < 6)%nat -> k <> m -> side k = side m -> w k t = 0 -> w m t = 0 -> False.
Hypothesis V2 : forall t k m, all t -> (k < 6)%nat -> (m < 6)%nat -> side k <> side m -> w k t = 0 -> w m t = 0 -> B k <> 0 -> False.

Lemma line_ends : exists s t i j, s < t /\ i <> j /\ (i < 6)%nat /\ (j < 6)%nat /\ w i s = 0 /\ w j t = 0 /\
  (forall x, all x <-> s <= x <= t) /\ (forall k, (k < 6)%nat -> k <> i -> 0 < w k s) /\ (forall k, (k < 6)%nat -> k <> j -> 0 < w k t) /\
  (forall k x, (k < 6)%nat -> all x -> w k x = 0 -> B k <> 0 -> (k = i /\ x = s) \/ (k = j /\ x = t)) /\ B i <> 0 /\ B j <> 0.
Proof.
  destruct (max_exists A B 6 up) as (i & Li & Pi & Mi).
  assert (D' : exists k, (k < 6)%nat /\ 0 < - B k) by (destruct down as (k & L & P); exists k; split; [exact L|lra]).
  destruct (max_exists A (fun k => - B k) 6 D') as (j & Lj & Pj & Mj). cbn beta in Pj, Mj.
  set (s := - A i / B i). set (t := A j / - B j).
  assert (AL : forall x, all x <-> s <= x <= t).
  { intros x. split.
    - intros H. split.
      + unfold s. apply Rmult_le_reg_r with (B i); [exact Pi|]. unfold Rdiv. rewrite Rmult_assoc, Rinv_l, Rmult_1_r by lra. specialize (H i Li). unfold w in H. lra.
      + unfold t. apply Rmult_le_reg_r with (- B j); [exact Pj|]. unfold Rdiv. rewrite Rmult_assoc, Rinv_l, Rmult_1_r by lra. specialize (H j Lj). unfold w in H. lra.
    - intros [H1 H2] k Lk. unfold w. destruct (Rtotal_order (B k) 0) as [N|[Z|P]].
      + specialize (Mj k Lk ltac:(lra)). assert (x <= A k / - B k). { apply Rle_trans with t; [exact H2|]. unfold t. unfold Rdiv in *. lra. } apply (Rmult_le_compat_r (- B k)) in H; [|lra]. unfold Rdiv in H. rewrite Rmult_assoc, Rinv_l, Rmult_1_r in H by lra. lra.
      + rewrite Z. specialize (start k Lk). unfold w in start. rewrite Z in start. lra.
      + specialize (Mi k Lk P). assert (- A k / B k <= x) by (apply Rle_trans with s; [exact Mi|exact H1]). apply (Rmult_le_compat_r (B k)) in H; [|lra]. unfold Rdiv in H. rewrite Rmult_assoc, Rinv_l, Rmult_1_r in H by lra. lra. }
  assert (ST : s <= 0 <= t) by (apply AL, start).
  assert (AS : all s) by (apply AL; lra). assert (AT : all t) by (apply AL; lra).
  assert (Zi : w i s = 0) by (unfold w, s; field; lra). assert (Zj : w j t = 0) by (unfold w, t; field; lra).
  assert (Us : forall k, (k < 6)%nat -> k <> i -> 0 < w k s).
  { intros k Lk N. destruct (Rle_lt_or_eq_dec 0 (w k s) (AS k Lk)) as [H|H]; [exact H|]. exfalso. symmetry in H. destruct (bool_dec (side i) (side k)) as [E|E]; [apply (V1 s i k)|apply (V2 s i k)]; auto. lra. }
  assert (Ut : forall k, (k < 6)%nat -> k <> j -> 0 < w k t).
  { intros k Lk N. destruct (Rle_lt_or_eq_dec 0 (w k t) (AT k Lk)) as [H|H]; [exact H|]. exfalso. symmetry in H. destruct (bool_dec (side j) (side k)) as [E|E]; [apply (V1 t j k)|apply (V2 t j k)]; auto. lra. }
  assert (IJ : i <> j) by (intros ->; lra).
  assert (LT : s < t). { destruct (Rle_lt_or_eq_dec s t ltac:(lra)) as [H|H]; [exact H|]. exfalso. specialize (Us j Lj (not_eq_sym IJ)). rewrite H, Zj in Us. lra. }
  exists s, t, i, j. do 6 (split; [assumption|]). split; [exact AL|]. split; [exact Us|]. split; [exact Ut|]. split; [|split; lra].
  intros k x Lk Ax Z NZ. apply AL in Ax. destruct (Rtotal_order (B k) 0) as [N|[E|P]]; [|contradiction|].
  - right. assert (x = t). { apply Rle_antisym; [apply Ax|]. specialize (AT k Lk). unfold w in *. apply Rmult_le_reg_r with (- B k); lra. } subst x. split; [|reflexivity]. destruct (Nat.eq_dec k j) as [->|NJ]; [reflexivity|]. specialize (Ut k Lk NJ). lra.
  - left. assert (x = s). { apply Rle_antisym; [|apply Ax]. specialize (AS k Lk). unfold w in *. apply Rmult_le_reg_r with (B k); lra. } subst x. split; [|reflexivity]. destruct (Nat.eq_dec k i) as [->|NI]; [reflexivity|]. specialize (Us k Lk NI). lra.
Qed.
End Line.
