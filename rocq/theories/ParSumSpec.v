From Coq Require Import List ZArith.
From Verif Require Import Vec ParModel.
Import ListNotations.
Open Scope Z_scope.

Definition sum_first (v : list Z) (k : Z) : Z := fold_right Z.add 0 (firstn (Z.to_nat k) v).

(** [out] is the vector of prefix sums of [v], in 32-bit unsigned arithmetic. *)
Definition prefix_sums (v out : list Z) : Prop :=
  zlen out = zlen v /\
  forall k, 0 <= k < zlen v -> vget out k = Some (sum_first v (k + 1) mod 2 ^ 32).

Definition all_u32 (v : list Z) : Prop := forall x, In x v -> 0 <= x < 2 ^ 32.
