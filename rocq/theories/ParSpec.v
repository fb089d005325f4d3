(** Specification of parallel loops. *)
From Coq Require Import List ZArith.
From Verif Require Import Vec ParModel.
Import ListNotations.
Open Scope Z_scope.

(** The sequential loop over positions 0..n-1. *)
Definition sequential_loop {S} (step : Z -> S -> S) (n : Z) (s : S) : S :=
  fold_left (fun x i => step i x) (zrange n) s.

(** Bodies for different elements do not interfere. *)
Definition independent {S} (step : Z -> S -> S) : Prop :=
  forall i j s, i <> j -> step i (step j s) = step j (step i s).
