(** Planar polygons, in exact real arithmetic. *)
From Coq Require Import Reals List.
Import ListNotations.
Open Scope R_scope.

(** All the points lie in one plane n . p = k. *)
Definition planar (vs : list (R * R * R)) : Prop :=
  exists nx ny nz k : R, ~ (nx = 0 /\ ny = 0 /\ nz = 0) /\ Forall (fun p => nx * fst (fst p) + ny * snd (fst p) + nz * snd p = k) vs.

(** The points a, b, c, d follow each other in the list. *)
Definition consecutive (vs : list (R * R * R)) (a b c d : R * R * R) : Prop := exists l1 l2, vs = l1 ++ a :: b :: c :: d :: l2.
