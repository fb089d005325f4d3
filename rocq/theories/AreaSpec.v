(** Faces without area: what has to be reported. *)
From Coq Require Import List Arith Bool.
Import ListNotations.

Section Spec.
(** the faces of the source mesh have the numbers below sm_face_count, face k of the cut mesh has the number sm_face_count + k *)
Variable sm_face_count : nat.
(** A report (cut mesh or not, number of the face) names the face f. *)
Definition names (says_cut_mesh : bool) (says_face f : nat) : Prop :=
  if says_cut_mesh then f = sm_face_count + says_face else f = says_face /\ f < sm_face_count.
(** A table gives for each of the faces its properties, and nothing else. *)
Definition table_of {A} (properties : nat -> A) (faces : list nat) (table : nat -> option A) : Prop :=
  (forall f, In f faces -> table f = Some (properties f)) /\ forall f, ~ In f faces -> table f = None.
End Spec.
