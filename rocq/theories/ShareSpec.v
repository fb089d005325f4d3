(** C76: when a context is stuck, and which commands may get it there. *)
From Coq Require Import List Arith.
From Verif Require Import ShareModel.
Import ListNotations.

Section spec.
Variable W : nat.
Variable progs : list (list section).

(** No thread can take a step. *)
Definition stuck (st : state) : Prop := forall t, next W progs st t = None.
(** Every manager thread has been through all its sections, and the helpers are idle with nothing to do. *)
Definition all_ended (st : state) : Prop :=
  (forall m, at_section st m = length (nth m progs [])) /\ forall w, busy st w = None /\ queue st w = [].

(** A section that needs two helpers. *)
Definition two_helpers (c : section) : Prop := 2 <= W /\ 2 * least c < size c.
(** Its parts wait for all the others. *)
Definition meeting (c : section) : Prop := exists b, what c = Meet (S b).
(** Two commands run at the same time, each comes to a section that needs two helpers, the parts of one wait for all others, and those of the other for all or for the one before. *)
Definition conflict : Prop :=
  exists m m' c c', m <> m' /\ In c (nth m progs []) /\ In c' (nth m' progs []) /\ two_helpers c /\ two_helpers c' /\ meeting c /\ (meeting c' \/ what c' = Sum).
End spec.

(** Sections have a smallest number of elements per thread that is not 0. *)
Definition sections_ok (progs : list (list section)) : Prop := forall p c, In p progs -> In c p -> 1 <= least c /\ 1 <= size c.
