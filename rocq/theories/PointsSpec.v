(** Intersection points: what has to be found. *)
From Coq Require Import List Arith Bool Permutation Sorting Reals.
Import ListNotations.

(** What the C++ standard guarantees of std::sort. *)
Definition sorts (sort : list nat -> list nat) : Prop := forall l, Permutation (sort l) l /\ Sorted le (sort l).

Section Spec.
(** the faces beside an edge *)
Variable beside : nat -> list nat.
(** the edge is an edge of the cut mesh; it has only one face *)
Variables (of_cut_mesh only_one_face : nat -> Prop).
(** the intersection points are numbered from here *)
Variable cnt : nat.
(** what is found: for every intersection point the edge and the face that meet there *)
Variable crossings : list (nat * nat).

(** v is the intersection point of edge e with face f *)
Definition is_point (v e f : nat) : Prop := cnt <= v /\ nth_error crossings (v - cnt) = Some (e, f).
(** the intersection point v is on face g *)
Definition lies_on (v g : nat) : Prop := exists e f, is_point v e f /\ (g = f \/ In g (beside e)).
(** the intersection point v is where a side of one of the faces g, g' meets the other *)
Definition lies_between (v g g' : nat) : Prop := exists e f, is_point v e f /\ (g = f /\ In g' (beside e) \/ g' = f /\ In g (beside e)).
(** A table lists under every key exactly the points with a property, once, in increasing order. *)
Definition lists {K} (table : K -> option (list nat)) (P : nat -> K -> Prop) : Prop :=
  forall k, match table k with
            | Some l => l <> [] /\ StronglySorted lt l /\ forall v, In v l <-> P v k
            | None => forall v, ~ P v k
            end.
Record found (on_edges : nat -> option (list nat)) (on_faces : nat -> option (list nat)) (between : nat * nat -> option (list nat)) (border : list nat) (partial_cut : bool) : Prop := {
  f_edges : lists on_edges (fun v e => exists f, is_point v e f);
  f_faces : lists on_faces lies_on;
  f_between : lists between (fun v p => fst p <= snd p /\ lies_between v (fst p) (snd p));
  f_border : StronglySorted lt border /\ forall v, In v border <-> exists e f, is_point v e f /\ of_cut_mesh e /\ only_one_face e;
  f_partial : partial_cut = true <-> exists v e f, is_point v e f /\ of_cut_mesh e /\ only_one_face e }.
End Spec.
