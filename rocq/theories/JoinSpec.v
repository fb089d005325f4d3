(** Joining the intersection points: what has to result. *)
From Coq Require Import List Arith Bool Reals Permutation Sorting.
From Verif Require Import SplitSpec PointsSpec.
Import ListNotations.

(** The points of a row lie on a line, each further than the ones before. *)
Definition in_line (position : nat -> point) (row : list nat) : Prop :=
  exists o d ratio, o <> d /\ (forall v, In v row -> position v = between_ratio o d (ratio v)) /\ StronglySorted (fun v w => (ratio v < ratio w)%R) row.
(** p and q are neighbours in a row *)
Definition next_to (p q : nat) (row : list nat) : Prop := exists l l', row = l ++ p :: q :: l' \/ row = l ++ q :: p :: l'.
Definition exactly_two (P : nat -> Prop) : Prop := exists f g, f <> g /\ forall x, P x <-> x = f \/ x = g.

Section Spec.
(** the point is on the face *)
Variable on : nat -> nat -> Prop.
(** the face contains the middle between two points *)
Variable middle : nat -> nat -> nat -> Prop.
(** the points of every two faces, along the line where their planes meet *)
Variable rows : list (list nat).

(** The line from p to q is on the face f. *)
Definition joins (f p q : nat) : Prop := on p f /\ on q f /\ middle f p q.
(** p and q have to be joined: they are neighbours on the line of two faces, and the line between them is on two faces. *)
Definition wanted (p q : nat) : Prop := exactly_two (fun f => joins f p q) /\ exists row, In row rows /\ next_to p q row.
(** e is the edge between p and q *)
Definition edge_between (edges : list (nat * nat)) (e p q : nat) : Prop := nth_error edges e = Some (p, q) \/ nth_error edges e = Some (q, p).

Record are_joined (edges : list (nat * nat)) (of_face : nat -> option (list nat)) (incoming : nat -> list nat) : Prop := {
  (* two points are joined exactly if they have to be, by one edge *)
  j_edges : forall p q, (exists e, edge_between edges e p q) <-> wanted p q;
  j_once : forall e e' p q, edge_between edges e p q -> edge_between edges e' p q -> e = e';
  (* the edges of a face are those on it *)
  j_faces : lists of_face (fun e f => exists p q, edge_between edges e p q /\ joins f p q);
  (* the halfedges 2e, 2e + 1 that end at a point *)
  j_incoming : forall v, incoming v = flat_map (ending_at v) (combine (seq 0 (length edges)) edges) }.
End Spec.
