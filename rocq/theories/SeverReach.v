(** When the walk along the cuts reaches everything. *)
From Coq Require Import List Arith.
From Verif Require Import SeverSpec.
Import ListNotations.

Section Reach.
(** as in SeverSpec *)
Variables (from to : nat -> nat).
Variable crossing : nat -> Prop.
Variable on_curve : nat -> Prop.
Variable sources : list (list nat).
Variable arriving : list (nat * list nat).
Notation side := (side sources).
(** What is needed for the walk along the cuts to come to its end: [arriving] is about intersection points and complete at both ends of a side, and the intersection points have their faces. *)
Record sever_known (has_faces : nat -> Prop) : Prop := {
  sk_leaving : forall h, side h -> crossing (from h) -> exists hs, In (from h, hs) arriving /\ In (reverse h) hs;
  sk_points : forall x hs, In (x, hs) arriving -> crossing x;
  sk_faces : forall x hs h, In (x, hs) arriving -> In h hs -> crossing (from h) -> has_faces (from h) }.
(** a side that ends at an intersection point *)
Definition touches (h : nat) : Prop := crossing (from h) \/ crossing (to h).
(** a polygon with a side away from the cuts, one with only one vertex that is not an intersection point *)
Definition has_plain (p : list nat) : Prop := exists h, In h p /\ ~ touches h.
Definition has_single (p : list nat) : Prop := exists h, In h p /\ ~ crossing (to h) /\ forall k, In k p -> ~ crossing (to k) -> k = h.
(** The walk comes to a polygon of one of these kinds, to one with a piece of an edge between two cuts and to one beside such a polygon: across an edge that the walk follows away from an intersection point, if the next
    vertex is not one either. *)
Inductive reached : list nat -> Prop :=
| r_plain p : In p sources -> has_plain p -> reached p
| r_single p : In p sources -> has_single p -> reached p
| r_between p h : In p sources -> In h p -> ~ on_curve h -> crossing (from h) -> crossing (to h) -> reached p
| r_beside p h q b : In p sources -> In h p -> reached q -> In (reverse h) q -> crossing (to h) -> ~ crossing (from h) -> follows q (reverse h) b -> ~ crossing (to b) -> reached p.
(** Every polygon that is cut is reached, and one is where the walk can start. *)
Record sever_reached : Prop := {
  sr_all : forall p, In p sources -> (exists h, In h p /\ touches h) -> reached p;
  sr_start : exists p, In p sources /\ (exists h, In h p /\ touches h) /\ (has_plain p \/ has_single p) }.
End Reach.
(** the edge of an intersection point, given by [registry], has a face, given by [faces_at] *)
Definition face_known (registry : list (nat * nat)) (first_crossing : nat) (faces_at : nat -> option nat * option nat) (x : nat) : Prop :=
  exists e f, nth_error registry (x - first_crossing) = Some (e, f) /\ exists g, match fst (faces_at e) with Some f => Some f | None => snd (faces_at e) end = Some g.
