(** What partitioning the source mesh along the intersection curves should do.

    The polygons of the source mesh, after clipping, are loops of sides; the sides are halfedges of a common mesh, 2e and 2e + 1 the two directions of edge e.  Some edges lie on the intersection curves, both sides of
    the curve still use the same edge and the same intersection points.  Partitioning makes a second mesh in which they do not. *)
From Coq Require Import List Arith.
Import ListNotations.

(** the other direction of the edge *)
Definition reverse (h : nat) : nat := if Nat.even h then h + 1 else h - 1.
(** [b] comes after [a] around the polygon *)
Definition follows (p : list nat) (a b : nat) : Prop := exists k, nth_error p k = Some a /\ nth_error p (S k mod length p) = Some b.

Section Spec.
(** the ends of the sides; the intersection points; the sides on the curves *)
Variables (from to : nat -> nat).
Variable crossing : nat -> Prop.
Variable on_curve : nat -> Prop.
(** the number of vertices and of halfedges of the common mesh *)
Variables (vertices halfedges : nat).
(** the polygons of the source mesh, those of the cut mesh; the vertices of the cut mesh; the halfedges known to arrive at an intersection point *)
Variables (sources others : list (list nat)).
Variable of_cutmesh : nat -> Prop.
Variable arriving : list (nat * list nat).

Definition side (h : nat) : Prop := exists p, In p sources /\ In h p.

(** What clipping the faces leaves, as far as the partitioning depends on it *)
Record sever_input := {
  (* a side belongs to one polygon of the source mesh, and only once *)
  si_once : NoDup (concat sources);
  (* the polygons are loops *)
  si_loops : forall p a b, In p sources -> follows p a b -> to a = from b;
  si_range : forall h, side h -> from h < vertices /\ to h < vertices /\ h < halfedges;
  (* a curve runs from intersection point to intersection point *)
  si_curve : forall h, side h -> on_curve h -> crossing (from h) /\ crossing (to h);
  si_both : forall h, on_curve (reverse h) <-> on_curve h;
  (* at an intersection point each polygon has the curve at least on one side: between two polygons an edge of the source mesh is left on one side only *)
  si_turn : forall p a b, In p sources -> follows p a b -> crossing (to a) -> on_curve a \/ on_curve b;
  (* an edge used by polygons of both meshes lies on a curve *)
  si_shared : forall h p, side h -> In p others -> In (reverse h) p -> on_curve h;
  (* where a polygon of the cut mesh has a vertex other than an intersection point, it is a vertex of the cut mesh *)
  si_cutmesh : forall h p, In p others -> In h p -> ~ crossing (from h) -> of_cutmesh (from h);
  si_arriving : forall x hs h, In (x, hs) arriving -> In h hs -> to h = x }.

(** What the intersection points need in addition.  [on_cut_edge]: intersection points on an edge of the cut mesh. *)
Variable on_cut_edge : nat -> Prop.
Record sever_points := {
  sp_known : forall h, side h -> crossing (to h) -> exists hs, In (to h, hs) arriving /\ In h hs;
  sp_keys : NoDup (map fst arriving);
  sp_ends : forall h, side h -> from h <> to h;
  (* the vertices of polygons of the source mesh are not of the cut mesh, and what is left of an edge of the source mesh between two intersection points starts at a point on such an edge *)
  sp_source : forall h, side h -> (~ crossing (from h) -> ~ of_cutmesh (from h)) /\ (~ crossing (to h) -> ~ of_cutmesh (to h));
  sp_edge : forall h, side h -> ~ on_curve h -> crossing (from h) -> crossing (to h) -> ~ on_cut_edge (from h) }.
(** A polygon with an intersection point at each side comes only once to a point where a piece of an edge of the source mesh starts: no cut that ends inside the polygon starts there. *)
Definition sever_mouths : Prop :=
  forall p h a b, In p sources -> (forall k, In k p -> crossing (from k) \/ crossing (to k)) -> In h p -> ~ on_curve h -> crossing (from h) -> crossing (to h) -> follows p b h -> In a p -> to a = from h -> a = b.
(** the intersection points on an edge of the cut mesh: their edges are given by [registry], the faces of an edge by [faces_at], the faces of the cut mesh come after the [source_faces] of the source mesh *)
Definition cut_edge_at (registry : list (nat * nat)) (first_crossing source_faces : nat) (faces_at : nat -> option nat * option nat) (x : nat) : Prop :=
  exists e f, nth_error registry (x - first_crossing) = Some (e, f) /\ exists g, match fst (faces_at e) with Some f => Some f | None => snd (faces_at e) end = Some g /\ source_faces <= g.

(** The result: [origin] the vertex of the common mesh that a vertex of the new mesh has the place of, the ends of the new halfedges, the new polygons *)
Variable origin : nat -> option nat.
Variables (from' to' : nat -> nat).
Variable results : list (list nat).

(** the side [m] of the new mesh is side number k of polygon number i, which was [h] *)
Definition becomes (i k h m : nat) : Prop := exists p q, nth_error sources i = Some p /\ nth_error results i = Some q /\ nth_error p k = Some h /\ nth_error q k = Some m.

Record sever_output := {
  (* as many polygons, with as many sides *)
  so_count : map (@length nat) results = map (@length nat) sources;
  (* each side is where it was; vertices that are not intersection points are the same vertex *)
  so_place : forall i k h m, becomes i k h m -> origin (from' m) = Some (from h) /\ origin (to' m) = Some (to h) /\ (~ crossing (from h) -> from' m = from h) /\ (~ crossing (to h) -> to' m = to h);
  (* the new polygons are loops *)
  so_loops : forall q a b, In q results -> follows q a b -> to' a = from' b;
  (* no two sides have become one *)
  so_once : NoDup (concat results);
  (* the two sides of an edge away from the curves are the two sides of one edge again, and no others are: along the curves nothing is connected any more *)
  so_edges : forall i k h m i' k' h' m', becomes i k h m -> becomes i' k' h' m' -> (m' = reverse m <-> h' = reverse h /\ ~ on_curve h) }.

(** the corner after side [a'] is across the edge after side [a], which is not on a curve *)
Definition beside (a a' : nat) : Prop := exists p b, In p sources /\ follows p a b /\ a' = reverse b /\ ~ on_curve b.
(** Two corners at intersection points have the same new vertex only if nothing separates them. *)
Definition sever_apart : Prop := forall i k a m i' k' a' m', becomes i k a m -> becomes i' k' a' m' -> crossing (to a) -> (to' m' = to' m <-> a' = a \/ beside a a' \/ beside a' a).
End Spec.
