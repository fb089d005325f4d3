(** Patches of the cut mesh: what has to result. *)
From Coq Require Import List Arith Bool Permutation Relations Reals.
Import ListNotations.

Section Spec.
(** The polygons, by the halfedges around them.  Polygons below [sm_count] come from the source mesh, the others from the cut mesh.  [opp]: the same edge in the other direction.
    [cut h]: h is on an intersection curve. *)
Variable polygons : list (list nat).
Variable sm_count : nat.
Variable opp : nat -> nat.
Variable cut : nat -> Prop.

(** h is a side of the polygon p *)
Definition side (p h : nat) : Prop := exists polygon, nth_error polygons p = Some polygon /\ In h polygon.
Definition cut_mesh_polygon (p : nat) : Prop := sm_count <= p < length polygons.
(** Two polygons of the cut mesh have a common edge; [uncut]: one that is not on an intersection curve. *)
Definition neighbours (p q : nat) : Prop := cut_mesh_polygon p /\ cut_mesh_polygon q /\ exists h, side p h /\ side q (opp h).
Definition uncut_neighbours (p q : nat) : Prop := cut_mesh_polygon p /\ cut_mesh_polygon q /\ exists h, side p h /\ side q (opp h) /\ ~ cut h.
(** There is a way from one to the other across edges; without crossing an intersection curve. *)
Definition connected : nat -> nat -> Prop := clos_refl_trans nat neighbours.
Definition together : nat -> nat -> Prop := clos_refl_trans nat uncut_neighbours.

(** Patches: disjoint, each made up of exactly the polygons that are together with one of them. *)
Record are_patches (patches : list (list nat)) : Prop := {
  ap_once : NoDup (concat patches);
  ap_cut_mesh : forall P p, In P patches -> In p P -> cut_mesh_polygon p;
  ap_nonempty : forall P, In P patches -> P <> [];
  ap_together : forall P p q, In P patches -> In p P -> (In q P <-> together p q) }.
End Spec.

Section Curves.
Variable polygons : list (list nat).
Variable sm_count : nat.
Variable opp : nat -> nat.
Variable cut : nat -> Prop.
Notation side := (side polygons). Notation cm := (cut_mesh_polygon polygons sm_count).

(** The two cut meshes: an edge off the curves is a side of the polygons of one mesh only, and in each direction of one polygon; a halfedge on a curve is a side of at most one polygon of each mesh. *)
Record two_meshes : Prop := {
  tm_once : forall p q h, side p h -> side q h -> (cut h -> (cm p <-> cm q)) -> p = q;
  tm_apart : forall p q h, ~ cut h -> cm p -> side p h -> side q (opp h) -> cm q }.
(** The curve with this number starts with this edge; the edge has polygons of the cut mesh on both sides. *)
Definition starts (sequences : list (list nat)) (idx e : nat) : Prop := exists l, nth_error sequences idx = Some (e :: l).
Definition bordered (sequences : list (list nat)) (idx : nat) : Prop := exists e, starts sequences idx e /\ cut (2 * e) /\ (exists p, cm p /\ side p (2 * e)) /\ exists p, cm p /\ side p (2 * e + 1).

(** [inside p]: the polygon p of the cut mesh is inside the source mesh.  The location changes exactly across the curves. *)
Record located (inside : nat -> bool) : Prop := {
  lo_same : forall p q, uncut_neighbours polygons sm_count opp cut p q -> inside p = inside q;
  lo_other : forall p q h, cm p -> cm q -> side p h -> side q (opp h) -> cut h -> inside p <> inside q }.
(** Each place where the cut mesh crosses a curve belongs to the same piece on both sides as the first edge of some curve. *)
Definition curves_cover (sequences : list (list nat)) (curves : list nat) : Prop :=
  forall p q h, cm p -> cm q -> side p h -> side q (opp h) -> cut h ->
    exists idx e h0 p0 q0, In idx curves /\ starts sequences idx e /\ (h0 = 2 * e \/ h0 = 2 * e + 1) /\ cm p0 /\ cm q0 /\ side p0 h0 /\ side q0 (opp h0) /\
      together polygons sm_count opp cut p p0 /\ together polygons sm_count opp cut q q0.
End Curves.

Section Approach.
Variable polygons : list (list nat).
(** Vertices of a halfedge, their coordinates; vertices below [cnt] are vertices of the given meshes, [cnt + i] is the point where the edge [fst (registry i)] crosses the face [snd (registry i)]; the normals of the faces;
    the curve through a point; the curves that matter. *)
Variables (src tgt : nat -> nat) (position : nat -> R * R * R) (cnt : nat) (registry : list (nat * nat)) (normal : nat -> R * R * R) (curve : nat -> option nat) (curves : list nat).
(** The point number v is where the edge e crosses the face f. *)
Definition crossing (v e f : nat) : Prop := cnt <= v /\ nth_error registry (v - cnt) = Some (e, f).
Definition difference (a b : R * R * R) : R * R * R := match a, b with (x, y, z), (x', y', z') => (x - x', y - y', z - z')%R end.
Definition scalar_product (a b : R * R * R) : R := match a, b with (x, y, z), (x', y', z') => (x * x' + y * y' + z * z')%R end.
(** A side of the polygon runs along the edge e, up to the point where e crosses the face f. *)
Definition runs_to (p h e f : nat) : Prop := side polygons p h /\ crossing (tgt h) e f /\ (src h < cnt \/ exists f', crossing (src h) e f').
(** ... and on a curve that matters it arrives at the front of the face. *)
Definition approaches (p : nat) : Prop :=
  exists h e f idx, runs_to p h e f /\ curve (tgt h) = Some idx /\ In idx curves /\ (scalar_product (normal f) (difference (position (tgt h)) (position (src h))) < 0)%R.
End Approach.
