(** Above and below the cut mesh: what has to result. *)
From Coq Require Import List Arith ZArith Bool Reals.
From Verif Require Import PatchSpec HmeshModel ExtractModel ExtractSpec.
Import ListNotations.
Open Scope nat_scope.

Section Spec.
(** The polygons, by the halfedges around them; those below [sm_count] come from the source mesh.  [opp]: the same edge in the other direction.  [cut h]: h is on an intersection curve.  Vertices below [cnt] are vertices of the
    given meshes, [cnt + i] is the point where the edge [fst (registry i)] crosses the face [snd (registry i)]. *)
Variable polygons : list (list nat).
Variable sm_count : nat.
Variable opp : nat -> nat.
Variable cut : nat -> Prop.
Variables (src tgt : nat -> nat) (position : nat -> R * R * R) (cnt : nat) (registry : list (nat * nat)) (normal : nat -> R * R * R).
(** the polygons next to the intersection curves *)
Variable adjacent : list nat.

(** The point a is in front of the face f (on the side its normal points to), at the height of the point b of the face; behind it. *)
Definition in_front (f : nat) (a b : R * R * R) : Prop := (0 < scalar_product (normal f) (difference a b))%R.
Definition at_back (f : nat) (a b : R * R * R) : Prop := (scalar_product (normal f) (difference a b) < 0)%R.
(** The side number i of the polygon p is h; it is not on a curve, and coming from the front ends in a point of the face f. *)
Definition arrives (p i h f : nat) : Prop :=
  exists polygon e, nth_error polygons p = Some polygon /\ nth_error polygon i = Some h /\ ~ cut h /\ crossing cnt registry (tgt h) e f /\ in_front f (position (src h)) (position (tgt h)).
(** The polygon number p goes on with g after its side number i. *)
Definition goes_on (p i g : nat) : Prop := exists polygon, nth_error polygons p = Some polygon /\ nth_error polygon ((i + 1) mod length polygon) = Some g.

(** p is above the cut mesh: it comes to the cut mesh from the front. *)
Definition above (p : nat) : Prop := In p adjacent /\ exists i h f, arrives p i h f.
(** q lies on the other side of the curve along which p continues when it has come to the cut mesh from the front. *)
Definition behind (p q : nat) : Prop := In p adjacent /\ exists i h f g, arrives p i h f /\ goes_on p i g /\ q < sm_count /\ side polygons q (opp g).
Definition below (q : nat) : Prop := exists p, behind p q.

(** The polygons and points are those of a cut:
    polygons next to the curves are polygons of the source mesh, and their corners on the cut mesh are recorded; *)
Record scene (source_edge cut_face : nat -> Prop) : Prop := {
  sc_source : forall p, In p adjacent -> p < length polygons;
  sc_registry : forall p h, In p adjacent -> side polygons p h -> cnt <= tgt h -> exists e f, crossing cnt registry (tgt h) e f;
  (** the ends of a piece of a curve are points on curves; *)
  sc_curve : forall p h, In p adjacent -> side polygons p h -> cut h -> cnt <= src h;
  (** a side that is not on a curve runs along an edge of the source mesh, which meets a face of the cut mesh; *)
  sc_along : forall p h e f, In p adjacent -> side polygons p h -> ~ cut h -> crossing cnt registry (tgt h) e f -> source_edge e /\ cut_face f;
  (** having come to the cut mesh a polygon goes along a curve, with one polygon of the source mesh on the other side. *)
  sc_turn : forall p i h f g, In p adjacent -> arrives p i h f -> goes_on p i g -> exists q, q < sm_count /\ side polygons q (opp g);
  sc_one : forall p i h f g q q', In p adjacent -> arrives p i h f -> goes_on p i g -> q < sm_count -> q' < sm_count -> side polygons q (opp g) -> side polygons q' (opp g) -> q = q' }.

(** No polygon lies between two sheets of the cut mesh that face the same way. *)
Definition one_sided : Prop := forall p, above p -> below p -> False.
End Spec.

(** The arguments [P] of the splitting into components, with other lists. *)
Definition with_lists (P : params) (b a : list nat) : params :=
  Params (base_offset P) (map Z.of_nat b) (map Z.of_nat a) (seam_flags P) (m1_to_m0_sm P) (m1_to_m0_cm P) (m1_to_m0_face P) (m0_to_ps_vtx P) (m0_to_ps_face P)
    (ps_to_sm_vtx P) (ps_to_sm_face P) (ps_to_cm_vtx P) (ps_to_cm_face P) (ExtractModel.sm_vtx_cnt P) (ExtractModel.sm_face_count P) (want_vmaps P) (want_fmaps P) (keep_below P) (keep_above P) (keep_partial P).

(** The component of polygon [i] contains a polygon with the property [Q]. *)
Definition has (inm : hmesh) (vss : list (list Z)) (Q : nat -> Prop) (i : Z) : Prop := exists j, ExtractSpec.together inm vss i (Z.of_nat j) /\ Q j.
(** The location that the component of polygon [i] has to get. *)
Definition right_location (inm : hmesh) (vss : list (list Z)) (above below : nat -> Prop) (i : Z) (l : location) : Prop :=
  match l with
  | Above => has inm vss above i /\ ~ has inm vss below i
  | Below => has inm vss below i /\ ~ has inm vss above i
  | Undefined => has inm vss above i /\ has inm vss below i
  end.
