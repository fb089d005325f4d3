(** Specification of the conversion of user arrays. *)
From Coq Require Import List ZArith.
From Verif Require Import Vec HmeshModel HmeshSpec.
Import ListNotations.
Open Scope Z_scope.

(** The arrays describe the list [fs] of faces: the index array starts with the
    concatenation of the faces; the size array holds their lengths, and may only be
    absent if they are all triangles. *)
Definition describes (sizes : option (list Z)) (idx : list Z) (fs : list (list Z)) : Prop :=
  (exists rest, idx = concat fs ++ rest) /\
  match sizes with
  | Some l => l = map zlen fs
  | None => forall f, In f fs -> length f = 3%nat
  end.

(** The pairs of consecutive vertices of a face, the last one closing the cycle. *)
Definition directed_edges (f : list Z) : list (Z * Z) := combine f (rotate1 f).

Record well_formed (nv : Z) (fs : list (list Z)) : Prop := {
  wf_size : forall f, In f fs -> (3 <= length f)%nat;
  wf_range : forall f v, In f fs -> In v f -> 0 <= v < nv;
  wf_distinct : forall f, In f fs -> NoDup f;
  wf_manifold : NoDup (concat (map directed_edges fs)) }.

(** [m] is the mesh with exactly these vertices and faces, numbered as in the arrays. *)
Record mirrors (coords : list point) (fs : list (list Z)) (m : hmesh) : Prop := {
  mr_nv : number_of_vertices m = zlen coords;
  mr_nf : number_of_faces m = zlen fs;
  mr_v : forall i, live_vertex m i <-> 0 <= i < zlen coords;
  mr_pt : forall i p, vget coords i = Some p -> option_map vpt (vget (verts m) i) = Some p;
  mr_f : forall i, live_face m i <-> 0 <= i < zlen fs;
  mr_face : forall i f, vget fs i = Some f -> get_vertices_around_face m i = Some (rotate1 f);
  (* every edge of the mesh is an edge of some face *)
  mr_edges : forall s t h, live_halfedge m h -> source m h = Some s -> target m h = Some t ->
    In (s, t) (concat (map directed_edges fs)) \/ In (t, s) (concat (map directed_edges fs)) }.
