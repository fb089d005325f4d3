(** Specification of connected components. *)
From Coq Require Import List ZArith Relations.
From Verif Require Import Vec HmeshModel HmeshSpec CompModel.
Import ListNotations.
Open Scope Z_scope.

(** [a] and [b] are the end points of an edge of the mesh. *)
Definition adjacent (m : hmesh) (a b : Z) : Prop :=
  exists h, live_halfedge m h /\ source m h = Some a /\ target m h = Some b.
(** There is a path of edges from [a] to [b]. *)
Definition connected (m : hmesh) : Z -> Z -> Prop := clos_refl_trans Z (adjacent m).

(** Vertices and faces are numbered without gaps (as after the conversion of user arrays, C17). *)
Definition dense (m : hmesh) : Prop :=
  (forall v, live_vertex m v <-> 0 <= v < number_of_vertices m) /\
  (forall f, live_face m f <-> 0 <= f < number_of_faces m).

(** [reps] picks one vertex of every component: component [k] is what is connected to the
    [k]-th of them. *)
Record describes_components (m : hmesh) (reps : list Z) (r : components) : Prop := {
  dc_n : n_components r = zlen reps;
  dc_live : forall v, In v reps -> live_vertex m v;
  (* every vertex belongs to a component, and to one only *)
  dc_cover : forall v, live_vertex m v -> exists k u, vget reps k = Some u /\ connected m u v;
  dc_disjoint : forall i j u v, vget reps i = Some u -> vget reps j = Some v -> connected m u v -> i = j;
  (* the number of a face is that of all its vertices *)
  dc_flen : zlen (face_component r) = number_of_faces m;
  dc_face : forall f vs, live_face m f -> get_vertices_around_face m f = Some vs ->
    exists k u, vget (face_component r) f = Some k /\ vget reps k = Some u /\ forall v, In v vs -> connected m u v;
  (* counts *)
  dc_vcount : forall k u, vget reps k = Some u -> exists l, NoDup l /\
    (forall v, In v l <-> live_vertex m v /\ connected m u v) /\ vget (vertices_in r) k = Some (zlen l);
  dc_fcount : forall k u, vget reps k = Some u -> exists l, NoDup l /\
    (forall f, In f l <-> live_face m f /\ vget (face_component r) f = Some k) /\ vget (faces_in r) k = Some (zlen l);
  dc_lens : zlen (vertices_in r) = zlen reps /\ zlen (faces_in r) = zlen reps }.
