(** Specification of the triangulation queries. *)
From Coq Require Import List ZArith Permutation.
From Verif Require Import Vec HmeshModel ParModel DataModel DataSpec TriModel.
Import ListNotations.
Open Scope Z_scope.

(** [l] is made of groups of three *)
Definition triples (l : list Z) (ts : list (list Z)) : Prop := l = concat ts /\ forall t, In t ts -> zlen t = 3.

(** What the theorems assume of the triangulation of single faces: triangles between the vertices
    of the face (see [triangulate_face_triples] for the part of triangulate_face that is
    modelled). *)
Definition triangulates (m : hmesh) (tri : Z -> option (list Z)) : Prop :=
  forall f vs, get_vertices_around_face m f = Some vs -> zlen vs <> 3 ->
    exists ls ts, tri f = Some ls /\ triples ls ts /\ forall i, In i ls -> 0 <= i < zlen vs.

(** [ts] are the triangles made from face [f]: the face itself if it is a triangle, otherwise
    those of its triangulation *)
Definition made_from (m : hmesh) (tri : Z -> option (list Z)) (f : Z) (ts : list (list Z)) : Prop :=
  exists vs, get_vertices_around_face m f = Some vs /\
    ((zlen vs = 3 /\ ts = [vs]) \/
     (zlen vs <> 3 /\ exists ls, tri f = Some ls /\ triples (map (fun i => nth (Z.to_nat i) vs 0) ls) ts)).

(** [u] is the user's face that the face map gives for face [f] *)
Definition names (c : cc) (f u : Z) : Prop := exists k, vget (c_fmap c) f = Some k /\ u = user_face c k.

(** Entry [t] of the map names a face that has the vertices of triangle [t] of the array. *)
Definition lines_up (c : cc) (idx fm : list Z) : Prop :=
  zlen idx = 3 * zlen fm /\
  forall t, 0 <= t < zlen fm -> exists f vs u,
    get_vertices_around_face (c_mesh c) f = Some vs /\ vget fm t = Some u /\ names c f u /\
    forall j, 0 <= j < 3 -> exists v, vget idx (3 * t + j) = Some v /\ In v vs.

(** number of indices of the triangulation *)
Definition tri_total (c : cc) (tri : Z -> option (list Z)) : Z :=
  fold_right Z.add 0 (map (fun f => match face_local c tri false f with Some p => zlen (fst p) | None => 0 end)
                          (zrange (zlen (faces (c_mesh c))))).
