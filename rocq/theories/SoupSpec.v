(** Specification of the combined mesh of the kernel. *)
From Coq Require Import List ZArith.
From Verif Require Import Vec HmeshModel HmeshSpec PartSpec SoupModel.
Import ListNotations.
Open Scope Z_scope.

(** Along the border of [f] one goes from [s] to [t]. *)
Definition borders (m : hmesh) (s t f : Z) : Prop :=
  exists h, live_halfedge m h /\ source m h = Some s /\ target m h = Some t /\ face m h = Some f.
(** An edge joins [s] and [t]. *)
Definition joined_by_edge (m : hmesh) (s t : Z) : Prop :=
  exists h, live_halfedge m h /\ source m h = Some s /\ target m h = Some t.
Definition point_of (m : hmesh) (v : Z) : option point := option_map vpt (vget (verts m) v).

(** [ps] is the union of the two meshes: first the elements of [sm], then those of [cs], each with their
    own numbers, shifted by the number of elements of [sm]; nothing joins the two. *)
Record union (sm cs ps : hmesh) : Prop := {
  u_nv : number_of_vertices ps = number_of_vertices sm + number_of_vertices cs;
  u_nf : number_of_faces ps = number_of_faces sm + number_of_faces cs;
  u_v : forall v, live_vertex ps v <-> live_vertex sm v \/ exists c, live_vertex cs c /\ v = number_of_vertices sm + c;
  u_f : forall f, live_face ps f <-> live_face sm f \/ exists c, live_face cs c /\ f = number_of_faces sm + c;
  u_vs : forall v, live_vertex sm v -> v < number_of_vertices sm /\ point_of ps v = point_of sm v;
  u_vc : forall c, live_vertex cs c -> point_of ps (number_of_vertices sm + c) = point_of cs c;
  u_fs : forall f, live_face sm f -> f < number_of_faces sm /\ get_vertices_around_face ps f = get_vertices_around_face sm f;
  u_fc : forall c r, around cs c r -> around ps (number_of_faces sm + c) (map (Z.add (number_of_vertices sm)) r);
  u_borders : forall s t f, f <> null -> (borders ps s t f <->
     borders sm s t f \/ exists s' t' f', f' <> null /\ borders cs s' t' f' /\
       s = number_of_vertices sm + s' /\ t = number_of_vertices sm + t' /\ f = number_of_faces sm + f');
  u_edges : forall s t, joined_by_edge ps s t <->
     joined_by_edge sm s t \/ exists s' t', joined_by_edge cs s' t' /\ s = number_of_vertices sm + s' /\ t = number_of_vertices sm + t' }.

(** The tables lead back to the elements of the inputs. *)
Record tables (sm cs : hmesh) (S : soup) : Prop := {
  t_sv : forall v, live_vertex sm v -> vget (s_to_sm_vtx S) v = Some v;
  t_sf : forall f, live_face sm f -> vget (s_to_sm_face S) f = Some f;
  t_cv : forall c, live_vertex cs c -> vget (s_to_cm_vtx S) (number_of_vertices sm + c) = Some c;
  t_cf : forall c, live_face cs c -> vget (s_to_cm_face S) (number_of_faces sm + c) = Some c }.

(** The auxiliary mesh has the vertices of the combined mesh and nothing else. *)
Record vertex_copy (ps : hmesh) (S : soup) : Prop := {
  vc_v : forall v, live_vertex (s_m0 S) v <-> live_vertex ps v;
  vc_pt : forall v, live_vertex ps v -> point_of (s_m0 S) v = point_of ps v;
  vc_e : forall e, ~ live_edge (s_m0 S) e;
  vc_f : forall f, ~ live_face (s_m0 S) f;
  vc_t : forall v, live_vertex ps v -> vget (s_m0_to_ps S) v = Some v /\ vget (s_ps_to_m0 S) v = Some v;
  vc_len : zlen (s_m0_to_ps S) = number_of_vertices ps }.
