(** Specification side of the half-edge mesh: which calls are allowed, histories of calls,
    and what a consistent mesh is, in terms of the query functions of the API. *)
From Coq Require Import List ZArith.
From Verif Require Import Vec HmeshModel.
Import ListNotations.
Open Scope Z_scope.

(** An element is live if its slot exists and is not in the list of removed slots. *)
Definition live_vertex m v := 0 <= v < zlen (verts m) /\ ~ In v (rv m).
Definition live_edge m e := 0 <= e < zlen (edges m) /\ ~ In e (re m).
Definition live_halfedge m h := 0 <= h < zlen (hes m) /\ ~ In h (rh m).
Definition live_face m f := 0 <= f < zlen (faces m) /\ ~ In f (rf m).

(** Calls. *)
Inductive op :=
| OVertex (p : point) | OEdge (a b : Z) | OFace (vi : list Z)
| ORemoveFace (f : Z) | ORemoveEdge (e : Z) | ORemoveVertex (v : Z) | OReset.

(** What the API requires (the MCUT_ASSERTs of the functions, and distinct vertices). *)
Definition allowed (m : hmesh) (o : op) : Prop :=
  match o with
  | OVertex _ | OReset => True
  | OEdge a b => live_vertex m a /\ live_vertex m b /\ a <> b
  | OFace vi => (3 <= length vi)%nat /\ NoDup vi /\ forall v, In v vi -> live_vertex m v
  | ORemoveFace f => live_face m f
  | ORemoveEdge e => live_edge m e /\ face m (edge_halfedge e 0) = Some null /\
                     face m (edge_halfedge e 1) = Some null
  | ORemoveVertex v => live_vertex m v /\ exists d, vget (verts m) v = Some d /\ vhs d = []
  end.

(** Effect of a successful call. *)
Definition exec (m : hmesh) (o : op) : option hmesh :=
  match o with
  | OVertex p => option_map snd (add_vertex m p)
  | OEdge a b => option_map snd (add_edge m a b)
  | OFace vi => match add_face m vi with Added _ m' => Some m' | _ => None end
  | ORemoveFace f => remove_face m f
  | ORemoveEdge e => remove_edge m e
  | ORemoveVertex v => remove_vertex m v
  | OReset => Some hempty
  end.

(** Meshes that can be obtained by allowed calls, no insertion of a face having been
    rejected (the rejected case is property C15). *)
Inductive history : hmesh -> Prop :=
| hist_nil : history hempty
| hist_op m o m' : history m -> allowed m o -> exec m o = Some m' -> history m'.

(** Consistency of the connectivity, in terms of the queries. *)
Record consistent (m : hmesh) : Prop := {
  (* opposite: an involution without fixed points that stays inside an edge *)
  k_opposite : forall h, live_halfedge m h ->
    live_halfedge m (opposite h) /\ opposite h <> h /\ opposite (opposite h) = h /\
    edge_of (opposite h) = edge_of h /\ live_edge m (edge_of h) /\
    (h = edge_halfedge (edge_of h) 0 \/ h = edge_halfedge (edge_of h) 1);
  (* an edge is its two half-edges *)
  k_edge : forall e, live_edge m e ->
    live_halfedge m (edge_halfedge e 0) /\ live_halfedge m (edge_halfedge e 1) /\
    opposite (edge_halfedge e 0) = edge_halfedge e 1;
  (* end points: live, distinct, exchanged by opposite *)
  k_ends : forall h, live_halfedge m h -> exists a b,
    source m h = Some a /\ target m h = Some b /\ a <> b /\ live_vertex m a /\ live_vertex m b /\
    source m (opposite h) = Some b /\ target m (opposite h) = Some a;
  (* the half-edges of a face form a cycle that next/prev follow *)
  k_face : forall f, live_face m f -> exists hs,
    get_halfedges_around_face m f = Some hs /\ (3 <= length hs)%nat /\ NoDup hs /\
    (forall h, In h hs -> live_halfedge m h /\ face m h = Some f) /\
    (forall a b, In (a, b) (cyc_pairs hs) ->
       next m a = Some b /\ prev m b = Some a /\ target m a = source m b);
  (* a half-edge that has a face is one of the half-edges of that (live) face *)
  k_he_face : forall h f, live_halfedge m h -> face m h = Some f -> f <> null ->
    live_face m f /\ exists hs, get_halfedges_around_face m f = Some hs /\ In h hs;
  (* the list kept at a vertex is the set of half-edges that point to it *)
  k_vertex : forall v d, live_vertex m v -> vget (verts m) v = Some d ->
    NoDup (vhs d) /\ forall h, In h (vhs d) <-> live_halfedge m h /\ target m h = Some v }.

(** Cyclic shift by one: reading a face starts at the target of its first edge. *)
Definition rotate1 (l : list Z) : list Z := match l with [] => [] | a :: r => r ++ [a] end.

(** What is visible of the old content of [m] is still visible in [m']. *)
Definition preserves (m m' : hmesh) : Prop :=
  (forall v, live_vertex m v -> live_vertex m' v /\
     option_map vpt (vget (verts m') v) = option_map vpt (vget (verts m) v)) /\
  (forall f, live_face m f -> live_face m' f /\
     get_halfedges_around_face m' f = get_halfedges_around_face m f /\
     get_vertices_around_face m' f = get_vertices_around_face m f) /\
  (forall h, live_halfedge m h -> live_halfedge m' h /\
     source m' h = source m h /\ target m' h = target m h /\
     (forall f, face m h = Some f -> f <> null ->
        face m' h = Some f /\ next m' h = next m h /\ prev m' h = prev m h)).

(** Live slots, in increasing order. *)
Definition live_slots (len : Z) (removed : list Z) : list Z :=
  filter (fun i => if in_dec Z.eq_dec i removed then false else true) (zrange len).
