(** Joining the intersection points by edges.  kernel.cpp:3385-3550, with ps_get_ivtx_registry_entry_faces (1409-1418) and update_neighouring_ps_iface_m0_edge_list (1422-1495).

    Vertices, edges and faces are numbers as in SplitModel and PointsModel; before this step m0 has no edges, so the edges made here are 0, 1, ... (m0_cutpath_edges).  The state is that of
    SplitModel, which goes on from here.  Access out of range is [None].  The coordinates are real numbers and every operation is followed by [rnd]. *)
From Coq Require Import List Arith Bool Reals.
From Verif Require Import CutModel SplitModel.
Import ListNotations.

Section Join.
Variable rnd : R -> R.
Variable sort : list (nat * R) -> list (nat * R).
(** m0.vertex: coordinates *)
Variable position : nat -> vec.
(** the faces of the two halfedges of an edge, if there are *)
Variable psf : nat -> option nat * option nat.
(** m0_ivtx_to_intersection_registry_entry: for every intersection point the edge and the face that meet there *)
Variable registry : list (nat * nat).
(** ps_vtx_cnt *)
Variable cnt : nat.
(** hmesh.cpp:767-791  ps.get_faces_around_face: the faces beyond the sides, without null *)
Variable faces_around : nat -> list nat.
(** compute_point_in_polygon_test(point, vertices of the face, normal vector, largest component) == 'i' (GeoModel) *)
Variable inside : nat -> vec -> bool.

(** kernel.cpp:1409-1418 *)
Definition registry_faces (v : nat) : option (list (option nat)) :=
  if Nat.leb cnt v then let* p := nth_error registry (v - cnt) in Some [Some (snd p); fst (psf (fst p)); snd (psf (fst p))] else None.
(** std::find(faces.cbegin(), faces.cend(), f) != faces.cend() for a face f that is not null *)
Definition is_in (f : nat) (fs : list (option nat)) : bool := existsb (fun g => match g with Some g => Nat.eqb f g | None => false end) fs.

(** hmesh.cpp:302-353  m0.halfedge(s, t, true) != null: s and t are the ends of an edge *)
Definition edge_exists (es : list (nat * nat)) (s t : nat) : bool :=
  existsb (fun e => (Nat.eqb (fst e) s && Nat.eqb (snd e) t) || (Nat.eqb (fst e) t && Nat.eqb (snd e) s)) es.

(** kernel.cpp:1422-1495: the neighbours of the two faces that are faces of both points get the edge, if they do not have it *)
Definition update_neighbours (src tgt sm_face cm_face edge : nat) (m : list (nat * list nat)) : option (list (nat * list nat)) :=
  let* src_registry := registry_faces src in
  let* tgt_registry := registry_faces tgt in
  Some (fold_left (fun m f =>
    if is_in f src_registry && is_in f tgt_registry then
      match lookup m f with
      | Some list => if existsb (Nat.eqb edge) list then m else push m f edge
      | None => push m f edge
      end
    else m) (faces_around sm_face ++ faces_around cm_face) m).

(** kernel.cpp:3396-3433: two points *)
Definition join_two (sm_face cm_face first second : nat) (s : state) : option state :=
  if edge_exists (edges s) first second then Some s
  else
    let e := length (edges s) in
    let* m := update_neighbours first second sm_face cm_face e (push (push (iface s) sm_face e) cm_face e) in
    Some {| edges := edges s ++ [(first, second)]; iface := m; incoming := push (push (incoming s) second (2 * e)) first (2 * e + 1); along := along s; same := same s |}.

(** kernel.cpp:3490: (tgt + src) * 0.5; math.h:227-240 *)
Definition midpoint (src tgt : vec) : vec :=
  match tgt, src with (x, y, z), (x', y', z') => (rnd (rnd (x + x') * (1 / 2)), rnd (rnd (y + y') * (1 / 2)), rnd (rnd (z + z') * (1 / 2)))%R end.
(** kernel.cpp:3453-3548: one pair of neighbours on the line *)
Definition join_next (s : state) (src tgt : nat) : option state :=
  if edge_exists (edges s) src tgt then Some s
  else
    let* src_faces := registry_faces src in
    let* tgt_faces := registry_faces tgt in
    let shared := flat_map (fun f => match f with Some f => if is_in f tgt_faces then [f] else [] | None => [] end) src_faces in
    let containing := filter (fun f => inside f (midpoint (position src) (position tgt))) shared in
    if Nat.eqb (length containing) 2 then
      let e := length (edges s) in
      Some {| edges := edges s ++ [(src, tgt)]; iface := fold_left (fun m f => push m f e) containing (iface s); incoming := push (push (incoming s) tgt (2 * e)) src (2 * e + 1);
              along := along s; same := same s |}
    else Some s.
Fixpoint join_row (s : state) (vs : list nat) : option state :=
  match vs with src :: ((tgt :: _) as vs') => let* s := join_next s src tgt in join_row s vs' | _ => Some s end.
(** kernel.cpp:3385-3550: one entry of cutpath_edge_creation_info *)
Definition join_entry (s : state) (entry : (nat * nat) * list nat) : option state :=
  match snd entry with
  | [first; second] => join_two (fst (fst entry)) (snd (fst entry)) first second s
  | _ :: _ :: _ :: _ => let* vs := linear_projection_sort rnd sort (map (fun v => (v, position v)) (snd entry)) in join_row s vs
  | _ => Some s
  end.
(** kernel.cpp:3385-3550 *)
Definition join_points (cutpath_edge_creation_info : list ((nat * nat) * list nat)) : option state :=
  fold_left (fun s entry => let* s := s in join_entry s entry) cutpath_edge_creation_info (Some nothing).
End Join.
