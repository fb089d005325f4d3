(** Model of [extract_connected_components] (source/kernel.cpp:394-1135): the traced polygons are
    inserted into a copy of the intersection mesh, that mesh is split into connected components, and
    each component that the caller wants is saved as a mesh of its own with location, seam
    vertices, and maps to the input meshes.

    Simplifications, for the whole file: the tables keyed by component number ([ccID_to_...],
    std::map) are one vector of optional records, indexed by the number (its entries in
    increasing order are the iteration order of the maps); std::unordered_map is an association
    list, the first entry of a key being the one that counts; int and vd_t/fd_t are
    unbounded, the null descriptor is [null]; EXTRACT_SEAM_HALFEDGES is undefined, as in
    the code.  [None] = an out-of-range access or a missing key (std::out_of_range), or a loop that
    exceeds its fuel. *)
From Coq Require Import List ZArith Bool.
From Verif Require Import Vec HmeshModel ParModel CompModel.
Import ListNotations.
Open Scope Z_scope.

(** kernel.h [sm_frag_location_t] *)
Inductive location := Above | Below | Undefined.

(** The parameters (kernel.cpp:400-429) *)
Record params := Params {
  base_offset : Z; below_list : list Z; above_list : list Z; seam_flags : list bool;
  m1_to_m0_sm : list Z; m1_to_m0_cm : list (Z * Z); m1_to_m0_face : list (Z * Z);
  m0_to_ps_vtx : list Z; m0_to_ps_face : list (Z * Z);
  ps_to_sm_vtx : list Z; ps_to_sm_face : list Z; ps_to_cm_vtx : list Z; ps_to_cm_face : list Z;
  sm_vtx_cnt : Z; sm_face_count : Z; want_vmaps : bool; want_fmaps : bool;
  keep_below : bool; keep_above : bool; keep_partial : bool }.

(** One component: kernel.cpp:547-560, 754 ([ccID_to_mesh], [ccID_to_mX_to_cc_vertex],
    [ccID_to_cc_to_mX_vertex], [cc_to_seam_vertices], [ccID_to_cs_descriptor], [ccID_to_cc_to_mX_face]) *)
Record comp := Comp { c_mesh : hmesh; c_map : list (Z * Z); c_back : list Z; c_seam : list Z; c_loc : option location; c_faces : list Z }.
Definition comp_new : comp := Comp hempty [] [] [] None [].

Fixpoint lookup (l : list (Z * Z)) (k : Z) : option Z :=
  match l with
  | [] => None
  | (a, b) :: r => if a =? k then Some b else lookup r k
  end.

(** std::binary_search (used at l. 627, 645): std::lower_bound, then a comparison *)
Fixpoint lower_bound (fuel : nat) (l : list Z) (first len x : Z) : option Z :=
  if len <=? 0 then Some first
  else match fuel with
       | O => None
       | S k => let half := len / 2 in
                do y <- vget l (first + half);
                if y <? x then lower_bound k l (first + half + 1) (len - half - 1) x
                else lower_bound k l first half x
       end.
Definition binary_search (l : list Z) (x : Z) : option bool :=
  do i <- lower_bound (length l) l 0 (zlen l) x;
  if i =? zlen l then Some false else do y <- vget l i; Some (negb (x <? y)).

(** kernel.cpp:443-538: insertion of the traced polygons (a polygon is a list of half-edges of
    [mesh]).  With the thread pool the vertices are read before the first insertion, from [inm] (l. 451-493);
    otherwise just before the insertion (l. 525-530).  A polygon that is refused is skipped (the check is
    an MCUT_ASSERT). *)
Definition insert_polygon (pool : option Z) (inm : hmesh) (polys : list (list Z)) (mesh : hmesh) (i : Z) : option hmesh :=
  do p <- vget polys i;
  do vs <- omap (target (match pool with Some _ => inm | None => mesh end)) p;
  match add_face mesh vs with
  | Added _ m' => Some m'
  | Rejected m' => Some m'
  | AddUB => None
  end.

(** kernel.cpp:626-659: location of a component, given whether the current face is in the
    lists of polygons below and above *)
Definition add_location (l : option location) (isb isa : bool) : option location :=
  let l1 := if isb then match l with None => Some Below | Some Above => Some Undefined | _ => l end else l in
  if isa then match l1 with None => Some Above | Some Below => Some Undefined | _ => l1 end else l1.

(** kernel.cpp:676-729: one vertex of the current face *)
Definition map_vertex (P : params) (mesh : hmesh) (c : comp) (v : Z) : option comp :=
  match lookup (c_map c) v with
  | Some _ => Some c
  | None =>
      do d <- vget (verts mesh) v;
      do r <- add_vertex (c_mesh c) (vpt d);
      let (cv, cm) := r in
      do seam <- (if v <? zlen (seam_flags P) then vget (seam_flags P) v else Some false);
      Some (Comp cm (c_map c ++ [(v, cv)]) (if want_vmaps P then c_back c ++ [v] else c_back c)
              (if seam then c_seam c ++ [cv] else c_seam c) (c_loc c) (c_faces c))
  end.

(** kernel.cpp:587-730: one face *)
Definition map_face_vertices (P : params) (mesh : hmesh) (fcc : list Z) (cs : list (option comp)) (f : Z) : option (list (option comp)) :=
  do k <- vget fcc f;
  do oc <- vget cs k;
  let c := match oc with Some c => c | None => comp_new end in
  do isb <- binary_search (below_list P) f;
  do isa <- binary_search (above_list P) f;
  let c1 := Comp (c_mesh c) (c_map c) (c_back c) (c_seam c) (add_location (c_loc c) isb isa) (c_faces c) in
  do vs <- get_vertices_around_face mesh f;
  do c2 <- ofold (map_vertex P mesh) vs c1;
  vset cs k (Some c2).

(** kernel.cpp:736-746 *)
Definition keep_flag (P : params) (c : comp) : bool :=
  match c_loc c with
  | None => true
  | Some Above => keep_above P
  | Some Below => keep_below P
  | Some Undefined => keep_partial P
  end.

(** kernel.cpp:785-828, 857-877 (thread pool) and 909-958: one face is translated and added to its
    component *)
Definition insert_face (P : params) (mesh : hmesh) (fcc : list Z) (cs : list (option comp)) (f : Z) : option (list (option comp)) :=
  do k <- vget fcc f;
  do oc <- vget cs k;
  match oc with
  | None => None
  | Some c =>
      if negb (keep_flag P c) then Some cs
      else
        do vs <- get_vertices_around_face mesh f;
        do ws <- omap (lookup (c_map c)) vs;
        do cm <- (match add_face (c_mesh c) ws with Added _ m' => Some m' | Rejected m' => Some m' | AddUB => None end);
        vset cs k (Some (Comp cm (c_map c) (c_back c) (c_seam c) (c_loc c) (if want_fmaps P then c_faces c ++ [f] else c_faces c)))
  end.

(** kernel.cpp:1032-1079: the input vertex from which a vertex of "mesh" stems *)
Definition vertex_map_value (P : params) (v : Z) : option Z :=
  let m0 := if v <? zlen (m1_to_m0_sm P) then match vget (m1_to_m0_sm P) v with Some x => x | None => null end
            else if negb (zlen (m1_to_m0_cm P) =? 0) then match lookup (m1_to_m0_cm P) v with Some x => x | None => null end
            else null in
  let m0 := if m0 =? null then v else m0 in
  if m0 <? zlen (m0_to_ps_vtx P) then
    do ps <- vget (m0_to_ps_vtx P) m0;
    if sm_vtx_cnt P <=? ps then do x <- vget (ps_to_cm_vtx P) ps; Some (x + sm_vtx_cnt P)
    else vget (ps_to_sm_vtx P) ps
  else Some null.

(** kernel.cpp:1096-1122: the input face from which face [f] of "mesh" stems *)
Definition face_map_value (P : params) (f : Z) : option Z :=
  let off := base_offset P + f in
  do m0 <- (if 0 <? zlen (m1_to_m0_face P) then lookup (m1_to_m0_face P) off else Some off);
  do ps <- lookup (m0_to_ps_face P) m0;
  if sm_face_count P <=? ps then do x <- vget (ps_to_cm_face P) ps; Some (x + sm_face_count P)
  else vget (ps_to_sm_face P) ps.

(** [connected_component_info_t] *)
Record info := Info { i_location : location; i_seam : list Z; i_vmap : list Z; i_fmap : list Z }.

(** A vector of [n] null values, entry [i] of which is overwritten for each [i] of [l]
    (l. 1024-1082, 1091-1126) *)
Definition fill (n : Z) (g : Z -> option Z) (l : list Z) : option (list Z) :=
  ofold (fun acc i => do x <- g i; vset acc i x) l (repeat null (Z.to_nat n)).

(** kernel.cpp:999-1130: what is appended to [connected_components[cc_id]]; [last_size]: the number
    of faces of the copy saved last under this key, if any *)
Definition save (P : params) (last_size : option Z) (c : comp) : option (option (hmesh * info)) :=
  let cc := c_mesh c in
  if match last_size with None => true | Some n => negb (n =? number_of_faces cc) end then
    do loc <- (if negb (zlen (below_list P) =? 0) && negb (zlen (above_list P) =? 0) then c_loc c else Some Undefined);
    do vm <- (if want_vmaps P then
                do is <- iterate (zlen (verts cc)) (rv cc);
                fill (number_of_vertices cc) (fun i => do v <- vget (c_back c) i; vertex_map_value P v) is
              else Some []);
    do fm <- (if want_fmaps P then
                do is <- iterate (zlen (faces cc)) (rf cc);
                fill (number_of_faces cc) (fun i => do f <- vget (c_faces c) i; face_map_value P f) is
              else Some []);
    Some (Some (cc, Info loc (c_seam c) vm fm))
  else Some None.

(** kernel.cpp:972-1131: the loop over the components, starting at component number [k] *)
Fixpoint save_all (P : params) (last : Z -> option Z) (k : Z) (cs : list (option comp)) : option (list (Z * (hmesh * info))) :=
  match cs with
  | [] => Some []
  | oc :: r =>
      do x <- (match oc with
               | None => Some None
               | Some c => if keep_flag P c then save P (last k) c else Some None
               end);
      do rest <- save_all P last (k + 1) r;
      Some (match x with None => rest | Some e => (k, e) :: rest end)
  end.

(** The order in which the polygons are inserted into "mesh" (l. 495-513: the blocks of the
    workers in order, then the block of the calling thread), and the order in which the faces
    are inserted into the components (l. 879-905: the block of the calling thread first).
    [pool]: the number of helper threads, or [None] for the build without helper threads, where both orders
    are the order of the indices.  The parallel loops only read shared data. *)
Definition polygon_order (pool : option Z) (n : Z) : option (list Z) :=
  match pool with
  | None => Some (zrange n)
  | Some t => match parallel_for_plan t n 1024 with
              | PlanOk workers master => Some (concat (map elements (workers ++ [master])))
              | _ => None
              end
  end.
Definition face_order (pool : option Z) (mesh : hmesh) : option (list Z) :=
  match pool with
  | None => iterate (zlen (faces mesh)) (rf mesh)
  | Some t => match parallel_for_plan t (number_of_faces mesh) 1024 with
              | PlanOk workers master => Some (concat (map elements (master :: workers)))
              | _ => None
              end
  end.

(** kernel.cpp:394-1135.  [last k]: the number of faces of the last mesh in [connected_components[k]] when the function is called.  The
    result lists what the call appends. *)
Definition extract (fuel : nat) (pool : option Z) (P : params) (last : Z -> option Z) (inm : hmesh) (polys : list (list Z))
  : option (list (Z * (hmesh * info))) :=
  do porder <- polygon_order pool (zlen polys);
  do mesh <- ofold (insert_polygon pool inm polys) porder inm;
  do r <- find_connected_components fuel mesh;
  do fs <- iterate (zlen (faces mesh)) (rf mesh);
  do cs <- ofold (map_face_vertices P mesh (face_component r)) fs (repeat None (Z.to_nat (n_components r)));
  do forder <- face_order pool mesh;
  do cs' <- ofold (insert_face P mesh (face_component r)) forder cs;
  save_all P last 0 cs'.
