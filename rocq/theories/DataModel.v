(** Model of the connected-component data queries that copy arrays
    (source/frontend.cpp:1847-2824 and 3076-3301,
    [get_connected_component_data_impl_detail]), in the default build
    (MCUT_WITH_COMPUTE_HELPER_THREADPOOL defined, MCUT_ASSERT compiled out).

    The user's buffer is an array of elements of the type stored by the query; a query that
    writes to it is modelled by the stores of each of its threads, (element offset, value)
    in program order.  The mesh of the component is assumed to have no removed slots where the
    theorems say so: iterators are then plain positions. *)
From Coq Require Import List ZArith Bool.
From Verif Require Import Vec HmeshModel ParModel HmeshParModel ParSumModel.
Import ListNotations.
Open Scope Z_scope.

(** A component (include/mcut/internal/frontend.h:209-270): the kernel's mesh with its seam
    vertices and maps, the data about the inputs needed to translate the maps, and the caches
    ([None] = the "..._initialized" flag is false).  The unordered maps are association lists;
    of the partition vertices only the keys matter. *)
Record cc := CC {
  c_type : Z;                       (* McConnectedComponentType *)
  c_mesh : hmesh;
  c_seam : list Z;                  (* kernel_hmesh_data->seam_vertices *)
  c_vmap : list Z;                  (* data_maps.vertex_map *)
  c_fmap : list Z;                  (* data_maps.face_map *)
  c_perturbation : Z * Z * Z;
  c_fragloc : Z; c_patchloc : Z; c_seal : Z; c_origin : Z;
  c_src_birth : list (Z * Z);       (* source_hmesh_child_to_usermesh_birth_face *)
  c_cut_birth : list (Z * Z);       (* cut_hmesh_child_to_usermesh_birth_face (offset) *)
  c_src_part : list Z;              (* keys of source_hmesh_new_poly_partition_vertices *)
  c_cut_part : list Z;              (* keys of cut_hmesh_new_poly_partition_vertices (offset) *)
  c_isv : Z; c_csv : Z;             (* internal/client_sourcemesh_vertex_count *)
  c_isf : Z; c_csf : Z;             (* internal/client_sourcemesh_face_count *)
  c_fsize : option (list Z);        (* face_sizes_cache *)
  c_asize : option (list Z) }.      (* face_adjacent_faces_size_cache *)

Definition set_fsize c x :=
  CC (c_type c) (c_mesh c) (c_seam c) (c_vmap c) (c_fmap c) (c_perturbation c) (c_fragloc c)
     (c_patchloc c) (c_seal c) (c_origin c) (c_src_birth c) (c_cut_birth c) (c_src_part c)
     (c_cut_part c) (c_isv c) (c_csv c) (c_isf c) (c_csf c) x (c_asize c).
Definition set_asize c x :=
  CC (c_type c) (c_mesh c) (c_seam c) (c_vmap c) (c_fmap c) (c_perturbation c) (c_fragloc c)
     (c_patchloc c) (c_seal c) (c_origin c) (c_src_birth c) (c_cut_birth c) (c_src_part c)
     (c_cut_part c) (c_isv c) (c_csv c) (c_isf c) (c_csf c) (c_fsize c) x.

(** mcut.h:219-227 McConnectedComponentType *)
Definition TYPE_FRAGMENT := 2 ^ 0.
Definition TYPE_PATCH := 2 ^ 2.
Definition TYPE_SEAM := 2 ^ 3.
Definition TYPE_INPUT := 2 ^ 4.

(** Context and environment of a query: helper threads, winding option, conversion of a
    coordinate to float (static_cast<float>). *)
Record env := Env { e_pool : Z; e_flip : bool; e_float : Z -> Z }.

(** Where the result goes: a null pointer (size query; [bytes] is then 0, mcut.cpp:764) or a
    buffer of [bytes] bytes. *)
Inductive dest := Null | Buffer (bytes : Z).

(** What a query does. *)
Inductive reply :=
| Bytes (n : Z)                            (* *pNumBytes = n *)
| Throws                                   (* std::invalid_argument *)
| Stores (esz : Z) (threads : list (list (Z * Z)))  (* stores of elements of [esz] bytes *)
| Crash.                                   (* undefined behaviour *)

(** The blocks given to the threads by parallel_for (tpool.h:478-533), master last. *)
Definition par_blocks (pool len grain : Z) : option (list block) :=
  match parallel_for_plan pool len grain with
  | PlanOk w m => Some (w ++ [m])
  | _ => None
  end.

(** The sub-array a block ranges over. *)
Definition sub {A} (l : list A) (b : block) : list A :=
  firstn (Z.to_nat (blast b - bfirst b)) (skipn (Z.to_nat (bfirst b)) l).

(** [parallel_for] over an array [l] with a block function that stores; default grain
    1 << 10 (tpool.h:483). *)
Definition par_stores {A} (pool grain esz : Z) (l : list A) (f : Z -> list A -> list (Z * Z)) : reply :=
  match par_blocks pool (zlen l) grain with
  | Some bs => Stores esz (map (fun b => f (bfirst b) (sub l b)) bs)
  | None => Crash
  end.

(** frontend.cpp:1905-1931 [fn_copy_vertex_coords] for floats, from element [off]: the test is
    made before each vertex, with (elem_offset + 1) / 3. *)
Fixpoint copy_verts_float (cvt : Z -> Z) (n off : Z) (vs : list point) : list (Z * Z) :=
  match vs with
  | [] => []
  | (x, y, z) :: r =>
      if (off + 1) / 3 =? n then []
      else (off, cvt x) :: (off + 1, cvt y) :: (off + 2, cvt z) :: copy_verts_float cvt n (off + 3) r
  end.

(** frontend.cpp:1982-2007, doubles: the test uses elem_offset / 3. *)
Fixpoint copy_verts_double (n off : Z) (vs : list point) : list (Z * Z) :=
  match vs with
  | [] => []
  | (x, y, z) :: r =>
      if off / 3 =? n then []
      else (off, x) :: (off + 1, y) :: (off + 2, z) :: copy_verts_double n (off + 3) r
  end.

(** frontend.cpp:1881-1957 MC_CONNECTED_COMPONENT_DATA_VERTEX_FLOAT *)
Definition q_vertex_float (e : env) (c : cc) (d : dest) : reply :=
  let allocated := number_of_vertices (c_mesh c) * 4 * 3 in
  match d with
  | Null => Bytes allocated
  | Buffer bytes =>
      if allocated <? bytes then Throws else
      let nelems := bytes / 4 in
      if negb (nelems mod 3 =? 0) then Throws else
      let n := nelems / 3 in
      par_stores (e_pool e) 1024 4 (map vpt (verts (c_mesh c)))
                 (fun base vs => copy_verts_float (e_float e) n (base * 3) vs)
  end.

(** frontend.cpp:1958-2034 MC_CONNECTED_COMPONENT_DATA_VERTEX_DOUBLE *)
Definition q_vertex_double (e : env) (c : cc) (d : dest) : reply :=
  let allocated := number_of_vertices (c_mesh c) * 8 * 3 in
  match d with
  | Null => Bytes allocated
  | Buffer bytes =>
      if allocated <? bytes then Throws else
      let nelems := bytes / 8 in
      if negb (nelems mod 3 =? 0) then Throws else
      let n := nelems / 3 in
      par_stores (e_pool e) 1024 8 (map vpt (verts (c_mesh c)))
                 (fun base vs => copy_verts_double n (base * 3) vs)
  end.

(** frontend.cpp:2035-2051 MC_CONNECTED_COMPONENT_DATA_DISPATCH_PERTURBATION_VECTOR *)
Definition q_perturbation (c : cc) (d : dest) : reply :=
  match d with
  | Null => Bytes (8 * 3)
  | Buffer bytes =>
      if 8 * 3 <? bytes then Throws else
      if negb (bytes mod (8 * 3) =? 0) then Throws else
      let '(x, y, z) := c_perturbation c in
      Stores 8 [[(0, x); (1, y); (2, z)]]
  end.

(** A sequence of stores of consecutive elements starting at offset [off] (memcpy and the
    like). *)
Fixpoint store_all (off : Z) (l : list Z) : list (Z * Z) :=
  match l with
  | [] => []
  | x :: r => (off, x) :: store_all (off + 1) r
  end.

(** The rows of the faces / adjacent faces of a mesh, by increasing index. *)
Definition face_rows (m : hmesh) : option (list (list Z)) :=
  omap (get_vertices_around_face m) (zrange (zlen (faces m))).
Definition adj_rows (m : hmesh) : option (list (list Z)) :=
  omap (get_faces_around_face m) (zrange (zlen (faces m))).
(** hmesh.cpp:232-249: the two end points of an edge *)
Definition edge_ends (m : hmesh) (e : Z) : option (Z * Z) :=
  do a <- edge_vertex m e 0; do b <- edge_vertex m e 1; Some (a, b).

(** frontend.cpp:2056-2113 and 2353-2403, the size queries: sum in uint32 of the row lengths,
    each block summed by its thread and the master adding up ([wrap32] of the exact sum: the
    order of the additions does not matter); the empty range is a crash. *)
Definition count_indices (pool : Z) (rows : list (list Z)) : option Z :=
  do bs <- par_blocks pool (zlen rows) 1024;
  Some (wrap32 (fold_right Z.add 0
         (map (fun b => wrap32 (fold_right Z.add 0 (map zlen (sub rows b)))) bs))).

(** frontend.cpp:2287-2320 / 2536-2565: the cache of row lengths, computed in parallel by
    slot if it is not there yet.  Slot [i] belongs to face descriptor [i]. *)
Definition fill_sizes (pool : Z) (cache : option (list Z)) (rows : list (list Z)) : option (list Z) :=
  match cache with
  | Some l => Some l
  | None => do _ <- par_blocks pool (zlen rows) 1024; Some (map zlen rows)
  end.

(** frontend.cpp:2268-2350 MC_CONNECTED_COMPONENT_DATA_FACE_SIZE and 2519-2597
    MC_CONNECTED_COMPONENT_DATA_FACE_ADJACENT_FACE_SIZE: whatever [bytes], the whole cache is
    copied (l. 2332, 2578). *)
Definition q_sizes (pool nfaces : Z) (cache : option (list Z)) (rows : list (list Z)) (d : dest)
  : reply * option (list Z) :=
  match d with
  | Null => (Bytes (nfaces * 4), cache)
  | Buffer bytes =>
      if nfaces * 4 <? bytes then (Throws, cache) else
      if negb (bytes mod 4 =? 0) then (Throws, cache) else
      match fill_sizes pool cache rows with
      | Some l => (Stores 4 [store_all 0 (firstn (Z.to_nat nfaces) l)], Some l)
      | None => (Crash, cache)
      end
  end.

Definition q_face_size (e : env) (c : cc) (d : dest) : reply * cc :=
  match face_rows (c_mesh c) with
  | Some rows => let '(r, l) := q_sizes (e_pool e) (number_of_faces (c_mesh c)) (c_fsize c) rows d in
                 (r, set_fsize c l)
  | None => (Crash, c)
  end.

Definition q_adj_size (e : env) (c : cc) (d : dest) : reply * cc :=
  match adj_rows (c_mesh c) with
  | Some rows => let '(r, l) := q_sizes (e_pool e) (number_of_faces (c_mesh c)) (c_asize c) rows d in
                 (r, set_asize c l)
  | None => (Crash, c)
  end.

(** frontend.cpp:2197-2219 (and 2238-2260), the inner loop over the vertices of a face: store,
    advance, and leave the loop over this face when the offset equals [n]; returns the stores
    and the new offset.  uint32 offsets. *)
Fixpoint copy_face (n off : Z) (vs : list Z) : list (Z * Z) * Z :=
  match vs with
  | [] => ([], off)
  | v :: r =>
      let off' := wrap32 (off + 1) in
      if off' =? n then ([(off, v)], off')
      else let '(l, o) := copy_face n off' r in ((off, v) :: l, o)
  end.

(** frontend.cpp:2187-2220, the loop over the faces of a block *)
Fixpoint copy_faces (flip : bool) (n off : Z) (rows : list (list Z)) : list (Z * Z) :=
  match rows with
  | [] => []
  | vs :: r =>
      let '(l, off') := copy_face n off (if flip then rev vs else vs) in
      l ++ copy_faces flip n off' r
  end.

(** frontend.cpp:2467-2480, the same for adjacent faces, without any test (uint32 offsets; the
    model does not reduce them, totals being below 2^32) *)
Fixpoint copy_adj (off : Z) (rows : list (list Z)) : list (Z * Z) :=
  match rows with
  | [] => []
  | vs :: r => store_all off vs ++ copy_adj (off + zlen vs) r
  end.

(** frontend.cpp:2164-2228 / 2445-2488, step 3: block [k] starts at the offset
    partial_sum[base] - size[base]; [seen k] is the value of partial_sum[base] that its thread
    reads. *)
Definition par_rows (pool grain : Z) (sizes : list Z) (rows : list (list Z)) (seen : Z -> Z)
           (f : Z -> list (list Z) -> list (Z * Z)) : reply :=
  match par_blocks pool (zlen rows) grain with
  | None => Crash
  | Some bs =>
      match omap (fun kb => do s <- vget sizes (bfirst (snd kb));
                            Some (f (wrap32 (seen (fst kb) - s)) (sub rows (snd kb))))
                 (combine (zrange (zlen bs)) bs) with
      | Some l => Stores 4 l
      | None => Crash
      end
  end.

(** What thread [k] of the copying [parallel_for] can read in the vector of partial sums
    (frontend.cpp:2160-2162 / 2437-2439): [parallel_partial_sum] has returned to the caller,
    i.e. the caller's chunk is finished; worker [k] has finished the chunk it was given before
    (tpool.h:245-266: a worker runs the tasks of its own queue in order); other workers may
    still be at work on theirs. *)
Definition sum_seen (pool : Z) (sizes : list Z) (nblocks k base x : Z) : Prop :=
  exists cf s, sum_cfg pool (zlen sizes) = Some cf /\ sreach cf sizes s /\ call_returned cf s /\
    (k < nblocks - 1 -> k < c_n cf -> spc s k = Fin) /\
    vget (smem s) base = Some x.

(** the reads of all the threads are possible ones *)
Definition reads_ok (pool grain : Z) (sizes : list Z) (seen : Z -> Z) : Prop :=
  forall bs k b, par_blocks pool (zlen sizes) grain = Some bs ->
    vget bs k = Some b -> sum_seen pool sizes (zlen bs) k (bfirst b) (seen k).

(** frontend.cpp:2052-2267 MC_CONNECTED_COMPONENT_DATA_FACE: no upper bound on [bytes] is
    checked. *)
Definition q_face (e : env) (c : cc) (seen : Z -> Z) (d : dest) : reply * cc :=
  match face_rows (c_mesh c) with
  | None => (Crash, c)
  | Some rows =>
      match d with
      | Null => (match count_indices (e_pool e) rows with Some n => Bytes (n * 4) | None => Crash end, c)
      | Buffer bytes =>
          if negb (bytes mod 4 =? 0) then (Throws, c) else
          let n := wrap32 (bytes / 4) in
          match fill_sizes (e_pool e) (c_fsize c) rows with
          | None => (Crash, c)
          | Some sizes =>
              (par_rows (e_pool e) (2 ^ 14) sizes rows seen (fun off rs => copy_faces (e_flip e) n off rs),
               set_fsize c (Some sizes))
          end
      end
  end.

(** frontend.cpp:2351-2518 MC_CONNECTED_COMPONENT_DATA_FACE_ADJACENT_FACE *)
Definition q_adj (e : env) (c : cc) (seen : Z -> Z) (d : dest) : reply * cc :=
  match adj_rows (c_mesh c) with
  | None => (Crash, c)
  | Some rows =>
      match d with
      | Null => (match count_indices (e_pool e) rows with Some n => Bytes (n * 4) | None => Crash end, c)
      | Buffer bytes =>
          if negb (bytes mod 4 =? 0) then (Throws, c) else
          match fill_sizes (e_pool e) (c_asize c) rows with
          | None => (Crash, c)
          | Some sizes =>
              (par_rows (e_pool e) 1024 sizes rows seen copy_adj, set_asize c (Some sizes))
          end
      end
  end.

(** frontend.cpp:2617-2632 [fn_copy_edges] *)
Fixpoint copy_edges (off : Z) (es : list (Z * Z)) : list (Z * Z) :=
  match es with
  | [] => []
  | (a, b) :: r => (off, a) :: (off + 1, b) :: copy_edges (off + 2) r
  end.

(** frontend.cpp:2599-2654 MC_CONNECTED_COMPONENT_DATA_EDGE.  The edges of an input component
    may have removed slots (preproc.cpp:1319-1320), so the loop is over the mesh iterators with
    the distance that discounts removed edges (hmesh.h:594-611). *)
Definition q_edge (e : env) (c : cc) (d : dest) : reply :=
  let m := c_mesh c in
  let len := zlen (edges m) in
  let size := number_of_edges m * 2 * 4 in
  match d with
  | Null => Bytes size
  | Buffer bytes =>
      if size <? bytes then Throws else
      if negb (bytes mod (4 * 2) =? 0) then Throws else
      match mesh_parallel_for_plan edge_distance (e_pool e) len (re m) 1024 with
      | PlanOk w ms =>
          match omap (fun b => do es <- mesh_block_elements len (re m) b;
                               do rows <- omap (edge_ends m) es;
                               Some (copy_edges (edge_distance (re m) (it_begin len (re m)) (bfirst b) * 2) rows))
                     (w ++ [ms]) with
          | Some l => Stores 4 l
          | None => Crash
          end
      | _ => Crash
      end
  end.

(** The queries of one 4-byte enumeration value: size and divisibility tests, then
    memcpy(pMem, &value, bytes). *)
Definition q_scalar (value : Z) (d : dest) : reply :=
  match d with
  | Null => Bytes 4
  | Buffer bytes =>
      if 4 <? bytes then Throws else
      if negb (bytes mod 4 =? 0) then Throws else
      Stores 4 [firstn (Z.to_nat (bytes / 4)) [(0, value)]]
  end.

(** frontend.cpp:2655-2667 MC_CONNECTED_COMPONENT_DATA_TYPE *)
Definition q_type (c : cc) (d : dest) : reply := q_scalar (c_type c) d.
(** frontend.cpp:2668-2689 MC_CONNECTED_COMPONENT_DATA_FRAGMENT_LOCATION *)
Definition q_fragment_location (c : cc) (d : dest) : reply :=
  if negb (c_type c =? TYPE_FRAGMENT) then Throws else q_scalar (c_fragloc c) d.
(** frontend.cpp:2690-2716 MC_CONNECTED_COMPONENT_DATA_PATCH_LOCATION *)
Definition q_patch_location (c : cc) (d : dest) : reply :=
  if negb (c_type c =? TYPE_FRAGMENT) && negb (c_type c =? TYPE_PATCH) then Throws
  else q_scalar (c_patchloc c) d.
(** frontend.cpp:2717-2736 MC_CONNECTED_COMPONENT_DATA_FRAGMENT_SEAL_TYPE *)
Definition q_seal_type (c : cc) (d : dest) : reply :=
  if negb (c_type c =? TYPE_FRAGMENT) then Throws else q_scalar (c_seal c) d.
(** frontend.cpp:2738-2765 MC_CONNECTED_COMPONENT_DATA_ORIGIN *)
Definition q_origin (c : cc) (d : dest) : reply :=
  if negb (c_type c =? TYPE_SEAM) && negb (c_type c =? TYPE_INPUT) then Throws
  else q_scalar (c_origin c) d.

(** frontend.cpp:2791-2807 [fn_copy_seam_vertices]: store, advance, then test *)
Fixpoint copy_seam (n off : Z) (l : list Z) : list (Z * Z) :=
  match l with
  | [] => []
  | v :: r => if off + 1 =? n then [(off, v)] else (off, v) :: copy_seam n (off + 1) r
  end.

(** frontend.cpp:2766-2824 MC_CONNECTED_COMPONENT_DATA_SEAM_VERTEX *)
Definition q_seam_vertex (e : env) (c : cc) (d : dest) : reply :=
  if c_type c =? TYPE_INPUT then Throws else
  let size := wrap32 (zlen (c_seam c)) * 4 in
  match d with
  | Null => Bytes size
  | Buffer bytes =>
      if size <? bytes then Throws else
      if negb (bytes mod 4 =? 0) then Throws else
      let n := wrap32 (bytes / 4) in
      par_stores (e_pool e) 1024 4 (c_seam c) (fun base l => copy_seam n base l)
  end.

Definition UINT32_MAX := 2 ^ 32 - 1.
Definition assoc (l : list (Z * Z)) (k : Z) : option Z :=
  option_map snd (find (fun p => fst p =? k) l).

(** frontend.cpp:3114-3140 (and 3163-3212): translation of a kernel vertex index *)
Definition user_vertex (c : cc) (i : Z) : Z :=
  if i =? UINT32_MAX then UINT32_MAX else
  let for_src := i <? c_isv c in
  let partition := zmem i (if for_src then c_src_part c else c_cut_part c) in
  if partition then UINT32_MAX
  else if for_src then i
  else wrap32 (wrap32 (i - c_isv c) + c_csv c).

(** frontend.cpp:1814-1848 [map_internal_inputmesh_face_idx_to_user_inputmesh_face_idx] *)
Definition user_face (c : cc) (i : Z) : Z :=
  if i <? c_isf c then
    match assoc (c_src_birth c) i with Some b => b | None => i end
  else
    match assoc (c_cut_birth c) i with
    | Some b => wrap32 (wrap32 (b - c_isf c) + c_csf c)
    | None => wrap32 (wrap32 (i - c_isf c) + c_csf c)
    end.

(** frontend.cpp:3103-3146 / 3251-3275: translate and store until [n] elements; the test comes
    first and is an inequality *)
Fixpoint copy_map (tr : Z -> Z) (n off : Z) (l : list Z) : list (Z * Z) :=
  match l with
  | [] => []
  | v :: r => if n <=? off then [] else (off, tr v) :: copy_map tr n (off + 1) r
  end.

(** frontend.cpp:3076-3223 MC_CONNECTED_COMPONENT_DATA_VERTEX_MAP and 3224-3301
    MC_CONNECTED_COMPONENT_DATA_FACE_MAP *)
Definition q_map (tr : Z -> Z) (pool : Z) (l : list Z) (d : dest) : reply :=
  let size := wrap32 (zlen l) in
  if size =? 0 then Throws else
  match d with
  | Null => Bytes (size * 4)
  | Buffer bytes =>
      if size * 4 <? bytes then Throws else
      if negb (bytes mod 4 =? 0) then Throws else
      let n := wrap32 (bytes / 4) in
      par_stores pool 1024 4 l (fun base l => copy_map tr n base l)
  end.
Definition q_vertex_map (e : env) (c : cc) (d : dest) : reply :=
  q_map (user_vertex c) (e_pool e) (c_vmap c) d.
Definition q_face_map (e : env) (c : cc) (d : dest) : reply :=
  q_map (user_face c) (e_pool e) (c_fmap c) d.
