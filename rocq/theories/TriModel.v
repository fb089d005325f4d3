(** Model of the triangulation queries of a connected component
    (source/frontend.cpp:1002-1800 [triangulate_face], in part, and 3302-3636,
    MC_CONNECTED_COMPONENT_DATA_FACE_TRIANGULATION and ..._FACE_TRIANGULATION_MAP), default
    build (MCUT_WITH_COMPUTE_HELPER_THREADPOOL defined, MCUT_ASSERT compiled out). *)
From Coq Require Import List ZArith Bool Permutation.
From Verif Require Import Vec HmeshModel ParModel DataModel.
Import ListNotations.
Open Scope Z_scope.

(** ** The triangles of one face *)

(** utils.h:115-124 [wrap_integer] (int arithmetic without overflow; the division and the
    remainder are of non-negative numbers) *)
Definition wrap_integer (x lo hi : Z) : Z :=
  let range := hi - lo + 1 in
  let x' := if x <? lo then x + range * ((lo - x) / range + 1) else x in
  lo + (x' - lo) mod range.

(** frontend.cpp:1052-1091 [face_to_cdt_vmap] of a face with [n] vertices; [flipped]: the
    projection to 2D reversed the winding order *)
Definition face_to_cdt_vmap (n : Z) (flipped : bool) : list Z :=
  map (fun i => if flipped then wrap_integer (- (i + 1)) 0 (n - 1) else i) (zrange n).

(** A triangle of the constrained Delaunay triangulation, which is not modelled here: its three
    vertices and the triangles across its edges that are not fixed, null ones left out, in the
    order of the loop of frontend.cpp:1770-1786. *)
Record ctri := CT { ct_v : list Z; ct_open : list Z }.

(** frontend.cpp:1774-1785: the neighbours not yet walked are pushed in turn *)
Definition push_all (l traversed seeds : list Z) : list Z :=
  fold_left (fun s x => if zmem x traversed then s else x :: s) l seeds.

(** frontend.cpp:1698-1787, the walk over the triangles: each one is put into the winding order
    tracker [wot], with its vertices swapped if it cannot be inserted as it is, and its three
    indices are kept if that succeeds (pop_back three times otherwise).  [vmap] is
    face_to_cdt_vmap, [wotv] is cdt_to_wot_vmap.  [fuel] bounds the number of turns. *)
Fixpoint emit (fuel : nat) (tris : list ctri) (vmap wotv : list Z) (wot : hmesh)
         (seeds traversed out : list Z) : option (list Z) :=
  match fuel with
  | O => None
  | S fuel' =>
      match seeds with
      | [] => Some out
      | t :: seeds' =>
          let traversed' := t :: traversed in
          do tri <- vget tris t;
          do vs <- omap (vget vmap) (ct_v tri);
          do ws <- omap (vget wotv) vs;
          do ins <- is_insertable wot ws;
          let '(vs', ws') := if (ins : bool) then (vs, ws) else (rev vs, rev ws) in
          let seeds'' := push_all (ct_open tri) traversed' seeds' in
          match add_face wot ws' with
          | Added _ wot' => emit fuel' tris vmap wotv wot' seeds'' traversed' (out ++ vs')
          | Rejected wot' => emit fuel' tris vmap wotv wot' seeds'' traversed' out
          | AddUB => None
          end
      end
  end.

(** ** The triangulation of all the faces *)

(** frontend.cpp:3372-3427 (the body of the loop over the faces): indices and map entries of one
    face; [tri f] is what [triangulate_face] appends ([None]: it throws). *)
Definition face_local (c : cc) (tri : Z -> option (list Z)) (maps : bool) (f : Z) : option (list Z * list Z) :=
  do vs <- get_vertices_around_face (c_mesh c) f;
  if zlen vs =? 3 then
    if maps then do k <- vget (c_fmap c) f; Some (vs, [user_face c k]) else Some (vs, [])
  else
    do ls <- tri f;
    do gs <- omap (vget vs) ls;
    let firsts := filter (fun i => i mod 3 =? 0) (zrange (zlen ls)) in
    do us <- omap (fun _ => do k <- vget (c_fmap c) f; Some (user_face c k)) (if maps then firsts else []);
    Some (gs, us).

(** frontend.cpp:3358-3427: the lists of one thread *)
Definition block_local (c : cc) (tri : Z -> option (list Z)) (maps : bool) (b : block) : option (list Z * list Z) :=
  do ls <- omap (face_local c tri maps) (elements b);
  Some (concat (map fst ls), concat (map snd ls)).

(** frontend.cpp:3432: cdt_index_cache_offset.fetch_add(len) performed by the threads in the
    order [order]; gives (thread, offset) *)
Fixpoint fetches (counter : Z) (order : list Z) (len : Z -> Z) : list (Z * Z) :=
  match order with
  | [] => []
  | k :: r => (k, counter) :: fetches (wrap32 (counter + len k)) r len
  end.

(** A store into one of the two caches. *)
Inductive cache_store := IndexStore (o v : Z) | MapStore (o v : Z).

(** frontend.cpp:3453-3470: the stores of one thread after the second barrier *)
Definition thread_stores (maps : bool) (off : Z) (l : list Z * list Z) : option (list cache_store) :=
  option_map (@concat _)
    (omap (fun i =>
       let g := wrap32 (off + i) in
       do v <- vget (fst l) i;
       if maps && (i mod 3 =? 0) then do u <- vget (snd l) (i / 3); Some [IndexStore g v; MapStore (g / 3) u]
       else Some [IndexStore g v])
     (zrange (zlen (fst l)))).

(** effect of a store on the two caches; both are .at() accesses (SAFE_ACCESS) *)
Definition store_cache (s : list Z * list Z) (x : cache_store) : option (list Z * list Z) :=
  match x with
  | IndexStore o v => do l <- vset (fst s) o v; Some (l, snd s)
  | MapStore o v => do l <- vset (snd s) o v; Some (fst s, l)
  end.

(** frontend.cpp:3302-3476: what the two caches can be after the parallel loop.  The threads
    perform their fetch_add in some order; the first barrier separates these from the resizing
    of the caches by the calling thread (l. 3436-3448, new elements are zero), the second one
    separates that from the stores, which are interleaved.  The barrier (tpool.h:393-416) is
    taken to separate the phases; a thread that throws never reaches it and the others then wait
    for ever: not covered. *)
Definition tri_result (e : env) (c : cc) (tri : Z -> option (list Z)) (maps : bool) (idx fm : list Z) : Prop :=
  exists bs locs order stores trace,
    par_blocks (e_pool e) (zlen (faces (c_mesh c))) 1024 = Some bs /\
    omap (block_local c tri maps) bs = Some locs /\
    Permutation (zrange (zlen bs)) order /\
    let len k := match vget locs k with Some l => zlen (fst l) | None => 0 end in
    let offs := fetches 0 order len in
    let total := wrap32 (fold_right Z.add 0 (map len order)) in
    omap (fun kl => do off <- assoc offs (fst kl); thread_stores maps off (snd kl))
         (combine (zrange (zlen bs)) locs) = Some stores /\
    interleaving stores trace /\
    ofold store_cache trace
      (repeat 0 (Z.to_nat total), if maps then repeat 0 (Z.to_nat (total / 3)) else []) = Some (idx, fm).

(** ** The queries *)

(** The caches of the component (frontend.h:245-250); [None] = not initialized. *)
Record tcache := TC { t_idx : option (list Z); t_map : option (list Z) }.

(** The pointer given to [get_connected_component_data_impl_detail]: null, memory of the user,
    or the storage of cdt_face_map_cache. *)
Inductive ptr := PNull | PUser | PMapCache.
Definition ptr_eqb (a b : ptr) : bool :=
  match a, b with PNull, PNull => true | PUser, PUser => true | PMapCache, PMapCache => true | _, _ => false end.
(** cdt_face_map_cache.data(): null as long as nothing was reserved (unspecified in the
    standard for an empty vector, null in the common implementations) *)
Definition map_data (t : tcache) : ptr := match t_map t with Some _ => PMapCache | None => PNull end.

(** frontend.cpp:3302-3579 MC_CONNECTED_COMPONENT_DATA_FACE_TRIANGULATION.  [res] is what the
    parallel loop computes if it runs ([None]: it crashes).  [out] tells whether pNumBytes is
    not null. *)
Definition tri_detail (e : env) (c : cc) (res : option (list Z * list Z)) (t : tcache)
           (bytes : Z) (p : ptr) (out : bool) : option reply * tcache :=
  let maps := negb (wrap32 (zlen (c_fmap c)) =? 0) in
  match (match t_idx t with
         | Some _ => Some t
         | None => do r <- res; Some (TC (Some (fst r)) (if maps then Some (snd r) else t_map t))
         end) with
  | None => (Some Crash, t)
  | Some t' =>
      let idx := match t_idx t' with Some l => l | None => [] end in
      let n := wrap32 (zlen idx) in
      if negb maps || negb (ptr_eqb p (map_data t')) then
        match p with
        | PNull => (Some (if out then Bytes (n * 4) else Crash), t')
        | _ =>
            if n * 4 <? bytes then (Some Throws, t') else
            if negb (bytes mod 4 =? 0) || negb ((bytes / 4) mod 3 =? 0) then (Some Throws, t') else
            if e_flip e then (Some (Stores 4 [map (fun i => (n - 1 - i, nth (Z.to_nat i) idx 0)) (zrange n)]), t')
            else (Some (Stores 4 [store_all 0 (firstn (Z.to_nat (bytes / 4)) idx)]), t')
        end
      else (None, t')
  end.

(** what the user sees of a call ([None]: it returns without writing anything) *)
Definition seen_reply (r : option reply) : reply := match r with Some x => x | None => Stores 4 [] end.

Definition q_triangulation (e : env) (c : cc) (res : option (list Z * list Z)) (t : tcache) (d : dest) : reply * tcache :=
  match d with
  | Null => let '(r, t') := tri_detail e c res t 0 PNull true in (seen_reply r, t')
  | Buffer bytes => let '(r, t') := tri_detail e c res t bytes PUser false in (seen_reply r, t')
  end.

(** frontend.cpp:3580-3636 MC_CONNECTED_COMPONENT_DATA_FACE_TRIANGULATION_MAP: if the map was not
    computed yet, a call of the above with 4 bytes, the storage of the map cache (before that
    call) and a null pNumBytes *)
Definition q_triangulation_map (e : env) (c : cc) (res : option (list Z * list Z)) (t : tcache) (d : dest) : reply * tcache :=
  if wrap32 (zlen (c_fmap c)) =? 0 then (Throws, t) else
  let '(early, t') :=
    match t_map t with
    | Some _ => (None, t)
    | None => let '(r, t') := tri_detail e c res t 4 (map_data t) false in
              (match r with
               | Some Crash => Some Crash
               | Some Throws => Some Throws
               | Some (Stores _ _) => Some Crash
               | _ => None end, t')
    end in
  match early with
  | Some r => (r, t')
  | None =>
      let fm := match t_map t' with Some l => l | None => [] end in
      let n := wrap32 (zlen fm) in
      match d with
      | Null => (Bytes (n * 4), t')
      | Buffer bytes =>
          if n * 4 <? bytes then (Throws, t') else
          if negb (bytes mod 4 =? 0) then (Throws, t') else
          (Stores 4 [store_all 0 (firstn (Z.to_nat (bytes / 4)) fm)], t')
      end
  end.
