(** Model of polygon partitioning: [resolve_floating_polygons] (source/preproc.cpp:514-1325)
    and of the loop of [preproc] around the kernel (preproc.cpp:1917-2251) as far as it
    changes the input meshes, the tables that say where their elements come from, and the candidate pairs.

    Simplifications, for the whole file.  The geometry is an input of the model: which edges
    of a face are crossed by the partitioning line and where, whether an existing edge
    already crosses the floating polygon, which face contains it, the order in which an
    unordered_map is traversed, and what the kernel reports are oracles.  [None] =
    undefined behaviour.  MCUT_ASSERT is not checked (release build).  Descriptors do not
    overflow.  Debug messages, defect checks of the meshes (l. 2087-2097) and the construction of the bounding
    volume hierarchies (property C01-C06) are left out. *)
From Coq Require Import List ZArith Bool.
From Verif Require Import Vec HmeshModel InputModel DataModel.
Import ListNotations.
Open Scope Z_scope.

(** The partitioning line found by the geometric search (preproc.cpp:748-1050): positions, in the
    list of half-edges of the face, of the two crossed edges, and the points on them (l. 1084,
    1118); [g_swap]: order of traversal of the map of neighbours (l. 1173). *)
Record geom := Geom { g_i0 : Z; g_p0 : point; g_i1 : Z; g_p1 : point; g_swap : bool }.

(** preproc.cpp:1089-1096 and 1123-1128: a neighbour is added if there is one and it is not in the list *)
Definition push_face (l : list Z) (f : Z) : list Z :=
  if f =? null then l else if zmem f l then l else l ++ [f].

(** preproc.cpp:1190-1203: what replaces a half-edge of a neighbour.  [a0], [b0]: the
    half-edges from the source of the first crossed half-edge to the new point and on to its target *)
Definition retrace_he (e0 a0 b0 e1 a1 b1 h : Z) : list Z :=
  if edge_of h =? e0 then [opposite b0; opposite a0]
  else if edge_of h =? e1 then [opposite b1; opposite a1]
  else [h].

(** [add_face] whose result is only looked at by assertions: the descriptor is null if the
    face is rejected *)
Definition add_face' (m : hmesh) (vi : list Z) : option (Z * hmesh) :=
  match add_face m vi with
  | Added f m' => Some (f, m')
  | Rejected m' => Some (null, m')
  | AddUB => None
  end.

(** preproc.cpp:1173-1229, one neighbour: removed and added again at once *)
Definition retrace (e0 a0 b0 e1 a1 b1 : Z) (m : hmesh) (nb : Z * list Z) : option hmesh :=
  let hs := flat_map (retrace_he e0 a0 b0 e1 a1 b1) (snd nb) in
  do m1 <- remove_face m (fst nb);
  do vi <- omap (target m1) hs;
  do r <- add_face' m1 vi;
  Some (snd r).

(** preproc.cpp:1281-1289 [std::find_if]: first boundary half-edge with this source;
    dereferencing the end iterator is undefined *)
Fixpoint find_source (m : hmesh) (l : list Z) (v : Z) : option Z :=
  match l with
  | [] => None
  | h :: r => do s <- source m h; if s =? v then Some h else find_source m r v
  end.

(** preproc.cpp:1269-1292: trace of one child, from half-edge [h] until the target is
    [stop].  [fuel] bounds the number of turns (the code has no bound: [None] if it runs out) *)
Fixpoint trace_child (fuel : nat) (m : hmesh) (boundary : list Z) (stop h : Z) : option (list Z) :=
  match fuel with
  | O => None
  | S k =>
      do t <- target m h;
      if t =? stop then Some [h]
      else do n <- find_source m boundary t;
           do r <- trace_child k m boundary stop n;
           Some (h :: r)
  end.

(** preproc.cpp:1261-1314: one child, traced and added *)
Definition add_child (m : hmesh) (boundary : list Z) (start : Z) : option (Z * hmesh) :=
  do stop <- source m start;
  do hs <- trace_child (S (length boundary)) m boundary stop start;
  do vi <- omap (target m) hs;
  add_face' m vi.

(** What a partition leaves: the mesh, the two new vertices, the descriptors of the children. *)
Record part := Part { p_mesh : hmesh; p_v0 : Z; p_v1 : Z; p_c0 : Z; p_c1 : Z }.

(** preproc.cpp:1054-1320 *)
Definition partition_face (m : hmesh) (f : Z) (g : geom) : option part :=
  do hs <- get_halfedges_around_face m f;
  (* 1065-1096 *)
  do h0 <- vget hs (g_i0 g);
  do s0 <- source m h0;
  do t0 <- target m h0;
  do f0 <- face m (opposite h0);
  (* 1101-1128 *)
  do h1 <- vget hs (g_i1 g);
  do s1 <- source m h1;
  do t1 <- target m h1;
  do f1 <- face m (opposite h1);
  let e0 := edge_of h0 in
  let e1 := edge_of h1 in
  let replaced := push_face (push_face [f] f0) f1 in
  (* 1131-1138 *)
  let nbs := filter (fun x => negb (x =? f)) replaced in
  let nbs := if g_swap g then rev nbs else nbs in
  do old <- omap (fun x => do l <- get_halfedges_around_face m x; Some (x, l)) nbs;
  (* 1143-1149 *)
  do r0 <- add_vertex m (g_p0 g);
  let '(v0, m1) := r0 in
  do r1 <- add_vertex m1 (g_p1 g);
  let '(v1, m2) := r1 in
  (* 1155-1163 *)
  do r2 <- add_edge m2 v0 v1;
  let '(hm, m3) := r2 in
  do r3 <- add_edge m3 s0 v0;
  let '(a0, m4) := r3 in
  do r4 <- add_edge m4 v0 t0;
  let '(b0, m5) := r4 in
  do r5 <- add_edge m5 s1 v1;
  let '(a1, m6) := r5 in
  do r6 <- add_edge m6 v1 t1;
  let '(b1, m7) := r6 in
  (* 1173-1229 *)
  do m8 <- ofold (retrace e0 a0 b0 e1 a1 b1) old m7;
  (* 1235-1256 *)
  do m9 <- remove_face m8 f;
  let boundary := [a0; b0; a1; b1] ++ filter (fun h => negb (h =? h0) && negb (h =? h1)) hs in
  (* 1261-1314 *)
  do r10 <- add_child m9 boundary hm;
  let '(c0, m10) := r10 in
  do r11 <- add_child m10 boundary (opposite hm);
  let '(c1, m11) := r11 in
  (* 1319-1320 *)
  do m12 <- remove_edge m11 e0;
  do m13 <- remove_edge m12 e1;
  Some (Part m13 v0 v1 c0 c1).

(** One input mesh of [preproc] with its two tables: user's face a face was cut from
    (…_child_to_usermesh_birth_face), vertices made by partitioning (keys of …_new_poly_partition_vertices). *)
Record imesh := IM { im : hmesh; im_birth : list (Z * Z); im_part : list Z }.

(** [map[k] = v] *)
Definition put (l : list (Z * Z)) (k v : Z) : list (Z * Z) :=
  (k, v) :: filter (fun p => negb (fst p =? k)) l.

(** preproc.cpp:1054-1320 with the updates of the tables (l. 1145, 1149, 1312); [b]:
    client_hmesh_birth_face *)
Definition do_partition (s : imesh) (f b : Z) (g : geom) : option (imesh * part) :=
  do p <- partition_face (im s) f g;
  Some (IM (p_mesh p) (put (put (im_birth s) (p_c0 p) b) (p_c1 p) b)
           (im_part s ++ [p_v0 p; p_v1 p]), p).

(** preproc.cpp:622-631: the faces with this birth face, in the order of the map *)
Definition children (s : imesh) (b : Z) : list Z :=
  map fst (filter (fun p => snd p =? b) (im_birth s)).

(** What the geometric tests of l. 641-725 find among the faces of the same birth face,
    visited in the order [o_visit]: the face at position [i] has an edge crossing the floating
    polygon (the visit stops there), or none has and the one at position [i] contains it. *)
Inductive verdict := Crossed (i : nat) | Inside (i : nat).
Record fporacle := FPO { o_visit : list Z; o_verdict : verdict; o_geom : geom }.

(** preproc.cpp:647-656: every visited face is read *)
Definition visit (s : imesh) (l : list Z) : option unit :=
  do r <- omap (get_vertices_around_face (im s)) l; Some tt.

(** preproc.cpp:560-1322: one floating polygon on face [f].  The second component is what
    was partitioned, if anything. *)
Definition resolve_one (s : imesh) (f : Z) (o : fporacle) : option (imesh * option (Z * part)) :=
  match assoc (im_birth s) f with
  | None =>
      do r <- do_partition s f f (o_geom o);
      Some (fst r, Some (f, snd r))
  | Some b =>
      match o_verdict o with
      | Crossed i =>
          do u <- visit s (firstn (S i) (o_visit o));
          Some (s, None)
      | Inside i =>
          do u <- visit s (o_visit o);
          do f' <- nth_error (o_visit o) i;
          do r <- do_partition s f' b (o_geom o);
          Some (fst r, Some (f', snd r))
      end
  end.

(** ** the loop around the kernel *)

(** What happened to the meshes, in order (for the specification; the code keeps no such record). *)
Inductive happened :=
| HPart (cut : bool) (f : Z) (p : part)
| HRebuilt.

(** [d_prev]: source_hmesh_face_count_prev; [d_cand]: the faces (numbered as for the kernel: those of the cut
    mesh after those of the source mesh) that occur in ps_face_to_potentially_intersecting_others *)
Record driver := DS { d_src : imesh; d_cut : imesh; d_prev : Z; d_cand : list Z; d_log : list happened }.

(** preproc.cpp:526-1323, the body of the loop over the floating polygons: [raw] is the face it was
    found on, as numbered by the kernel *)
Definition resolve_fp (d : driver) (x : Z * fporacle) : option driver :=
  let '(raw, o) := x in
  if raw <? d_prev d then
    do x <- resolve_one (d_src d) raw o;
    let log := match snd x with Some (f, p) => d_log d ++ [HPart false f p] | None => d_log d end in
    Some (DS (fst x) (d_cut d) (d_prev d) (d_cand d) log)
  else
    do x <- resolve_one (d_cut d) (raw - d_prev d) o;
    let log := match snd x with Some (f, p) => d_log d ++ [HPart true f p] | None => d_log d end in
    Some (DS (d_src d) (fst x) (d_prev d) (d_cand d) log).

(** preproc.cpp:526-1323: the floating polygons, in order *)
Definition resolve_all (d : driver) (l : list (Z * fporacle)) : option driver := ofold resolve_fp l d.

(** What the kernel answered in the previous turn (preproc.cpp:1929-1935): a general-position violation,
    after which the cut mesh is converted again from the user's arrays with perturbed
    coordinates (result: [m]), or floating polygons; [cand]: what the traversal of the hierarchies finds in this turn, if it
    is run. *)
Inductive turn :=
| TViolation (m : hmesh)
| TFloating (l : list (Z * fporacle)) (cand : list Z).

(** preproc.cpp:1917-2195, one turn after the first, up to the call of the kernel: l. 1939-1988
    (violation: the hierarchies are not rebuilt, l. 1997, and the traversal of l. 2123-2142 is not
    run again), l. 2014-2080 (floating polygons: it is run again), l. 2192 *)
Definition do_turn (d : driver) (t : turn) : option driver :=
  match t with
  | TViolation m =>
      Some (DS (d_src d) (IM m (im_birth (d_cut d)) (im_part (d_cut d)))
               (number_of_faces (im (d_src d))) (d_cand d) (d_log d ++ [HRebuilt]))
  | TFloating l cand =>
      do d1 <- resolve_all d l;
      Some (DS (d_src d1) (d_cut d1) (number_of_faces (im (d_src d1))) cand (d_log d1))
  end.

(** The state after the first turn (preproc.cpp:1860-1882, 1970-2012, 2123-2142, 2192). *)
Definition first_turn (src cut : hmesh) (cand : list Z) : driver :=
  DS (IM src [] []) (IM cut [] []) (number_of_faces src) cand [].

(** preproc.cpp:2228-2251 and 2286-2305 (and the same for the other components): the tables and
    counts stored with a component whose maps are [vmap] and [fmap]; [nv], [nf]: sizes of
    the user's source mesh *)
Definition component (d : driver) (nv nf : Z) (mesh : hmesh) (vmap fmap : list Z) : cc :=
  let isf := number_of_faces (im (d_src d)) in
  let isv := number_of_vertices (im (d_src d)) in
  CC TYPE_FRAGMENT mesh [] vmap fmap (0, 0, 0) 0 0 0 0
     (im_birth (d_src d))
     (map (fun p => (fst p + isf, snd p + d_prev d)) (im_birth (d_cut d)))
     (im_part (d_src d))
     (map (fun v => v + isv) (im_part (d_cut d)))
     isv nv isf nf None None.
