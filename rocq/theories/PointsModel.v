(** The intersection points: which edges are tested against which faces, and the tables of the points that are found.  kernel.cpp:1779-1855 (pairs of edges and faces),
    kernel.cpp:2057-2117 (pairs with disjoint bounding boxes are dropped), kernel.cpp:2394-2840 (tests and tables), with MCUT_WITH_COMPUTE_HELPER_THREADPOOL.

    Vertices, edges and faces are numbers; sm faces are the faces below sm_face_count.  MCUT_ASSERT is empty in a release build.  Not modelled: the bounding boxes (the function
    [overlap]), the reason of failure in the log, the property tables of the tested faces (kernel.cpp:2118-2330). *)
From Coq Require Import List Arith Bool Reals Ascii.
From Verif Require Import CutModel SplitModel.
Import ListNotations.

(** ** Tables: std::map or std::unordered_map from keys of any kind to vectors of numbers *)
Section Tables.
Context {K : Type}.
Variable eqb : K -> K -> bool.
(** m.find(k) *)
Fixpoint find (m : list (K * list nat)) (k : K) : option (list nat) :=
  match m with [] => None | (k', l) :: m' => if eqb k k' then Some l else find m' k end.
(** m[k].push_back(x) *)
Fixpoint append (m : list (K * list nat)) (k : K) (x : nat) : list (K * list nat) :=
  match m with [] => [(k, [x])] | (k', l) :: m' => if eqb k k' then (k', l ++ [x]) :: m' else (k', l) :: append m' k x end.
(** kernel.cpp:2752-2774, 2776-2798, 2800-2822: merging one entry of the table of a future.  [probe]: what std::find looks for, if the key is there already *)
Definition merge_entry (probe : nat -> nat) (base : nat) (m : list (K * list nat)) (entry : K * list nat) : list (K * list nat) :=
  let (k, l) := entry in
  match find m k with
  | Some _ => fold_left (fun m j => match find m k with
                                    | Some present => if existsb (Nat.eqb (probe j)) present then m else append m k (base + j)
                                    | None => append m k (base + j)
                                    end) l m
  | None => fold_left (fun m j => append m k (base + j)) l m
  end.
(** kernel.cpp:2657-2676: *j += ps_vtx_cnt for all entries *)
Definition shift (base : nat) (m : list (K * list nat)) : list (K * list nat) := map (fun p => (fst p, map (fun j => base + j) (snd p))) m.
End Tables.

(** utils.h:242-253  pair, make_pair: the smaller one first *)
Definition make_pair (a b : nat) : nat * nat := (if Nat.ltb a b then a else b, if Nat.ltb a b then b else a).
Definition pair_eqb (p q : nat * nat) : bool := Nat.eqb (fst p) (fst q) && Nat.eqb (snd p) (snd q).

(** ** The pairs of an edge and a face that are tested *)
Section Pairs.
(** the edges of the halfedges around a face: ps.get_halfedges_around_face *)
Variable around : nat -> list nat.
(** std::sort *)
Variable sort : list nat -> list nat.
(** intersect_bounding_boxes of an edge and a face *)
Variable overlap : nat -> nat -> bool.
(** the order in which an unordered_map is iterated *)
Variable shuffle : forall A, list (nat * A) -> list (nat * A).

(** kernel.cpp:1812-1816, 1846-1850: std::lower_bound and, if the value is not there, insert.  In a sorted vector lower_bound finds the first element that is not less. *)
Fixpoint insert_sorted (x : nat) (l : list nat) : list nat :=
  match l with
  | [] => [x]
  | y :: l' => if Nat.ltb y x then y :: insert_sorted x l' else if Nat.eqb y x then y :: l' else x :: y :: l'
  end.
Definition insert_all (l : list nat) (xs : list nat) : list nat := fold_left (fun l x => insert_sorted x l) xs l.

(** kernel.cpp:1801-1818: one halfedge of a face with the candidates [others].  The entry is created if there is none. *)
Definition add_candidates (others : list nat) (m : list (nat * list nat)) (edge : nat) : list (nat * list nat) :=
  match lookup m edge with
  | None | Some [] => set m edge (if Nat.ltb 1 (length others) then sort others else others)
  | Some edge_ifaces => set m edge (insert_all edge_ifaces others)
  end.
(** kernel.cpp:1792-1823  fn_compute_ps_edge_to_faces_map: a block of ps_face_to_potentially_intersecting_others *)
Definition pairs_of_block (block : list (nat * list nat)) : list (nat * list nat) :=
  fold_left (fun m p => fold_left (add_candidates (snd p)) (around (fst p)) m) block [].
(** kernel.cpp:1839-1853: merging the result of a future *)
Definition merge_pairs (m future : list (nat * list nat)) : list (nat * list nat) :=
  fold_left (fun m p => match lookup m (fst p) with None => set m (fst p) (snd p) | Some l => set m (fst p) (insert_all l (snd p)) end) (shuffle _ future) m.
(** kernel.cpp:1779-1855 *)
Definition all_pairs (blocks : list (list (nat * list nat))) (master : list (nat * list nat)) : list (nat * list nat) :=
  fold_left merge_pairs (map pairs_of_block blocks) (pairs_of_block master).
(** kernel.cpp:2057-2117: every entry is done by one thread *)
Definition cull (m : list (nat * list nat)) : list (nat * list nat) := map (fun p => (fst p, filter (overlap (fst p)) (snd p))) m.
End Pairs.

(** ** Tests *)
Inductive result := Miss | Violation | Hit (p : vec).
Section Test.
(** compute_segment_plane_intersection_type of an edge and a face (GeoModel) *)
Variable segment_plane_code : nat -> nat -> ascii.
(** compute_segment_plane_intersection (GeoModel) *)
Variable segment_plane_point : nat -> nat -> vec.
(** compute_point_in_polygon_test of a face and a point (GeoModel) *)
Variable point_in_polygon_code : nat -> vec -> ascii.
(** ps.source and ps.target of the first halfedge of an edge *)
Variables source target : nat -> vec.
Definition touching (f : nat) (p : vec) : bool :=
  let c := point_in_polygon_code f p in Ascii.eqb c "i" || (Ascii.eqb c "v" || Ascii.eqb c "e").
(** kernel.cpp:2481-2563 *)
Definition test (e f : nat) : result :=
  let code := segment_plane_code e f in
  if Ascii.eqb code "0" then Miss
  else if negb (Ascii.eqb code "1") then
    let points := if Ascii.eqb code "q" || Ascii.eqb code "r" then [if Ascii.eqb code "q" then source e else target e] else [source e; target e] in
    if existsb (touching f) points then Violation else Miss
  else
    let point := segment_plane_point e f in
    let c := point_in_polygon_code f point in
    if Ascii.eqb c "v" || Ascii.eqb c "e" then Violation else if Ascii.eqb c "i" then Hit point else Miss.
End Test.

(** ** The tables of points *)
(** intersection_points, m0_ivtx_to_intersection_registry_entry, cm_border_reentrant_ivtx_list, ps_intersecting_edges, cutpath_edge_creation_info, ps_iface_to_ivtx_list, partial_cut_detected *)
Record tables := { coordinates : list vec; registry : list (nat * nat); border : list nat; on_edges : list (nat * list nat); between : list ((nat * nat) * list nat);
                   on_faces : list (nat * list nat); partial_cut : bool }.
Definition no_points : tables := {| coordinates := []; registry := []; border := []; on_edges := []; between := []; on_faces := []; partial_cut := false |}.

Section Points.
(** ps.face of the two halfedges, if there are *)
Variable psf : nat -> option nat * option nat.
Variable sm_face_count : nat.
(** ps_is_cutmesh_vertex of the source of the first halfedge *)
Variable cut_vertex : nat -> bool.
Variable tests : nat -> nat -> result.
(** ps_vtx_cnt *)
Variable cnt : nat.
Variable shuffle : forall A, list (nat * A) -> list (nat * A).
Variable shuffle2 : forall A, list ((nat * nat) * A) -> list ((nat * nat) * A).

(** kernel.cpp:2453-2456  tested_edge_face, tested_edge_belongs_to_cm, and the other face (kernel.cpp:2567, 2589); an edge has a face *)
Definition edge_face (e : nat) : option nat := match fst (psf e) with Some f => Some f | None => snd (psf e) end.
Definition other_face (e : nat) : option nat := match fst (psf e) with Some _ => snd (psf e) | None => None end.
Definition belongs_to_cm (e : nat) : bool := match edge_face e with Some f => Nat.leb sm_face_count f | None => true end.
(** hmesh.cpp  is_border(edge) *)
Definition is_border_edge (e : nat) : bool := match psf e with (Some _, Some _) => false | _ => true end.

(** kernel.cpp:2581-2594: the keys in cutpath_edge_creation_info *)
Definition face_pairs (e f : nat) : list (nat * nat) :=
  if belongs_to_cm e then
    match edge_face e with Some pqr => [make_pair f pqr] | None => [] end ++ match other_face e with Some pqs => [make_pair f pqs] | None => [] end
  else
    match edge_face e with Some a => [make_pair a f] | None => [] end ++ match other_face e with Some a => [make_pair a f] | None => [] end.
(** kernel.cpp:2604-2610 *)
Definition point_faces (e f : nat) : list nat :=
  [f] ++ match fst (psf e) with Some a => [a] | None => [] end ++ match snd (psf e) with Some a => [a] | None => [] end.

(** kernel.cpp:2565-2616: an intersection point *)
Definition add_point (t : tables) (e f : nat) (p : vec) : tables :=
  let v := length (coordinates t) in
  {| coordinates := coordinates t ++ [p];
     registry := registry t ++ [(e, f)];
     on_edges := append Nat.eqb (on_edges t) e v;
     between := fold_left (fun m k => append pair_eqb m k v) (face_pairs e f) (between t);
     border := if belongs_to_cm e && is_border_edge e then border t ++ [v] else border t;
     on_faces := fold_left (fun m g => append Nat.eqb m g v) (point_faces e f) (on_faces t);
     partial_cut := if partial_cut t then true else cut_vertex e && is_border_edge e |}.
(** kernel.cpp:2458-2619: the faces of one edge; [None]: general position is violated *)
Fixpoint points_of_edge (e : nat) (fs : list nat) (t : tables) : option tables :=
  match fs with
  | [] => Some t
  | f :: fs' => match tests e f with Violation => None | Miss => points_of_edge e fs' t | Hit p => points_of_edge e fs' (add_point t e f p) end
  end.
(** kernel.cpp:2407-2623  fn_compute_intersection_points without the status *)
Definition points_of_block (block : list (nat * list nat)) : option tables :=
  fold_left (fun t p => let* t := t in points_of_edge (fst p) (snd p) t) block (Some no_points).

(** kernel.cpp:2635-2676: the result of the master thread *)
Definition of_master (t : tables) : tables :=
  {| coordinates := coordinates t; registry := registry t; border := map (fun j => cnt + j) (border t); on_edges := shift cnt (on_edges t); between := shift cnt (between t);
     on_faces := shift cnt (on_faces t); partial_cut := partial_cut t |}.
(** kernel.cpp:2693-2828: merging the result of a future.  intersection_point_descr_baseoffset is the number of vertices of m0: those of ps and the points so far *)
Definition merge_tables (t future : tables) : tables :=
  let base := cnt + length (coordinates t) in
  {| coordinates := coordinates t ++ coordinates future;
     registry := registry t ++ registry future;
     border := border t ++ map (fun j => base + j) (border future);
     on_edges := fold_left (merge_entry Nat.eqb (fun j => j) base) (shuffle _ (on_edges future)) (on_edges t);
     between := fold_left (merge_entry pair_eqb (fun j => base + j) base) (shuffle2 _ (between future)) (between t);
     on_faces := fold_left (merge_entry Nat.eqb (fun j => base + j) base) (shuffle _ (on_faces future)) (on_faces t);
     partial_cut := if partial_cut t || partial_cut future then true else false |}.

(** ** Threads.  The blocks 0, 1, ... are done by workers, the last one by the calling thread, which then merges.  Everything a thread does between looking at output.status
    (kernel.cpp:2426) and returning is invisible to the others, except that output.status is set (compare_exchange_strong, kernel.cpp:2519, 2552) just before it returns. *)
Inductive event :=
| Start (i : nat) (** thread i looks at output.status *)
| Finish (i : nat) (** thread i sets output.status or not, and returns *)
| Merge (** the calling thread takes the result of the next future; kernel.cpp:2698-2714 *).
Inductive phase := Waiting | Running | Done (t : tables).
(** okay: output.status is SUCCESS; seen: status_is_okay; merged: the number of futures that were looked at; acc: the tables of the calling thread *)
Record run := { okay : bool; phases : list phase; merged : nat; acc : tables; seen : bool }.
Definition replace {A} (l : list A) (i : nat) (a : A) : list A := firstn i l ++ a :: skipn (S i) l.
Definition step (blocks : list (list (nat * list nat))) (r : run) (ev : event) : option run :=
  match ev with
  | Start i => match nth_error (phases r) i with
               | Some Waiting => Some {| okay := okay r; phases := replace (phases r) i (if okay r then Running else Done no_points); merged := merged r; acc := acc r; seen := seen r |}
               | _ => None
               end
  | Finish i => match nth_error (phases r) i, nth_error blocks i with
                | Some Running, Some block =>
                  match points_of_block block with
                  | Some t => Some {| okay := okay r; phases := replace (phases r) i (Done t); merged := merged r; acc := acc r; seen := seen r |}
                  | None => Some {| okay := false; phases := replace (phases r) i (Done no_points); merged := merged r; acc := acc r; seen := seen r |}
                  end
                | _, _ => None
                end
  | Merge =>
    (* the calling thread is the last one; it takes its own result first *)
    match nth_error (phases r) (length (phases r) - 1), nth_error (phases r) (merged r) with
    | Some (Done own), Some (Done t) =>
      if Nat.ltb (merged r) (length (phases r) - 1) then
        let t0 := match merged r with 0 => of_master own | _ => acc r end in
        Some {| okay := okay r; phases := phases r; merged := S (merged r); acc := if okay r then merge_tables t0 t else t0; seen := okay r |}
      else None
    | _, _ => None
    end
  end.
Definition initial (n : nat) : run := {| okay := true; phases := repeat Waiting n; merged := 0; acc := no_points; seen := true |}.
Definition execute (blocks : list (list (nat * list nat))) (evs : list event) : option run :=
  fold_left (fun r ev => let* r := r in step blocks r ev) evs (Some (initial (length blocks))).
(** kernel.cpp:2681-2688, 2832-2839: what results: [Some None]: return with the status; [Some (Some t)]: go on with the tables t; [None]: not at the end *)
Definition outcome (r : run) : option (option tables) :=
  let n := length (phases r) in
  if Nat.eqb (merged r) (n - 1) then
    match nth_error (phases r) (n - 1) with
    | Some (Done own) => if Nat.eqb n 1 then Some (if okay r then Some (of_master own) else None) else Some (if seen r then Some (acc r) else None)
    | _ => None
    end
  else None.
End Points.
