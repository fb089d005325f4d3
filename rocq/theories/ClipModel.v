(** Clipping of the faces (polygon tracing).  kernel.cpp:4859-5507 (the code of one thread) and :5415-5498 (merging the threads).

    The vertices and edges of m0 are numbers; halfedges are numbers as well, 2e and 2e + 1 are the halfedges of edge e (hmesh.h,
    ENABLE_EDGE_DESCRIPTOR_TRICK).  m0 and the polygon soup ps have the same numbers for the vertices of ps (kernel.cpp:1759-1772 copies them
    in order), so the maps ps_to_m0_vtx and m0_to_ps_vtx are left out.  MCUT_ASSERT is empty in a release build.  Following an iterator
    past the end, .at() out of range and leaving a loop only for lack of fuel are [None].  The lists coincident_vertices, computed and never used,
    are left out. *)
From Coq Require Import List Arith Bool.
From Verif Require Import CutModel.
Import ListNotations.

(** hmesh.cpp:165-175  opposite: the other halfedge of the edge *)
Definition opp (h : nat) : nat := if Nat.even h then S h else pred h.
(** hmesh.cpp edge(h) *)
Definition edge (h : nat) : nat := Nat.div2 h.

Section Clip.
(** m0.source(2e), m0.target(2e) *)
Variable seg : nat -> nat * nat.
Definition src (h : nat) : nat := if Nat.even h then fst (seg (edge h)) else snd (seg (edge h)).
Definition tgt (h : nat) : nat := src (opp h).
(** the same for ps, the faces of the halfedges of ps, and ps.halfedge(s, t) *)
Variable psrc : nat -> nat.
Variable pface : nat -> option nat.
Variable ps_halfedge : nat -> nat -> option nat.
(** m0_ivtx_to_intersection_registry_entry and ps_vtx_cnt, see CutModel *)
Variable registry : list (nat * nat).
Variable cnt : nat.
(** ps_to_m0_edges: the edges of m0 along the edges of ps with more than one intersection point *)
Variable pieces : list (nat * list nat).
(** std::partition: any rearrangement that moves the elements with the property to the front, the result and the number of these elements *)
Variable partition : (nat -> bool) -> list nat -> list nat.

(** kernel.cpp:145-148  m0_is_intersection_point *)
Definition ivtx (v : nat) : bool := Nat.leb cnt v.
(** SAFE_ACCESS(m0_ivtx_to_intersection_registry_entry, v - ps_vtx_cnt).first *)
Definition registry_edge (v : nat) : option nat := if Nat.leb cnt v then option_map fst (nth_error registry (v - cnt)) else None.
Definition eqo (a b : option nat) : bool := match a, b with Some x, Some y => Nat.eqb x y | None, None => true | _, _ => false end.

(** kernel.cpp:4988-5017: is the edge on the boundary of the face?  ([None] of registry_edge cannot happen for points in the registry) *)
Definition is_boundary (e : nat) : bool :=
  let v0 := tgt (2 * e) in let v1 := src (2 * e) in
  if ivtx v0 && ivtx v1 then eqo (registry_edge v0) (registry_edge v1) else true.

(** kernel.cpp:5102-5127: the halfedges along an edge of ps, in order *)
Definition halfedge_sequence (edges : list nat) : option (list nat) :=
  match edges with
  | [] => None
  | e :: es =>
    let first := if ivtx (src (2 * e)) then 2 * e + 1 else 2 * e in
    Some (fold_left (fun acc e => acc ++ [if Nat.eqb (src (2 * e)) (tgt (last acc 0)) then 2 * e else 2 * e + 1]) es [first])
  end.

(** the halfedge of the edge e of ps that belongs to the face: ps.halfedge(e, 0) or its opposite *)
Definition of_face (f e : nat) : nat := if eqo (pface (2 * e)) (Some f) then 2 * e else opp (2 * e).

(** kernel.cpp:5034-5158, the body of the loop over the halfedges of an edge: [Some (Some h)]: h is taken for first_boundary_halfedge, [Some None]: continue *)
Definition first_step (f h : nat) : option (option nat) :=
  let s := src h in let t := tgt h in
  if negb (ivtx s) && negb (ivtx t) then
    match ps_halfedge s t with
    | None => Some None
    | Some ph => if eqo (pface ph) (Some f) then Some (Some h) else Some None
    end
  else if negb (ivtx s) then
    let* pe := registry_edge t in
    if Nat.eqb s (psrc (of_face f pe)) then Some (Some h) else Some None
  else if ivtx t then
    let* src_edge := registry_edge s in
    let* tgt_edge := registry_edge t in
    if negb (Nat.eqb src_edge tgt_edge) then Some None
    else
      let ph := of_face f tgt_edge in
      let* sorted := lookup pieces (edge ph) in
      let* sequence := halfedge_sequence sorted in
      let* first := hd_error sequence in
      let sequence := if Nat.eqb (src first) (psrc ph) then sequence else map opp sequence in
      let* he := find (fun he => Nat.eqb (src he) s && Nat.eqb (tgt he) t) sequence in
      Some (Some he)
  else Some None.

(** kernel.cpp:5025-5168: the loops over the boundary edges and their two halfedges *)
Fixpoint first_boundary (f : nat) (edges : list nat) : option nat :=
  match edges with
  | [] => None
  | e :: es =>
    let* r := first_step f (2 * e) in
    match r with
    | Some h => Some h
    | None =>
      let* r := first_step f (2 * e + 1) in
      match r with Some h => Some h | None => first_boundary f es end
    end
  end.

(** kernel.cpp:5170-5238: the halfedges around the face, from the first on; [walked] is walked_edges *)
Fixpoint exterior_walk (fuel : nat) (edges : list nat) (current : nat) (walked acc : list nat) : option (list nat) :=
  match fuel with
  | O => None
  | S fuel' =>
    let acc := acc ++ [current] in
    let walked := edge current :: walked in
    let current_tgt := tgt current in
    match find (fun e => negb (existsb (Nat.eqb e) walked) && (Nat.eqb (tgt (2 * e)) current_tgt || Nat.eqb (src (2 * e)) current_tgt) && is_boundary e) edges with
    | None => Some acc
    | Some e => exterior_walk fuel' edges (if Nat.eqb (src (2 * e)) current_tgt then 2 * e else 2 * e + 1) walked acc
    end
  end.

(** erase(find(h)) *)
Fixpoint erase (h : nat) (l : list nat) : option (list nat) :=
  match l with [] => None | x :: l' => if Nat.eqb h x then Some l' else let* r := erase h l' in Some (x :: r) end.

(** the position of h in incident_halfedges is below exterior_halfedge_count *)
Definition is_exterior (incident : list nat) (exterior_count h : nat) : bool := existsb (Nat.eqb h) (firstn exterior_count incident).

(** kernel.cpp:5261-5379: tracing one polygon.  [todo] is incident_halfedges_to_be_walked.  The result: is_valid_polygon, the polygon, the halfedges left. *)
Fixpoint trace_one (fuel : nat) (incident : list nat) (exterior_count : nat) (todo child : list nat) (current : nat) : option (bool * list nat * list nat) :=
  match fuel with
  | O => None
  | S fuel' =>
    let child := child ++ [current] in
    let* todo := erase current todo in
    let front := hd current child in
    let candidates := filter (fun h => Nat.eqb (src h) (tgt current)) todo in
    let closed := Nat.leb 3 (length child) && Nat.eqb (src front) (tgt current) in
    (* :5281-5329: the preemptive candidate; the interior case compares with the null halfedge and never takes one *)
    let premptive := if Nat.eqb (length candidates) 2 && is_exterior incident exterior_count current then Some (last candidates 0) else None in
    if closed && (negb (Nat.eqb current (opp front)) || match premptive with Some h => existsb (Nat.eqb h) child | None => false end)
    then Some (true, child, todo)
    else
      match candidates with
      | [] => Some (false, child, todo)
      | prime :: rest =>
        let prime :=
          if Nat.eqb (length candidates) 2 then
            if is_exterior incident exterior_count current then last candidates prime
            else if Nat.eqb (opp current) prime then last candidates prime else prime
          else prime in
        trace_one fuel' incident exterior_count todo child prime
      end
  end.

(** kernel.cpp:5254-5394: all child polygons of the face *)
Fixpoint trace_all (fuel : nat) (incident : list nat) (exterior_count : nat) (todo : list nat) : option (list (list nat)) :=
  match fuel with
  | O => None
  | S fuel' =>
    let* first := hd_error todo in
    let* (valid, child, todo) := trace_one (S (length todo)) incident exterior_count todo [] first in
    let* rest := match todo with [] => Some [] | _ => trace_all fuel' incident exterior_count todo end in
    Some (if valid : bool then child :: rest else rest)
  end.

(** kernel.cpp:4953-5395: clipping the face f, [edges] is ps_iface_to_m0_edge_list[f] *)
Definition clip (f : nat) (edges : list nat) : option (list (list nat)) :=
  let incident_edges := partition is_boundary edges in
  let boundary_count := length (filter is_boundary edges) in
  let boundary := firstn boundary_count incident_edges in
  let* first := first_boundary f boundary in
  let* exterior := exterior_walk (S (length boundary)) boundary first [] [] in
  let incident := exterior ++ flat_map (fun e => [2 * e; 2 * e + 1]) (skipn boundary_count incident_edges) in
  trace_all (S (length incident)) incident (length exterior) incident.

(** ** All faces *)
(** ps.get_halfedges_around_face, ps_to_m0_non_intersecting_edge and ps_iface_to_m0_edge_list *)
Variable around : nat -> list nat.
Variable ptgt : nat -> nat.
Variable unchanged : list (nat * nat).
Variable edge_list : list (nat * list nat).

(** kernel.cpp:4915-4952: an unchanged face *)
Definition retrace (f : nat) : option (list nat) :=
  fold_left (fun acc ph => let* acc := acc in let* e := lookup unchanged (edge ph) in
    Some (acc ++ [if Nat.eqb (src (2 * e)) (psrc ph) && Nat.eqb (tgt (2 * e)) (ptgt ph) then 2 * e else 2 * e + 1])) (around f) (Some []).

(** what a thread computes for a block of faces: m0_polygons_LOCAL, m0_sm_cutpath_adjacent_polygons_LOCAL, m0_cm_cutpath_adjacent_polygons_LOCAL,
    traced_sm_polygon_count_LOCAL, m0_to_ps_face_LOCAL *)
Record traced := { polygons : list (list nat); sm_adjacent : list nat; cm_adjacent : list nat; sm_count : nat; to_face : list (nat * nat) }.
Definition no_polygons : traced := {| polygons := []; sm_adjacent := []; cm_adjacent := []; sm_count := 0; to_face := [] |}.
Variable sm_face_count : nat.

(** kernel.cpp:4904-5405: one face.  The indices of the children are the number of polygons so far and the following. *)
Definition trace_face (r : traced) (f : nat) : option traced :=
  let from_cut_mesh := ps_is_cutmesh_face sm_face_count f in
  let base := length (polygons r) in
  let with_children (cs : list (list nat)) (new : list nat) :=
    {| polygons := polygons r ++ cs;
       sm_adjacent := if from_cut_mesh then sm_adjacent r else sm_adjacent r ++ new;
       cm_adjacent := if from_cut_mesh then cm_adjacent r ++ new else cm_adjacent r;
       sm_count := if from_cut_mesh then sm_count r else sm_count r + length cs;
       to_face := fold_left (fun m i => set m i f) (List.seq base (length cs)) (to_face r) |} in
  match lookup edge_list f with
  | None => let* p := retrace f in Some (with_children [p] [])
  | Some edges => let* cs := clip f edges in Some (with_children cs (List.seq base (length cs)))
  end.
(** a block of faces *)
Definition trace_block (fs : list nat) : option traced := fold_left (fun r f => let* r := r in trace_face r f) fs (Some no_polygons).

(** kernel.cpp:5415-5452  merge_local_traced_faces *)
Definition merge (r l : traced) : traced :=
  let base := length (polygons r) in
  {| polygons := polygons r ++ polygons l;
     sm_adjacent := sm_adjacent r ++ map (fun i => i + base) (sm_adjacent l);
     cm_adjacent := cm_adjacent r ++ map (fun i => i + base) (cm_adjacent l);
     sm_count := sm_count r + sm_count l;
     to_face := fold_left (fun m p => set m (fst p + base) (snd p)) (to_face l) (to_face r) |}.
(** kernel.cpp:5405-5498: the blocks of the faces are traced by different threads and merged in the order of the blocks; the master thread has
    the last one *)
Fixpoint trace_blocks (blocks : list (list nat)) (r : traced) : option traced :=
  match blocks with [] => Some r | b :: bs => let* l := trace_block b in trace_blocks bs (merge r l) end.
End Clip.
