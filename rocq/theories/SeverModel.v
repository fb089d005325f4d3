(** The partitioning of the source mesh along the intersection curves: kernel.cpp:6841-6960 (the flags), 6975-7050 (m1 and its first edges), 7064-7083 (next and previous), 1194-1405 (the instance of an intersection
    point), 7085-7566 (the walk), 7590-7660 (m1_polygons).

    As in ClipModel and PatchModel the vertices, edges, halfedges and polygons are numbers, 2e and 2e + 1 the halfedges of edge e, the vertices of ps keep their numbers in m0.  MCUT_ASSERT is empty in a release
    build.  Access out of range or to a key that a map does not have (SAFE_ACCESS is .at(), which throws; operator[] would insert it), a halfedge without next or previous, following an iterator past the end and leaving a loop only for lack of fuel are [None].
    m1_ivtx_to_h is written and never read, it is left out.  Numbers are unbounded (uint32_t in C++). *)
From Coq Require Import List Arith Bool.
From Verif Require Import CutModel ClipModel PatchModel.
Import ListNotations.

Section Sever.
(** m0_polygons, traced_sm_polygon_count, m0_num_cutpath_halfedges; m0.source(2e), m0.target(2e); the registry of the intersection points and ps_vtx_cnt, see ClipModel; sm_vtx_cnt, sm_face_count; the faces of the
    halfedges of an edge of ps *)
Variable polygons : list (list nat).
Variable sm_count : nat.
Variable cutpath_halfedges : nat.
Variable seg : nat -> nat * nat.
Variable registry : list (nat * nat).
Variable cnt : nat.
Variables (sm_vtx_cnt sm_face_count : nat).
Variable psf : nat -> option nat * option nat.
(** m0.number_of_vertices(), m0.number_of_edges() *)
Variables (vertices edges : nat).
(** ivtx_to_incoming_hlist in the order in which it is iterated; the order in which m0_sm_ihe_to_flag is iterated *)
Variable incoming : list (nat * list nat).
Variable shuffle : list nat -> list nat.

Notation src := (src seg).
Notation tgt := (tgt seg).
Notation ivtx := (ivtx cnt).
(** m0_h_to_ply[h].size() > 0 *)
Definition traced (h : nat) : bool := match h_to_ply polygons h with [] => false | _ => true end.
(** the halfedge has an intersection point *)
Definition ihalfedge (h : nat) : bool := ivtx (src h) || ivtx (tgt h).
(** the polygons of the source mesh *)
Definition sources : list (list nat) := firstn sm_count polygons.

(** ** The keys of m0_sm_ihe_to_flag *)
(** kernel.cpp:6866-6957: one edge; m0.vertex(e, 0) is the target of 2e (hmesh.cpp:232-238), ps_is_cutmesh_vertex :137-140 *)
Definition flag_edge (keys : list nat) (h : nat) : list nat :=
  let e := edge h in
  let v0 := tgt (2 * e) in let v1 := src (2 * e) in
  if negb (ivtx v0) && negb (ivtx v1) then keys
  else if ivtx v0 && negb (ivtx v1) && Nat.leb sm_vtx_cnt v1 then keys
  else if negb (ivtx v0) && ivtx v1 && Nat.leb sm_vtx_cnt v0 then keys
  else
    let add keys h := if traced h && negb (existsb (Nat.eqb h) keys) then keys ++ [h] else keys in
    add (add keys (2 * e)) (2 * e + 1).
(** kernel.cpp:6862-6960 *)
Definition flag_keys : list nat := fold_left (fun keys p => fold_left flag_edge (snd p) keys) incoming [].

(** ** next and previous *)
(** kernel.cpp:7068-7081: set_next(cur, next), the last call first *)
Definition links : list (nat * nat) := rev (flat_map (fun p => combine p (tl p ++ firstn 1 p)) sources).
Definition next (h : nat) : option nat := lookup links h.
(** hmesh.cpp set_next sets the previous of the next as well *)
Definition prev (h : nat) : option nat := lookup (map (fun p => (snd p, fst p)) links) h.

(** ** m1 *)
(** The vertices of m1, each given by the vertex of m0 it has the coordinates of; the ends of its edges (the source and the target of halfedge 2e); m0_to_m1_ihe; the halfedges of m0_sm_ihe_to_flag with true *)
Record state := { copies : list nat; medges : list (nat * nat); ihe : list (nat * nat); done : list nat }.
Definition mseg (s : state) (e : nat) : nat * nat := nth e (medges s) (0, 0).
Definition msrc (s : state) : nat -> nat := ClipModel.src (mseg s).
Definition mtgt (s : state) : nat -> nat := ClipModel.tgt (mseg s).
(** m1.add_vertex(m1.vertex(v)) *)
Definition add_copy (s : state) (v : nat) : nat * state :=
  (length (copies s), {| copies := copies s ++ [nth v (copies s) 0]; medges := medges s; ihe := ihe s; done := done s |}).
(** m1.add_edge(a, b), the halfedge from a to b *)
Definition add_edge (s : state) (a b : nat) : nat * state :=
  (2 * length (medges s), {| copies := copies s; medges := medges s ++ [(a, b)]; ihe := ihe s; done := done s |}).
(** m0_to_m1_ihe.emplace(h, m) *)
Definition emplace (s : state) (h m : nat) : state :=
  {| copies := copies s; medges := medges s; ihe := if mem (ihe s) h then ihe s else (h, m) :: ihe s; done := done s |}.
(** m0_sm_ihe_to_flag[h] = true *)
Definition mark (s : state) (h : nat) : state := {| copies := copies s; medges := medges s; ihe := ihe s; done := h :: done s |}.

(** kernel.cpp:7023-7045: one edge of m0; the edges of m1 so far and m0_to_m1_he *)
Definition copy_edge (r : list (nat * nat) * list (nat * nat)) (e : nat) : list (nat * nat) * list (nat * nat) :=
  let v0 := tgt (2 * e) in let v1 := src (2 * e) in
  if ivtx v0 || ivtx v1 then r
  else
    let m := 2 * length (fst r) in
    (fst r ++ [(v0, v1)],
     if Nat.eqb (src (2 * e)) v0 then snd r ++ [(2 * e, m); (2 * e + 1, opp m)] else snd r ++ [(2 * e + 1, m); (2 * e, opp m)]).
(** kernel.cpp:7016-7047 *)
Definition copied_edges : list (nat * nat) * list (nat * nat) := fold_left copy_edge (seq 0 edges) ([], []).
(** kernel.cpp:6975-7047, 7118 *)
Definition start : state := {| copies := seq 0 vertices; medges := fst copied_edges; ihe := []; done := [] |}.

(** SAFE_ACCESS(m0_sm_ihe_to_flag, h) *)
Definition flag (s : state) (h : nat) : option bool := if existsb (Nat.eqb h) (shuffle flag_keys) then Some (existsb (Nat.eqb h) (done s)) else None.

(** ** The instance of an intersection point *)
(** kernel.cpp:1240-1288  is_strictly_cs_h *)
Definition strictly_cs (h : nat) : option bool :=
  let s := src h in let t := tgt h in
  let is_ox_cs := negb (ivtx s) && Nat.leb sm_vtx_cnt s in
  let is_xo_cs := negb (ivtx t) && Nat.leb sm_vtx_cnt t in
  if is_ox_cs || is_xo_cs then Some true
  else if ivtx s && ivtx t && is_boundary_halfedge cutpath_halfedges h then
    let* (e, _) := nth_error registry (s - cnt) in
    let* f := match fst (psf e) with Some f => Some f | None => snd (psf e) end in
    Some (Nat.leb sm_face_count f)
  else Some false.
(** kernel.cpp:1290-1301: the halfedges that stay in halfedges_across_cut_path *)
Definition stays (s : state) (h : nat) : option bool :=
  let* b := strictly_cs h in
  if b : bool then Some false else if negb (traced h) then Some false else flag s h.
Fixpoint across (s : state) (hs : list nat) : option (list nat) :=
  match hs with
  | [] => Some []
  | h :: hs => let* b := stays s h in let* l := across s hs in Some (if b : bool then h :: l else l)
  end.
(** kernel.cpp:1194-1405  resolve_intersection_point_descriptor: [h] m0_h, [x] m0_h_tgt, [original] m1_h_tgt.  In the case of a halfedge that is not traced (:1337-1346) the copy made first is not used. *)
Definition resolve (s : state) (h x original : nat) (is_ox : bool) : option (nat * state) :=
  let* hs := lookup incoming x in
  let* others := across s hs in
  match others with
  | [] => Some (original, s)
  | front :: _ =>
    let* (same, others, s) :=
      if is_ox then
        if traced (opp h) then
          let* p := prev (opp h) in
          let* b := flag s p in
          if b : bool then let* l := erase p others in Some (Some p, l, s) else Some (None, others, s)
        else Some (None, others, s)
      else if negb (traced h) then
        let* m := lookup (ihe s) front in
        Some (None, others, snd (add_copy s (mtgt s m)))
      else
        let* nxt := next h in
        let* b := if traced (opp nxt) then flag s (opp nxt) else Some false in
        if b && (if ivtx x && ivtx (tgt nxt) then is_boundary_halfedge cutpath_halfedges nxt else true) then let* l := erase (opp nxt) others in Some (Some (opp nxt), l, s)
        else Some (None, others, s) in
    match same with
    | Some h => let* m := lookup (ihe s) h in Some (mtgt s m, s)
    | None => let* front := hd_error others in let* m := lookup (ihe s) front in Some (add_copy s (mtgt s m))
    end
  end.

(** ** The walk *)
(** kernel.cpp:7276-7299: the target of the current halfedge *)
Definition target_of (s : state) (cur nxt : nat) : option (nat * state) :=
  if ivtx (tgt cur) then
    match lookup (ihe s) nxt with
    | Some m => Some (msrc s m, s)
    | None => resolve s cur (tgt cur) (tgt cur) (negb (ivtx (src cur)) && ivtx (tgt cur))
    end
  else Some (tgt cur, s).
(** kernel.cpp:7301-7329: its source *)
Definition source_of (s : state) (init cur : nat) : option (nat * state) :=
  if ivtx (src cur) then
    if Nat.eqb cur init then resolve s (opp cur) (src cur) (src cur) (negb (ivtx (src cur)) && ivtx (tgt cur))
    else
      let* p := prev cur in
      let* m := lookup (ihe s) p in
      Some (mtgt s m, s)
  else Some (src cur, s).
(** kernel.cpp:7340-7435: the edge of m1 *)
Definition edge_of (s : state) (cur a b : nat) : state :=
  let is_exterior := is_boundary_halfedge cutpath_halfedges cur in
  if negb is_exterior || negb (mem (ihe s) cur) then
    let (m, s) := add_edge s a b in
    let s := emplace s cur m in
    if is_exterior && traced (opp cur) then emplace s (opp cur) (opp m) else s
  else s.
(** kernel.cpp:7437-7458: what is pushed on m0_ox_hlist *)
Definition pushed (s : state) (init cur nxt : nat) : option (list nat) :=
  if ivtx (src cur) && negb (ivtx (tgt cur)) && traced (opp cur) then
    let* b := flag s (opp cur) in
    Some (if negb b && (if ivtx (tgt nxt) then Nat.eqb nxt init else true) then [opp cur] else [])
  else Some [].
(** kernel.cpp:7258-7462: one halfedge *)
Definition step (s : state) (init cur nxt : nat) : option (state * list nat) :=
  let* (b, s) := target_of s cur nxt in
  let* (a, s) := source_of s init cur in
  let s := edge_of s cur a b in
  let* l := pushed s init cur nxt in
  Some (mark s cur, l).
(** kernel.cpp:7249-7468: the halfedges from the first one of a sequence on; m0_ox_hlist with its back first *)
Fixpoint walk (fuel : nat) (s : state) (stack : list nat) (init cur : nat) : option (state * list nat) :=
  match fuel with
  | O => None
  | S fuel =>
    let* nxt := next cur in
    let* (s, l) := step s init cur nxt in
    let stack := l ++ stack in
    let* again := if ihalfedge nxt then option_map negb (flag s nxt) else Some false in
    if again : bool then walk fuel s stack init nxt else Some (s, stack)
  end.
(** kernel.cpp:7242-7470 *)
Fixpoint sequences (fuel : nat) (s : state) (stack : list nat) : option state :=
  match fuel with
  | O => None
  | S fuel' =>
    match stack with
    | [] => None
    | init :: stack => let* (s, stack) := walk fuel s stack init init in match stack with [] => Some s | _ => sequences fuel' s stack end
    end
  end.
(** kernel.cpp:7129-7193  check_if_halfedge_is_transformed; wrap_integer(i - 1, 0, size - 1) *)
Definition class1_start (s : state) (h : nat) : option bool :=
  if ivtx (src h) || existsb (Nat.eqb h) (done s) || negb (ivtx (tgt h)) then Some false
  else
    match h_to_ply polygons h with
    | [] => Some false
    | p :: _ =>
      let* polygon := nth_error polygons p in
      let* i := index_of h polygon in
      let* before := nth_error polygon (match i with O => length polygon - 1 | S i => i end) in
      let class0 := negb (ivtx (src before)) && negb (ivtx (tgt before)) in
      let class2 := ivtx (src before) && negb (ivtx (tgt before)) in
      Some (class0 || (class2 && Nat.eqb (length (filter (fun h => negb (ivtx (tgt h))) polygon)) 1))
    end.
(** kernel.cpp:7488-7544 *)
Definition class3_start (s : state) (h : nat) : option bool :=
  if existsb (Nat.eqb h) (done s) || negb (ivtx (src h) && ivtx (tgt h)) then Some false
  else if is_boundary_halfedge cutpath_halfedges h then let* p := hd_error (h_to_ply polygons h) in Some (Nat.ltb p sm_count)
  else Some false.
(** std::find_if *)
Fixpoint find_start (test : nat -> option bool) (l : list nat) : option (option nat) :=
  match l with [] => Some None | h :: l => let* b := test h in if b : bool then Some (Some h) else find_start test l end.
(** kernel.cpp:7235-7548, from a halfedge on *)
Fixpoint partition_from (fuel : nat) (s : state) (h : nat) : option state :=
  match fuel with
  | O => None
  | S fuel' =>
    let* s := sequences fuel s [h] in
    let* r := find_start (class1_start s) (shuffle flag_keys) in
    let* r := match r with Some h => Some (Some h) | None => find_start (class3_start s) (shuffle flag_keys) end in
    match r with Some h => partition_from fuel' s h | None => Some s end
  end.
(** kernel.cpp:7197-7548 *)
Definition partition (fuel : nat) : option state :=
  let* r := find_start (class1_start start) (shuffle flag_keys) in
  let* h := r in
  partition_from fuel start h.

(** ** The polygons of m1 *)
(** kernel.cpp:7620-7641 *)
Definition mapped (s : state) (h : nat) : option nat := if ihalfedge h then lookup (ihe s) h else lookup (snd copied_edges) h.
Fixpoint all {A B} (f : A -> option B) (l : list A) : option (list B) :=
  match l with [] => Some [] | a :: l => let* b := f a in let* r := all f l in Some (b :: r) end.
(** kernel.cpp:7590-7660  m1_polygons *)
Definition severed (fuel : nat) : option (state * list (list nat)) :=
  let* s := partition fuel in
  let* ps := all (all (mapped s)) sources in
  Some (s, ps).
End Sever.
