(** Dividing the edges of the input meshes at the intersection points.  kernel.cpp:4227-4850, linear_projection_sort kernel.cpp:1498-1537.

    As in ClipModel the vertices, edges and halfedges are numbers and the vertices of ps keep their numbers in m0 (kernel.cpp:1759-1772).  MCUT_ASSERT is
    empty in a release build.  Access out of range (.at(), SAFE_ACCESS) is [None].  m0.add_edge (hmesh.cpp:403-478) appends an edge, since nothing has been
    removed from m0; its halfedges 2e and 2e + 1 go from the first vertex to the second and back.  The coordinates are real numbers and every operation on
    them is followed by [rnd]: the identity for exact arithmetic, rounding to nearest for double (without overflow and NaN). *)
From Coq Require Import List Arith Bool Reals.
From Verif Require Import CutModel.
Import ListNotations.

(** ** The order along an edge *)
Definition vec : Type := R * R * R.
Section Sort.
Variable rnd : R -> R.
(** math.h:222-225  operator- *)
Definition vminus (a b : vec) : vec := match a, b with (x, y, z), (x', y', z') => (rnd (x - x'), rnd (y - y'), rnd (z - z'))%R end.
(** math.h:437-445  dot_product, out starts with 0.0 *)
Definition dot_product (a b : vec) : R :=
  match a, b with (x, y, z), (x', y', z') => rnd (rnd (rnd (0 + rnd (x * x')) + rnd (y * y')) + rnd (z * z'))%R end.
(** math.h:487-496  length, normalize *)
Definition normalize (a : vec) : vec :=
  let l := rnd (sqrt (dot_product a a)) in match a with (x, y, z) => (rnd (x / l), rnd (y / l), rnd (z / l))%R end.
(** std::sort by the second component *)
Variable sort : list (nat * R) -> list (nat * R).

(** kernel.cpp:1498-1537: linear_projection_sort.  The first point is the origin; [dst] is the second one. *)
Definition projection (origin dst p : vec) : R := dot_product (vminus origin p) (normalize (vminus origin dst)).
Definition linear_projection_sort (points : list (nat * vec)) : option (list nat) :=
  match points with
  | origin :: dst :: _ => Some (map fst (sort (map (fun i => (fst i, projection (snd origin) (snd dst) (snd i))) points)))
  | _ => None
  end.
End Sort.

Section Split.
Variable rnd : R -> R.
Variable sort : list (nat * R) -> list (nat * R).
(** m0.vertex: coordinates *)
Variable position : nat -> vec.
(** ps.vertex(e, 0), ps.vertex(e, 1) *)
Variable pends : nat -> nat * nat.
(** ps.face(ps.halfedge(e, 0)), ps.face(ps.halfedge(e, 1)), if there are *)
Variable psf : nat -> option nat * option nat.
(** ps_intersecting_edges: the intersection points on the edges, in no particular order *)
Variable points : list (nat * list nat).
(** ps_vtx_cnt *)
Variable cnt : nat.
(** the order in which an unordered_map is iterated *)
Variable shuffle : forall A, list (nat * A) -> list (nat * A).

(** kernel.cpp:4413-4425 etc.: the faces of the two halfedges that are not null *)
Definition faces (e : nat) : list nat :=
  match fst (psf e) with Some f => [f] | None => [] end ++ match snd (psf e) with Some f => [f] | None => [] end.
(** kernel.cpp:145-148  m0_is_intersection_point *)
Definition ivtx (v : nat) : bool := Nat.leb cnt v.

(** the edges of m0, ps_iface_to_m0_edge_list, ivtx_to_incoming_hlist, ps_to_m0_edges, ps_to_m0_non_intersecting_edge *)
Record state := { edges : list (nat * nat); iface : list (nat * list nat); incoming : list (nat * list nat); along : list (nat * list nat); same : list (nat * nat) }.

(** ** Part 1: edges with more than one intersection point *)
(** kernel.cpp:4263-4303  ps_edge_to_vertices, kernel.cpp:4308-4313  ps_edge_to_sorted_descriptors *)
Definition many : list (nat * list nat) := filter (fun p => Nat.ltb 1 (length (snd p))) points.
Definition sorted_vertices (p : nat * list nat) : option (list nat) :=
  let vertices := [fst (pends (fst p)); snd (pends (fst p))] ++ snd p in
  linear_projection_sort rnd sort (map (fun v => (v, position v)) vertices).

(** kernel.cpp:4371-4426: one pair of neighbours; [first], [last]: the first and the last iteration *)
Definition add_piece (ps_edge : nat) (first last : bool) (s : state) (src tgt : nat) : state :=
  let new_edge := length (edges s) in let h := 2 * new_edge in
  {| edges := edges s ++ [(src, tgt)];
     along := push (along s) ps_edge new_edge;
     incoming :=
       if first then push (incoming s) tgt h
       else if last then push (incoming s) src (h + 1)
       else push (push (incoming s) tgt h) src (h + 1);
     iface := fold_left (fun m f => push m f new_edge) (faces ps_edge) (iface s);
     same := same s |}.
(** kernel.cpp:4371-4426: the loop *)
Fixpoint add_pieces (ps_edge : nat) (first : bool) (s : state) (vs : list nat) : state :=
  match vs with
  | src :: ((tgt :: rest) as vs') => add_pieces ps_edge false (add_piece ps_edge first (match rest with [] => true | _ => false end) s src tgt) vs'
  | _ => s
  end.
(** kernel.cpp:4349-4427 *)
Definition part1 (s : state) : option state :=
  fold_left (fun s p => let* s := s in let* vs := sorted_vertices p in Some (add_pieces (fst p) true s vs)) (shuffle _ many) (Some s).

(** ** Part 2: the other edges *)
(** what a thread computes: edges_LOCAL and the maps; [iface] and the rest start empty *)
Definition nothing : state := {| edges := []; iface := []; incoming := []; along := []; same := [] |}.

(** kernel.cpp:4479-4608: one edge; [has_face]: the face is in ps_iface_to_m0_edge_list *)
Definition local_edge (has_face : nat -> bool) (s : state) (ps_edge : nat) : option state :=
  if mem many ps_edge then Some s
  else
    let vertices := [fst (pends ps_edge); snd (pends ps_edge)] ++ match lookup points ps_edge with Some l => l | None => [] end in
    let e := length (edges s) in
    match vertices with
    | [first; second] =>
      Some {| edges := edges s ++ [(second, first)];
              same := set (same s) ps_edge e;
              iface := fold_left (fun m f => if has_face f then push m f e else m) (faces ps_edge) (iface s);
              incoming := incoming s; along := along s |}
    | first :: second :: third :: _ =>
      let add (a b c : nat) :=
        {| edges := edges s ++ [(a, b); (b, c)];
           incoming := push (push (incoming s) b (2 * e)) b (2 * (e + 1) + 1);
           iface := fold_left (fun m f => push (push m f e) f (e + 1)) (faces ps_edge) (iface s);
           same := same s; along := along s |} in
      Some (if negb (ivtx first) then (if ivtx second then add first second third else add first third second) else add second first third)
    | _ => None
    end.
(** kernel.cpp:4461-4612: a block of edges *)
Definition local_edges (has_face : nat -> bool) (es : list nat) : option state :=
  fold_left (fun s e => let* s := s in local_edge has_face s e) es (Some nothing).

(** push_back of every element of a list to the list of k *)
Definition pushes (m : list (nat * list nat)) (k : nat) (l : list nat) : list (nat * list nat) := fold_left (fun m x => push m k x) l m.
Fixpoint mapM {A B} (f : A -> option B) (l : list A) : option (list B) :=
  match l with [] => Some [] | x :: l' => let* y := f x in let* r := mapM f l' in Some (y :: r) end.

(** kernel.cpp:4637-4686  merge_local_m0_edges; emap: the numbers of the edges in m0.  (an edge is appended per entry: emap[i] is the number of edges before, plus i) *)
Definition merge (s l : state) : option state :=
  let emap := List.seq (length (edges s)) (length (edges l)) in
  let* same' := fold_left (fun m p => let* m := m in let* e := nth_error emap (snd p) in Some (set m (fst p) e)) (shuffle _ (same l)) (Some (same s)) in
  let* iface' := fold_left (fun m p => let* m := m in let* es := mapM (nth_error emap) (snd p) in Some (pushes m (fst p) es)) (shuffle _ (iface l)) (Some (iface s)) in
  let* incoming' := fold_left (fun m p => let* m := m in
      let* hs := mapM (fun h => let* e := nth_error emap (Nat.div2 h) in Some (2 * e + (if Nat.even h then 0 else 1))) (snd p) in
      Some (pushes m (fst p) hs)) (shuffle _ (incoming l)) (Some (incoming s)) in
  Some {| edges := edges s ++ edges l; iface := iface'; incoming := incoming'; same := same'; along := along s |}.

(** kernel.cpp:4614-4720: the blocks are done by several threads, the last one by the calling thread; its result is merged first.
    [has_face] is asked while the threads run: ps_iface_to_m0_edge_list does not change. *)
Definition part2 (blocks : list (list nat)) (master : list nat) (s : state) : option state :=
  let has_face := mem (iface s) in
  fold_left (fun s es => let* s := s in let* l := local_edges has_face es in merge s l) (master :: blocks) (Some s).

(** kernel.cpp:4227-4850 *)
Definition divide_edges (blocks : list (list nat)) (master : list nat) (s : state) : option state :=
  let* s := part1 s in part2 blocks master s.
End Split.
