(** The intersection curves of the kernel: how the segments are collected into cut paths, what is inferred about each path, and the
    detection of floating polygons.  kernel.cpp:3572-4139.

    Vertices, edges and faces are numbers.  Of the mesh m0 only the ends of its edges are used, of the polygon soup ps only the faces on
    the two sides of an edge.  MCUT_ASSERT is empty in a release build.  Following an iterator past the end, reading the front of an empty
    vector and leaving a loop only for lack of fuel are [None]. *)
From Coq Require Import List Arith Bool.
Import ListNotations.

(** A std::map or std::unordered_map with keys of type nat: the elements in some order, no key twice. *)
Section Maps.
Context {A : Type}.
Definition mem (m : list (nat * A)) (k : nat) : bool := existsb (Nat.eqb k) (map fst m).
Fixpoint lookup (m : list (nat * A)) (k : nat) : option A :=
  match m with [] => None | (k', a) :: m' => if Nat.eqb k k' then Some a else lookup m' k end.
(** m[k] = a *)
Fixpoint set (m : list (nat * A)) (k : nat) (a : A) : list (nat * A) :=
  match m with [] => [(k, a)] | (k', a') :: m' => if Nat.eqb k k' then (k, a) :: m' else (k', a') :: set m' k a end.
End Maps.

(** m[k].push_back(e) *)
Fixpoint push (m : list (nat * list nat)) (k e : nat) : list (nat * list nat) :=
  match m with [] => [(k, [e])] | (k', es) :: m' => if Nat.eqb k k' then (k', es ++ [e]) :: m' else (k', es) :: push m' k e end.

Definition bind {A B} (x : option A) (f : A -> option B) : option B := match x with Some a => f a | None => None end.
Notation "'let*' x := e1 'in' e2" := (bind e1 (fun x => e2)) (at level 200, x pattern, e1 at level 100, e2 at level 200, right associativity).

Section Paths.
(** m0.vertex(e, 0) and m0.vertex(e, 1) *)
Variable ends : nat -> nat * nat.
Definition v0 (e : nat) : nat := fst (ends e).
Definition v1 (e : nat) : nat := snd (ends e).
(** The order in which an unordered map is iterated over: any rearrangement of the elements *)
Variable shuffle : list (nat * list nat) -> list (nat * list nat).

(** kernel.cpp:3581-3591 and :4092-4099: for every vertex the edges that end there *)
Definition bins (edges : list nat) : list (nat * list nat) := fold_left (fun m e => push (push m (v0 e) e) (v1 e) e) edges [].

(** kernel.cpp:3619-3637: the vertex a new path starts from *)
Definition find_start (bs : list (nat * list nat)) (vseq : list (nat * nat)) : option (nat * list nat) :=
  match find (fun elem => negb (mem vseq (fst elem)) && Nat.eqb (length (snd elem)) 1) (shuffle bs) with
  | Some elem => Some elem
  | None => find (fun elem => negb (mem vseq (fst elem))) (shuffle bs)
  end.

(** kernel.cpp:3688-3756: the inner loop, which adds an edge to the current path in each round.  [vseq] is m0_ivtx_to_cutpath_sequence,
    [eseq] is m0_edge_to_cutpath_sequence, [seq] the path so far. *)
Fixpoint walk (fuel : nat) (bs : list (nat * list nat)) (idx current_vertex current_edge : nat) (seq : list nat) (vseq eseq : list (nat * nat)) : option (list nat * list (nat * nat) * list (nat * nat)) :=
  match fuel with
  | O => None
  | S fuel' =>
    let seq := seq ++ [current_edge] in
    let vseq := set vseq current_vertex idx in
    let eseq := set eseq current_edge idx in
    let next_vertex := if Nat.eqb current_vertex (v0 current_edge) then v1 current_edge else v0 current_edge in
    if mem vseq next_vertex then Some (seq, vseq, eseq)
    else
      let* es := lookup bs next_vertex in
      if Nat.eqb (length es) 1 then Some (seq, set vseq next_vertex idx, eseq)
      else
        match es with
        | [] => None
        | edge0 :: _ =>
          let edge1 := last es edge0 in
          let other_edge := if Nat.eqb current_edge edge0 then edge1 else edge0 in
          if mem eseq other_edge then Some (seq, set vseq next_vertex idx, eseq)
          else walk fuel' bs idx next_vertex other_edge seq vseq eseq
        end
  end.

(** kernel.cpp:3606-3759: the outer loop, which finds a path in each round *)
Fixpoint paths (fuel : nat) (edges : list nat) (seqs : list (list nat)) (vseq eseq : list (nat * nat)) : option (list (list nat) * list (nat * nat)) :=
  match fuel with
  | O => None
  | S fuel' =>
    match find_start (bins edges) vseq with
    | None => Some (seqs, vseq)
    | Some (first_vertex, incident) =>
      let* first_edge := find (fun e => negb (mem eseq e)) incident in
      let* (s, vseq, eseq) := walk (S (length edges)) (bins edges) (length seqs) first_vertex first_edge [] vseq eseq in
      let seqs := seqs ++ [s] in
      if Nat.eqb (length eseq) (length edges) then Some (seqs, vseq) else paths fuel' edges seqs vseq eseq
    end
  end.

(** kernel.cpp:3602-3759: m0_cutpath_sequences and m0_ivtx_to_cutpath_sequence *)
Definition cut_paths (edges : list nat) : option (list (list nat) * list (nat * nat)) := paths (S (length edges)) edges [] [] [].

(** What is inferred about the paths *)
Section Info.
(** the faces of the two halfedges of an edge of ps: ps.face(ps.halfedge(e, i)) *)
Variable psf : nat -> option nat * option nat.
(** m0_ivtx_to_intersection_registry_entry: the edge and the face of ps that meet in the intersection point ps_vtx_cnt + i *)
Variable registry : list (nat * nat).
Variable ps_vtx_cnt : nat.
Variable sm_face_count : nat.

(** hmesh.cpp:263-272  is_border(edge) *)
Definition is_border (e : nat) : bool := match psf e with (Some _, Some _) => false | _ => true end.

(** kernel.cpp:3794-3809: the intersection points on borders, with the edges of their registry entries *)
Definition terminal_vertices : list (nat * nat) :=
  flat_map (fun p => if is_border (fst (snd p)) then [(ps_vtx_cnt + fst p, fst (snd p))] else []) (combine (List.seq 0 (length registry)) registry).

(** kernel.cpp:155-158 *)
Definition ps_is_cutmesh_face (f : nat) : bool := Nat.leb sm_face_count f.

(** kernel.cpp:3867-3880 and :3922-3937: is the border that a terminal vertex lies on one of the source mesh? *)
Definition from_src_mesh (v : nat) : option bool :=
  let* e := lookup terminal_vertices v in
  let* f := match psf e with (Some f, _) => Some f | (None, o) => o end in
  Some (negb (ps_is_cutmesh_face f)).

(** kernel.cpp:3821-3952: (is_linear, is_hole, is_srcmesh_severing) of one path *)
Definition properties (cutpath : list nat) : option (bool * bool * bool) :=
  match cutpath with
  | [] => None
  | first_edge :: _ =>
    let first0 := mem terminal_vertices (v0 first_edge) in
    let is_linear := if first0 then true else mem terminal_vertices (v1 first_edge) in
    if negb is_linear then Some (false, true, true)
    else
      let first_vertex := if first0 then v0 first_edge else v1 first_edge in
      let* first_src := from_src_mesh first_vertex in
      let last_edge := last cutpath first_edge in
      let last_vertex :=
        if Nat.eqb last_edge first_edge then (if Nat.eqb first_vertex (v0 last_edge) then v1 last_edge else v0 last_edge)
        else (if mem terminal_vertices (v0 last_edge) then v0 last_edge else v1 last_edge) in
      let* last_src := from_src_mesh last_vertex in
      Some (true, negb last_src && negb first_src, first_src && last_src)
  end.

Fixpoint all_properties (seqs : list (list nat)) : option (list (bool * bool * bool)) :=
  match seqs with
  | [] => Some []
  | s :: seqs' => let* p := properties s in let* ps := all_properties seqs' in Some (p :: ps)
  end.

(** kernel.cpp:3958-3986: the indices of the paths that make holes and of those that sever the source mesh *)
Definition indices (sel : bool * bool * bool -> bool) (ps : list (bool * bool * bool)) : list nat :=
  flat_map (fun p => if sel (snd p) then [fst p] else []) (combine (List.seq 0 (length ps)) ps).
Definition making_holes : list (bool * bool * bool) -> list nat := indices (fun p => snd (fst p)).
Definition severing_srcmesh : list (bool * bool * bool) -> list nat := indices snd.

(** kernel.cpp:7746  proceed_to_fill_holes *)
Definition proceed_to_fill_holes (seqs : list (list nat)) (ps : list (bool * bool * bool)) : bool := Nat.eqb (length (making_holes ps)) (length seqs).

(** SAFE_ACCESS(m0_ivtx_to_intersection_registry_entry, v - ps_vtx_cnt).second; with v below ps_vtx_cnt the difference of std::size_t is
    out of range and .at() throws *)
Definition registry_face (v : nat) : option nat := if Nat.leb ps_vtx_cnt v then option_map snd (nth_error registry (v - ps_vtx_cnt)) else None.

(** kernel.cpp:4047-4076: is the closed path a floating polygon?  [shared] is shared_registry_entry_intersected_face. *)
Fixpoint floating_loop (cutpath : list nat) (shared vertex_prev : option nat) : option (bool * option nat) :=
  match cutpath with
  | [] => Some (true, shared)
  | e :: cutpath' =>
    let v := match vertex_prev with Some p => if Nat.eqb (v0 e) p then v1 e else v0 e | None => v0 e end in
    let* f := registry_face v in
    match shared with
    | None => floating_loop cutpath' (Some f) (Some v)
    | Some g => if Nat.eqb g f then floating_loop cutpath' (Some g) (Some v) else Some (false, Some g)
    end
  end.

(** kernel.cpp:4101-4129: the vertices around the floating polygon (the code stores their coordinates) *)
Fixpoint polygon_loop (fuel : nat) (bs : list (nat * list nat)) (n cur : nat) (prev_edge : option nat) (acc : list nat) : option (list nat) :=
  match fuel with
  | O => None
  | S fuel' =>
    let acc := acc ++ [cur] in
    if match prev_edge with None => true | Some _ => false end || Nat.ltb (length acc) n then
      let* evec := lookup bs cur in
      let* edge := find (fun e => match prev_edge with None => true | Some p => negb (Nat.eqb e p) end) evec in
      let next_vertex := if Nat.eqb (v0 edge) cur then v1 edge else v0 edge in
      if mem bs next_vertex then polygon_loop fuel' bs n next_vertex (Some edge) acc else Some acc
    else Some acc
  end.
Definition polygon_vertices (cutpath : list nat) : option (list nat) :=
  match shuffle (bins cutpath) with
  | [] => None
  | (start, _) :: _ => polygon_loop (S (length cutpath)) (bins cutpath) (length cutpath) start None []
  end.

(** kernel.cpp:4024-4134: output.detected_floating_polygons, in the order of detection: the face and the polygon *)
Fixpoint detect (seqs : list (list nat)) (ps : list (bool * bool * bool)) : option (list (nat * list nat)) :=
  match seqs, ps with
  | s :: seqs', (is_linear, is_hole, _) :: ps' =>
    let* rest := detect seqs' ps' in
    if negb is_hole || is_linear then Some rest
    else
      let* (is_floating, shared) := floating_loop s None None in
      if is_floating then
        let* f := shared in
        let* polygon := polygon_vertices s in
        Some ((f, polygon) :: rest)
      else Some rest
  | _, _ => Some []
  end.
End Info.
End Paths.
