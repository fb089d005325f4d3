(** The patches of the cut mesh: kernel.cpp:6390-6424 (which polygons use a halfedge), 6459-6617 (exterior polygons), 7797-8243 (seeds, flood fill, colouring), 8540-8618 (location of the colours).

    As in ClipModel the vertices, edges, halfedges and polygons are numbers, 2e and 2e + 1 the halfedges of edge e, the vertices of ps keep their numbers in m0.  MCUT_ASSERT is empty in a
    release build.  Access out of range, following an iterator past the end and leaving a loop only for lack of fuel are [None].  Numbers are unbounded (int in C++). *)
From Coq Require Import List Arith Bool Reals.
From Verif Require Import CutModel ClipModel SplitModel.
Import ListNotations.
Open Scope nat_scope.

(** ** math.h:253-293  matrix_t<int>: rows, columns and the entries row after row *)
Record matrix := { rows : nat; cols : nat; entries : list nat }.
(** math.h:262-267 *)
Definition zeroes (r c : nat) : matrix := {| rows := r; cols := c; entries := repeat 0 (r * c) |}.
(** math.h:274-277 *)
Definition entry (m : matrix) (r c : nat) : nat := nth (r * cols m + c) (entries m) 0.
(** math.h:269-272  m(r, c) = x *)
Definition put (m : matrix) (r c x : nat) : matrix := {| rows := rows m; cols := cols m; entries := firstn (r * cols m + c) (entries m) ++ x :: skipn (S (r * cols m + c)) (entries m) |}.
(** math.h:280-293  operator* (each entry of the result is written by its own iterations of the loops over i and j) *)
Definition product (a b : matrix) : matrix :=
  {| rows := rows a; cols := cols b;
     entries := flat_map (fun i => map (fun j => fold_left (fun s k => s + entry a i k * entry b k j) (seq 0 (cols a)) 0) (seq 0 (cols b))) (seq 0 (rows a)) |}.

Section Patches.
(** m0_polygons, traced_sm_polygon_count, m0_num_cutpath_halfedges *)
Variable polygons : list (list nat).
Variable sm_count : nat.
Variable cutpath_halfedges : nat.
(** the order in which an unordered_map is iterated *)
Variable shuffle : forall A, list (nat * A) -> list (nat * A).

(** kernel.cpp:6390-6424  m0_h_to_ply[h]: the polygons with h, one entry for each time h occurs *)
Definition h_to_ply (h : nat) : list nat := flat_map (fun p => map (fun _ => fst p) (filter (Nat.eqb h) (snd p))) (combine (seq 0 (length polygons)) polygons).

(** std::distance to std::find *)
Fixpoint index_of (h : nat) (l : list nat) : option nat := match l with [] => None | x :: l' => if Nat.eqb h x then Some 0 else option_map S (index_of h l') end.

(** ** Seeds *)
(** kernel.cpp:7813-7848: the cut-mesh polygon of the halfedge, and the position of the halfedge in it *)
Definition seed_of (h : nat) : option (nat * nat) :=
  let* p := find (fun i => Nat.leb sm_count i) (h_to_ply h) in
  let* polygon := nth_error polygons p in
  let* i := index_of h polygon in
  Some (p, i).
(** kernel.cpp:7800-7850  patch_discovery_seeds *)
Definition seeds_of (making_holes : list nat) (sequences : list (list nat)) : option (list (nat * nat)) :=
  fold_left (fun acc idx => let* acc := acc in
    let* sequence := nth_error sequences idx in
    let* e := hd_error sequence in
    let* s0 := seed_of (2 * e) in
    let* s1 := seed_of (2 * e + 1) in
    Some (acc ++ [s0; s1])) making_holes (Some []).

(** ** Flood fill *)
(** kernel.cpp:1183-1186  m0_is_polygon_boundary_halfedge *)
Definition is_boundary_halfedge (h : nat) : bool := Nat.leb cutpath_halfedges h.
(** kernel.cpp:8049-8102: the loop over the halfedges of a polygon; the queue and patch_poly_enqueued (the polygons with value true) *)
Definition spread (state : list nat * list nat) (h : nat) : list nat * list nat :=
  if is_boundary_halfedge h then
    match h_to_ply (opp h) with
    | [] => state
    | incident :: _ => if existsb (Nat.eqb incident) (snd state) then state else (fst state ++ [incident], incident :: snd state)
    end
  else state.
(** kernel.cpp:8020-8104: the result is the patch, m0_cm_poly_to_patch_idx and patch_poly_enqueued *)
Fixpoint flood (fuel idx : nat) (queue patch : list nat) (known : list (nat * nat)) (enqueued : list nat) : option (list nat * list (nat * nat) * list nat) :=
  match fuel with
  | O => None
  | S fuel' =>
    match queue with
    | [] => None
    | p :: queue' =>
      let* polygon := nth_error polygons p in
      let (queue, enqueued) := fold_left spread polygon (queue', enqueued) in
      let patch := patch ++ [p] in
      let known := set known p idx in
      match queue with [] => Some (patch, known, enqueued) | _ => flood fuel' idx queue patch known enqueued end
    end
  end.
(** the patches, the seed of each (patch_to_seed_poly_idx, patch_to_seed_interior_ihalfedge_idx) and m0_cm_poly_to_patch_idx.  Patches are numbered in the order they are found. *)
Record found := { patches : list (list nat); patch_seeds : list (nat * nat); known : list (nat * nat); enqueued : list nat }.
(** kernel.cpp:7952-8108: the pool is emptied from its end; a seed whose polygon is known is skipped *)
Definition from_seed (s : found) (seed : nat * nat) : option found :=
  if mem (known s) (fst seed) then Some s
  else
    let* r := flood (S (length polygons)) (length (patches s)) [fst seed] [] (known s) (fst seed :: enqueued s) in
    match r with (patch, known', enqueued') => Some {| patches := patches s ++ [patch]; patch_seeds := patch_seeds s ++ [seed]; known := known'; enqueued := enqueued' |} end.
Definition nothing_found : found := {| patches := []; patch_seeds := []; known := []; enqueued := [] |}.
Definition build_patches (seeds : list (nat * nat)) : option found := fold_left (fun s seed => let* s := s in from_seed s seed) (rev seeds) (Some nothing_found).

(** ** Colouring *)
(** kernel.cpp:8118-8142  graph_patch_to_adj_list *)
Fixpoint adjacency (known : list (nat * nat)) (seeds : list (nat * nat)) (m : list (nat * list nat)) : option (list (nat * list nat)) :=
  match seeds with
  | cur :: nxt :: rest =>
    let* c := lookup known (fst cur) in
    let* n := lookup known (fst nxt) in
    adjacency known rest (push (push m c n) n c)
  | _ => Some m
  end.
(** kernel.cpp:8155-8177  scs_adj_matrix *)
Definition adjacency_matrix (n : nat) (adj : list (nat * list nat)) : matrix :=
  fold_left (fun m p => fold_left (fun m col => if Nat.eqb (fst p) col then m else put m (fst p) col 1) (snd p) m) (shuffle _ adj) (zeroes n n).
(** kernel.cpp:8197-8227: the queue keeps its front until the loop over the columns is done *)
Fixpoint colour (fuel : nat) (squared : matrix) (queue red : list nat) : option (list nat) :=
  match fuel with
  | O => None
  | S fuel' =>
    match queue with
    | [] => None
    | row :: _ =>
      let red := red ++ [row] in
      let queue := fold_left (fun q col =>
        if Nat.eqb row col then q
        else if Nat.ltb 0 (entry squared row col) && negb (existsb (Nat.eqb col) red) && negb (existsb (Nat.eqb col) q) then q ++ [col] else q) (seq 0 (cols squared)) queue in
      match tl queue with [] => Some red | queue => colour fuel' squared queue red end
    end
  end.
(** kernel.cpp:8118-8241: the red and the blue patches *)
Definition colours (seeds : list (nat * nat)) (s : found) : option (list nat * list nat) :=
  let n := length (patches s) in
  let* adj := adjacency (known s) seeds [] in
  let m := adjacency_matrix n adj in
  let* red := colour (S n) (product m m) [0] [] in
  Some (red, filter (fun p => negb (existsb (Nat.eqb p) red)) (map fst (shuffle _ adj))).

(** ** Exterior polygons *)
(** m0.source(2e), m0.target(2e); the registry of the intersection points and ps_vtx_cnt, see ClipModel; sm_vtx_cnt, sm_face_count *)
Variable seg : nat -> nat * nat.
Variable registry : list (nat * nat).
Variable cnt : nat.
Variables (sm_vtx_cnt sm_face_count : nat).
(** ps.vertex(e, 0) and the faces of the halfedges of an edge of ps, if there are; ps_tested_face_to_plane_normal; coordinates; rounding of each operation *)
Variable pvertex0 : nat -> nat.
Variable psf : nat -> option nat * option nat.
Variable normal : nat -> vec.
Variable position : nat -> vec.
Variable rnd : R -> R.
(** m0_ivtx_to_cutpath_sequence *)
Variable vseq : list (nat * nat).

(** kernel.cpp:1409-1417  ps_get_ivtx_registry_entry_faces, and the search for the tested face :6577-6600; [None]: null_face *)
Definition tested_face (e f : nat) : option nat :=
  let from_cutmesh := Nat.leb sm_vtx_cnt (pvertex0 e) in
  let ok (f : option nat) := match f with Some f => if from_cutmesh then Nat.ltb f sm_face_count else Nat.leb sm_face_count f | None => false end in
  let* f := find ok [Some f; fst (psf e); snd (psf e)] in f.
(** kernel.cpp:6485-6616: one halfedge of a polygon; [Some true]: the polygon is exterior *)
Definition exterior_halfedge (making_holes : list nat) (h : nat) : option bool :=
  let s := src seg h in let t := tgt seg h in
  if negb (ClipModel.ivtx cnt t) then Some false
  else
    let* path := lookup vseq t in
    if negb (existsb (Nat.eqb path) making_holes) then Some false
    else
      let is_ox := negb (ClipModel.ivtx cnt s) in
      let* (e, f) := nth_error registry (t - cnt) in
      let* is_boundary_ih := if ClipModel.ivtx cnt s then let* (e', _) := nth_error registry (s - cnt) in Some (Nat.eqb e' e) else Some false in
      if negb (is_ox || is_boundary_ih) then Some false
      else
        let* f := tested_face e f in
        Some (if Rlt_dec (dot_product rnd (normal f) (vminus rnd (position t) (position s))) 0 then true else false).
(** kernel.cpp:6483-6616: the halfedges of a polygon, up to the first that passes *)
Fixpoint exterior_at (making_holes : list nat) (i : nat) (polygon : list nat) : option (option nat) :=
  match polygon with
  | [] => Some None
  | h :: l => let* b := exterior_halfedge making_holes h in if b : bool then Some (Some i) else exterior_at making_holes (S i) l
  end.
(** kernel.cpp:6459-6617  known_exterior_cm_polygons *)
Definition exterior_polygons (making_holes adjacent : list nat) : option (list (nat * nat)) :=
  match making_holes with
  | [] => Some []
  | _ => fold_left (fun acc p => let* acc := acc in
      if mem acc p then Some acc
      else
        let* polygon := nth_error polygons p in
        let* r := exterior_at making_holes 0 polygon in
        Some (match r with Some i => set acc p i | None => acc end)) adjacent (Some [])
  end.

(** kernel.cpp:8540-8618  patch_color_label_to_location: is red inside?  ([None]: the patch has no colour, or there is none.) *)
Definition red_is_inside (known_exterior : list (nat * nat)) (s : found) (red blue : list nat) : option bool :=
  let is_red p := if existsb (Nat.eqb p) red then Some true else if existsb (Nat.eqb p) blue then Some false else None in
  match shuffle _ known_exterior with
  | [] => match patches s with [] => None | _ => is_red 0 end
  | (p, _) :: _ => let* patch := lookup (known s) p in let* r := is_red patch in Some (negb r)
  end.
(** The patches with their location (true: inside).  kernel.cpp:7797-8241, 8540-8618. *)
Definition locate_patches (making_holes : list nat) (sequences : list (list nat)) (adjacent : list nat) : option (found * (nat -> bool)) :=
  let* ext := exterior_polygons making_holes adjacent in
  let* seeds := seeds_of making_holes sequences in
  let* s := build_patches seeds in
  let* (red, blue) := colours seeds s in
  let* inside := red_is_inside ext s red blue in
  Some (s, fun p => if existsb (Nat.eqb p) red then inside else negb inside).
End Patches.
