(** Which polygons of the source mesh lie above and which below the cut mesh: kernel.cpp:6632-6821.

    As in PatchModel the vertices, edges, halfedges and polygons are numbers, 2e and 2e + 1 the halfedges of edge e.  MCUT_ASSERT is empty in a release build.  Access out of range and following an iterator past the end
    are [None].  The normal of a face and the position of a vertex are there for each number (SAFE_ACCESS to a map and a mesh that hold the faces and vertices met).  Numbers are unbounded (int in C++). *)
From Coq Require Import List Arith ZArith Bool Reals.
From Verif Require Import CutModel ClipModel SplitModel PatchModel TriModel.
Import ListNotations.
Open Scope nat_scope.

Section Sides.
(** m0_polygons, traced_sm_polygon_count, m0_num_cutpath_halfedges; the rest as in PatchModel *)
Variable polygons : list (list nat).
Variable sm_count : nat.
Variable cutpath_halfedges : nat.
Variable seg : nat -> nat * nat.
Variable registry : list (nat * nat).
Variable cnt : nat.
Variables (sm_vtx_cnt sm_face_count : nat).
Variable pvertex0 : nat -> nat.
Variable psf : nat -> option nat * option nat.
Variable normal : nat -> vec.
Variable position : nat -> vec.
Variable rnd : R -> R.

(** kernel.cpp:6666-6767: does the halfedge arrive with a negative scalar product?  (The search for the tested face, :6730-6747, is the one of :6577-6600.) *)
Definition negative (h : nat) : option bool :=
  let s := src seg h in let t := tgt seg h in
  if negb (ClipModel.ivtx cnt t) then Some false
  else
    let is_ox := negb (ClipModel.ivtx cnt s) in
    let is_boundary_ih := is_boundary_halfedge cutpath_halfedges h in
    let* (e, f) := nth_error registry (t - cnt) in
    if negb (is_ox || is_boundary_ih) then Some false
    else
      let* f := tested_face sm_vtx_cnt sm_face_count pvertex0 psf e f in
      Some (if Rlt_dec (dot_product rnd (normal f) (vminus rnd (position t) (position s))) 0 then true else false).

(** kernel.cpp:6785-6809: the polygon of the source mesh on the other side of the halfedge after number i *)
Definition across (polygon : list nat) (i : nat) : option nat :=
  let* next := nth_error polygon (Z.to_nat (wrap_integer (Z.of_nat i + 1) 0 (Z.of_nat (length polygon) - 1))) in
  find (fun q => Nat.ltb q sm_count) (h_to_ply polygons (opp next)).

(** kernel.cpp:6666-6816: the halfedge number i of polygon p.  The state: sm_polygons_above_cs, sm_polygons_below_cs.  The second search (:6810) is for p, not for the neighbour. *)
Definition side_step (p : nat) (polygon : list nat) (state : list nat * list nat) (i : nat) : option (list nat * list nat) :=
  let* h := nth_error polygon i in
  let* b := negative h in
  if b : bool then
    let above := if existsb (Nat.eqb p) (fst state) then fst state else fst state ++ [p] in
    let* q := across polygon i in
    Some (above, if existsb (Nat.eqb p) (snd state) then snd state else snd state ++ [q])
  else Some state.

(** kernel.cpp:6658-6817: the polygon p *)
Definition side_polygon (state : list nat * list nat) (p : nat) : option (list nat * list nat) :=
  let* polygon := nth_error polygons p in
  fold_left (fun s i => let* s := s in side_step p polygon s i) (seq 0 (length polygon)) (Some state).

(** std::sort *)
Fixpoint insert (x : nat) (l : list nat) : list nat := match l with [] => [x] | y :: l' => if Nat.leb x y then x :: l else y :: insert x l' end.
Definition sort (l : list nat) : list nat := fold_right insert [] l.

(** kernel.cpp:6644-6821: sm_polygons_above_cs and sm_polygons_below_cs; [adjacent]: m0_sm_cutpath_adjacent_polygons *)
Definition above_below (adjacent : list nat) : option (list nat * list nat) :=
  let* (above, below) := fold_left (fun s p => let* s := s in side_polygon s p) adjacent (Some ([], [])) in
  Some (sort above, sort below).
End Sides.
