(** Parallel loops over the mesh iterators (array_iterator_t), whose range may contain
    removed slots.  Iterators are raw positions, as in [HmeshModel]. *)
From Coq Require Import List ZArith Bool.
From Verif Require Import Vec HmeshModel ParModel.
Import ListNotations.
Open Scope Z_scope.

(** hmesh.h:379-401 [count_removed_elements_in_range] *)
Definition count_removed_in_range (removed : list Z) (first last : Z) : Z :=
  if last - first =? 0 then 0
  else zlen (filter (fun d => (first <=? d) && (d <=? first + (last - first - 1))) removed).

(** hmesh.h:594-611, the specialisation of std::distance for edge iterators.  There is none
    for faces, vertices and half-edges: std::distance then is the raw pointer
    difference. *)
Definition edge_distance (removed : list Z) (first last : Z) : Z :=
  last - first - count_removed_in_range removed first last.
Definition raw_distance (removed : list Z) (first last : Z) : Z := last - first.

(** tpool.h:459-472 with the iterators of the mesh: std::advance is [operator+=] of the
    iterator (hmesh.h:517-535). *)
Fixpoint mesh_blocks (n : nat) (len : Z) (removed : list Z) (start block_size : Z) : list block * Z :=
  match n with
  | O => ([], start)
  | S n' =>
      let fin := it_advance len removed start block_size in
      let '(l, s) := mesh_blocks n' len removed fin block_size in
      (Blk start fin :: l, s)
  end.

(** tpool.h:421-476 [parallel_for] over the live elements of an array of [len] slots *)
Definition mesh_parallel_for_plan (distance : list Z -> Z -> Z -> Z) (pool len : Z) (removed : list Z) (min_per_thread : Z) : plan :=
  let first := it_begin len removed in
  match get_scheduling_parameters (wrap32 (distance removed first len)) (wrap32 (pool + 1)) min_per_thread with
  | SchedDivByZero => PlanUB
  | SchedThrow => PlanThrow
  | SchedOk n bs =>
      if pool <? n - 1 then PlanUB else
      let '(l, s) := mesh_blocks (Z.to_nat (n - 1)) len removed first bs in
      PlanOk l (Blk s len)
  end.

(** The loop a thread runs on its block: for (it = start; it != fin; ++it).  [None]: the end
    is not reached within the number of slots (the iterator has left the array). *)
Definition mesh_block_elements (len : Z) (removed : list Z) (b : block) : option (list Z) :=
  it_loop (Z.to_nat len) len removed (bfirst b) (blast b).
