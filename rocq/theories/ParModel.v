(** Model of the parallel loops of include/mcut/internal/tpool.h: splitting of the range
    (get_scheduling_parameters), parallel_for and its execution. *)
From Coq Require Import List ZArith Bool.
From Verif Require Import Vec.
Import ListNotations.
Open Scope Z_scope.

(** [uint32_t] arithmetic *)
Definition wrap32 (x : Z) : Z := x mod 2 ^ 32.

Inductive sched :=
| SchedDivByZero                       (* undefined behaviour: integer division by zero *)
| SchedThrow                           (* std::runtime_error *)
| SchedOk (num_threads block_size : Z).

(** tpool.h:353-391 [get_scheduling_parameters].  [std::min] of two uint32_t (the literal
    2 converts). *)
Definition get_scheduling_parameters (length available_threads min_per_thread : Z) : sched :=
  if min_per_thread =? 0 then SchedDivByZero else
  let max_threads := wrap32 (length + min_per_thread - 1) / min_per_thread in
  let num_threads := Z.min (if negb (available_threads =? 0) then available_threads else 2) max_threads in
  if num_threads =? 0 then SchedDivByZero else       (* l. 376 *)
  let block_size := length / num_threads in
  if (num_threads =? 0) || (available_threads <? num_threads) then SchedThrow else
  if max_threads =? 0 then SchedThrow else
  if block_size =? 0 then SchedThrow else
  SchedOk num_threads block_size.

(** A block handed to a thread: half-open range of element positions. *)
Record block := Blk { bfirst : Z; blast : Z }.

(** tpool.h:459-472 / 515-526: the loop submitting blocks to workers [0 .. n-2]; returns
    them and the start of the master's block. *)
Fixpoint submit_blocks (n : nat) (start block_size : Z) : list block * Z :=
  match n with
  | O => ([], start)
  | S n' =>
      let fin := start + block_size in                 (* std::advance(block_end, block_size) *)
      let '(l, s) := submit_blocks n' fin block_size in
      (Blk start fin :: l, s)
  end.

Inductive plan :=
| PlanUB | PlanThrow
| PlanOk (workers : list block) (master : block).

(** tpool.h:421-476 and 478-533 [parallel_for] up to the point where all the blocks are
    handed out.  Block [i] is submitted to worker [i]: [work_queues[i]] must exist
    (otherwise undefined behaviour).  [pool] = number of worker threads; [length] is the
    distance between the iterators, truncated to uint32_t. *)
Definition parallel_for_plan (pool length min_per_thread : Z) : plan :=
  match get_scheduling_parameters (wrap32 length) (wrap32 (pool + 1)) min_per_thread with
  | SchedDivByZero => PlanUB
  | SchedThrow => PlanThrow
  | SchedOk n bs =>
      if pool <? n - 1 then PlanUB else
      let '(l, s) := submit_blocks (Z.to_nat (n - 1)) 0 bs in
      PlanOk l (Blk s length)
  end.

(** The elements of a block, in the order its thread visits them. *)
Definition elements (b : block) : list Z :=
  map (fun k => bfirst b + Z.of_nat k) (seq 0 (Z.to_nat (blast b - bfirst b))).

(** Interleavings of several sequences of steps: at each point the next step of any of
    them is performed. *)
Inductive interleaving {A} : list (list A) -> list A -> Prop :=
| il_done ls : (forall l, In l ls -> l = []) -> interleaving ls []
| il_step pre a l post rest :
    interleaving (pre ++ l :: post) rest ->
    interleaving (pre ++ (a :: l) :: post) (a :: rest).

(** Executions of [parallel_for] (void version, tpool.h:478-533): the threads visit their
    blocks concurrently and the call returns when all the futures are ready.  [step i]
    is the effect of the loop body on element [i]. *)
Definition parallel_execution {S} (pool length min_per_thread : Z) (step : Z -> S -> S)
           (s s' : S) : Prop :=
  exists workers master order,
    parallel_for_plan pool length min_per_thread = PlanOk workers master /\
    interleaving (map elements (workers ++ [master])) order /\
    s' = fold_left (fun x i => step i x) order s.

(** Outcome of running a block or of the whole call. *)
Inductive outcome := Finished | Threw.

(** A block visited in order by its thread; the first body that throws ends the block
    (tpool.h:465-470: the task is a packaged_task, the exception goes to its future).
    [throws i] tells whether the body throws on element [i]; the result lists the elements
    whose body ran to completion. *)
Fixpoint run_block (throws : Z -> bool) (l : list Z) : list Z * outcome :=
  match l with
  | [] => ([], Finished)
  | i :: r => if throws i then ([], Threw)
              else let '(d, o) := run_block throws r in (i :: d, o)
  end.

(** tpool.h:478-533, void [parallel_for]: exceptions of workers stay in their futures,
    which are only waited for (l. 530-532); the caller's own exception propagates.  Returns the
    elements processed by each thread and the outcome seen by the caller. *)
Definition parallel_for_call (pool length min_per_thread : Z) (throws : Z -> bool)
  : option (list (list Z) * outcome) :=
  match parallel_for_plan pool length min_per_thread with
  | PlanOk workers master =>
      let ws := map (fun b => run_block throws (elements b)) workers in
      let m := run_block throws (elements master) in
      Some (map fst ws ++ [fst m], snd m)
  | _ => None
  end.
