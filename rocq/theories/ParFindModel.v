(** Model of [parallel_find_in_map_by_key] (tpool.h:716-792) and [parallel_find_if]
    (tpool.h:794-867) with the spinning [barrier_t] (tpool.h:393-416): one transition = one
    operation on a shared object, by any of the threads. *)
From Coq Require Import List ZArith Bool.
From Verif Require Import Vec ParModel ParSumModel.
Import ListNotations.
Open Scope Z_scope.

(** Program points of [find_map_element_by_key] (tpool.h:716-741) / [find_element_with_pred]
    (tpool.h:794-822) for the block of one thread. *)
Inductive fphase :=
| FScan (k : Z)               (* the for loop: begin = k *)
| FSet (k : Z)                (* result->set_value(begin) *)
| FStore                      (* done_flag->store(true) *)
| BGen                        (* barrier wait(), l. 407: read generation *)
| BDec (g : Z)                (* l. 408: --spaces *)
| BReset                      (* l. 409: spaces = count *)
| BInc                        (* l. 410: ++generation *)
| BSpin (g : Z)               (* l. 412: while (generation == my_generation) *)
| FDone.

Record fstate := FSt {
  fdone : bool;               (* done_flag *)
  fres : option Z;            (* the promise: position stored, if any *)
  fspaces : Z;                (* barrier *)
  fgen : Z;
  fpc : Z -> fphase }.

(** Block [i] is the half-open range [blk_first .. blk_end). *)
Definition blk_end (c : cfg) (i : Z) : Z := blk_last c i + 1.

(** The next step of thread [i]; [None]: spinning, or finished.  [hit k]: the element at
    position [k] matches.  A second [set_value] throws, [set_exception] in the handler throws
    again and is swallowed (l. 730-737). *)
Definition fstep (c : cfg) (hit : Z -> bool) (s : fstate) (i : Z) : option fstate :=
  let go p := Some (FSt (fdone s) (fres s) (fspaces s) (fgen s) (zupd (fpc s) i p)) in
  match fpc s i with
  | FScan k =>
      if negb (k =? blk_end c i) && negb (fdone s)
      then go (if hit k then FSet k else FScan (k + 1))
      else go BGen
  | FSet k =>
      match fres s with
      | None => Some (FSt (fdone s) (Some k) (fspaces s) (fgen s) (zupd (fpc s) i FStore))
      | Some _ => go BGen
      end
  | FStore => Some (FSt true (fres s) (fspaces s) (fgen s) (zupd (fpc s) i BGen))
  | BGen => go (BDec (fgen s))
  | BDec g =>
      Some (FSt (fdone s) (fres s) (fspaces s - 1) (fgen s)
                (zupd (fpc s) i (if fspaces s - 1 =? 0 then BReset else BSpin g)))
  | BReset => Some (FSt (fdone s) (fres s) (c_n c) (fgen s) (zupd (fpc s) i BInc))
  | BInc => Some (FSt (fdone s) (fres s) (fspaces s) (fgen s + 1) (zupd (fpc s) i FDone))
  | BSpin g => if fgen s =? g then None else go FDone
  | FDone => None
  end.

Definition finit (c : cfg) : fstate := FSt false None (c_n c) 0 (fun i => FScan (blk_first c i)).

Inductive freach (c : cfg) (hit : Z -> bool) : fstate -> Prop :=
| fr_init : freach c hit (finit c)
| fr_step s i s' : freach c hit s -> 0 <= i < c_n c -> fstep c hit s i = Some s' -> freach c hit s'.

(** tpool.h:755-770: same splitting as the other loops. *)
Definition find_cfg (pool len : Z) : option cfg := sum_cfg pool len.

(** [parallel_find_in_map_by_key] waits for every future (l. 782-785) and then returns
    [last] (position [len]) if the flag is not set, the stored position otherwise (l. 788-791).
    [None]: [get_future().get()] on a promise without value blocks for ever. *)
Definition find_by_key_returns (c : cfg) (s : fstate) : Prop :=
  forall i, 0 <= i < c_n c -> fpc s i = FDone.
Definition find_value (c : cfg) (s : fstate) : option Z :=
  if fdone s then fres s else Some (c_len c).

(** [parallel_find_if] only finishes its own block (l. 860) before it returns; its barrier,
    promise and flag are local variables. *)
Definition find_if_returns (c : cfg) (s : fstate) : Prop := fpc s (c_n c - 1) = FDone.

Fixpoint frun (c : cfg) (hit : Z -> bool) (sched : list Z) (s : fstate) : option fstate :=
  match sched with
  | [] => Some s
  | i :: r => do s' <- fstep c hit s i; frun c hit r s'
  end.
