(** Model of [parallel_partial_sum] (tpool.h:552-640): one transition = one array element
    processed or one operation on a promise/future, by any of the threads. *)
From Coq Require Import List ZArith.
From Verif Require Import Vec ParModel.
Import ListNotations.
Open Scope Z_scope.

(** Program points of [process_chunk] (tpool.h:557-585) for block [i]. *)
Inductive phase :=
| Start                       (* l. 535-549 partial_sum: sum = *first; *d_first = sum *)
| Scan (k sum : Z)            (* the while loop: next position [k] *)
| WaitPrev                    (* l. 567: previous_end_value->get() *)
| AddLast (a : Z)             (* l. 568: *last += addend *)
| SetEnd (a : option Z)       (* l. 570 / 576: end_value->set_value( *last) *)
| AddItems (k a : Z)          (* l. 572-574: for_each(begin, last, += addend) *)
| Fin.

Record sstate := SSt {
  smem : list Z;              (* the vector *)
  prom : Z -> option Z;       (* end_values[i] *)
  spc : Z -> phase }.

Record cfg := Cfg { c_len : Z; c_n : Z; c_bs : Z }.

(** tpool.h:610-631: block [i] of [n]; the last one is the master's. *)
Definition blk_first (c : cfg) (i : Z) : Z := i * c_bs c.
Definition blk_last (c : cfg) (i : Z) : Z :=
  if i =? c_n c - 1 then c_len c - 1 else (i + 1) * c_bs c - 1.

Definition zupd {A} (f : Z -> A) (k : Z) (x : A) : Z -> A := fun i => if i =? k then x else f i.

(** The next step of thread [i]; [None]: blocked, finished, or an error (out-of-range
    access, promise already satisfied). *)
Definition sstep (c : cfg) (s : sstate) (i : Z) : option sstate :=
  let b := blk_first c i in
  let l := blk_last c i in
  let go m p := Some (SSt m (prom s) (zupd (spc s) i p)) in
  match spc s i with
  | Start =>
      do x <- vget (smem s) b;
      do m <- vset (smem s) b x;
      go m (Scan (b + 1) x)
  | Scan k sum =>
      if k <=? l then
        do x <- vget (smem s) k;
        do m <- vset (smem s) k (wrap32 (sum + x));
        go m (Scan (k + 1) (wrap32 (sum + x)))
      else go (smem s) (if 0 <? i then WaitPrev else if i <? c_n c - 1 then SetEnd None else Fin)
  | WaitPrev =>
      do a <- prom s (i - 1);
      go (smem s) (AddLast a)
  | AddLast a =>
      do x <- vget (smem s) l;
      do m <- vset (smem s) l (wrap32 (x + a));
      go m (if i <? c_n c - 1 then SetEnd (Some a) else AddItems b a)
  | SetEnd oa =>
      do x <- vget (smem s) l;
      match prom s i with
      | Some _ => None
      | None => Some (SSt (smem s) (zupd (prom s) i (Some x))
                          (zupd (spc s) i (match oa with Some a => AddItems b a | None => Fin end)))
      end
  | AddItems k a =>
      if k <? l then
        do x <- vget (smem s) k;
        do m <- vset (smem s) k (wrap32 (x + a));
        go m (AddItems (k + 1) a)
      else go (smem s) Fin
  | Fin => None
  end.

Definition sinit (v : list Z) : sstate := SSt v (fun _ => None) (fun _ => Start).

(** The configuration chosen by tpool.h:588-604 for a vector of [len] elements and a pool
    of [pool] workers ([min_per_thread] has its default value 1 << 10). *)
Definition sum_cfg (pool len : Z) : option cfg :=
  match get_scheduling_parameters (wrap32 len) (wrap32 (pool + 1)) 1024 with
  | SchedOk n bs => Some (Cfg len n bs)
  | _ => None
  end.

(** States reachable by any interleaving of the threads 0 .. n-1 (n-1 is the caller). *)
Inductive sreach (c : cfg) (v : list Z) : sstate -> Prop :=
| sr_init : sreach c v (sinit v)
| sr_step s i s' : sreach c v s -> 0 <= i < c_n c -> sstep c s i = Some s' -> sreach c v s'.

(** tpool.h:633-639: the call returns when the caller's own chunk is finished; the workers'
    futures are never waited for. *)
Definition call_returned (c : cfg) (s : sstate) : Prop := spc s (c_n c - 1) = Fin.
Definition all_finished (c : cfg) (s : sstate) : Prop := forall i, 0 <= i < c_n c -> spc s i = Fin.

(** Running a given schedule. *)
Fixpoint srun (c : cfg) (sched : list Z) (s : sstate) : option sstate :=
  match sched with
  | [] => Some s
  | i :: r => do s' <- sstep c s i; srun c r s'
  end.
