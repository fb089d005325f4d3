(** C76: commands that run at the same time and share the helper threads of their context.

    Every context has one pool of helper threads (frontend.h:567-580), which all its manager threads use: one manager thread, or two if commands may run out of order.
    A helper has a queue of its own and takes its tasks in the order of submission (tpool.h:245-266).  A manager thread that comes to a parallel section divides the range in
    parts, submits one part to each of the helpers 0, 1, .., works on the last part itself, and waits for the others.

    Simplified: what a part computes is not modelled, only where it waits; parts end without an exception (C47); a helper whose queue is not empty can take the next task
    (that the notification can be lost is C10's matter); taking the generation of a barrier and counting down its spaces is one step (the steps one by one are in ParFindModel,
    C48_barrier); counters do not overflow; no context is released meanwhile (C57); ranges are not empty (C08). *)
From Coq Require Import List Arith.
Import ListNotations.

(** What a parallel section does: [Loop] is parallel_for (tpool.h:419-534), whose parts do not wait; [Sum] is parallel_partial_sum (tpool.h:550-648), whose parts wait for the last
    value of the part before; [Meet b] is a parallel_for or a parallel_find_in_map_by_key whose parts wait b times for all the others at a barrier (frontend.cpp:3358-3475: twice;
    tpool.h:716-792: once). *)
Inductive kind := Loop | Sum | Meet (barriers : nat).

(** A parallel section over [size] elements, at least [least] of them for each thread (min_per_thread). *)
Record section := { what : kind; size : nat; least : nat }.

(** tpool.h:345-391 get_scheduling_parameters, num_threads - 1: the parts that are submitted to helpers, of [W] helpers. *)
Definition helpers (W : nat) (c : section) : nat := Nat.min (S W) ((size c + least c - 1) / least c) - 1.

(** The steps of a part: [Take i] is previous_end_value->get() (tpool.h:564), [Give i] end_value->set_value (tpool.h:567, 573), [Arrive] the start of barrier_t::wait (tpool.h:405-409),
    [Cross] its end (tpool.h:411-413; the thread that was last does not wait, which [Cross] does not either, as the generation is a new one then). *)
Inductive op := Work | Take (i : nat) | Give (i : nat) | Arrive | Cross.

(** frontend.cpp:3431-3450, tpool.h:740: the barriers of one part, with what is done after each. *)
Fixpoint meets (b : nat) : list op := match b with 0 => [] | S b => Arrive :: Cross :: Work :: meets b end.

(** The steps of part [i], of parts 0 .. [n] of which [n] is the one of the submitting thread: tpool.h:553-582 process_chunk with the arguments of l. 620-648; frontend.cpp:3358-3466. *)
Definition part (k : kind) (n i : nat) : list op :=
  match k with
  | Loop => [Work]
  | Sum => Work :: (if Nat.eqb i 0 then [] else [Take (i - 1)]) ++ (if Nat.ltb i n then [Give i] else []) ++ [Work]
  | Meet b => Work :: meets b
  end.

(** A part that runs: the steps it has before it, and its my_generation (tpool.h:407). *)
Record runner := { ops : list op; mine : nat }.
(** A part is not submitted yet, in the queue of its helper, running, or over (its future is ready). *)
Inductive pstate := Later | Queued | Running (r : runner) | Over.
(** What the parts of a section share: the end values that have been set (tpool.h:601), and the spaces and the generation of the barrier (tpool.h:393-398). *)
Record shared := { given : list nat; spaces : nat; generation : nat }.
(** tpool.h:399-404, tpool.h:601: at the start of the section. *)
Definition fresh (n : nat) : shared := {| given := []; spaces := S n; generation := 0 |}.

(** The next step of a part, if it does not have to wait.  [n] helpers, a barrier for [n] + 1. *)
Definition exec (n : nat) (r : runner) (h : shared) : option (runner * shared) :=
  match ops r with
  | [] => None
  | Work :: l => Some ({| ops := l; mine := mine r |}, h)
  | Take i :: l => if existsb (Nat.eqb i) (given h) then Some ({| ops := l; mine := mine r |}, h) else None
  | Give i :: l => Some ({| ops := l; mine := mine r |}, {| given := i :: given h; spaces := spaces h; generation := generation h |})
  | Arrive :: l => Some ({| ops := l; mine := generation h |},
      if Nat.eqb (spaces h) 1 then {| given := given h; spaces := S n; generation := S (generation h) |} else {| given := given h; spaces := spaces h - 1; generation := generation h |})
  | Cross :: l => if Nat.eqb (generation h) (mine r) then None else Some ({| ops := l; mine := mine r |}, h)
  end.

(** Where a manager thread is in its section: before it; about to submit part [i]; at its own part; about to wait for the future of part [i] (tpool.h:531-533). *)
Inductive phase := Begin | Submit (i : nat) | Own | Await (i : nat).

(** A section is named by the manager thread and its number in what this thread does. *)
Record state := { at_section : nat -> nat; in_phase : nat -> phase; queue : nat -> list (nat * nat); busy : nat -> option (nat * nat);
                  parts : nat -> nat -> nat -> pstate; common : nat -> nat -> shared }.

Definition upd {A} (f : nat -> A) (k : nat) (a : A) : nat -> A := fun x => if Nat.eqb x k then a else f x.
Definition upd2 {A} (f : nat -> nat -> A) (j k : nat) (a : A) : nat -> nat -> A := upd f j (upd (f j) k a).
Definition upd3 {A} (f : nat -> nat -> nat -> A) (i j k : nat) (a : A) : nat -> nat -> nat -> A := upd f i (upd2 (f i) j k a).

Section pool.
Variable W : nat.
Variable progs : list (list section).
Definition prog (m : nat) : list section := nth m progs [].

Definition start : state :=
  {| at_section := fun _ => 0; in_phase := fun _ => Begin; queue := fun _ => []; busy := fun _ => None; parts := fun _ _ _ => Later; common := fun _ _ => fresh 0 |}.

(** The end of a section for its manager thread. *)
Definition leave (st : state) (m : nat) : state :=
  {| at_section := upd (at_section st) m (S (at_section st m)); in_phase := upd (in_phase st) m Begin; queue := queue st; busy := busy st; parts := parts st; common := common st |}.
Definition set_phase (st : state) (m : nat) (p : phase) : state :=
  {| at_section := at_section st; in_phase := upd (in_phase st) m p; queue := queue st; busy := busy st; parts := parts st; common := common st |}.

(** The next step of manager thread [m]: tpool.h:486-534 parallel_for, 586-648 parallel_partial_sum (which does not wait for the futures at its end), 743-792 parallel_find_in_map_by_key. *)
Definition manager (st : state) (m : nat) : option state :=
  let s := at_section st m in
  match nth_error (prog m) s with
  | None => None
  | Some c =>
    let n := helpers W c in
    match in_phase st m with
    | Begin => Some {| at_section := at_section st; in_phase := upd (in_phase st) m (Submit 0); queue := queue st; busy := busy st; parts := parts st; common := upd2 (common st) m s (fresh n) |}
    | Submit i =>
        if Nat.ltb i n
        then Some {| at_section := at_section st; in_phase := upd (in_phase st) m (Submit (S i)); queue := upd (queue st) i (queue st i ++ [(m, s)]); busy := busy st;
                     parts := upd3 (parts st) m s i Queued; common := common st |}
        else Some {| at_section := at_section st; in_phase := upd (in_phase st) m Own; queue := queue st; busy := busy st;
                     parts := upd3 (parts st) m s n (Running {| ops := part (what c) n n; mine := 0 |}); common := common st |}
    | Own =>
        match parts st m s n with
        | Running r =>
          match ops r with
          | [] => let st' := {| at_section := at_section st; in_phase := in_phase st; queue := queue st; busy := busy st; parts := upd3 (parts st) m s n Over; common := common st |} in
                  Some (match what c with Sum => leave st' m | _ => set_phase st' m (Await 0) end)
          | _ => match exec n r (common st m s) with
                 | Some (r', h') => Some {| at_section := at_section st; in_phase := in_phase st; queue := queue st; busy := busy st;
                                            parts := upd3 (parts st) m s n (Running r'); common := upd2 (common st) m s h' |}
                 | None => None
                 end
          end
        | _ => None
        end
    | Await i => if Nat.ltb i n then match parts st m s i with Over => Some (set_phase st m (Await (S i))) | _ => None end else Some (leave st m)
    end
  end.

(** The next step of helper [w]: tpool.h:245-266 worker_thread. *)
Definition helper (st : state) (w : nat) : option state :=
  match busy st w with
  | None =>
    match queue st w with
    | [] => None
    | (m, s) :: q =>
      match nth_error (prog m) s with
      | None => None
      | Some c => Some {| at_section := at_section st; in_phase := in_phase st; queue := upd (queue st) w q; busy := upd (busy st) w (Some (m, s));
                          parts := upd3 (parts st) m s w (Running {| ops := part (what c) (helpers W c) w; mine := 0 |}); common := common st |}
      end
    end
  | Some (m, s) =>
    match nth_error (prog m) s, parts st m s w with
    | Some c, Running r =>
      match ops r with
      | [] => Some {| at_section := at_section st; in_phase := in_phase st; queue := queue st; busy := upd (busy st) w None; parts := upd3 (parts st) m s w Over; common := common st |}
      | _ => match exec (helpers W c) r (common st m s) with
             | Some (r', h') => Some {| at_section := at_section st; in_phase := in_phase st; queue := queue st; busy := busy st;
                                        parts := upd3 (parts st) m s w (Running r'); common := upd2 (common st) m s h' |}
             | None => None
             end
      end
    | _, _ => None
    end
  end.

Inductive thread := Manager (m : nat) | Helper (w : nat).
Definition next (st : state) (t : thread) : option state := match t with Manager m => manager st m | Helper w => helper st w end.

(** All the states that some interleaving leads to. *)
Inductive steps : nat -> state -> state -> Prop :=
| steps_0 st : steps 0 st st
| steps_S k st st' st'' t : steps k st st' -> next st' t = Some st'' -> steps (S k) st st''.
Definition reachable (st : state) : Prop := exists k, steps k start st.
End pool.
