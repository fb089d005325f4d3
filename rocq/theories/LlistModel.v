(** C78: the lists in which the library keeps contexts, events and connected components (frontend.cpp:64-65, frontend.h:839), used by several threads at once.

    threadsafe_list, tpool.h:873-969: a linked list with a mutex in every node; a thread that goes through the list locks the next node before it unlocks the one it is at.
    The head is node 0, which has no data.  A step is one lock or unlock, one access to a pointer, or the call of the function argument.

    Simplified: the function arguments of find_first_if, remove_if and for_each are functions of the entry alone and do not use the list themselves; a node that is destroyed is
    destroyed in one step (with its entry: a shared pointer of which the callers of remove_if hold a copy, frontend.cpp:3715-3723, 3768-3774); the list itself is not destroyed; allocation does not fail. *)
From Coq Require Import List Arith Bool.
Import ListNotations.

Section List_.
Variable T : Type.

(** The calls: tpool.h:905-911, 913-926, 928-945, 947-968. *)
Inductive op := Push (v : T) | Find (p : T -> bool) | Remove (p : T -> bool) | Each.
(** What a call gives back: nothing; the entry found or T(); for_each: the entries that the function was called for, in order. *)
Inductive result := Done | Found (r : option T) | Seen (l : list T).

(** struct node, tpool.h:876-890 *)
Record cell := { data : option T; nxt : option nat }.

(** Where a thread is. *)
Inductive pc :=
| Ready                                                   (* between two calls *)
| PushNew (v : T) (x : nat)                               (* l. 907 done: has made node x; is about to lock the head *)
| PushHeld (v : T) (x : nat)                              (* l. 908 done: holds the head; about to move head.next *)
| PushMoved (v : T) (x : nat)                             (* l. 909 done; about to set head.next *)
| PushLinked                                              (* l. 910 done; about to unlock the head *)
| Start (o : op)                                          (* about to lock the head: l. 917, 932, 951 *)
| At (o : op) (cur : nat) (seen : list T)                 (* holds cur; about to read current->next: l. 918, 933, 952 *)
| Want (o : op) (cur nx : nat) (seen : list T)            (* about to lock next: l. 920, 935, 954 *)
| Both (o : op) (cur nx : nat) (seen : list T)            (* holds both *)
| One (o : op) (nx : nat) (seen : list T)                 (* has unlocked current (l. 921, 936); about to call the function: l. 922, 937 *)
| Cut (o : op) (cur nx : nat)                             (* l. 957 done: current->next has been moved out; about to set it *)
| Drop (o : op) (cur nx : nat)                            (* l. 958 done; about to unlock next *)
| Delete (o : op) (cur nx : nat)                          (* l. 959 done; about to destroy the node, l. 960 *)
| Return (r : result) (x : nat).                          (* about to return, which unlocks x *)

Record thread := { todo : list op; here : pc; results : list result }.
(** The memory: which nodes there are, which thread holds which mutex; the threads.  [order] is not in the code: the calls in the order in which they held the head. *)
Record state := { heap : nat -> option cell; owner : nat -> option nat; threads : nat -> thread; order : list (nat * op) }.

Definition upd {A} (f : nat -> A) (k : nat) (a : A) : nat -> A := fun x => if Nat.eqb x k then a else f x.
Definition start (progs : list (list op)) : state :=
  {| heap := fun x => if Nat.eqb x 0 then Some {| data := None; nxt := None |} else None; owner := fun _ => None;
     threads := fun t => {| todo := nth t progs []; here := Ready; results := [] |}; order := [] |}.

(** Access to memory that is not there, a mutex that is not one's own unlocked or one that is locked destroyed: [Fault]. *)
Inductive outcome := Wait | Fault | Go (st : state).
Definition with_pc (st : state) (t : nat) (p : pc) : state :=
  {| heap := heap st; owner := owner st; threads := upd (threads st) t {| todo := todo (threads st t); here := p; results := results (threads st t) |}; order := order st |}.
(** std::mutex::lock *)
Definition lock (st : state) (t x : nat) (p : pc) : outcome :=
  match heap st x with
  | None => Fault
  | Some _ => match owner st x with
              | Some _ => Wait
              | None => Go (with_pc {| heap := heap st; owner := upd (owner st) x (Some t); threads := threads st; order := order st |} t p)
              end
  end.
(** std::mutex::unlock *)
Definition unlock (st : state) (t x : nat) : option state :=
  match heap st x, owner st x with
  | Some _, Some t' => if Nat.eqb t t' then Some {| heap := heap st; owner := upd (owner st) x None; threads := threads st; order := order st |} else None
  | _, _ => None
  end.
Definition set_next (st : state) (x : nat) (n : option nat) : option state :=
  match heap st x with
  | Some c => Some {| heap := upd (heap st) x (Some {| data := data c; nxt := n |}); owner := owner st; threads := threads st; order := order st |}
  | None => None
  end.
Definition get_next (st : state) (x : nat) : option (option nat) := option_map nxt (heap st x).
Definition get_data (st : state) (x : nat) : option T := match heap st x with Some c => data c | None => None end.
Definition go (st : option state) (t : nat) (p : pc) : outcome := match st with Some st => Go (with_pc st t p) | None => Fault end.
(** Not in the code: the call, which holds the head now, is entered into [order]. *)
Definition note (oc : outcome) (t : nat) (o : op) : outcome :=
  match oc with Go st => Go {| heap := heap st; owner := owner st; threads := threads st; order := order st ++ [(t, o)] |} | _ => oc end.
(** The end of a call. *)
Definition finish (st : state) (t : nat) (r : result) : state :=
  {| heap := heap st; owner := owner st; threads := upd (threads st) t {| todo := todo (threads st t); here := Ready; results := results (threads st t) ++ [r] |}; order := order st |}.

(** What the call gives back at the end of the list: l. 944 T(). *)
Definition at_end (o : op) (seen : list T) : result := match o with Find _ => Found None | Each => Seen seen | _ => Done end.

(** The next step of thread [t].  [fresh] is the address that operator new gives, if it is called (l. 907). *)
Definition step (st : state) (t fresh : nat) : outcome :=
  match here (threads st t) with
  | Ready =>
    match todo (threads st t) with
    | [] => Wait
    | o :: rest =>
      let th p := {| todo := rest; here := p; results := results (threads st t) |} in
      match o with
      | Push v =>
        match heap st fresh with
        | Some _ => Wait
        | None => Go {| heap := upd (heap st) fresh (Some {| data := Some v; nxt := None |}); owner := owner st; threads := upd (threads st) t (th (PushNew v fresh)); order := order st |}
        end
      | _ => Go {| heap := heap st; owner := owner st; threads := upd (threads st) t (th (Start o)); order := order st |}
      end
    end
  | PushNew v x => lock st t 0 (PushHeld v x)
  | PushHeld v x =>
    match get_next st 0 with
    | None => Fault
    | Some n => match set_next st 0 None with Some st => go (set_next st x n) t (PushMoved v x) | None => Fault end
    end
  | PushMoved v x => note (go (set_next st 0 (Some x)) t PushLinked) t (Push v)
  | PushLinked => match unlock st t 0 with Some st => Go (finish st t Done) | None => Fault end
  | Start o => note (lock st t 0 (At o 0 [])) t o
  | At o cur seen =>
    match get_next st cur with
    | None => Fault
    | Some None => Go (with_pc st t (Return (at_end o seen) cur))
    | Some (Some nx) => Go (with_pc st t (Want o cur nx seen))
    end
  | Want o cur nx seen => lock st t nx (Both o cur nx seen)
  | Both o cur nx seen =>
    match o with
    | Remove p =>
      match get_data st nx with
      | None => Fault
      | Some v => if p v then go (set_next st cur None) t (Cut o cur nx) else go (unlock st t cur) t (At o nx seen)
      end
    | _ => go (unlock st t cur) t (One o nx seen)
    end
  | One o nx seen =>
    match get_data st nx with
    | None => Fault
    | Some v =>
      match o with
      | Find p => if p v then Go (with_pc st t (Return (Found (Some v)) nx)) else Go (with_pc st t (At o nx seen))
      | _ => Go (with_pc st t (At o nx (seen ++ [v])))
      end
    end
  | Cut o cur nx =>
    match get_next st nx with
    | None => Fault
    | Some n => match set_next st nx None with Some st => go (set_next st cur n) t (Drop o cur nx) | None => Fault end
    end
  | Drop o cur nx => go (unlock st t nx) t (Delete o cur nx)
  | Delete o cur nx =>
    match heap st nx, owner st nx with
    | Some _, None => Go (with_pc {| heap := upd (heap st) nx None; owner := owner st; threads := threads st; order := order st |} t (At o cur []))
    | _, _ => Fault
    end
  | Return r x => match unlock st t x with Some st => Go (finish st t r) | None => Fault end
  end.

(** All executions. *)
Inductive steps (progs : list (list op)) : nat -> state -> Prop :=
| steps_0 : steps progs 0 (start progs)
| steps_S k st st' t fresh : steps progs k st -> step st t fresh = Go st' -> steps progs (S k) st'.
End List_.
Arguments Push {T}. Arguments Find {T}. Arguments Remove {T}. Arguments Each {T}. Arguments Done {T}. Arguments Found {T}. Arguments Seen {T}.
Arguments Ready {T}. Arguments PushNew {T}. Arguments PushHeld {T}. Arguments PushMoved {T}. Arguments PushLinked {T}. Arguments Start {T}. Arguments At {T}. Arguments Want {T}. Arguments Both {T}. Arguments One {T}. Arguments Cut {T}. Arguments Drop {T}. Arguments Delete {T}. Arguments Return {T}.
Arguments data {T}. Arguments nxt {T}. Arguments todo {T}. Arguments here {T}. Arguments results {T}. Arguments heap {T}. Arguments owner {T}. Arguments threads {T}. Arguments order {T}.
Arguments start {T}. Arguments Wait {T}. Arguments Fault {T}. Arguments Go {T}. Arguments step {T}. Arguments steps {T}. Arguments with_pc {T}. Arguments lock {T}. Arguments unlock {T}. Arguments set_next {T}. Arguments get_next {T}. Arguments get_data {T}. Arguments go {T}. Arguments note {T}. Arguments finish {T}. Arguments at_end {T}.
