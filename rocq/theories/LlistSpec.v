(** C78: a list used by one thread. *)
From Coq Require Import List Arith.
From Verif Require Import LlistModel.
Import ListNotations.

Section spec.
Context {T : Type}.
(** One call on a list: what it gives back, and the list afterwards. *)
Definition call (o : op T) (l : list T) : result T * list T :=
  match o with
  | Push v => (Done, v :: l)
  | Find p => (Found (find p l), l)
  | Remove p => (Done, filter (fun v => negb (p v)) l)
  | Each => (Seen l, l)
  end.
(** The calls one after the other, with the threads that make them. *)
Fixpoint one_by_one (calls : list (nat * op T)) (l : list T) : list (nat * result T) * list T :=
  match calls with
  | [] => ([], l)
  | (t, o) :: calls => let r := call o l in let r' := one_by_one calls (snd r) in ((t, fst r) :: fst r', snd r')
  end.
(** What belongs to thread [t]. *)
Definition of_thread {A} (t : nat) (l : list (nat * A)) : list A := map snd (filter (fun p => Nat.eqb (fst p) t) l).

(** A thread is between two calls / in the middle of one. *)
Definition idle (st : state T) (t : nat) : Prop := here (threads st t) = Ready.
(** The entries of the list in memory, from node [x] on. *)
Inductive holds (h : nat -> option (cell T)) : nat -> list T -> Prop :=
| holds_end x d : h x = Some {| data := d; nxt := None |} -> holds h x []
| holds_next x d y v n l : h x = Some {| data := d; nxt := Some y |} -> h y = Some {| data := Some v; nxt := n |} -> holds h y l -> holds h x (v :: l).
(** A node that can be reached from node [x]. *)
Inductive linked (h : nat -> option (cell T)) : nat -> nat -> Prop :=
| linked_here x : linked h x x
| linked_next x y z d : linked h x y -> h y = Some {| data := d; nxt := Some z |} -> linked h x z.
(** The number of calls that put something in, and of all calls. *)
Definition is_push (o : op T) : bool := match o with Push _ => true | _ => false end.
Definition pushes (progs : list (list (op T))) : nat := list_sum (map (fun l => length (filter is_push l)) progs).
Definition calls (progs : list (list (op T))) : nat := list_sum (map (@length (op T)) progs).
End spec.
(** release_event_impl, frontend.cpp:3712-3724 (and release_context_impl, 3765-3776; for components 3751-3760): the entry is looked for, and then all entries with the handle are removed. *)
Definition release (h : nat) : list (op nat) := [Find (Nat.eqb h); Remove (Nat.eqb h)].

