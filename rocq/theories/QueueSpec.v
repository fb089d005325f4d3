(** Specification vocabulary for the task queue: projections of an execution trace. *)
From Coq Require Import List Arith.
From Verif Require Import QueueModel.
Import ListNotations.

Section Spec.
Context {V : Type}.

(** The elements that entered / left the queue, in order. *)
Definition pushed (tr : list (label V)) : list V :=
  flat_map (fun l => match l with LPushed _ v => [v] | _ => [] end) tr.
Definition popped (tr : list (label V)) : list V :=
  flat_map (fun l => match l with LPopped _ v => [v] | _ => [] end) tr.

(** Per thread: values it asked to push, values of it that entered the queue, values it
    took out, and values its pop calls returned. *)
Definition push_calls (t : nat) (tr : list (label V)) : list V :=
  flat_map (fun l => match l with LCallPush t' v => if Nat.eqb t' t then [v] else [] | _ => [] end) tr.
Definition pushed_by (t : nat) (tr : list (label V)) : list V :=
  flat_map (fun l => match l with LPushed t' v => if Nat.eqb t' t then [v] else [] | _ => [] end) tr.
Definition popped_by (t : nat) (tr : list (label V)) : list V :=
  flat_map (fun l => match l with LPopped t' v => if Nat.eqb t' t then [v] else [] | _ => [] end) tr.
Definition returned_to (t : nat) (tr : list (label V)) : list V :=
  flat_map (fun l => match l with LRet t' _ (Some v) => if Nat.eqb t' t then [v] else [] | _ => [] end) tr.

(** [l] is [l'] or [l'] followed by one more element. *)
Definition same_or_one_ahead {A} (l l' : list A) : Prop := l = l' \/ exists x, l = l' ++ [x].

(** Thread [t] is not executing any queue operation. *)
Definition idle (s : state V) (t : nat) : Prop := pcs s t = Idle.

(** Only thread [c] ever pops (each worker owns its queue: tpool.h:254-258,
    frontend.h:541-543). *)
Definition single_consumer (c : nat) (tr : list (label V)) : Prop :=
  forall t m, In (LCallPop t m) tr -> t = c.

(** A new operation is started. *)
Definition is_call (l : label V) : Prop :=
  match l with LCallPush _ _ | LCallPop _ _ | LSetDone _ => True | _ => False end.

(** Since thread [t]'s last pop/empty call began, there was an instant at which the queue
    was empty (resp. not empty): everything pushed up to then had been popped. *)
Definition seen_empty (t : nat) (tr : list (label V)) : Prop :=
  exists a b, tr = a ++ b /\ (forall m, ~ In (LCallPop t m) b) /\ pushed a = popped a.
Definition seen_nonempty (t : nat) (tr : list (label V)) : Prop :=
  exists a b, tr = a ++ b /\ (forall m, ~ In (LCallPop t m) b) /\ pushed a <> popped a.

(** [t] has been told to wake up (by a push, by the shutdown, or spuriously). *)
Definition is_wake (t : nat) (l : label V) : Prop :=
  l = LSpurious t \/ (exists u, l = LPushRet u (Some t)) \/ (exists u, l = LDisrupted u (Some t)).
End Spec.
