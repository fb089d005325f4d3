(** Checked random-access containers shared by all the model files.

    Models [std::vector<T>]: [vget] is [operator[]]/[at] with the out-of-range case
    (exception for [SAFE_ACCESS], /repo/include/mcut/internal/utils.h:107-113, undefined
    behaviour for a plain [operator[]]) made explicit as [None]. *)
From Coq Require Import List ZArith.
Import ListNotations.
Open Scope Z_scope.

(** [v.at(i)] for a signed index. *)
Definition vget {A} (v : list A) (i : Z) : option A :=
  if i <? 0 then None else nth_error v (Z.to_nat i).

Fixpoint lset {A} (v : list A) (i : nat) (x : A) : list A :=
  match v, i with
  | [], _ => []
  | _ :: r, O => x :: r
  | y :: r, S k => y :: lset r k x
  end.

(** [v.at(i) = x]; [None] when out of range. *)
Definition vset {A} (v : list A) (i : Z) (x : A) : option (list A) :=
  if i <? 0 then None
  else if (Z.to_nat i <? length v)%nat then Some (lset v (Z.to_nat i) x) else None.

Definition zlen {A} (v : list A) : Z := Z.of_nat (length v).

(** [0; 1; ...; n-1]. *)
Definition zrange (n : Z) : list Z := map Z.of_nat (seq 0 (Z.to_nat n)).

(** [v.resize(n, d)]. *)
Definition vresize {A} (v : list A) (n : nat) (d : A) : list A :=
  firstn n v ++ repeat d (n - length v).

(** option monad *)
Definition obind {A B} (o : option A) (f : A -> option B) : option B :=
  match o with Some a => f a | None => None end.
Notation "'do' x <- a ; b" := (obind a (fun x => b))
  (at level 200, x pattern, a at level 100, b at level 200).

Fixpoint ofold {A B} (f : B -> A -> option B) (l : list A) (b : B) : option B :=
  match l with
  | [] => Some b
  | a :: r => do b' <- f b a; ofold f r b'
  end.
