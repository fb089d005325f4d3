(** Specification of seam vertex sequences. *)
From Coq Require Import List ZArith.
From Verif Require Import Vec HmeshModel HmeshSpec SeqModel.
Import ListNotations.
Open Scope Z_scope.

(** Two vertices are joined by an edge. *)
Definition joined (m : hmesh) (a b : Z) : Prop :=
  exists h, live_halfedge m h /\ source m h = Some a /\ target m h = Some b.

(** [nbs] are the seam vertices joined to [v], each by one edge. *)
Definition neighbours (m : hmesh) (seam : list Z) (v : Z) (nbs : list Z) : Prop :=
  NoDup nbs /\ (forall w, In w nbs <-> In w seam /\ joined m w v) /\
  (forall h h' w, live_halfedge m h -> live_halfedge m h' -> source m h = Some w -> source m h' = Some w ->
     target m h = Some v -> target m h' = Some v -> In w seam -> h = h').

(** Consecutive elements are related. *)
Fixpoint linked (R : Z -> Z -> Prop) (l : list Z) : Prop :=
  match l with
  | a :: (b :: _) as r => R a b /\ linked R r
  | _ => True
  end.

(** The choice of the seed among the keys that are left. *)
Definition choice (pick : list Z -> Z) : Prop := forall l, l <> [] -> In (pick l) l.
