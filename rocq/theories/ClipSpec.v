(** Cutting a polygon into polygons: what clipping a face has to do. *)
From Coq Require Import List Arith Bool Permutation.
Import ListNotations.

Section Spec.
(** directed edges: where they start and end, and the same edge the other way *)
Variables src tgt opp : nat -> nat.

(** hs leads from a to b. *)
Fixpoint path (a : nat) (hs : list nat) (b : nat) : Prop :=
  match hs with [] => a = b | h :: hs' => src h = a /\ path (tgt h) hs' b end.
(** the same way back *)
Definition reverse (hs : list nat) : list nat := map opp (rev hs).
(** the same cyclic sequence, read from another element *)
Definition rotation (P Q : list nat) : Prop := exists X Y, P = X ++ Y /\ Q = Y ++ X.
(** a simple closed way around *)
Definition ring (hs : list nat) : Prop := hs <> [] /\ (exists a, path a hs a) /\ NoDup (map src hs).

Section Face.
(** the way around the face *)
Variable around : list nat.
(** no cut touches the point *)
Definition untouched (cuts : list nat) (v : nat) : Prop := forall h, In h cuts -> src h <> v /\ tgt h <> v.
(** a point of the boundary where no cut starts or ends; a point that is neither on the boundary nor on a cut *)
Definition free (cuts : list nat) (v : nat) : Prop := In v (map src around) /\ untouched cuts v.
Definition fresh (cuts : list nat) (v : nat) : Prop := ~ In v (map src around) /\ untouched cuts v.

(** The face is cut in two along a way c through its inside, from one point of the boundary to another; then one of the parts, and so on.  The cuts do
    not touch.  [dissected polygons cuts]: the polygons, and the directed edges of all cuts (one direction). *)
Inductive dissected : list (list nat) -> list nat -> Prop :=
| whole : dissected [around] []
| cut A P B cuts X Y c p q :
    dissected (A ++ P :: B) cuts -> rotation P (X ++ Y) -> path p X q -> path q Y p -> p <> q ->
    free cuts p -> free cuts q -> c <> [] -> path q c p -> NoDup (map src c) -> (forall v, In v (tl (map src c)) -> fresh cuts v) ->
    dissected (A ++ (X ++ c) :: (Y ++ reverse c) :: B) (c ++ cuts).

(** Then slits are made, from a point of the boundary to a point inside; the polygon runs along them on both sides.  [mouths]: where they start. *)
Inductive clipped : list (list nat) -> list nat -> list nat -> Prop :=
| through polygons cuts : dissected polygons cuts -> clipped polygons cuts []
| slit A P B cuts mouths X c p t :
    clipped (A ++ P :: B) cuts mouths -> rotation P X -> path p X p -> X <> [] ->
    free cuts p -> c <> [] -> path p c t -> NoDup (map src c ++ [t]) -> (forall v, In v (tl (map src c) ++ [t]) -> fresh cuts v) ->
    clipped (A ++ (X ++ c ++ reverse c) :: B) (c ++ cuts) (p :: mouths).
End Face.

(** The same polygons, in any order and read from any element. *)
Definition same_polygons (Ps Qs : list (list nat)) : Prop := exists Rs, Permutation Ps Rs /\ Forall2 rotation Rs Qs.
End Spec.

(** What the C++ standard guarantees of std::partition: a rearrangement with the elements that have the property in front. *)
Definition conforming (partition : (nat -> bool) -> list nat -> list nat) : Prop :=
  forall p l, Permutation (partition p l) l /\ exists A B, partition p l = A ++ B /\ (forall x, In x A -> p x = true) /\ (forall x, In x B -> p x = false).
