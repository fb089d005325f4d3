(** Dividing edges at points: what has to result. *)
From Coq Require Import List Arith Bool Reals Permutation Sorting.
Import ListNotations.

(** ** Order along a segment *)
Definition point : Type := R * R * R.
Definition between_ratio (o d : point) (t : R) : point := match o, d with (x, y, z), (x', y', z') => (x + t * (x' - x), y + t * (y' - y), z + t * (z' - z))%R end.
(** The vertices way lead straight from the first to the last: each of the vertices between lies between the ends, nearer to the last one than the vertices before. *)
Definition straight (position : nat -> point) (way : list nat) : Prop :=
  exists a mid b ratio, way = a :: mid ++ [b] /\ position a <> position b /\
    (forall v, In v mid -> (0 < ratio v < 1)%R /\ position v = between_ratio (position a) (position b) (ratio v)) /\
    StronglySorted (fun v w => (ratio v < ratio w)%R) mid.
(** Every coordinate rises, or every coordinate falls, weakly on the way. *)
Definition coord (i : nat) (p : point) : R := match p with (x, y, z) => match i with O => x | S O => y | _ => z end end.
Definition monotone (position : nat -> point) (way : list nat) : Prop :=
  forall i, StronglySorted (fun v w => (coord i (position v) <= coord i (position w))%R) way \/ StronglySorted (fun v w => (coord i (position v) >= coord i (position w))%R) way.

(** What the C++ standard guarantees of std::sort with the comparison of the second components. *)
Definition sorting (sort : list (nat * R) -> list (nat * R)) : Prop := forall l, Permutation (sort l) l /\ StronglySorted (fun a b => (snd a <= snd b)%R) (sort l).

(** ** The edges *)
(** The edges es join the vertices vs, one after the other. *)
Fixpoint joined (ends : list (nat * nat)) (vs es : list nat) : Prop :=
  match vs, es with
  | [_], [] => True
  | v :: ((w :: _) as vs'), e :: es' => (nth_error ends e = Some (v, w) \/ nth_error ends e = Some (w, v)) /\ joined ends vs' es'
  | _, _ => False
  end.
(** The halfedges 2e, 2e + 1 of an edge e from a to b that end at v. *)
Definition ending_at (v : nat) (e : nat * (nat * nat)) : list nat :=
  (if Nat.eqb (snd (snd e)) v then [2 * fst e] else []) ++ (if Nat.eqb (fst (snd e)) v then [2 * fst e + 1] else []).

Section Spec.
(** the edges 0, ..., n - 1 that are divided; the vertices on each, from end to end; the faces beside each *)
Variable n : nat.
Variable way : nat -> list nat.
Variable beside : nat -> list nat.
(** the edges that are there before and after *)
Variables before after : list (nat * nat).
(** the edges of the faces that are cut before and after, the other faces have [None] *)
Variables fbefore fafter : nat -> option (list nat).
(** the halfedges that end at an intersection point before and after *)
Variables ibefore iafter : nat -> list nat.
(** the edges that make up an edge with several points; the edge in place of an edge without points *)
Variable several : nat -> option (list nat).
Variable single : nat -> option nat.

Record split (order : list nat) (pieces : nat -> list nat) : Prop := {
  (* the new edges join the vertices on each edge, one after the other *)
  s_joined : forall e, e < n -> joined after (way e) (pieces e);
  (* they are all the new edges, in this order: the edges with more than one point first, the others *)
  s_order : Permutation order (seq 0 n);
  s_several_first : exists os os', order = os ++ os' /\ (forall e, In e os -> 4 <= length (way e)) /\ (forall e, In e os' -> length (way e) <= 3);
  s_before : firstn (length before) after = before;
  s_all : seq (length before) (length after - length before) = flat_map pieces order;
  (* the faces that are cut get the edges on their sides in this order, the others stay *)
  s_faces : forall f, fafter f = option_map (fun es => es ++ flat_map pieces (filter (fun e => existsb (Nat.eqb f) (beside e)) order)) (fbefore f);
  (* every intersection point gets the halfedges ending there *)
  s_incoming : forall v e, e < n -> In v (removelast (tl (way e))) -> iafter v = ibefore v ++ flat_map (ending_at v) (combine (seq (length before) (length after - length before)) (skipn (length before) after));
  s_others : forall v, (forall e, e < n -> ~ In v (removelast (tl (way e)))) -> iafter v = ibefore v;
  s_several : forall e, e < n -> several e = if Nat.leb 4 (length (way e)) then Some (pieces e) else None;
  s_single : forall e, e < n -> match single e with Some k => length (way e) = 2 /\ pieces e = [k] | None => 3 <= length (way e) end }.
End Spec.
