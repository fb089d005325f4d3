(** C77: the section of a solid by a plane at a given height. *)
From Coq Require Import List Reals.
Import ListNotations.
Open Scope R_scope.

Definition point : Type := R * R * R.
Definition scalar (a b : point) : R := let '(x, y, z) := a in let '(x', y', z') := b in x * x' + y * y' + z * z'.
Definition minus (a b : point) : point := let '(x, y, z) := a in let '(x', y', z') := b in (x - x', y - y', z - z').
(** The point that divides the segment from [a] to [b] at [t]. *)
Definition at_ (a b : point) (t : R) : point := let '(x, y, z) := a in let '(x', y', z') := b in (x + t * (x' - x), y + t * (y' - y), z + t * (z' - z)).

(** The convex hull of the vertices of a mesh: everything the mesh contains or encloses is in it. *)
Inductive hull (ps : list point) : point -> Prop :=
| hull_vertex p : In p ps -> hull ps p
| hull_between a b t : hull ps a -> hull ps b -> 0 <= t <= 1 -> hull ps (at_ a b t).

(** A point is in a triangle (with its boundary). *)
Definition in_triangle (a b c x : point) : Prop := hull [a; b; c] x.

(** The height along [n] that the offset [o] stands for: the part [o] of the way from the lowest to the highest vertex. *)
Definition height_of (n : point) (ps : list point) (o h : R) : Prop :=
  exists lowest highest, In lowest ps /\ In highest ps /\ (forall p, In p ps -> scalar n lowest <= scalar n p <= scalar n highest) /\ h = scalar n lowest + o * (scalar n highest - scalar n lowest).

(** The centre of mass of the vertices. *)
Definition mean (ps : list point) : point :=
  let sum f := fold_right Rplus 0 (map f ps) in
  (sum (fun p : point => fst (fst p)) / INR (length ps), sum (fun p : point => snd (fst p)) / INR (length ps), sum (fun p : point => snd p) / INR (length ps)).
(** [l] and [h] are the corners of the bounding box of the vertices. *)
Definition box_of (ps : list point) (l h : point) : Prop :=
  let spans (f : point -> R) := (exists p, In p ps /\ f l = f p) /\ (exists p, In p ps /\ f h = f p) /\ forall p, In p ps -> f l <= f p <= f h in
  spans (fun p => fst (fst p)) /\ spans (fun p => snd (fst p)) /\ spans (fun p => snd p).
(** The square of the distance of two points. *)
Definition distance2 (a b : point) : R := scalar (minus a b) (minus a b).
(** The point of the plane through the origin with normal vector [n] below [p]. *)
Definition foot (n p : point) : point :=
  let t := scalar n p / scalar n n in let '(x, y, z) := p in let '(a, b, c) := n in (x - t * a, y - t * b, z - t * c).
