(** Specification of the geometric functions: points, segments, planes, polygons. *)
From Coq Require Import List Reals Bool Ascii.
Import ListNotations.
Open Scope R_scope.

(** The point at parameter [t] between two points of the plane, of space. *)
Definition at2 (a b : R * R) (t : R) : R * R := (fst a + t * (fst b - fst a), snd a + t * (snd b - snd a)).
Definition at3 (a b : R * R * R) (t : R) : R * R * R :=
  let '(ax, ay, az) := a in let '(bx, by_, bz) := b in (ax + t * (bx - ax), ay + t * (by_ - ay), az + t * (bz - az)).

Definition on_segment (a b p : R * R) : Prop := exists t, 0 <= t <= 1 /\ p = at2 a b t.
Definition common (a b c d p : R * R) : Prop := on_segment a b p /\ on_segment c d p.
(** the directions of [ab] and [cd] are linearly dependent *)
Definition parallel (a b c d : R * R) : Prop :=
  (fst b - fst a) * (snd d - snd c) = (snd b - snd a) * (fst d - fst c).
Definition on_line (a b p : R * R) : Prop := exists t, p = at2 a b t.

(** The plane through three points; they are not on a line. *)
Definition on_plane (a b c p : R * R * R) : Prop :=
  exists s t, p = let '(ax, ay, az) := a in let '(bx, by_, bz) := b in let '(cx, cy, cz) := c in
    (ax + s * (bx - ax) + t * (cx - ax), ay + s * (by_ - ay) + t * (cy - ay), az + s * (bz - az) + t * (cz - az)).
Definition on_a_line (a b c : R * R * R) : Prop := a = b \/ exists t, c = at3 a b t.

(** The vertices of a polygon lie in a plane with normal vector [n]. *)
Definition dot3 (a b : R * R * R) : R :=
  let '(ax, ay, az) := a in let '(bx, by_, bz) := b in ax * bx + ay * by_ + az * bz.
Definition planar (n : R * R * R) (ps : list (R * R * R)) : Prop := forall p q, In p ps -> In q ps -> dot3 n p = dot3 n q.

(** The edges of a polygon given by its vertices in order: each vertex with the one before it. *)
Definition edges_of {A} (ps : list A) : list (A * A) :=
  match ps with [] => [] | p :: _ => combine (last ps p :: removelast ps) ps end.
Definition on_boundary (q : R * R) (ps : list (R * R)) : Prop := exists e, In e (edges_of ps) /\ on_segment (fst e) (snd e) q.

(** an even / odd number of elements of the list satisfy a property *)
Inductive parity {A} (P : A -> Prop) : list A -> bool -> Prop :=
| par_nil : parity P [] false
| par_yes x l b : P x -> parity P l b -> parity P (x :: l) (negb b)
| par_no x l b : ~ P x -> parity P l b -> parity P (x :: l) b.

(** How the segment from [q] to [r] meets a plane, given as the set of its points. *)
Inductive meets (pl : R * R * R -> Prop) (q r : R * R * R) : ascii -> Prop :=
| meets_p : pl q -> pl r -> meets pl q r "p"
| meets_q : pl q -> ~ pl r -> meets pl q r "q"
| meets_r : ~ pl q -> pl r -> meets pl q r "r"
| meets_1 : ~ pl q -> ~ pl r -> (exists t, 0 < t < 1 /\ pl (at3 q r t)) -> meets pl q r "1"
| meets_0 : (forall t, 0 <= t <= 1 -> ~ pl (at3 q r t)) -> meets pl q r "0".

(** The plane with normal vector [n] at height [d]. *)
Definition plane (n : R * R * R) (d : R) (x : R * R * R) : Prop := dot3 n x = d.

(** The condition under which the projection of source/math.cpp is one-to-one on the planes with normal [n], for
    the coordinate [c] that is dropped: always for y, and away from a cone for x and z. *)
Definition regular (n : R * R * R) (c : nat) : Prop :=
  let '(x, y, z) := n in
  match c with
  | O => x <> 0 /\ x * x + 2 * (z * z - y * y) <> 0
  | S O => y <> 0
  | _ => z <> 0 /\ z * z + 2 * (x * x - y * y) <> 0
  end.

(** The even-odd rule.  A line separates [r] from the polygon; no vertex is on the segment from [q] to [r]; the
    segment meets an edge.  The number of edges met has parity [b] for every such [r]. *)
Definition beyond (r : R * R) (ps : list (R * R)) : Prop :=
  exists f g, forall p, In p ps -> f * fst p + g * snd p < f * fst r + g * snd r.
Definition avoids (q r : R * R) (ps : list (R * R)) : Prop := forall p, In p ps -> ~ on_segment q r p.
Definition crosses (q r : R * R) (e : (R * R) * (R * R)) : Prop := exists x, common q r (fst e) (snd e) x.
Definition even_odd (q : R * R) (ps : list (R * R)) (b : bool) : Prop :=
  forall r, beyond r ps -> avoids q r ps -> parity (crosses q r) (edges_of ps) b.

(** The same rule in a plane of space. *)
Definition on_segment3 (a b p : R * R * R) : Prop := exists t, 0 <= t <= 1 /\ p = at3 a b t.
Definition on_boundary3 (q : R * R * R) (ps : list (R * R * R)) : Prop := exists e, In e (edges_of ps) /\ on_segment3 (fst e) (snd e) q.
Definition beyond3 (r : R * R * R) (ps : list (R * R * R)) : Prop := exists f, forall p, In p ps -> dot3 f p < dot3 f r.
Definition avoids3 (q r : R * R * R) (ps : list (R * R * R)) : Prop := forall p, In p ps -> ~ on_segment3 q r p.
Definition crosses3 (q r : R * R * R) (e : (R * R * R) * (R * R * R)) : Prop := exists x, on_segment3 q r x /\ on_segment3 (fst e) (snd e) x.
Definition even_odd3 (n : R * R * R) (q : R * R * R) (ps : list (R * R * R)) (b : bool) : Prop :=
  forall r, dot3 n r = dot3 n q -> beyond3 r ps -> avoids3 q r ps -> parity (crosses3 q r) (edges_of ps) b.

(** Strictly inside a triangle. *)
Definition inside_triangle (a b c q : R * R) : Prop :=
  exists x y z, 0 < x /\ 0 < y /\ 0 < z /\ x + y + z = 1 /\ fst q = x * fst a + y * fst b + z * fst c /\ snd q = x * snd a + y * snd b + z * snd c.
