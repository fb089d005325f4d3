(** Specification of the broad phase, independent of how the hierarchy is stored or
    traversed. *)
From Coq Require Import List ZArith Bool Permutation Reals.
From Flocq Require Import Core BinarySingleNaN.
From Verif Require Import Vec BvhModel.
Import ListNotations.
Open Scope Z_scope.

(** A point lies in a closed axis-aligned box. *)
Definition in_box (p : vec3) (b : box) : Prop :=
  vx (bmin b) <= vx p <= vx (bmax b) /\
  vy (bmin b) <= vy p <= vy (bmax b) /\
  vz (bmin b) <= vz p <= vz (bmax b).

(** Two closed boxes overlap: they have a common point. *)
Definition boxes_overlap (a b : box) : Prop := exists p, in_box p a /\ in_box p b.

(** A box containing at least one point, with finite double coordinates. *)
Definition proper_box (b : box) : Prop :=
  vx (bmin b) <= vx (bmax b) /\ vy (bmin b) <= vy (bmax b) /\ vz (bmin b) <= vz (bmax b) /\
  - dbl_max <= vx (bmin b) /\ vx (bmax b) <= dbl_max /\
  - dbl_max <= vy (bmin b) /\ vy (bmax b) <= dbl_max /\
  - dbl_max <= vz (bmin b) /\ vz (bmax b) <= dbl_max.

(** [b] is the smallest axis-aligned box containing all the boxes of [l]. *)
Definition contains (b a : box) : Prop := forall p, in_box p a -> in_box p b.
Definition smallest_box (b : box) (l : list box) : Prop :=
  (forall a, In a l -> contains b a) /\
  (forall c, (forall a, In a l -> contains c a) -> contains c b).

(** The candidate table is exact: source face [f] lists [g + ns] exactly when the boxes
    of [f] and of cut face [g] overlap, once; cut face key [g + ns] lists [f] likewise;
    there is no other key. *)
Definition exact_candidates (sboxes cboxes : list box) (m : pimap) : Prop :=
  let ns := zlen sboxes in
  let nc := zlen cboxes in
  (forall f, 0 <= f < ns -> NoDup (m f) /\
     forall x, In x (m f) <->
       exists g bf bg, x = g + ns /\ vget sboxes f = Some bf /\ vget cboxes g = Some bg /\
                       boxes_overlap bf bg) /\
  (forall g, 0 <= g < nc -> NoDup (m (g + ns)) /\
     forall f, In f (m (g + ns)) <->
       exists bf bg, vget sboxes f = Some bf /\ vget cboxes g = Some bg /\
                     boxes_overlap bf bg) /\
  (forall k, ~ (0 <= k < ns + nc) -> m k = []).

(** Leaf [k] (of [t]) descends from the node at position [j] on level [l] of a binary tree
    of height [h]. *)
Definition leaf_below (t h l j k : Z) : Prop := 0 <= k < t /\ k / 2 ^ (h - l) = j.

(** Height of the smallest perfect binary tree with at least [t] leaves. *)
Definition is_height (t h : Z) : Prop :=
  0 <= h /\ t <= 2 ^ h /\ forall h', 0 <= h' -> t <= 2 ^ h' -> h <= h'.

(** The node has at least one (real) leaf below it. *)
Definition real_node (t h l j : Z) : Prop := 0 <= l <= h /\ exists k, leaf_below t h l j k.

(** The slot the code computes for the [j]-th node of level [l] (bvh.cpp:545-549,
    609-613): what is specified is that this is a numbering of the real nodes. *)
Definition node_slot (t l j : Z) : Z :=
  let L := get_leaf_level_from_real_leaf_count t in
  let leftmost := get_level_leftmost_node l in
  get_node_mem_index (leftmost + j) leftmost 0
    (get_level_rightmost_real_node (get_rightmost_real_leaf L t) L l).

(** The schedules the parallel loops may follow: every node of the level exactly once. *)
Definition any_order (l : list Z) (n : Z) : Prop := Permutation l (zrange n).

(** Coordinates of a vertex are finite doubles. *)
Definition finite_pt (p : vec3) : Prop :=
  - dbl_max <= vx p <= dbl_max /\ - dbl_max <= vy p <= dbl_max /\ - dbl_max <= vz p <= dbl_max.

(** [b] is the smallest box containing the points [l]. *)
Definition hull_of_points (b : box) (l : list vec3) : Prop :=
  (forall p, In p l -> in_box p b) /\
  (forall c, (forall p, In p l -> in_box p c) -> contains c b).

(** Translating a vertex by a perturbation with double additions
    (preproc.cpp:87-91, 107-111). *)
Definition perturb_pt (d p : vec3) : vec3 :=
  V3 (fadd (vx p) (vx d)) (fadd (vy p) (vy d)) (fadd (vz p) (vz d)).

(** Every component of the perturbation is bounded by [eps]. *)
Definition bounded_by (eps : Z) (d : vec3) : Prop :=
  Z.abs (vx d) <= eps /\ Z.abs (vy d) <= eps /\ Z.abs (vz d) <= eps.

(** Quantisation of a Morton coordinate, specified on reals: the integer part of
    [1024 * x] clamped to [0, 1023]; NaN counts as 0. *)
Definition quantised (x : b32) (q : Z) : Prop :=
  match x with
  | B754_nan => q = 0
  | B754_infinity s => q = if s then 0 else 1023
  | _ => q = Z.max 0 (Z.min 1023 (Zfloor (B2R x * 1024)%R))
  end.

(** [code] interleaves the bits of [qx], [qy], [qz] (most significant first: x, y, z). *)
Definition interleaves (qx qy qz code : Z) : Prop :=
  0 <= code < 2 ^ 30 /\
  forall k, 0 <= k < 10 ->
    Z.testbit code (3 * k + 2) = Z.testbit qx k /\
    Z.testbit code (3 * k + 1) = Z.testbit qy k /\
    Z.testbit code (3 * k) = Z.testbit qz k.
