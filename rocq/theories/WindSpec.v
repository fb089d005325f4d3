(** Specification of inside and outside by counting the signed crossings of a ray with a surface. *)
From Coq Require Import List ZArith Reals Permutation.
From Verif Require Import Vec GeoModel InputSpec.
Import ListNotations.
Open Scope R_scope.

Definition triangle := (vec3 * vec3 * vec3)%type.
(** u a + v b + w c *)
Definition mix (u : R) (a : vec3) (v : R) (b : vec3) (w : R) (c : vec3) : vec3 :=
  let '(ax, ay, az) := a in let '(bx, by_, bz) := b in let '(cx, cy, cz) := c in
  (u * ax + v * bx + w * cx, u * ay + v * by_ + w * cy, u * az + v * bz + w * cz).
(** the point at the parameter [t] of the ray from [q] in the direction [d] *)
Definition ray_at (q d : vec3) (t : R) : vec3 :=
  let '(x, y, z) := q in let '(u, v, w) := d in (x + t * u, y + t * v, z + t * w).
Definition in_triangle (p : vec3) (T : triangle) : Prop :=
  let '(a, b, c) := T in exists u v w, 0 <= u /\ 0 <= v /\ 0 <= w /\ u + v + w = 1 /\ p = mix u a v b w c.
Definition inside_triangle (p : vec3) (T : triangle) : Prop :=
  let '(a, b, c) := T in exists u v w, 0 < u /\ 0 < v /\ 0 < w /\ u + v + w = 1 /\ p = mix u a v b w c.
(** the points of the segment from [a] to [b] *)
Definition on_edge (p a b : vec3) : Prop := in_triangle p (a, b, b).
(** the normal of a triangle whose vertices are listed counter-clockwise *)
Definition normal (T : triangle) : vec3 := let '(a, b, c) := T in cross_product (vsub b a) (vsub c a).

(** The ray from [q] in the direction [d] crosses the triangle [k] times: +1 if it leaves through the
    triangle (in the direction of the normal), -1 if it enters, 0 if it misses the triangle. *)
Inductive crosses (q d : vec3) (T : triangle) : Z -> Prop :=
| cross_out t : 0 < t -> inside_triangle (ray_at q d t) T -> 0 < dot_product d (normal T) -> crosses q d T 1
| cross_in t : 0 < t -> inside_triangle (ray_at q d t) T -> dot_product d (normal T) < 0 -> crosses q d T (-1)
| cross_none : (forall t, 0 <= t -> ~ in_triangle (ray_at q d t) T) -> crosses q d T 0.

Definition zsum (l : list Z) : Z := fold_right Z.add 0%Z l.

(** ** The triangles that stand for a face *)
Definition itri := (Z * Z * Z)%type.
Definition corners (T : itri) : list Z := let '(i, j, k) := T in [i; j; k].
Definition tri_edges (T : itri) : list (Z * Z) := let '(i, j, k) := T in [(i, j); (j, k); (k, i)].
Definition flip (e : Z * Z) : Z * Z := (snd e, fst e).
(** A triangle stands for itself, a quadrilateral is divided by one of its diagonals; a larger face is
    divided by a given triangulation [cdt] (positions within the face, three for each triangle). *)
Inductive divides (cdt : list Z -> list Z) : list Z -> list itri -> Prop :=
| div3 i j k : divides cdt [i; j; k] [(i, j, k)]
| div4_02 i j k l : divides cdt [i; j; k; l] [(i, j, k); (i, k, l)]
| div4_13 i j k l : divides cdt [i; j; k; l] [(i, j, l); (j, k, l)]
| divn vs Ts : (4 < length vs)%nat ->
    Forall2 (fun i v => vget vs i = Some v) (cdt vs) (concat (map corners Ts)) -> divides cdt vs Ts.
(** The triangulation of a large face is a surface with the same border: its edges are those of the face
    and inner edges, each used once in both directions. *)
Definition same_border (vs : list Z) (Ts : list itri) : Prop :=
  exists inner, Permutation (concat (map tri_edges Ts)) (directed_edges vs ++ inner ++ map flip inner).
Definition proper_cdt (cdt : list Z -> list Z) (fs : list (list Z)) : Prop :=
  forall vs, In vs fs -> (4 < length vs)%nat -> exists Ts, divides cdt vs Ts /\ same_border vs Ts.

(** A closed oriented surface: every edge of a face is used once in each direction. *)
Definition closed_faces (fs : list (list Z)) : Prop :=
  Permutation (concat (map directed_edges fs)) (map flip (concat (map directed_edges fs))).

(** the position of a vertex *)
Definition position (coords : list vec3) (i : Z) : vec3 := match vget coords i with Some p => p | None => (0, 0, 0) end.
Definition place (coords : list vec3) (T : itri) : triangle :=
  let '(i, j, k) := T in (position coords i, position coords j, position coords k).

(** [q] is not on the surface, however the quadrilaterals are divided *)
Definition off_surface (cdt : list Z -> list Z) (coords : list vec3) (fs : list (list Z)) (q : vec3) : Prop :=
  forall vs Ts T, In vs fs -> divides cdt vs Ts -> In T Ts -> ~ in_triangle q (place coords T).
(** the ray meets the surface only inside triangles, not on their edges *)
Definition generic_ray (cdt : list Z -> list Z) (coords : list vec3) (fs : list (list Z)) (q d : vec3) : Prop :=
  d <> (0, 0, 0) /\
  forall vs Ts T i j t, In vs fs -> divides cdt vs Ts -> In T Ts -> In (i, j) (tri_edges T) -> 0 <= t ->
    ~ on_edge (ray_at q d t) (position coords i) (position coords j).
(** Signed crossings of a ray with a surface: [n] is the sum over the triangles of a division of every face. *)
Definition crossing_number (cdt : list Z -> list Z) (coords : list vec3) (fs : list (list Z)) (q d : vec3) (n : Z) : Prop :=
  exists Tss ks, Forall2 (divides cdt) fs Tss /\ Forall2 (crosses q d) (map (place coords) (concat Tss)) ks /\ zsum ks = n.
(** faces with at least three vertices, all of them in range *)
Definition faces_ok (coords : list vec3) (fs : list (list Z)) : Prop :=
  forall vs, In vs fs -> (3 <= length vs)%nat /\ forall v, In v vs -> (0 <= v < zlen coords)%Z.
