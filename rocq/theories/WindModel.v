(** Model of the winding numbers of source/preproc.cpp in exact arithmetic: the coordinates are real
    numbers, [std::atan2] is the exact argument and the literal 3.14159265358979323846 is [PI]; rounding,
    overflow and NaN are not covered.  [None] = undefined behaviour. *)
From Coq Require Import List ZArith Reals Bool.
From Verif Require Import Vec HmeshModel GeoModel.
Import ListNotations.
Open Scope R_scope.

(** [std::atan2(y, x)] on real numbers *)
Definition atan2 (y x : R) : R :=
  if ltb 0 x then atan (y / x)
  else if ltb x 0 then (if leb 0 y then atan (y / x) + PI else atan (y / x) - PI)
  else if ltb 0 y then PI / 2 else if ltb y 0 then - (PI / 2) else 0.

(** math.h:446-478 [length] *)
Definition vlen (v : vec3) : R := sqrt (dot_product v v).

(** preproc.cpp:1327-1366 [calculate_signed_solid_angle], triangle *)
Definition solid_angle3 (a b c query : vec3) : R :=
  let qa := vsub a query in let qb := vsub b query in let qc := vsub c query in
  let al := vlen qa in let bl := vlen qb in let cl := vlen qc in
  if eqb al 0 || eqb bl 0 || eqb cl 0 then 0                                                      (* l. 1343-1346 *)
  else
    let na := vdiv qa al in let nb := vdiv qb bl in let nc := vdiv qc cl in
    let numerator := dot_product na (cross_product (vsub nb na) (vsub nc na)) in
    if eqb numerator 0 then 0                                                                     (* l. 1357-1360 *)
    else
      let denominator := 1 + dot_product na nb + dot_product na nc + dot_product nb nc in
      atan2 numerator denominator / (2 * PI).

(** preproc.cpp:1370-1477 [calculate_signed_solid_angle], quadrilateral *)
Definition solid_angle4 (a b c d query : vec3) : R :=
  let q0 := vsub a query in let q1 := vsub b query in let q2 := vsub c query in let q3 := vsub d query in
  let l0 := vlen q0 in let l1 := vlen q1 in let l2 := vlen q2 in let l3 := vlen q3 in
  if eqb l0 0 || eqb l1 0 || eqb l2 0 || eqb l3 0 then 0                                          (* l. 1400-1401 *)
  else
    let v0 := vdiv q0 l0 in let v1 := vdiv q1 l1 in let v2 := vdiv q2 l2 in let v3 := vdiv q3 l3 in
    let diag02 := vsub v2 v0 in let diag13 := vsub v3 v1 in
    let v01 := vsub v1 v0 in let v23 := vsub v3 v2 in
    let bary0 := dot_product v3 (cross_product v23 diag13) in
    let bary1 := - dot_product v2 (cross_product v23 diag02) in
    let bary2 := - dot_product v1 (cross_product v01 diag13) in
    let bary3 := dot_product v0 (cross_product v01 diag02) in
    let dot01 := dot_product v0 v1 in let dot12 := dot_product v1 v2 in
    let dot23 := dot_product v2 v3 in let dot30 := dot_product v3 v0 in
    let omega :=
      if ltb (bary0 * bary2) (bary1 * bary3) then                                                 (* l. 1433-1452 *)
        let dot02 := dot_product v0 v2 in
        (if eqb bary3 0 then 0 else atan2 bary3 (1 + dot01 + dot12 + dot02)) +
        (if eqb bary1 0 then 0 else atan2 bary1 (1 + dot02 + dot23 + dot30))
      else                                                                                        (* l. 1453-1475 *)
        let dot13 := dot_product v1 v3 in
        (if eqb (- bary2) 0 then 0 else atan2 (- bary2) (1 + dot01 + dot13 + dot30)) +
        (if eqb (- bary0) 0 then 0 else atan2 (- bary0) (1 + dot12 + dot23 + dot13)) in
    omega / (2 * PI).

(** preproc.cpp:1505-1514: the sum over the triangles of a triangulated face; the indices come in threes
    (size() / 3 triangles: what is left over is not read) *)
Fixpoint wn_triangles (coords : list vec3) (query : vec3) (idx : list Z) (wn : R) : option R :=
  match idx with
  | i0 :: i1 :: i2 :: rest =>
      do a <- vget coords i0; do b <- vget coords i1; do c <- vget coords i2;
      wn_triangles coords query rest (wn + solid_angle3 a b c query)
  | _ => Some wn
  end.

(** preproc.cpp:1490-1502: local to global indices *)
Fixpoint to_global (vs : list Z) (local : list Z) : option (list Z) :=
  match local with
  | [] => Some []
  | i :: r => do v <- vget vs i; do rest <- to_global vs r; Some (v :: rest)
  end.

(** preproc.cpp:1479-1540 [computeWindingNumberOnFace] for a face with the vertices [vs]; [cdt] is the
    triangulation of a face of more than four vertices (l. 1489 [triangulate_face], see [TriModel]) *)
Definition face_winding (cdt : list Z -> list Z) (coords : list vec3) (query : vec3) (vs : list Z) : option R :=
  if (4 <? zlen vs)%Z then
    do idx <- to_global vs (cdt vs);
    wn_triangles coords query idx 0
  else if (zlen vs =? 4)%Z then
    do i0 <- vget vs 0; do i1 <- vget vs 1; do i2 <- vget vs 2; do i3 <- vget vs 3;
    do a <- vget coords i0; do b <- vget coords i1; do c <- vget coords i2; do d <- vget coords i3;
    Some (0 + solid_angle4 a b c d query)
  else
    do i0 <- vget vs 0; do i1 <- vget vs 1; do i2 <- vget vs 2;
    do a <- vget coords i0; do b <- vget coords i1; do c <- vget coords i2;
    Some (0 + solid_angle3 a b c query).

(** preproc.cpp:1552-1561 (a block of a thread) and 1578-1584 (without a thread pool): the loop over the
    faces [l] of the mesh *)
Fixpoint block_winding (cdt : list Z -> list Z) (m : hmesh) (coords : list vec3) (query : vec3) (l : list Z) (wn : R) : option R :=
  match l with
  | [] => Some wn
  | f :: r =>
      do vs <- get_vertices_around_face m f;
      do w <- face_winding cdt coords query vs;
      block_winding cdt m coords query r (wn + w)
  end.

(** preproc.cpp:1578-1587 [getWindingNumber] without a thread pool *)
Definition winding_number (cdt : list Z -> list Z) (m : hmesh) (coords : list vec3) (query : vec3) : option R :=
  do l <- iterate (zlen (faces m)) (rf m);
  block_winding cdt m coords query l 0.

(** preproc.cpp:1546-1575 with tpool.h:1024-1030 [mc_atomic_fetch_add]: the blocks of faces are summed by
    different threads, and each thread adds its sum to the shared atomic by compare-and-swap. *)
Inductive adder :=
| Ready (wn : R)                    (* the local sum is known *)
| Trying (wn expected : R)          (* [expected] was read; the compare-and-swap comes next *)
| Added.
(** one action of one thread; the shared value before and after *)
Inductive add_step : R -> adder -> R -> adder -> Prop :=
| add_load g wn : add_step g (Ready wn) g (Trying wn g)                                       (* tpool.h:1026 *)
| add_swap g wn : add_step g (Trying wn g) (g + wn) Added                                     (* tpool.h:1027: exchanged *)
| add_fail g wn e : add_step g (Trying wn e) g (Trying wn g).                                 (* tpool.h:1027: changed by another thread, or spuriously *)
(** one action of some thread *)
Inductive adders_step : R * list adder -> R * list adder -> Prop :=
| adders_one g g' l a a' r : add_step g a g' a' -> adders_step (g, l ++ a :: r) (g', l ++ a' :: r).
Inductive adders_run : R * list adder -> R * list adder -> Prop :=
| run_none s : adders_run s s
| run_more s s' s'' : adders_step s s' -> adders_run s' s'' -> adders_run s s''.

(** preproc.cpp:1657-1660, 1676, 1696, 1714: the test "inside" *)
Definition winding_eps : R := / 10000000.
Definition tells_inside (w : R) : bool := ltb (Rabs (1 - w)) winding_eps.
