(** Model of the geometric functions of source/math.cpp in exact arithmetic: the coordinates are real
    numbers, so rounding, overflow and NaN are not covered ([ShewModel] models the orientation
    predicates in floating point; here they are the exact determinants).  [None] = undefined behaviour. *)
From Coq Require Import List ZArith Reals Bool Ascii.
Import ListNotations.
Open Scope R_scope.

Definition vec2 := (R * R)%type.
Definition vec3 := (R * R * R)%type.
Definition px (p : vec2) : R := fst p.
Definition py (p : vec2) : R := snd p.
(** math.h:198-221 [vec3_::operator[]] *)
Definition comp (v : vec3) (i : nat) : R :=
  let '(x, y, z) := v in match i with O => x | S O => y | _ => z end.

(** comparisons of doubles *)
Definition ltb (x y : R) : bool := if Rlt_dec x y then true else false.
Definition leb (x y : R) : bool := if Rle_dec x y then true else false.
Definition eqb (x y : R) : bool := if Req_EM_T x y then true else false.

(** math.h:222-241 *)
Definition vsub (a b : vec3) : vec3 := let '(x, y, z) := a in let '(u, v, w) := b in (x - u, y - v, z - w).
Definition vadd (a b : vec3) : vec3 := let '(x, y, z) := a in let '(u, v, w) := b in (x + u, y + v, z + w).
Definition vdiv (a : vec3) (s : R) : vec3 := let '(x, y, z) := a in (x / s, y / s, z / s).
(** math.cpp:81-87 *)
Definition cross_product (a b : vec3) : vec3 :=
  let '(ax, ay, az) := a in let '(bx, by_, bz) := b in
  (ay * bz - az * by_, az * bx - ax * bz, ax * by_ - ay * bx).
(** math.h:437-445 *)
Definition dot_product (a b : vec3) : R :=
  let '(ax, ay, az) := a in let '(bx, by_, bz) := b in 0 + ax * bx + ay * by_ + az * bz.
(** math.h:480-496 *)
Definition normalize (v : vec3) : vec3 := vdiv v (sqrt (dot_product v v)).

(** math.cpp:89-107 with shewchuk.c:1695-1729 and 2367-2423: the exact determinants *)
Definition orient2d (a b c : vec2) : R :=
  (px a - px c) * (py b - py c) - (py a - py c) * (px b - px c).
Definition orient3d (a b c d : vec3) : R :=
  let '(adx, ady, adz) := vsub a d in let '(bdx, bdy, bdz) := vsub b d in let '(cdx, cdy, cdz) := vsub c d in
  adz * (bdx * cdy - cdx * bdy) + bdz * (cdx * ady - adx * cdy) + cdz * (adx * bdy - bdx * ady).
(** math.cpp:794-797 *)
Definition collinear (a b c : vec2) : bool := eqb (orient2d a b c) 0.

(** ** The plane of a polygon *)

(** math.cpp:124-127: for i = 0 .. n-2 *)
Fixpoint normal_loop (p0 : vec3) (ps : list vec3) (n : vec3) : vec3 :=
  match ps with
  | a :: (b :: _) as r => normal_loop p0 r (vadd n (cross_product (vsub a p0) (vsub b p0)))
  | _ => n
  end.
(** math.cpp:135-147 *)
Definition largest_component (n : vec3) : nat :=
  fst (fold_left (fun best i => if ltb (snd best) (Rabs (comp n i)) then (i, Rabs (comp n i)) else best) [0; 1; 2]%nat (0%nat, 0)).
(** math.cpp:120-148 [compute_polygon_plane_coefficients]; reads polygon_vertices[0] *)
Definition plane_coefficients (ps : list vec3) : option (vec3 * R * nat) :=
  match ps with
  | [] => None
  | p0 :: _ => let n := normal_loop p0 ps (0, 0, 0) in Some (n, dot_product p0 n, largest_component n)
  end.

(** math.cpp:158-196 [compute_segment_plane_intersection]: code and point (not written if the segment is
    parallel to the plane) *)
Definition along (q r : vec3) (t : R) : vec3 :=
  let '(qx, qy, qz) := q in let '(rx, ry, rz) := r in (qx + t * (rx - qx), qy + t * (ry - qy), qz + t * (rz - qz)).
Definition segment_plane (normal : vec3) (d : R) (q r : vec3) : ascii * option vec3 :=
  let num := d - dot_product q normal in
  let denom := dot_product (vsub r q) normal in
  if eqb denom 0 then (if eqb num 0 then "p" else "0", None)%char
  else
    let t := num / denom in
    ((if ltb 0 t && ltb t 1 then "1" else if eqb num 0 then "q" else if eqb num denom then "r" else "0")%char,
     Some (along q r t)).

(** ** Projection to two dimensions *)

(** math.cpp:588-591: +-1 on the diagonal *)
Definition refl (i j : nat) : R :=
  match i, j with O, O => 1 | S O, S O => -1 | S (S O), S (S O) => 1 | _, _ => 0 end.
(** math.cpp:58-69 and 578-586 *)
Definition sign (x : R) : R := if ltb 0 x then 1 else if ltb x 0 then -1 else 0.
Definition basis (n : vec3) (c : nat) : vec3 :=
  let s := sign (comp n c) in
  match c with O => (s, 0, 0) | S O => (0, s, 0) | _ => (0, 0, s) end.
(** math.cpp:575-612 and math.h:447-478: the matrix R *)
Definition rotation (n : vec3) (c : nat) : nat -> nat -> R :=
  let a := normalize n in
  let b := basis n c in
  let same := eqb (comp a 0) (comp b 0) && eqb (comp a 1) (comp b 1) && eqb (comp a 2) (comp b 2) in
  if same then refl
  else let s := vadd a b in
       let ab := dot_product a b in
       fun i j => comp s i * comp s j / ab * 2 - refl i j.
(** math.cpp:614-650 and math.h:337-349: rows selected by K, times a vector *)
Definition kept_rows (c : nat) : nat * nat :=
  match c with O => (1, 2) | S O => (0, 2) | _ => (0, 1) end%nat.
Definition row_times (m : nat -> nat -> R) (i : nat) (v : vec3) : R :=
  0 + m i 0%nat * comp v 0 + m i 1%nat * comp v 1 + m i 2%nat * comp v 2.
Definition project (n : vec3) (c : nat) (v : vec3) : vec2 :=
  let m := rotation n c in let '(i, j) := kept_rows c in (row_times m i v, row_times m j v).

(** ** Three vertices of a polygon that are not collinear *)

(** math.cpp:228-237, the innermost loop: [k] runs to the end, triples are appended *)
Fixpoint loop_k (fuel : nat) (xs : list vec2) (i j k : nat) (acc : list (nat * nat * nat * R)) : list (nat * nat * nat * R) * nat :=
  match fuel with
  | O => (acc, k)
  | S f =>
      if (k <? length xs)%nat then
        let o := orient2d (nth i xs (0, 0)) (nth j xs (0, 0)) (nth k xs (0, 0)) in
        loop_k f xs i j (S k) (if eqb o 0 then acc else acc ++ [(i, j, k, o)])
      else (acc, k)
  end.
(** the loop over [j]: [k] is not reset *)
Fixpoint loop_j (fuel : nat) (xs : list vec2) (i j k : nat) (acc : list (nat * nat * nat * R)) : list (nat * nat * nat * R) * nat * nat :=
  match fuel with
  | O => (acc, j, k)
  | S f =>
      if (j <? length xs)%nat then
        let '(acc', k') := loop_k (length xs) xs i j k acc in loop_j f xs i (S j) k' acc'
      else (acc, j, k)
  end.
(** the loop over [i]: neither [j] nor [k] is reset *)
Fixpoint loop_i (fuel : nat) (xs : list vec2) (i j k : nat) (acc : list (nat * nat * nat * R)) : list (nat * nat * nat * R) :=
  match fuel with
  | O => acc
  | S f =>
      if (i <? length xs)%nat then
        let '(acc', j', k') := loop_j (length xs) xs i j k acc in loop_i f xs (S i) j' k' acc'
      else acc
  end.
Definition triplets (xs : list vec2) : list (nat * nat * nat * R) := loop_i (length xs) xs 0 1 2 [].

(** math.cpp:239-250: sorted by decreasing absolute value, the first one is taken; [None]: front() of an
    empty vector.  The order of equal elements is not specified. *)
Inductive best_triplet (l : list (nat * nat * nat * R)) : option (nat * nat * nat) -> Prop :=
| bt_none : l = [] -> best_triplet l None
| bt_some i j k o : In (i, j, k, o) l -> (forall i' j' k' o', In (i', j', k', o') l -> Rabs o' <= Rabs o) ->
    best_triplet l (Some (i, j, k)).

(** math.cpp:198-251 and the tests of l. 262-272: the three vertices used for a polygon *)
Inductive three_vertices (n : vec3) (c : nat) (ps : list vec3) : option (vec3 * vec3 * vec3) -> Prop :=
| tv_short a b d : ps = [a; b; d] -> three_vertices n c ps (Some (a, b, d))
| tv_long i j k a b d : (3 < length ps)%nat -> best_triplet (triplets (map (project n c) ps)) (Some (i, j, k)) ->
    nth_error ps i = Some a -> nth_error ps j = Some b -> nth_error ps k = Some d -> three_vertices n c ps (Some (a, b, d))
| tv_ub : (3 < length ps)%nat -> best_triplet (triplets (map (project n c) ps)) None -> three_vertices n c ps None.

(** math.cpp:274-288 *)
Definition side_code (qr rr : R) : ascii :=
  (if eqb qr 0 && eqb rr 0 then "p" else if eqb qr 0 then "q" else if eqb rr 0 then "r"
   else if (ltb rr 0 && ltb qr 0) || (ltb 0 rr && ltb 0 qr) then "0" else "1")%char.
(** math.cpp:253-288 [compute_segment_plane_intersection_type]: a possible result *)
Inductive segment_plane_type (q r : vec3) (ps : list vec3) (n : vec3) (c : nat) : option ascii -> Prop :=
| spt_ok a b d : three_vertices n c ps (Some (a, b, d)) ->
    segment_plane_type q r ps n c (Some (side_code (orient3d a b d q) (orient3d a b d r)))
| spt_ub : three_vertices n c ps None -> segment_plane_type q r ps n c None.

(** math.cpp:353-402 [compute_line_plane_intersection]: a possible result *)
Definition line_code (n : vec3) (dc : R) (q r : vec3) (qr rr : R) : option (ascii * option vec3) :=
  if eqb qr 0 && eqb rr 0 then Some ("p"%char, None)
  else
    let num := dc - dot_product q n in
    let denom := dot_product (vsub r q) n in
    if ((ltb rr 0 && ltb qr 0) || (ltb 0 rr && ltb 0 qr)) && eqb denom 0 then Some ("0"%char, None)
    else if eqb denom 0 then None            (* division by zero *)
    else Some ("1"%char, Some (along q r (num / denom))).
Inductive line_plane (q r : vec3) (ps : list vec3) (c : nat) (n : vec3) (dc : R) : option (ascii * option vec3) -> Prop :=
| lp_ok a b d : three_vertices n c ps (Some (a, b, d)) ->
    line_plane q r ps c n dc (line_code n dc q r (orient3d a b d q) (orient3d a b d r))
| lp_ub : three_vertices n c ps None -> line_plane q r ps c n dc None.

(** ** Point in polygon *)

(** math.cpp:526-547, one edge, from the previous vertex [l] to [v], [q] being the origin: crossings of the
    right and the left ray *)
Definition crossing_x (v l : vec2) : R := (px v * py l - px l * py v) / (py l - py v).
Definition rstrad (v l : vec2) : bool := xorb (ltb 0 (py v)) (ltb 0 (py l)).
Definition lstrad (v l : vec2) : bool := xorb (ltb (py v) 0) (ltb (py l) 0).
Definition rcross (v l : vec2) : bool := (rstrad v l || lstrad v l) && (rstrad v l && ltb 0 (crossing_x v l)).
Definition lcross (v l : vec2) : bool := (rstrad v l || lstrad v l) && (lstrad v l && ltb (crossing_x v l) 0).
(** math.cpp:519-548, the loop: [l] is the vertex before the first of [vs]; parities of Rcross and Lcross *)
Fixpoint pip_loop (l : vec2) (vs : list vec2) (rc lc : bool) : option (bool * bool) :=
  match vs with
  | [] => Some (rc, lc)
  | v :: r => if eqb (px v) 0 && eqb (py v) 0 then None     (* return 'v' *)
              else pip_loop v r (xorb rc (rcross v l)) (xorb lc (lcross v l))
  end.
(** math.cpp:411-562 [compute_point_in_polygon_test] *)
Definition point_in_polygon (q : vec2) (ps : list vec2) : ascii :=
  let vs := map (fun p => (px p - px q, py p - py q)) ps in
  match pip_loop (last vs (0, 0)) vs false false with
  | None => "v"
  | Some (rc, lc) => if xorb rc lc then "e" else if rc then "i" else "o"
  end%char.
(** math.cpp:707-755 *)
Definition point_in_polygon_3d (p : vec3) (ps : list vec3) (n : vec3) (c : nat) : ascii :=
  point_in_polygon (project n c p) (map (project n c) ps).

(** ** Intersection of two segments in the plane *)

(** math.cpp:757-767 *)
Definition between (a b c : vec2) : bool :=
  if negb (eqb (px a) (px b))
  then (leb (px a) (px c) && leb (px c) (px b)) || (leb (px c) (px a) && leb (px b) (px c))
  else (leb (py a) (py c) && leb (py c) (py b)) || (leb (py c) (py a) && leb (py b) (py c)).
(** math.cpp:799-826; the point is written only with 'e' *)
Definition parallel_int (a b c d : vec2) : ascii * option vec2 :=
  (if negb (collinear a b c) then ("0", None)
   else if between a b c then ("e", Some c)
   else if between a b d then ("e", Some d)
   else if between c d a then ("e", Some a)
   else if between c d b then ("e", Some b)
   else ("0", None))%char.
(** math.cpp:828-876: code, point, parameters (not written for parallel segments).  The initial code is '?'. *)
Definition segment_intersection (a b c d : vec2) : ascii * option vec2 * option (R * R) :=
  let denom := px a * (py d - py c) + px b * (py c - py d) + px d * (py b - py a) + px c * (py a - py b) in
  if eqb denom 0 then (parallel_int a b c d, None)
  else
    let n1 := px a * (py d - py c) + px c * (py a - py d) + px d * (py c - py a) in
    let code1 := if eqb n1 0 || eqb n1 denom then "v"%char else "?"%char in
    let s := n1 / denom in
    let n2 := - (px a * (py c - py b) + px b * (py a - py c) + px c * (py b - py a)) in
    let code2 := if eqb n2 0 || eqb n2 denom then "v"%char else code1 in
    let t := n2 / denom in
    let code :=
      if ltb 0 s && ltb s 1 && ltb 0 t && ltb t 1 then "1"%char
      else if ltb s 0 || ltb 1 s || ltb t 0 || ltb 1 t then "0"%char
      else code2 in
    (code, Some (px a + s * (px b - px a), py a + s * (py b - py a)), Some (s, t)).
