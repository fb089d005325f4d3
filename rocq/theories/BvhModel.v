(** Model of the "ostensibly implicit" bounding-volume hierarchy of MCUT.
    Source: /repo/source/bvh.cpp:70-720 (the [USE_OIBVH] branch, enabled by
    /repo/include/mcut/internal/bvh.h:49) and
    /repo/include/mcut/internal/math.h:412-433,607-675.

    C [int]s are modelled by [Z]: for the face counts the theorems range over all the
    values stay far below 2^31 (see [BvhProofs]).  Finite doubles are modelled by the
    integer [x * 2^1074] (every finite double is an integral multiple of 2^-1074), so
    that comparison, [min] and [max] are exact and [+], [-] are "add, then round to 53
    significant bits". *)
From Coq Require Import List ZArith Bool.
From Flocq Require Import Core BinarySingleNaN.
From Verif Require Import Vec.
Import ListNotations.
Open Scope Z_scope.

(** * Integer helpers *)

(** bvh.cpp:82-92 [next_power_of_two] (bit smearing; [>>] on int is arithmetic). *)
Definition next_power_of_two (x : Z) : Z :=
  let x := x - 1 in
  let x := Z.lor x (Z.shiftr x 1) in
  let x := Z.lor x (Z.shiftr x 2) in
  let x := Z.lor x (Z.shiftr x 4) in
  let x := Z.lor x (Z.shiftr x 8) in
  let x := Z.lor x (Z.shiftr x 16) in
  x + 1.

(** bvh.cpp:72-79 [clz] on a 32-bit unsigned ([__builtin_clz]); the argument 0 is
    undefined behaviour of the builtin, no caller in the model passes it (see
    [BvhProofs]); the value 32 of the MSVC branch (bvh.cpp:46-58) is used for it. *)
Definition clz (x : Z) : Z := if x <=? 0 then 32 else 31 - Z.log2 x.

(** bvh.cpp:101-104 [ilog2]: [sizeof(unsigned)*CHAR_BIT - clz(x) - 1]. *)
Definition ilog2 (x : Z) : Z := 4 * 8 - clz x - 1.

(** [__builtin_popcount]. *)
Fixpoint popcount_pos (p : positive) : Z :=
  match p with
  | xH => 1
  | xO q => popcount_pos q
  | xI q => 1 + popcount_pos q
  end.
Definition popcount (x : Z) : Z :=
  match x with Z0 => 0 | Zpos p => popcount_pos p | Zneg _ => 32 end.

(** bvh.cpp:107-112 *)
Definition get_leaf_level_from_real_leaf_count (t : Z) : Z := ilog2 (next_power_of_two t).

(** bvh.cpp:115-118 *)
Definition get_level_from_implicit_idx (i : Z) : Z := ilog2 (i + 1).

(** bvh.cpp:129-132 *)
Definition get_ostensibly_implicit_bvh_size (t : Z) : Z :=
  2 * t - 1 + popcount (next_power_of_two t - t).

(** bvh.cpp:135-138; [1 << l] *)
Definition get_level_leftmost_node (l : Z) : Z := Z.shiftl 1 l - 1.

(** bvh.cpp:141-144 *)
Definition get_rightmost_real_leaf (leaf_level num_leaves : Z) : Z :=
  (get_level_leftmost_node leaf_level + num_leaves) - 1.

(** * binary32 arithmetic *)

Definition b32 := binary_float 24 128.
#[global] Instance Hprec32 : Prec_gt_0 24 := eq_refl.
#[global] Instance Hmax32 : Prec_lt_emax 24 128 := eq_refl.
(** int -> float conversion, round to nearest even *)
Definition f32_of_int (z : Z) : b32 := binary_normalize 24 128 Hprec32 Hmax32 mode_NE z 0 false.
Definition f32_add : b32 -> b32 -> b32 := @Bplus 24 128 Hprec32 Hmax32 mode_NE.
Definition f32_sub : b32 -> b32 -> b32 := @Bminus 24 128 Hprec32 Hmax32 mode_NE.
Definition f32_mul : b32 -> b32 -> b32 := @Bmult 24 128 Hprec32 Hmax32 mode_NE.
Definition f32_div : b32 -> b32 -> b32 := @Bdiv 24 128 Hprec32 Hmax32 mode_NE.

(** [(int)((1.0f / (1 << d)) + ((float)i / (1 << d)) - 1)], the expression shared by
    bvh.cpp:155 [is_real_implicit_tree_node_id], bvh.cpp:168
    [get_level_rightmost_real_node] and bvh.cpp:180 [get_node_ancestor]. *)
Definition f32_ancestor (i d : Z) : Z :=
  let w := f32_of_int (Z.shiftl 1 d) in
  @Btrunc 24 128
    (f32_sub (f32_add (f32_div (f32_of_int 1) w) (f32_div (f32_of_int i) w)) (f32_of_int 1)).

(** bvh.cpp:161-170 *)
Definition get_level_rightmost_real_node (rightmost_leaf leaf_level level : Z) : Z :=
  f32_ancestor rightmost_leaf (leaf_level - level).

(** bvh.cpp:173-181 *)
Definition get_node_ancestor (node node_level ancestor_level : Z) : Z :=
  f32_ancestor node (node_level - ancestor_level).

(** bvh.cpp:147-158 *)
Definition is_real_implicit_tree_node_id (i t : Z) : bool :=
  let li := get_leaf_level_from_real_leaf_count t in
  let r := get_rightmost_real_leaf li t in
  let lq := get_level_from_implicit_idx i in
  let p := f32_ancestor r (li - lq) in
  (i <=? p) || (p =? 0).

(** bvh.cpp:184-191 *)
Definition get_node_mem_index (node leftmost base rightmost : Z) : Z :=
  base + get_ostensibly_implicit_bvh_size ((rightmost - leftmost) + 1) - 1 - (rightmost - node).

(** * Morton codes *)

(** bvh.cpp:194-201 [expandBits]; unsigned 32-bit arithmetic. *)
Definition u32 (x : Z) : Z := x mod 2 ^ 32.
Definition expandBits (v : Z) : Z :=
  let v := Z.land (u32 (v * 0x00010001)) 0xFF0000FF in
  let v := Z.land (u32 (v * 0x00000101)) 0x0F00F00F in
  let v := Z.land (u32 (v * 0x00000011)) 0xC30C30C3 in
  let v := Z.land (u32 (v * 0x00000005)) 0x49249249 in
  v.

(** [std::fmax]/[std::fmin] on floats: a NaN argument is ignored; of two zeros either
    may be returned, we return the second (no difference after truncation). *)
Definition f32_lt (a b : b32) : bool :=
  match @Bcompare 24 128 a b with Some Lt => true | _ => false end.
Definition f32_fmax (a b : b32) : b32 :=
  match a, b with
  | B754_nan, _ => b
  | _, B754_nan => a
  | _, _ => if f32_lt b a then a else b
  end.
Definition f32_fmin (a b : b32) : b32 :=
  match a, b with
  | B754_nan, _ => b
  | _, B754_nan => a
  | _, _ => if f32_lt a b then a else b
  end.

(** float -> unsigned int conversion; [None] is the undefined behaviour of converting
    NaN, an infinity or a value whose truncation is out of range. *)
Definition f32_to_u32 (a : b32) : option Z :=
  match a with
  | B754_nan | B754_infinity _ => None
  | _ => let z := @Btrunc 24 128 a in if (0 <=? z) && (z <? 2 ^ 32) then Some z else None
  end.

(** bvh.cpp:206-208: the clamp of one coordinate *)
Definition morton_clamp (x : b32) : b32 :=
  f32_fmin (f32_fmax (f32_mul x (f32_of_int 1024)) (f32_of_int 0)) (f32_of_int 1023).

(** bvh.cpp:204-215 [morton3D] *)
Definition morton3D (x y z : b32) : option Z :=
  do xi <- f32_to_u32 (morton_clamp x);
  do yi <- f32_to_u32 (morton_clamp y);
  do zi <- f32_to_u32 (morton_clamp z);
  let xx := expandBits xi in
  let yy := expandBits yi in
  let zz := expandBits zi in
  Some (u32 (u32 (xx * 4) + u32 (yy * 2) + zz)).

(** * Doubles and boxes *)

(** Round an integer to 53 significant bits, nearest, ties to even: the rounding of a
    binary64 operation whose exact result is [z * 2^-1074] (overflow is not modelled). *)
Definition fl64 (z : Z) : Z :=
  let e := Z.max 0 (Z.log2 (Z.abs z) + 1 - 53) in
  let w := 2 ^ e in
  let q := Z.abs z / w in
  let r := Z.abs z mod w in
  let q' := if 2 * r <? w then q
            else if w <? 2 * r then q + 1
            else if Z.even q then q else q + 1 in
  Z.sgn z * (q' * w).
Definition fadd (x y : Z) : Z := fl64 (x + y).
Definition fsub (x y : Z) : Z := fl64 (x - y).

(** [std::numeric_limits<double>::max()] = (2^53-1)*2^971, scaled by 2^1074. *)
Definition dbl_max : Z := (2 ^ 53 - 1) * 2 ^ 2045.

Record vec3 := V3 { vx : Z; vy : Z; vz : Z }.
Record box := Box { bmin : vec3; bmax : vec3 }.

(** math.h:423-433 [compwise_min]/[compwise_max] *)
Definition compwise_min (a b : vec3) : vec3 :=
  V3 (Z.min (vx a) (vx b)) (Z.min (vy a) (vy b)) (Z.min (vz a) (vz b)).
Definition compwise_max (a b : vec3) : vec3 :=
  V3 (Z.max (vx a) (vx b)) (Z.max (vy a) (vy b)) (Z.max (vz a) (vz b)).

(** math.h:618-622 default constructor (the "inside out" box) *)
Definition default_box : box :=
  Box (V3 dbl_max dbl_max dbl_max) (V3 (- dbl_max) (- dbl_max) (- dbl_max)).

(** math.h:633-637 [expand(point)] *)
Definition expand_pt (b : box) (p : vec3) : box :=
  Box (compwise_min (bmin b) p) (compwise_max (bmax b) p).

(** math.h:639-643 [expand(bbox)] *)
Definition expand_box (b c : box) : box :=
  Box (compwise_min (bmin b) (bmin c)) (compwise_max (bmax b) (bmax c)).

(** math.h:645-649 [enlarge(eps)] *)
Definition enlarge (eps : Z) (b : box) : box :=
  Box (V3 (fsub (vx (bmin b)) eps) (fsub (vy (bmin b)) eps) (fsub (vz (bmin b)) eps))
      (V3 (fadd (vx (bmax b)) eps) (fadd (vy (bmax b)) eps) (fadd (vz (bmax b)) eps)).

(** math.h:674-683 [intersect_bounding_boxes] *)
Definition intersect_bounding_boxes (a b : box) : bool :=
  ((vx (bmin a) <=? vx (bmax b)) && (vx (bmin b) <=? vx (bmax a))) &&
  ((vy (bmin a) <=? vy (bmax b)) && (vy (bmin b) <=? vy (bmax a))) &&
  ((vz (bmin a) <=? vz (bmax b)) && (vz (bmin b) <=? vz (bmax a))).

(** * build_oibvh *)

(** bvh.cpp:233-272: box of face [i].  [old] is the box already stored in
    [face_bboxes[i]] ([face_bboxes.resize] keeps old entries), [pts] are the coordinates
    of the vertices around the face. *)
Definition face_box (eps : Z) (old : box) (pts : list vec3) : box :=
  let b := fold_left expand_pt pts old in
  if 0 <? eps then enlarge eps b else b.

(** bvh.cpp:232-284: all the face boxes; [faces] lists the vertex coordinates of face 0,
    1, ... (the meshes handed to this function have no removed faces).  The parallel and
    the sequential branch write slot [i] for face [i] only. *)
Fixpoint face_boxes_aux (eps : Z) (old : list box) (faces : list (list vec3)) : list box :=
  match faces, old with
  | pts :: fr, o :: orest => face_box eps o pts :: face_boxes_aux eps orest fr
  | _, _ => []
  end.
Definition face_boxes (eps : Z) (old : list box) (faces : list (list vec3)) : list box :=
  face_boxes_aux eps (vresize old (length faces) default_box) faces.

(** bvh.cpp:384-436: leaves.  [order] is [bvhLeafNodeFaces] (the faces in the order
    produced by the sort, line 377); leaf [i] is written at its memory index. *)
Definition leaf_mem_index (t : Z) (i : Z) : Z :=
  let L := get_leaf_level_from_real_leaf_count t in
  let leftmost := get_level_leftmost_node L in
  let rightmost_leaf := get_rightmost_real_leaf L t in
  let rightmost := get_level_rightmost_real_node rightmost_leaf L L in
  get_node_mem_index (leftmost + i) leftmost 0 rightmost.

Definition store_leaf (t : Z) (fboxes : list box) (order : list Z)
           (mem : list box) (i : Z) : option (list box) :=
  do f <- vget order i;
  do b <- vget fboxes f;
  vset mem (leaf_mem_index t i) b.

(** bvh.cpp:441-567, body of the loop over the nodes of one level *)
Definition build_node (t : Z) (fboxes : list box) (order : list Z) (level : Z)
           (mem : list box) (j : Z) : option (list box) :=
  let L := get_leaf_level_from_real_leaf_count t in
  let rightmost_leaf := get_rightmost_real_leaf L t in
  let rightmost := get_level_rightmost_real_node rightmost_leaf L level in
  let leftmost := get_level_leftmost_node level in
  let node := leftmost + j in
  let lc := node * 2 + 1 in
  let rc := node * 2 + 2 in
  let penultimate := level =? (L - 1) in
  let crightmost := get_level_rightmost_real_node rightmost_leaf L (level + 1) in
  let cleftmost := get_level_leftmost_node (level + 1) in
  let rexists := rc <=? crightmost in
  do b <-
    (if penultimate then
       do lf <- vget order (lc - cleftmost);
       do lb <- vget fboxes lf;
       let b := expand_box default_box lb in
       if rexists then
         do rf <- vget order (rc - cleftmost);
         do rb <- vget fboxes rf;
         Some (expand_box b rb)
       else Some b
     else
       do lb <- vget mem (get_node_mem_index lc cleftmost 0 crightmost);
       let b := expand_box default_box lb in
       if rexists then
         do rb <- vget mem (get_node_mem_index rc cleftmost 0 crightmost);
         Some (expand_box b rb)
       else Some b);
  vset mem (get_node_mem_index node leftmost 0 rightmost) b.

(** bvh.cpp:442-446 [number_of_real_nodes_on_level] *)
Definition nodes_on_level (t level : Z) : Z :=
  let L := get_leaf_level_from_real_leaf_count t in
  (get_level_rightmost_real_node (get_rightmost_real_leaf L t) L level
   - get_level_leftmost_node level) + 1.

(** bvh.cpp:441: [for (level = leaf_level-1; level >= 0; --level)].  [sched k] is the order
    in which the nodes of level [k] are processed: [zrange (nodes_on_level t k)] in the
    sequential branch, any interleaving of the worker blocks in the parallel branch. *)
Fixpoint build_levels (t : Z) (fboxes : list box) (order : list Z) (sched : Z -> list Z)
         (k : nat) (mem : list box) : option (list box) :=
  match k with
  | O => Some mem
  | S k' =>
      do mem' <- ofold (build_node t fboxes order (Z.of_nat k')) (sched (Z.of_nat k')) mem;
      build_levels t fboxes order sched k' mem'
  end.

(** bvh.cpp:216-570 [build_oibvh] from the face boxes on.  [leafsched] is the order in
    which the leaves are stored.  The initial contents of the array are irrelevant except
    its size (bvh.cpp:289 [resize]; slot 0 temporarily holds the mesh box, bvh.cpp:290-323,
    which only influences the sort keys). *)
Definition build_oibvh (fboxes : list box) (order leafsched : list Z) (sched : Z -> list Z)
  : option (list box) :=
  let t := zlen fboxes in
  let L := get_leaf_level_from_real_leaf_count t in
  let mem0 := repeat default_box (Z.to_nat (get_ostensibly_implicit_bvh_size t)) in
  do mem1 <- ofold (store_leaf t fboxes order) leafsched mem0;
  build_levels t fboxes order sched (Z.to_nat L) mem1.

(** * intersectOIBVHs *)

(** What one tree contributes to the loop body, bvh.cpp:601-621 / 624-641: box of node
    [i], whether it is a leaf, and its face if so. *)
Definition node_info (t : Z) (aabbs : list box) (order : list Z) (i : Z)
  : option (box * option Z) :=
  let L := get_leaf_level_from_real_leaf_count t in
  let r := get_rightmost_real_leaf L t in
  let level := get_level_from_implicit_idx i in
  let isleaf := level =? L in
  let leftmost := get_level_leftmost_node level in
  let rightmost := get_level_rightmost_real_node r L level in
  do b <- vget aabbs (get_node_mem_index i leftmost 0 rightmost);
  if isleaf then
    do f <- vget order (i - leftmost);
    Some (b, Some f)
  else Some (b, None).

(** bvh.cpp:657-661, 676-680, 695-702: is the right child of node [i] real? *)
Definition right_child_is_real (t i : Z) : bool :=
  let L := get_leaf_level_from_real_leaf_count t in
  let r := get_rightmost_real_leaf L t in
  let level := get_level_from_implicit_idx i in
  i * 2 + 2 <=? get_level_rightmost_real_node r L (level + 1).

(** One iteration of the loop, bvh.cpp:596-716: the pairs pushed on the queue and the
    face pair reported, if any. *)
Definition visit (ts tc : Z) (saabbs : list box) (sorder : list Z)
           (caabbs : list box) (corder : list Z) (s c : Z)
  : option (list (Z * Z) * list (Z * Z)) :=
  do si <- node_info ts saabbs sorder s;
  do ci <- node_info tc caabbs corder c;
  if intersect_bounding_boxes (fst si) (fst ci) then
    match snd si, snd ci with
    | Some sf, Some cf => Some ([], [(sf, cf)])
    | Some _, None =>
        Some ((s, c * 2 + 1) :: (if right_child_is_real tc c then [(s, c * 2 + 2)] else []), [])
    | None, Some _ =>
        Some ((s * 2 + 1, c) :: (if right_child_is_real ts s then [(s * 2 + 2, c)] else []), [])
    | None, None =>
        Some ((s * 2 + 1, c * 2 + 1)
              :: (if right_child_is_real tc c then [(s * 2 + 1, c * 2 + 2)] else [])
              ++ (if right_child_is_real ts s
                  then (s * 2 + 2, c * 2 + 1)
                       :: (if right_child_is_real tc c then [(s * 2 + 2, c * 2 + 2)] else [])
                  else []), [])
    end
  else Some ([], []).

(** The output [std::map<fd_t, std::vector<fd_t>>]: absent key = empty list (an entry is
    only ever created by [push_back]). *)
Definition pimap := Z -> list Z.
Definition push_back (m : pimap) (k v : Z) : pimap :=
  fun x => if x =? k then m x ++ [v] else m x.

(** bvh.cpp:649-653 *)
Definition report (ns : Z) (m : pimap) (p : Z * Z) : pimap :=
  let '(sf, cf) := p in
  let cfo := cf + ns in
  push_back (push_back m sf cfo) cfo sf.

(** bvh.cpp:595-719: the [do { } while (!queue.empty())] loop.  [None] = out-of-range
    access; [Some (false, _)] = fuel exhausted. *)
Fixpoint traverse (fuel : nat) (ts tc : Z) (saabbs : list box) (sorder : list Z)
         (caabbs : list box) (corder : list Z) (queue : list (Z * Z)) (m : pimap)
  : option (bool * pimap) :=
  match queue with
  | [] => Some (true, m)
  | (s, c) :: rest =>
      match fuel with
      | O => Some (false, m)
      | S fuel' =>
          do r <- visit ts tc saabbs sorder caabbs corder s c;
          traverse fuel' ts tc saabbs sorder caabbs corder
                   (rest ++ fst r) (fold_left (report ts) (snd r) m)
      end
  end.

(** bvh.cpp:577-720 [intersectOIBVHs]; the map is empty on entry (preproc.cpp:2129). *)
Definition intersectOIBVHs (fuel : nat) (saabbs : list box) (sorder : list Z)
           (caabbs : list box) (corder : list Z) : option (bool * pimap) :=
  traverse fuel (zlen sorder) (zlen corder) saabbs sorder caabbs corder [(0, 0)] (fun _ => []).
