(** The adaptive orientation predicates of source/shewchuk.c (the half of the file under "#if 1", lines 1-4338; the other half is not compiled).

    A double is represented by the real number it denotes.  Every floating-point operation of the code is [op x], where [x] is the exact result of
    the operation; [op x = None] stands for an overflow or an underflow, which ends the computation.  What [op] must satisfy is in [ShewSpec].
    Simplifications: NaN, infinities and the sign of zero are not represented (no operation that succeeds produces or observes them); the compiler
    is assumed to evaluate in double, without contracting a product and a sum into one operation. *)
From Coq Require Import ZArith Reals Bool List.
From Flocq Require Import Core.
Import ListNotations.
Open Scope R_scope.

Definition bind {A B} (m : option A) (k : A -> option B) : option B := match m with Some a => k a | None => None end.
Notation "'let*' x ':=' m 'in' k" := (bind m (fun x => k)) (at level 200, x pattern, m at level 100, k at level 200, only parsing).

(** A decimal literal m * 10^-k as a double: the nearest one. *)
Definition lit (m : Z) (k : Z) : R := round radix2 (FLX_exp 53) ZnearestE (IZR m / IZR (10 ^ k)).

(** shewchuk.c:420-426 and 433 *)
Definition resulterrbound : R := lit 33306690738754706 32.   (* 3.3306690738754706e-16, :420 *)
Definition ccwerrboundA : R := lit 33306690738754716 32.     (* 3.3306690738754716e-16, :421 *)
Definition ccwerrboundB : R := lit 22204460492503146 32.     (* 2.2204460492503146e-16, :422 *)
Definition ccwerrboundC : R := lit 11093356479670487 47.     (* 1.1093356479670487e-31, :423 *)
Definition o3derrboundA : R := lit 77715611723761027 32.     (* 7.7715611723761027e-16, :424 *)
Definition o3derrboundB : R := lit 33306690738754731 32.     (* 3.3306690738754731e-16, :425 *)
Definition o3derrboundC : R := lit 32047474274603644 47.     (* 3.2047474274603644e-31, :426 *)
Definition splitter : R := lit 134217729 0.                  (* 1.34217729e+08, :433 *)

(** Comparisons of doubles: a < b, a <= b, a == b *)
Definition ltb : R -> R -> bool := Rlt_bool.
Definition leb : R -> R -> bool := Rle_bool.
Definition eqb : R -> R -> bool := Req_bool.

(** shewchuk.c:159  Absolute *)
Definition absolute (a : R) : R := if leb 0 a then a else - a.

Section Ops.
Variable op : R -> option R.

(** shewchuk.c:175-181  Fast_Two_Sum *)
Definition fast_two_sum (a b : R) : option (R * R) :=
  let* x := op (a + b) in
  let* bvirt := op (x - a) in
  let* y := op (b - bvirt) in
  Some (x, y).

(** shewchuk.c:191-200  Two_Sum *)
Definition two_sum (a b : R) : option (R * R) :=
  let* x := op (a + b) in
  let* bvirt := op (x - a) in
  let* avirt := op (x - bvirt) in
  let* bround := op (b - bvirt) in
  let* around := op (a - avirt) in
  let* y := op (around + bround) in
  Some (x, y).

(** shewchuk.c:202-207  Two_Diff_Tail *)
Definition two_diff_tail (a b x : R) : option R :=
  let* bvirt := op (a - x) in
  let* avirt := op (x + bvirt) in
  let* bround := op (bvirt - b) in
  let* around := op (a - avirt) in
  op (around + bround).

(** shewchuk.c:209-211  Two_Diff *)
Definition two_diff (a b : R) : option (R * R) :=
  let* x := op (a - b) in
  let* y := two_diff_tail a b x in
  Some (x, y).

(** shewchuk.c:213-217  Split *)
Definition split (a : R) : option (R * R) :=
  let* c := op (splitter * a) in
  let* abig := op (c - a) in
  let* ahi := op (c - abig) in
  let* alo := op (a - ahi) in
  Some (ahi, alo).

(** the common last lines of Two_Product_Tail, Two_Product_Presplit: shewchuk.c:222-225, :237-240 *)
Definition product_tail (x ahi alo bhi blo : R) : option R :=
  let* p1 := op (ahi * bhi) in
  let* err1 := op (x - p1) in
  let* p2 := op (alo * bhi) in
  let* err2 := op (err1 - p2) in
  let* p3 := op (ahi * blo) in
  let* err3 := op (err2 - p3) in
  let* p4 := op (alo * blo) in
  op (p4 - err3).

(** shewchuk.c:219-229  Two_Product *)
Definition two_product (a b : R) : option (R * R) :=
  let* x := op (a * b) in
  let* (ahi, alo) := split a in
  let* (bhi, blo) := split b in
  let* y := product_tail x ahi alo bhi blo in
  Some (x, y).

(** shewchuk.c:234-240  Two_Product_Presplit *)
Definition two_product_presplit (a b bhi blo : R) : option (R * R) :=
  let* x := op (a * b) in
  let* (ahi, alo) := split a in
  let* y := product_tail x ahi alo bhi blo in
  Some (x, y).

(** shewchuk.c:271-273  Two_One_Diff: returns (x2, x1, x0) *)
Definition two_one_diff (a1 a0 b : R) : option (R * R * R) :=
  let* (i, x0) := two_diff a0 b in
  let* (x2, x1) := two_sum a1 i in
  Some (x2, x1, x0).

(** shewchuk.c:279-281  Two_Two_Diff, with the assignment of the largest component that follows it: the expansion x0, x1, x2, x3 *)
Definition two_two_diff (a b : R * R) : option (list R) :=
  let '(a1, a0) := a in let '(b1, b0) := b in
  let* (j, z, x0) := two_one_diff a1 a0 b0 in
  let* (x3, x2, x1) := two_one_diff j z b1 in
  Some [x0; x1; x2; x3].

(** shewchuk.c:317-322  Two_One_Product, with the assignment of the largest component that follows it *)
Definition two_one_product (a : R * R) (b : R) : option (list R) :=
  let '(a1, a0) := a in
  let* (bhi, blo) := split b in
  let* (i, x0) := two_product_presplit a0 b bhi blo in
  let* (j, z) := two_product_presplit a1 b bhi blo in
  let* (k, x1) := two_sum i z in
  let* (x3, x2) := fast_two_sum j k in
  Some [x0; x1; x2; x3].

(** "if (hh != 0.0) { h[hindex++] = hh; }", shewchuk.c:1131-1133 and alike: what is appended to h *)
Definition nonzero (hh : R) (h : list R) : list R := if eqb hh 0 then h else hh :: h.

(** "if ((Q != 0.0) || (hindex == 0)) { h[hindex++] = Q; }", shewchuk.c:1164-1166 and :1405-1407 *)
Definition last_component (h : list R) (Q : R) : list R := if negb (eqb Q 0) || match h with [] => true | _ => false end then h ++ [Q] else h.

(** "(fnow > enow) == (fnow > -enow)", shewchuk.c:1114: take the next component from e *)
Definition from_e (enow fnow : R) : bool := Bool.eqb (ltb enow fnow) (ltb (- enow) fnow).

(** shewchuk.c:1148-1163: the loops that use up what remains of one of the expansions.  Returns the components written and the last Q. *)
Fixpoint sum_rest (Q : R) (g : list R) : option (list R * R) :=
  match g with
  | [] => Some ([], Q)
  | now :: g' =>
    let* (Qnew, hh) := two_sum Q now in
    let* (h, Qlast) := sum_rest Qnew g' in
    Some (nonzero hh h, Qlast)
  end.

(** shewchuk.c:1134-1163: the merging loop and those after it.  The lists are what remains of e and f. *)
Fixpoint sum_loop (e : list R) : list R -> R -> option (list R * R) :=
  fix loop (f : list R) (Q : R) : option (list R * R) :=
  match e with
  | [] => sum_rest Q f
  | enow :: e' =>
    match f with
    | [] => sum_rest Q e
    | fnow :: f' =>
      if from_e enow fnow then
        let* (Qnew, hh) := two_sum Q enow in
        let* (h, Qlast) := sum_loop e' f Qnew in
        Some (nonzero hh h, Qlast)
      else
        let* (Qnew, hh) := two_sum Q fnow in
        let* (h, Qlast) := loop f' Qnew in
        Some (nonzero hh h, Qlast)
    end
  end.

(** shewchuk.c:1122-1163: the first addition, by Fast_Two_Sum, if both expansions go on *)
Definition sum_first (e f : list R) (Q : R) : option (list R * R) :=
  match e, f with
  | enow :: e', fnow :: f' =>
    if from_e enow fnow then
      let* (Qnew, hh) := fast_two_sum enow Q in
      let* (h, Qlast) := sum_loop e' f Qnew in
      Some (nonzero hh h, Qlast)
    else
      let* (Qnew, hh) := fast_two_sum fnow Q in
      let* (h, Qlast) := sum_loop e f' Qnew in
      Some (nonzero hh h, Qlast)
  | _, _ => sum_loop e f Q
  end.

(** An array of the code that receives an expansion: [None] if it has fewer elements than are written *)
Definition fits (size : nat) (h : list R) : option (list R) := if Nat.leb (length h) size then Some h else None.

(** shewchuk.c:1096-1168  fast_expansion_sum_zeroelim; [size] is the number of elements of the array h.
    The expansions of the code have at least one component.  The code reads e[elen] or f[flen], one past the end, when it takes the last component
    (for instance B[4] of the four-element B of orient2dadapt); the value is never used and the read is not modelled. *)
Definition fast_expansion_sum (size : nat) (e f : list R) : option (list R) :=
  match e, f with
  | enow :: e', fnow :: f' =>
    let* (h, Q) := if from_e enow fnow then sum_first e' f enow else sum_first e f' fnow in
    fits size (last_component h Q)
  | _, _ => None
  end.

(** shewchuk.c:1393-1404: the loop of scale_expansion_zeroelim *)
Fixpoint scale_loop (e : list R) (b bhi blo Q : R) : option (list R * R) :=
  match e with
  | [] => Some ([], Q)
  | enow :: e' =>
    let* (product1, product0) := two_product_presplit enow b bhi blo in
    let* (sum, hh) := two_sum Q product0 in
    let* (Q', hh') := fast_two_sum product1 sum in
    let* (h, Qlast) := scale_loop e' b bhi blo Q' in
    Some (nonzero hh (nonzero hh' h), Qlast)
  end.

(** shewchuk.c:1368-1409  scale_expansion_zeroelim; [size] as above *)
Definition scale_expansion (size : nat) (e : list R) (b : R) : option (list R) :=
  match e with
  | [] => None
  | e0 :: e' =>
    let* (bhi, blo) := split b in
    let* (Q, hh) := two_product_presplit e0 b bhi blo in
    let* (h, Qlast) := scale_loop e' b bhi blo Q in
    fits size (last_component (nonzero hh h) Qlast)
  end.

(** shewchuk.c:1468-1480  estimate *)
Fixpoint estimate_loop (Q : R) (e : list R) : option R :=
  match e with
  | [] => Some Q
  | enow :: e' => let* Q' := op (Q + enow) in estimate_loop Q' e'
  end.
Definition estimate (e : list R) : option R :=
  match e with [] => None | e0 :: e' => estimate_loop e0 e' end.

(** shewchuk.c:1653, :1670, :1724, :2053, :2083: "(det >= errbound) || (-det >= errbound)" *)
Definition decided (det errbound : R) : bool := leb errbound det || leb errbound (- det).

(** h[hlength - 1] *)
Definition largest (h : list R) : R := last h 0.

(** shewchuk.c:1611-1693  orient2dadapt *)
Definition orient2dadapt (pa pb pc : R * R) (detsum : R) : option R :=
  let '(ax, ay) := pa in let '(bx, by_) := pb in let '(cx, cy) := pc in
  let* acx := op (ax - cx) in
  let* bcx := op (bx - cx) in
  let* acy := op (ay - cy) in
  let* bcy := op (by_ - cy) in
  let* detl := two_product acx bcy in
  let* detr := two_product acy bcx in
  let* B := two_two_diff detl detr in
  let* det := estimate B in
  let* errbound := op (ccwerrboundB * detsum) in
  if decided det errbound then Some det else
  let* acxtail := two_diff_tail ax cx acx in
  let* bcxtail := two_diff_tail bx cx bcx in
  let* acytail := two_diff_tail ay cy acy in
  let* bcytail := two_diff_tail by_ cy bcy in
  if eqb acxtail 0 && eqb acytail 0 && eqb bcxtail 0 && eqb bcytail 0 then Some det else
  let* e1 := op (ccwerrboundC * detsum) in
  let* e2 := op (resulterrbound * absolute det) in
  let* errbound := op (e1 + e2) in
  let* p1 := op (acx * bcytail) in
  let* p2 := op (bcy * acxtail) in
  let* p3 := op (p1 + p2) in
  let* q1 := op (acy * bcxtail) in
  let* q2 := op (bcx * acytail) in
  let* q3 := op (q1 + q2) in
  let* d := op (p3 - q3) in
  let* det := op (det + d) in
  if decided det errbound then Some det else
  let* s := two_product acxtail bcy in
  let* t := two_product acytail bcx in
  let* u := two_two_diff s t in
  let* C1 := fast_expansion_sum 8 B u in
  let* s := two_product acx bcytail in
  let* t := two_product acy bcxtail in
  let* u := two_two_diff s t in
  let* C2 := fast_expansion_sum 12 C1 u in
  let* s := two_product acxtail bcytail in
  let* t := two_product acytail bcxtail in
  let* u := two_two_diff s t in
  let* D := fast_expansion_sum 16 C2 u in
  Some (largest D).

(** shewchuk.c:1695-1729  orient2d (called by math.cpp:89-96 with the coordinates unchanged) *)
Definition orient2d (pa pb pc : R * R) : option R :=
  let '(ax, ay) := pa in let '(bx, by_) := pb in let '(cx, cy) := pc in
  let* x1 := op (ax - cx) in
  let* y1 := op (by_ - cy) in
  let* detleft := op (x1 * y1) in
  let* y2 := op (ay - cy) in
  let* x2 := op (bx - cx) in
  let* detright := op (y2 * x2) in
  let* det := op (detleft - detright) in
  let adapt (detsum : R) : option R :=
    let* errbound := op (ccwerrboundA * detsum) in
    if decided det errbound then Some det else orient2dadapt pa pb pc detsum in
  if ltb 0 detleft then
    if leb detright 0 then Some det else let* detsum := op (detleft + detright) in adapt detsum
  else if ltb detleft 0 then
    if leb 0 detright then Some det else let* detsum := op (- detleft - detright) in adapt detsum
  else Some det.

(** shewchuk.c:2090-2128 (and, with the other points, :2129-2167, :2168-2206): with (xt, yt) the tails of one point and (px, py), (qx, qy) the
    differences of the other two, the expansions of xt*py - yt*px and of yt*qx - xt*qy *)
Definition tail_products (xt yt px py qx qy : R) : option (list R * list R) :=
  if eqb xt 0 then
    if eqb yt 0 then Some ([0], [0])
    else
      let* (large, small) := two_product (- yt) px in
      let* (large', small') := two_product yt qx in
      Some ([small; large], [small'; large'])
  else
    if eqb yt 0 then
      let* (large, small) := two_product xt py in
      let* (large', small') := two_product (- xt) qy in
      Some ([small; large], [small'; large'])
    else
      let* s := two_product xt py in
      let* t := two_product yt px in
      let* u := two_two_diff s t in
      let* s' := two_product yt qx in
      let* t' := two_product xt qy in
      let* u' := two_two_diff s' t' in
      Some (u, u').

(** fin1 and fin2 have 192 elements, shewchuk.c:1981 *)
Definition fin_size : nat := 192.

(** shewchuk.c:2226-2231 and alike: "if (ztail != 0.0) { v = e * ztail; fin = fin + v }"; [size] is that of v or w *)
Definition add_scaled (size : nat) (fin e : list R) (ztail : R) : option (list R) :=
  if eqb ztail 0 then Some fin else
  let* v := scale_expansion size e ztail in
  fast_expansion_sum fin_size fin v.

(** shewchuk.c:2246-2260 (and :2261-2276, :2279-2293, :2294-2309, :2312-2326, :2327-2342): the blocks "if (ytail != 0.0) { ... }", with xt the tail of an x coordinate or its negation *)
Definition add_tails (fin : list R) (xt yt z ztail : R) : option (list R) :=
  if eqb yt 0 then Some fin else
  let* p := two_product xt yt in
  let* u := two_one_product p z in
  let* fin := fast_expansion_sum fin_size fin u in
  if eqb ztail 0 then Some fin else
  let* u := two_one_product p ztail in
  fast_expansion_sum fin_size fin u.

(** one line of the correction of shewchuk.c:2074-2082: adz * ((bdx * cdytail + cdy * bdxtail) - (bdy * cdxtail + cdx * bdytail)) + adztail * (bdx * cdy - bdy * cdx) *)
Definition correction (z zt x y xt yt x' y' xt' yt' : R) : option R :=
  let* p1 := op (x * yt') in
  let* p2 := op (y' * xt) in
  let* p := op (p1 + p2) in
  let* q1 := op (y * xt') in
  let* q2 := op (x' * yt) in
  let* q := op (q1 + q2) in
  let* d := op (p - q) in
  let* m := op (z * d) in
  let* r1 := op (x * y') in
  let* r2 := op (y * x') in
  let* r := op (r1 - r2) in
  let* n := op (zt * r) in
  op (m + n).

Definition point3 : Type := R * R * R.

(** shewchuk.c:2087-2364: the last part of orient3dadapt, from the expansions bc, ca, ab, fin1 and the differences and their tails.
    [finnow] and [finother] are exchanged after each sum, so a sum never reads the array it writes. *)
Definition orient3dexact (bc ca ab fin : list R) (adx ady adz bdx bdy bdz cdx cdy cdz adxtail adytail adztail bdxtail bdytail bdztail cdxtail cdytail cdztail : R) : option R :=
  let* (at_b, at_c) := tail_products adxtail adytail bdx bdy cdx cdy in
  let* (bt_c, bt_a) := tail_products bdxtail bdytail cdx cdy adx ady in
  let* (ct_a, ct_b) := tail_products cdxtail cdytail adx ady bdx bdy in
  let* bct := fast_expansion_sum 8 bt_c ct_b in
  let* w := scale_expansion 16 bct adz in
  let* fin := fast_expansion_sum fin_size fin w in
  let* cat := fast_expansion_sum 8 ct_a at_c in
  let* w := scale_expansion 16 cat bdz in
  let* fin := fast_expansion_sum fin_size fin w in
  let* abt := fast_expansion_sum 8 at_b bt_a in
  let* w := scale_expansion 16 abt cdz in
  let* fin := fast_expansion_sum fin_size fin w in
  let* fin := add_scaled 12 fin bc adztail in
  let* fin := add_scaled 12 fin ca bdztail in
  let* fin := add_scaled 12 fin ab cdztail in
  let* fin := if eqb adxtail 0 then Some fin else
    let* fin := add_tails fin adxtail bdytail cdz cdztail in
    add_tails fin (- adxtail) cdytail bdz bdztail in
  let* fin := if eqb bdxtail 0 then Some fin else
    let* fin := add_tails fin bdxtail cdytail adz adztail in
    add_tails fin (- bdxtail) adytail cdz cdztail in
  let* fin := if eqb cdxtail 0 then Some fin else
    let* fin := add_tails fin cdxtail adytail bdz bdztail in
    add_tails fin (- cdxtail) bdytail adz adztail in
  let* fin := add_scaled 16 fin bct adztail in
  let* fin := add_scaled 16 fin cat bdztail in
  let* fin := add_scaled 16 fin abt cdztail in
  Some (largest fin).

(** shewchuk.c:1962-2365  orient3dadapt *)
Definition orient3dadapt (pa pb pc pd : point3) (permanent : R) : option R :=
  let '(ax, ay, az) := pa in let '(bx, by_, bz) := pb in let '(cx, cy, cz) := pc in let '(dx, dy, dz) := pd in
  let* adx := op (ax - dx) in
  let* bdx := op (bx - dx) in
  let* cdx := op (cx - dx) in
  let* ady := op (ay - dy) in
  let* bdy := op (by_ - dy) in
  let* cdy := op (cy - dy) in
  let* adz := op (az - dz) in
  let* bdz := op (bz - dz) in
  let* cdz := op (cz - dz) in
  let* bdxcdy := two_product bdx cdy in
  let* cdxbdy := two_product cdx bdy in
  let* bc := two_two_diff bdxcdy cdxbdy in
  let* adet := scale_expansion 8 bc adz in
  let* cdxady := two_product cdx ady in
  let* adxcdy := two_product adx cdy in
  let* ca := two_two_diff cdxady adxcdy in
  let* bdet := scale_expansion 8 ca bdz in
  let* adxbdy := two_product adx bdy in
  let* bdxady := two_product bdx ady in
  let* ab := two_two_diff adxbdy bdxady in
  let* cdet := scale_expansion 8 ab cdz in
  let* abdet := fast_expansion_sum 16 adet bdet in
  let* fin1 := fast_expansion_sum fin_size abdet cdet in
  let* det := estimate fin1 in
  let* errbound := op (o3derrboundB * permanent) in
  if decided det errbound then Some det else
  let* adxtail := two_diff_tail ax dx adx in
  let* bdxtail := two_diff_tail bx dx bdx in
  let* cdxtail := two_diff_tail cx dx cdx in
  let* adytail := two_diff_tail ay dy ady in
  let* bdytail := two_diff_tail by_ dy bdy in
  let* cdytail := two_diff_tail cy dy cdy in
  let* adztail := two_diff_tail az dz adz in
  let* bdztail := two_diff_tail bz dz bdz in
  let* cdztail := two_diff_tail cz dz cdz in
  if eqb adxtail 0 && eqb bdxtail 0 && eqb cdxtail 0 && eqb adytail 0 && eqb bdytail 0 && eqb cdytail 0 && eqb adztail 0 && eqb bdztail 0 && eqb cdztail 0 then Some det else
  let* e1 := op (o3derrboundC * permanent) in
  let* e2 := op (resulterrbound * absolute det) in
  let* errbound := op (e1 + e2) in
  let* c1 := correction adz adztail bdx bdy bdxtail bdytail cdx cdy cdxtail cdytail in
  let* c2 := correction bdz bdztail cdx cdy cdxtail cdytail adx ady adxtail adytail in
  let* c3 := correction cdz cdztail adx ady adxtail adytail bdx bdy bdxtail bdytail in
  let* c12 := op (c1 + c2) in
  let* c := op (c12 + c3) in
  let* det := op (det + c) in
  if decided det errbound then Some det else
  orient3dexact bc ca ab fin1 adx ady adz bdx bdy bdz cdx cdy cdz adxtail adytail adztail bdxtail bdytail bdztail cdxtail cdytail cdztail.

(** shewchuk.c:2367-2410  orient3d (called by math.cpp:98-107 with the coordinates unchanged) *)
Definition orient3d (pa pb pc pd : point3) : option R :=
  let '(ax, ay, az) := pa in let '(bx, by_, bz) := pb in let '(cx, cy, cz) := pc in let '(dx, dy, dz) := pd in
  let* adx := op (ax - dx) in
  let* bdx := op (bx - dx) in
  let* cdx := op (cx - dx) in
  let* ady := op (ay - dy) in
  let* bdy := op (by_ - dy) in
  let* cdy := op (cy - dy) in
  let* adz := op (az - dz) in
  let* bdz := op (bz - dz) in
  let* cdz := op (cz - dz) in
  let* bdxcdy := op (bdx * cdy) in
  let* cdxbdy := op (cdx * bdy) in
  let* cdxady := op (cdx * ady) in
  let* adxcdy := op (adx * cdy) in
  let* adxbdy := op (adx * bdy) in
  let* bdxady := op (bdx * ady) in
  let* d1 := op (bdxcdy - cdxbdy) in
  let* m1 := op (adz * d1) in
  let* d2 := op (cdxady - adxcdy) in
  let* m2 := op (bdz * d2) in
  let* m12 := op (m1 + m2) in
  let* d3 := op (adxbdy - bdxady) in
  let* m3 := op (cdz * d3) in
  let* det := op (m12 + m3) in
  let* s1 := op (absolute bdxcdy + absolute cdxbdy) in
  let* t1 := op (s1 * absolute adz) in
  let* s2 := op (absolute cdxady + absolute adxcdy) in
  let* t2 := op (s2 * absolute bdz) in
  let* t12 := op (t1 + t2) in
  let* s3 := op (absolute adxbdy + absolute bdxady) in
  let* t3 := op (s3 * absolute cdz) in
  let* permanent := op (t12 + t3) in
  let* errbound := op (o3derrboundA * permanent) in
  if ltb errbound det || ltb errbound (- det) then Some det else orient3dadapt pa pb pc pd permanent.

End Ops.
