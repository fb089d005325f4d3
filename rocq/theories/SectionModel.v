(** The triangle that cuts for mcEnqueueDispatchPlanarSection.  frontend.cpp:697-863, called at l. 898-906.

    Coordinates are real numbers; every operation on doubles is followed by [rnd] (comparisons, fabs, min, max and the conversion of a float or of the number of vertices to double are
    exact).  A division by zero, whose results are not numbers, is [None]; overflow is not modelled.  The vertices are those of the source mesh, floats already widened (l. 746-752); faces play no part.
    [narrow] is the conversion of a coordinate to the type of the arrays (l. 821-855): nothing for doubles, rounding to single precision for floats. *)
From Coq Require Import List Arith Bool Reals.
Import ListNotations.
Open Scope R_scope.

Definition vec : Type := R * R * R.
(** comparisons of doubles *)
Definition ltb (x y : R) : bool := if Rlt_dec x y then true else false.
Definition eqb (x y : R) : bool := if Req_EM_T x y then true else false.

Section Section_.
Variable rnd : R -> R.
Variable narrow : R -> R.

(** math.h:222-241 *)
Definition add (a b : vec) : vec := let '(x, y, z) := a in let '(x', y', z') := b in (rnd (x + x'), rnd (y + y'), rnd (z + z')).
Definition sub (a b : vec) : vec := let '(x, y, z) := a in let '(x', y', z') := b in (rnd (x - x'), rnd (y - y'), rnd (z - z')).
Definition mul (a : vec) (s : R) : vec := let '(x, y, z) := a in (rnd (x * s), rnd (y * s), rnd (z * s)).
Definition div (a : vec) (s : R) : option vec := if eqb s 0 then None else let '(x, y, z) := a in Some (rnd (x / s), rnd (y / s), rnd (z / s)).
(** math.cpp:81-87 *)
Definition cross (a b : vec) : vec :=
  let '(x, y, z) := a in let '(x', y', z') := b in
  (rnd (rnd (y * z') - rnd (z * y')), rnd (rnd (z * x') - rnd (x * z')), rnd (rnd (x * y') - rnd (y * x'))).
(** math.h:437-445; the first sum is 0.0 + .. *)
Definition dot (a b : vec) : R := let '(x, y, z) := a in let '(x', y', z') := b in rnd (rnd (rnd (x * x') + rnd (y * y')) + rnd (z * z')).
(** math.h:480-490 *)
Definition length (a : vec) : R := rnd (sqrt (dot a a)).
(** math.h:492-496 *)
Definition normalize (a : vec) : option vec := div a (length a).
(** math.h:103-106: vec3_ has no operator== of its own and takes that of vec2_, which looks at two coordinates *)
Definition same (a b : vec) : bool := let '(x, y, _) := a in let '(x', y', _) := b in eqb x x' && eqb y y'.

(** frontend.cpp:697-701 *)
Definition clamp (n lower upper : R) : R := Rmax lower (Rmin n upper).
(** the unit vector of coordinate [i] *)
Definition unit (i : nat) : vec := match i with 0%nat => (1, 0, 0) | 1%nat => (0, 1, 0) | _ => (0, 0, 1) end.
Definition comp (a : vec) (i : nat) : R := let '(x, y, z) := a in match i with 0%nat => x | 1%nat => y | _ => z end.

(** frontend.cpp:719-771: what is gathered from the vertices *)
Record gathered := { proj_min : R; proj_max : R; bbox_min : vec; bbox_max : vec; total : vec; most_min : vec; most_max : vec }.
Definition huge : R := 10000000000.
Definition gather_start : gathered :=
  {| proj_min := huge; proj_max := - huge; bbox_min := (huge, huge, huge); bbox_max := (- huge, - huge, - huge); total := (0, 0, 0); most_min := (0, 0, 0); most_max := (0, 0, 0) |}.
Definition vmin (a b : vec) : vec := let '(x, y, z) := a in let '(x', y', z') := b in (Rmin x x', Rmin y y', Rmin z z').
Definition vmax (a b : vec) : vec := let '(x, y, z) := a in let '(x', y', z') := b in (Rmax x x', Rmax y y', Rmax z z').
Definition gather (n : vec) (g : gathered) (coords : vec) : gathered :=
  let d := dot n coords in
  {| proj_min := if ltb d (proj_min g) then d else proj_min g; proj_max := if ltb (proj_max g) d then d else proj_max g;
     bbox_min := vmin (bbox_min g) coords; bbox_max := vmax (bbox_max g) coords; total := add (total g) coords;
     most_min := if ltb d (proj_min g) then coords else most_min g; most_max := if ltb (proj_max g) d then coords else most_max g |}.

(** frontend.cpp:776-782: the point at the offset asked for.  It is not used. *)
Definition centroid (n : vec) (g : gathered) (sectionOffset eps : R) : vec :=
  let max_span := length (sub (most_max g) (most_min g)) in
  let alpha := clamp sectionOffset eps (rnd (1 - eps)) in
  let shiftby := rnd (alpha * max_span) in
  add (most_min g) (mul n shiftby).

(** frontend.cpp:784-798 *)
Definition largest (n : vec) : nat :=
  fst (fold_left (fun best i => if ltb (snd best) (Rabs (comp n i)) then (i, Rabs (comp n i)) else best) [0; 1; 2]%nat (0%nat, - huge)).
(** frontend.cpp:800-805 *)
Definition other_vector (n : vec) : vec :=
  let i := largest n in
  if same (unit i) n then unit (Nat.modulo (i + 1) 3) else unit i.

Definition narrow_vec (a : vec) : vec := let '(x, y, z) := a in (narrow x, narrow y, narrow z).
(** frontend.cpp:703-863: the three vertices of the triangle, whose indices are 0, 1, 2 *)
Definition triangle (vertices : list vec) (normal : vec) (sectionOffset eps : R) : option (vec * vec * vec) :=
  match normalize normal with
  | None => None
  | Some n =>
    let g := fold_left (gather n) vertices gather_start in
    match div (total g) (INR (List.length vertices)) with
    | None => None
    | Some mean =>
      let bbox_diag := length (sub (bbox_max g) (bbox_min g)) in
      let centroid := centroid n g sectionOffset eps in
      let w := other_vector n in
      let u := cross n w in
      let v := cross n u in
      let mean_dot_n := dot mean n in
      let mean_on_plane := sub mean (mul n mean_dot_n) in
      match normalize (add u v), normalize (sub u v) with
      | Some uv_pos, Some uv_neg =>
        match normalize (add uv_pos uv_neg) with
        | Some uv =>
          let vertex0 := add mean_on_plane (mul uv_pos (rnd (bbox_diag * 2))) in
          let vertex1 := add mean_on_plane (mul uv_neg (rnd (bbox_diag * 2))) in
          let vertex2 := sub mean_on_plane (mul uv (rnd (bbox_diag * 2))) in
          Some (narrow_vec vertex0, narrow_vec vertex1, narrow_vec vertex2)
        | None => None
        end
      | _, _ => None
      end
    end
  end.
End Section_.
