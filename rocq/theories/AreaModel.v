(** Planes of the faces that may intersect, and faces without area.  kernel.cpp:2165-2332.

    One thread per block of faces, the calling thread has the last block (parallel_for, tpool.h:418-471).  The faces are the keys of a std::map, so they differ; the four tables have the same keys and are modelled as one.  An event is one face looked at by a thread, or one
    step of the calling thread. *)
From Coq Require Import List Arith Bool.
From Verif Require Import CutModel PointsModel.
Import ListNotations.

Section Area.
(** vertices of the face, normal vector, distance and largest component (compute_polygon_plane_coefficients: GeoModel.plane_coefficients) *)
Context {A : Type}.
Variable properties : nat -> A.
(** kernel.cpp:2218  squared_length(tested_face_plane_normal) == 0 *)
Variable zero : A -> bool.
(** sm_face_count: the faces of the cut mesh are numbered from here *)
Variable sm_face_count : nat.
(** the order of an unordered map *)
Variable order : list (nat * A) -> list (nat * A).

(** kernel.cpp:2189-2223: the tables of a block of faces *)
Definition planes (block : list nat) : list (nat * A) := map (fun f => (f, properties f)) block.
(** kernel.cpp:2260-2274: std::unordered_map::insert of a range, elements that are there stay *)
Definition insert (m l : list (nat * A)) : list (nat * A) := fold_left (fun m p => if mem m (fst p) then m else m ++ [p]) l m.

(** the message: whether it says cut-mesh (status INVALID_CUT_MESH, otherwise INVALID_SRC_MESH), and the number of the face there *)
Record report := { says_cut_mesh : bool; says_face : nat }.
(** kernel.cpp:2279-2286 *)
Definition report_of (tmp_local : nat) : report :=
  let is_cutmesh_face := Nat.ltb sm_face_count tmp_local in
  {| says_cut_mesh := is_cutmesh_face; says_face := if is_cutmesh_face then tmp_local - sm_face_count else tmp_local |}.

Inductive event :=
| Look (i : nat) (** thread i does its next face; kernel.cpp:2195-2221 *)
| Own (** the calling thread takes its own result; kernel.cpp:2236-2241 *)
| Get (** it takes the result of the next future and looks at the variable; kernel.cpp:2244-2275 *)
| End (** it looks at the variable after the loop; kernel.cpp:2277-2289 *).
(** the calling thread: still in its block; merging: tables, number of futures taken, stopped by break; dispatch has returned with a report; dispatch goes on with the tables *)
Inductive main := Busy | Merging (m : list (nat * A)) (taken : nat) (stopped : bool) | Returned (r : report) | Goes_on (m : list (nat * A)).
(** bad: potentially_intersecting_face_with_zero_area, None for -1; looked: number of faces each thread has done; caller: the calling thread *)
Record run := { bad : option nat; looked : list nat; caller : main }.
Definition initial (n : nat) : run := {| bad := None; looked := repeat 0 n; caller := Busy |}.
Definition done (blocks : list (list nat)) (r : run) (i : nat) : bool :=
  match nth_error blocks i, nth_error (looked r) i with Some block, Some k => Nat.eqb k (length block) | _, _ => false end.

Definition step (blocks : list (list nat)) (r : run) (ev : event) : option run :=
  let n := length blocks in
  match ev with
  | Look i =>
    match nth_error blocks i, nth_error (looked r) i with
    | Some block, Some k =>
      match nth_error block k with
      | Some f => Some {| bad := if zero (properties f) then Some f else bad r; looked := replace (looked r) i (S k); caller := caller r |}
      | None => None
      end
    | _, _ => None
    end
  | Own =>
    match caller r with
    | Busy => if done blocks r (n - 1) then Some {| bad := bad r; looked := looked r; caller := Merging (planes (nth (n - 1) blocks [])) 0 false |} else None
    | _ => None
    end
  | Get =>
    match caller r with
    | Merging m taken false =>
      if Nat.ltb taken (n - 1) && done blocks r taken then
        Some {| bad := bad r; looked := looked r; caller := match bad r with Some _ => Merging m (S taken) true | None => Merging (insert m (order (planes (nth taken blocks [])))) (S taken) false end |}
      else None
    | _ => None
    end
  | End =>
    match caller r with
    | Merging m taken stopped =>
      if stopped || Nat.eqb taken (n - 1) then Some {| bad := bad r; looked := looked r; caller := match bad r with Some f => Returned (report_of f) | None => Goes_on m end |} else None
    | _ => None
    end
  end.
Definition execute (blocks : list (list nat)) (evs : list event) : option run := fold_left (fun r ev => let* r := r in step blocks r ev) evs (Some (initial (length blocks))).

(** kernel.cpp:2291-2332: without helper threads *)
Fixpoint sequential (m : list (nat * A)) (faces : list nat) : main :=
  match faces with
  | [] => Goes_on m
  | f :: faces => if zero (properties f) then Returned (report_of f) else sequential (m ++ [(f, properties f)]) faces
  end.
End Area.
Arguments Busy {A}. Arguments Returned {A}.
