(** The tests for collinear points and for planar faces that the orientation predicates are used for. *)
From Coq Require Import ZArith Reals Bool List.
From Flocq Require Import Core.
From Verif Require Import ShewModel.
Import ListNotations.
Open Scope R_scope.

(** math.cpp:785-794  collinear (both overloads; the first also stores the value) *)
Definition collinear (op : R -> option R) (a b c : R * R) : option bool := let* val := orient2d op a b c in Some (eqb val 0).

(** math.cpp:768-783  coplaner: the threshold is the literal 4e-7 *)
Definition coplaner (op : R -> option R) (a b c d : point3) : option bool := let* val := orient3d op a b c d in Some (leb (absolute val) (lit 4 7)).

(** preproc.cpp:355-384  is_coplanar, for the coordinates of the vertices around the face in order.  With i < n - 3 the indices i + 1, i + 2 and
    i + 3 are below n, so the remainders of the code are the indices themselves: the windows of four consecutive elements of the list. *)
Fixpoint is_coplanar (op : R -> option R) (vertices : list point3) : option bool :=
  match vertices with
  | vi :: (vj :: vk :: vl :: _) as rest => let* are_coplaner := coplaner op vi vj vk vl in if are_coplaner then is_coplanar op rest else Some false
  | _ => Some true
  end.

(** preproc.cpp:429-449: the faces that check_input_mesh reports as not coplanar (the mesh is accepted all the same) *)
Fixpoint reported (op : R -> option R) (faces : list (list point3)) (f : nat) : option (list nat) :=
  match faces with
  | [] => Some []
  | vertices :: faces' =>
    let* face_is_coplanar := is_coplanar op vertices in
    let* r := reported op faces' (S f) in
    Some (if face_is_coplanar then r else f :: r)
  end.
