(** Model of the closedness test of an input mesh and of the intersection type of a dispatch. *)
From Coq Require Import List ZArith Bool.
From Verif Require Import Vec HmeshModel DispatchModel.
Import ListNotations.
Open Scope Z_scope.

(** preproc.cpp:1589-1619 [mesh_is_closed]: the loop over the half-edges *)
Fixpoint closed_loop (m : hmesh) (l : list Z) : option bool :=
  match l with
  | [] => Some true
  | h :: r => do f <- face m h;
              if f =? null then Some false else closed_loop m r
  end.
Definition mesh_is_closed (m : hmesh) : option bool :=
  do l <- iterate (zlen (hes m)) (rh m);
  closed_loop m l.

(** mcut.h:486-492 *)
Inductive itype := Standard | InsideCutMesh | InsideSourceMesh | NoneType.
Inductive which := Src | Cut.

(** preproc.cpp:1628-1727 [check_and_store_input_mesh_intersection_type].
    [inside a b]: the winding number of the first vertex of mesh [a] with respect to mesh [b] differs
    from 1 by less than 1e-7; [larger]: the box of the source mesh has the longer diagonal.  The floating
    point computation of both is a parameter. *)
Definition check_type (sm_closed cm_closed boxes_meet larger : bool) (inside : which -> which -> bool) : itype :=
  if (negb sm_closed && negb cm_closed) || negb boxes_meet then NoneType                     (* l. 1639-1642 *)
  else if sm_closed && cm_closed then                                                         (* l. 1643-1689 *)
    let meshA := if larger then Src else Cut in
    let meshB := if larger then Cut else Src in
    if inside meshB meshA then (if larger then InsideSourceMesh else InsideCutMesh)
    else if inside Src meshB then (if larger then InsideCutMesh else InsideSourceMesh)        (* l. 1674: a vertex of the source mesh *)
    else NoneType
  else if sm_closed then if inside Cut Src then InsideSourceMesh else NoneType                (* l. 1690-1705 *)
  else if inside Src Cut then InsideCutMesh else NoneType.                                    (* l. 1706-1723 *)

(** preproc.cpp:2163-2175 and 2781-2811: the type stored at the end of a dispatch; [None]: nothing is stored *)
Definition stored_type (flags : Z) (r : result) (check : itype) : option itype :=
  if negb (has_flag flags (2 ^ 17)) then None else
  match r with
  | NoOverlap => Some check
  | Completed _ cs => Some (if is_standard cs then Standard else check)
  | Error _ => None
  end.
