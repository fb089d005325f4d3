(** Model of [find_connected_components] (source/kernel.cpp:237-367) and of [check_input_mesh]
    (source/preproc.cpp:388-454), single-threaded build.

    Simplifications: int counters are unbounded integers; the notification about
    non-coplanar faces (preproc.cpp:429-451), which does not influence the result, is left out.
    [None] stands for an access outside a vector, or for a loop that has not ended within
    [fuel] iterations; the theorems say that it does not occur. *)
From Coq Require Import List ZArith Bool.
From Verif Require Import Vec HmeshModel ParModel.
Import ListNotations.
Open Scope Z_scope.

(** kernel.cpp:258-262: [visited], [queued] and [cc_to_vertex_count] *)
Record bfs := Bfs { visited : list Z; queued : list bool; vcount : list Z }.

(** kernel.cpp:276-280: the neighbours of the first vertex of a component *)
Fixpoint push_all (q : list bool) (queue : list Z) (l : list Z) : option (list bool * list Z) :=
  match l with
  | [] => Some (q, queue)
  | v :: r => do q' <- vset q v true; push_all q' (queue ++ [v]) r
  end.

(** kernel.cpp:294-300: the neighbours of another vertex *)
Fixpoint push_new (vis : list Z) (q : list bool) (queue : list Z) (l : list Z) : option (list bool * list Z) :=
  match l with
  | [] => Some (q, queue)
  | v :: r =>
      do x <- vget vis v;
      do y <- vget q v;
      if (x =? -1) || negb y
      then do q' <- vset q v true; push_new vis q' (queue ++ [v]) r
      else push_new vis q queue r
  end.

(** kernel.cpp:282-302: the loop over the queue, for component number [cc] *)
Fixpoint drain (fuel : nat) (m : hmesh) (cc : Z) (st : bfs) (queue : list Z) : option bfs :=
  match queue with
  | [] => Some st
  | v :: rest =>
      match fuel with
      | O => None
      | S k =>
          do x <- vget (visited st) v;
          if x =? -1 then
            do vis <- vset (visited st) v cc;
            do c <- vget (vcount st) cc;
            do cs <- vset (vcount st) cc (c + 1);
            do ns <- get_vertices_around_vertex m v;
            do r <- push_new vis (queued st) rest ns;
            drain k m cc (Bfs vis (fst r) cs) (snd r)
          else drain k m cc st rest
      end
  end.

(** kernel.cpp:265-306: one iteration of the loop over the vertices; [cc] is the number of the last
    component *)
Definition visit (fuel : nat) (m : hmesh) (s : Z * bfs) (u : Z) : option (Z * bfs) :=
  let (cc, st) := s in
  do x <- vget (visited st) u;
  if x =? -1 then
    let cc := cc + 1 in
    do vis <- vset (visited st) u cc;
    do q <- vset (queued st) u true;
    let cs := vcount st ++ [1] in
    do ns <- get_vertices_around_vertex m u;
    do r <- push_all q [] ns;
    do st' <- drain fuel m cc (Bfs vis (fst r) cs) (snd r);
    Some (cc, st')
  else Some (cc, st).

(** kernel.cpp:353-363: one iteration of the loop over the faces *)
Definition map_face (m : hmesh) (vis : list Z) (s : list Z * list Z) (f : Z) : option (list Z * list Z) :=
  let (fcc, fc) := s in
  do vs <- get_vertices_around_face m f;
  match vs with
  | [] => None
  | v :: _ =>
      do cc <- vget vis v;
      do fcc' <- vset fcc f cc;
      do c <- vget fc cc;
      do fc' <- vset fc cc (c + 1);
      Some (fcc', fc')
  end.

Record components := Comps { n_components : Z; face_component : list Z; vertices_in : list Z; faces_in : list Z }.

(** kernel.cpp:258-306: the component numbers of the vertices; the result is the number of the
    last component and the vectors *)
Definition label_vertices (fuel : nat) (m : hmesh) : option (Z * bfs) :=
  do us <- iterate (zlen (verts m)) (rv m);
  let nv := Z.to_nat (number_of_vertices m) in
  ofold (visit fuel m) us (-1, Bfs (repeat (-1) nv) (repeat false nv) []).

(** kernel.cpp:237-367 *)
Definition find_connected_components (fuel : nat) (m : hmesh) : option components :=
  do s <- label_vertices fuel m;
  let (cc, st) := s in
  let n := cc + 1 in
  do fs <- iterate (zlen (faces m)) (rf m);
  do r <- ofold (map_face m (visited st)) fs (repeat 0 (Z.to_nat (number_of_faces m)), repeat 0 (Z.to_nat n));
  Some (Comps n (fst r) (vcount st) (snd r)).

(** kernel.cpp:331-351: the loop over the faces in the build with the helper thread pool.  The
    body of face [f] consists of three memory operations: the store into [fccmap], and the load
    and the store of the increment of [cc_to_face_count]; [f_reg] holds the loaded values.  Only for
    meshes without removed faces, where the iterators run over 0 .. number_of_faces-1. *)
Inductive face_action := SetNumber (f : Z) | LoadCount (f : Z) | StoreCount (f : Z).
Definition face_actions (f : Z) : list face_action := [SetNumber f; LoadCount f; StoreCount f].
Record fstate := FS { f_num : list Z; f_cnt : list Z; f_reg : Z -> Z }.
Definition front_component (m : hmesh) (vis : list Z) (f : Z) : option Z :=
  do vs <- get_vertices_around_face m f;
  match vs with [] => None | v :: _ => vget vis v end.
Definition do_action (m : hmesh) (vis : list Z) (s : fstate) (a : face_action) : option fstate :=
  match a with
  | SetNumber f => do cc <- front_component m vis f; do l <- vset (f_num s) f cc; Some (FS l (f_cnt s) (f_reg s))
  | LoadCount f => do cc <- front_component m vis f; do c <- vget (f_cnt s) cc;
                   Some (FS (f_num s) (f_cnt s) (fun g => if g =? f then c else f_reg s g))
  | StoreCount f => do cc <- front_component m vis f; do l <- vset (f_cnt s) cc (f_reg s f + 1); Some (FS (f_num s) l (f_reg s))
  end.
Definition parallel_face_loop (pool : Z) (m : hmesh) (vis : list Z) (n : Z) (result : option fstate) : Prop :=
  exists workers master order,
    parallel_for_plan pool (number_of_faces m) 1024 = PlanOk workers master /\
    interleaving (map (fun b => flat_map face_actions (elements b)) (workers ++ [master])) order /\
    result = ofold (do_action m vis) order (FS (repeat 0 (Z.to_nat (number_of_faces m))) (repeat 0 (Z.to_nat n)) (fun _ => 0)).

(** preproc.cpp:388-454 *)
Definition check_input_mesh (fuel : nat) (m : hmesh) : option bool :=
  if number_of_vertices m <? 3 then Some false
  else if number_of_faces m <? 1 then Some false
  else do r <- find_connected_components fuel m;
       if negb (n_components r =? 1) then Some false else Some true.
