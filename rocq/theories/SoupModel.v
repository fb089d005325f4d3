(** Model of the first steps of the kernel (source/kernel.cpp:1579-1777): the two input meshes are put
    into one mesh ("polygon soup", [ps]), with tables from its elements to those of the
    inputs; then its vertices are copied into the auxiliary mesh [m0].

    Simplifications: [reserve_for_additional_elements], dumps and timers are left out; indices
    do not overflow 32 bits.  A table entry that was not written is [null] (the default value of a descriptor,
    hmesh.h:83-180). *)
From Coq Require Import List ZArith Bool.
From Verif Require Import Vec HmeshModel ParModel HmeshParModel.
Import ListNotations.
Open Scope Z_scope.

(** std::vector<vd_t> t(n) *)
Definition table (n : Z) : list Z := repeat null (Z.to_nat n).

(** The elements visited by each thread of a [parallel_for] over the mesh iterators, in the order of the
    futures, the caller's block last (tpool.h:421-533); one block without the thread pool ([None]). *)
Definition loop_blocks (pool : option Z) (len : Z) (removed : list Z) : option (list (list Z)) :=
  match pool with
  | None => do l <- iterate len removed; Some [l]
  | Some t => match mesh_parallel_for_plan raw_distance t len removed 1024 with
              | PlanOk workers master => omap (mesh_block_elements len removed) (workers ++ [master])
              | _ => None
              end
  end.

(** kernel.cpp:1607-1611, 1633-1637 and 1620-1622, 1646-1648: [fn_iota] on the elements, in the order in which the
    threads get to them *)
Definition fill_same (order : list Z) (t : list Z) : option (list Z) :=
  ofold (fun t x => vset t x x) order t.

(** hmesh.cpp:719-731 [get_vertices_around_face] with an offset *)
Definition get_vertices_around_face_offset (m : hmesh) (f off : Z) : option (list Z) :=
  do hs <- get_halfedges_around_face m f;
  omap (fun h => do t <- target m h; Some (off + t)) hs.

(** kernel.cpp:1656-1664: one cut-mesh vertex *)
Definition merge_vertex (cs : hmesh) (st : hmesh * list Z) (i : Z) : option (hmesh * list Z) :=
  do d <- vget (verts cs) i;
  do r <- add_vertex (fst st) (vpt d);
  do t <- vset (snd st) (fst r) i;
  Some (snd r, t).

(** kernel.cpp:1672-1685: the task of one thread *)
Definition remap_block (cs : hmesh) (off : Z) (l : list Z) : option (list (Z * list Z)) :=
  omap (fun i => do vs <- get_vertices_around_face_offset cs i off; Some (i, vs)) l.

(** kernel.cpp:1699-1708 (one iteration of [add_faces]), 1722-1729.  If the face is refused the assertion of l.
    1704 fails; without assertions the table is written at the index [null_face()], which does not exist. *)
Definition merge_face (st : hmesh * list Z) (p : Z * list Z) : option (hmesh * list Z) :=
  match add_face (fst st) (snd p) with
  | Added f m => do t <- vset (snd st) f (fst p); Some (m, t)
  | Rejected _ => None
  | AddUB => None
  end.

(** kernel.cpp:1764-1773: one vertex of [ps] is copied to [m0] *)
Definition copy_vertex (ps : hmesh) (st : hmesh * list Z * list Z) (i : Z) : option (hmesh * list Z * list Z) :=
  let '(m0, m0ps, psm0) := st in
  do d <- vget (verts ps) i;
  do r <- add_vertex m0 (vpt d);
  do t <- vset psm0 i (fst r);
  Some (snd r, m0ps ++ [i], t).

Record soup := Soup {
  s_ps : hmesh;
  s_to_sm_vtx : list Z; s_to_sm_face : list Z; s_to_cm_vtx : list Z; s_to_cm_face : list Z;
  s_m0 : hmesh; s_m0_to_ps : list Z; s_ps_to_m0 : list Z }.

(** kernel.cpp:1579-1777.  [vorder], [forder]: the order in which the threads happen to fill the two identity
    tables. *)
Definition make_soup (pool : option Z) (vorder forder : list Z) (sm cs : hmesh) : option soup :=
  let nv := number_of_vertices sm in
  let nf := number_of_faces sm in
  do t_sv <- fill_same vorder (table (nv + number_of_vertices cs));
  do t_sf <- fill_same forder (table (nf + number_of_faces cs));
  do cvs <- iterate (zlen (verts cs)) (rv cs);
  do mv <- ofold (merge_vertex cs) cvs (sm, table (nv + number_of_vertices cs));
  do blocks <- loop_blocks pool (zlen (faces cs)) (rf cs);
  do remapped <- omap (remap_block cs nv) blocks;
  do mf <- ofold merge_face (concat remapped) (fst mv, table (nf + number_of_faces cs));
  let ps := fst mf in
  do pvs <- iterate (zlen (verts ps)) (rv ps);
  do m0 <- ofold (copy_vertex ps) pvs (hempty, [], table (nv + number_of_vertices cs));
  Some (Soup ps t_sv t_sf (snd mv) (snd mf) (fst (fst m0)) (snd (fst m0)) (snd m0)).

(** Runs: the threads fill the tables in any interleaving of their blocks (kernel.cpp:1603-1650). *)
Definition soup_run (pool : option Z) (sm cs : hmesh) (r : option soup) : Prop :=
  match loop_blocks pool (zlen (verts sm)) (rv sm), loop_blocks pool (zlen (faces sm)) (rf sm) with
  | Some vb, Some fb => exists vorder forder, interleaving vb vorder /\ interleaving fb forder /\ r = make_soup pool vorder forder sm cs
  | _, _ => r = None
  end.
