(** Model of the half-edge mesh [hmesh_t] (include/mcut/internal/hmesh.h, source/hmesh.cpp).

    Simplifications, for the whole file: descriptors (unsigned int) are [Z]; the null descriptor
    (2^32-1) is [-1], i.e. different from every index, as it is in the code for meshes of less
    than 2^32-1 elements; a point is an opaque triple of numbers (the bit patterns of its
    coordinates); [reserve] and timing are dropped.  MCUT_ASSERT is not checked (release
    build).  [None] = undefined behaviour (out-of-range access). *)
From Coq Require Import List ZArith Bool.
From Verif Require Import Vec.
Import ListNotations.
Open Scope Z_scope.

Definition null : Z := -1.
Definition point : Type := Z * Z * Z.

(** hmesh.h:201-214 [halfedge_data_t]: target, face, opposite, next, previous, edge *)
Record hedata := HE { ht : Z; hf : Z; ho : Z; hn : Z; hp : Z; he : Z }.
Definition he_new : hedata := HE null null null null null null.

(** hmesh.h:224-228 [vertex_data_t] *)
Record vdata := VD { vpt : point; vhs : list Z }.

(** hmesh.h:437-450, the member variables; an edge is its primary half-edge (l. 216-218), a
    face the list of its half-edges (l. 220-222). *)
Record hmesh := HM {
  verts : list vdata; edges : list Z; hes : list hedata; faces : list (list Z);
  rf : list Z; re : list Z; rh : list Z; rv : list Z }.

Definition hempty : hmesh := HM [] [] [] [] [] [] [] [].

Definition set_verts m x := HM x (edges m) (hes m) (faces m) (rf m) (re m) (rh m) (rv m).
Definition set_edges m x := HM (verts m) x (hes m) (faces m) (rf m) (re m) (rh m) (rv m).
Definition set_hes m x := HM (verts m) (edges m) x (faces m) (rf m) (re m) (rh m) (rv m).
Definition set_faces m x := HM (verts m) (edges m) (hes m) x (rf m) (re m) (rh m) (rv m).
Definition set_rf m x := HM (verts m) (edges m) (hes m) (faces m) x (re m) (rh m) (rv m).
Definition set_re m x := HM (verts m) (edges m) (hes m) (faces m) (rf m) x (rh m) (rv m).
Definition set_rh m x := HM (verts m) (edges m) (hes m) (faces m) (rf m) (re m) x (rv m).
Definition set_rv m x := HM (verts m) (edges m) (hes m) (faces m) (rf m) (re m) (rh m) x.

Definition with_t d x := HE x (hf d) (ho d) (hn d) (hp d) (he d).
Definition with_f d x := HE (ht d) x (ho d) (hn d) (hp d) (he d).
Definition with_o d x := HE (ht d) (hf d) x (hn d) (hp d) (he d).
Definition with_n d x := HE (ht d) (hf d) (ho d) x (hp d) (he d).
Definition with_p d x := HE (ht d) (hf d) (ho d) (hn d) x (he d).
Definition with_e d x := HE (ht d) (hf d) (ho d) (hn d) (hp d) x.

(** [m_halfedges[h]] read, and updated in place *)
Definition hget (m : hmesh) (h : Z) : option hedata := vget (hes m) h.
Definition hupd (m : hmesh) (h : Z) (g : hedata -> hedata) : option hmesh :=
  do d <- vget (hes m) h;
  do l <- vset (hes m) h (g d);
  Some (set_hes m l).
Definition vupd (m : hmesh) (v : Z) (g : vdata -> vdata) : option hmesh :=
  do d <- vget (verts m) v;
  do l <- vset (verts m) v (g d);
  Some (set_verts m l).

Definition zmem (x : Z) (l : list Z) : bool := existsb (Z.eqb x) l.

(** hmesh.cpp:1153-1171 [is_removed] *)
Definition is_removed (removed : list Z) (d : Z) : bool := zmem d removed.

(** hmesh.cpp:128-146 [number_of_*]: internal size minus the number of removed slots *)
Definition number_of_vertices m := zlen (verts m) - zlen (rv m).
Definition number_of_edges m := zlen (edges m) - zlen (re m).
Definition number_of_halfedges m := zlen (hes m) - zlen (rh m).
Definition number_of_faces m := zlen (faces m) - zlen (rf m).

(** hmesh.cpp:148-163, 165-191, 212-230 (ENABLE_EDGE_DESCRIPTOR_TRICK) *)
Definition source m h := do d <- hget m h; do od <- hget m (ho d); Some (ht od).
Definition target m h := do d <- hget m h; Some (ht d).
Definition opposite (h : Z) : Z := if h mod 2 =? 0 then h + 1 else h - 1.
Definition prev m h := do d <- hget m h; Some (hp d).
Definition next m h := do d <- hget m h; Some (hn d).
Definition edge_of (h : Z) : Z := h / 2.
Definition face m h := do d <- hget m h; Some (hf d).

(** hmesh.cpp:232-255 [vertex(e, i)], 274-298 [halfedge(e, i)] *)
Definition edge_vertex m e i := target m (e * 2 + i).
Definition edge_halfedge (e i : Z) : Z := e * 2 + i.

(** hmesh.cpp:193-210 [set_next], [set_previous] *)
Definition set_next m h nxt :=
  do m1 <- hupd m h (fun d => with_n d nxt);
  hupd m1 nxt (fun d => with_p d h).

(** hmesh.cpp:302-353 [halfedge(s, t, strict_check)] *)
Definition halfedge_st (m : hmesh) (s t : Z) (strict : bool) : option Z :=
  do sv <- vget (verts m) s;
  do tv <- vget (verts m) t;
  let t_edges := map edge_of (vhs tv) in
  match find (fun h => zmem (edge_of h) t_edges) (vhs sv) with
  | None => Some null
  | Some h =>
      do src <- source m h;
      do tgt <- target m h;
      let c := if (src =? s) && (tgt =? t) then h else opposite h in
      do fc <- face m c;
      Some (if strict || negb (fc =? null) then c else null)
  end.

(** hmesh.cpp:369-401 [add_vertex] *)
Definition add_vertex (m : hmesh) (p : point) : option (Z * hmesh) :=
  let setp d := VD p (vhs d) in
  match rv m with
  | v :: r => do m1 <- vupd (set_rv m r) v setp; Some (v, m1)
  | [] =>
      let v := number_of_vertices m in
      do m1 <- vupd (set_verts m (verts m ++ [VD (0, 0, 0) []])) v setp;
      Some (v, m1)
  end.

(** hmesh.cpp:403-518 [add_edge], the allocation of one half-edge slot (l. 409-429, 432-452) *)
Definition alloc_he (m : hmesh) : Z * hmesh :=
  match rh m with
  | h :: r => (h, set_rh m r)
  | [] => (number_of_halfedges m, set_hes m (hes m ++ [he_new]))
  end.
(** l. 460-484, the edge slot *)
Definition alloc_edge (m : hmesh) : Z * hmesh :=
  match re m with
  | e :: r => (e, set_re m r)
  | [] => (number_of_edges m, set_edges m (edges m ++ [null]))
  end.
(** l. 503-515: append unless present *)
Definition add_incident (h : Z) (d : vdata) : vdata :=
  VD (vpt d) (if zmem h (vhs d) then vhs d else vhs d ++ [h]).

Definition add_edge (m : hmesh) (v0 v1 : Z) : option (Z * hmesh) :=
  let '(h0, m1) := alloc_he m in
  let '(h1, m2) := alloc_he m1 in
  let '(e, m3) := alloc_edge m2 in
  do es <- vset (edges m3) e h0;
  let m4 := set_edges m3 es in
  do m5 <- hupd m4 h0 (fun d => with_e (with_o (with_t d v1) h1) e);
  do m6 <- hupd m5 h1 (fun d => with_e (with_o (with_t d v0) h0) e);
  do m7 <- vupd m6 v0 (add_incident h1);
  do m8 <- vupd m7 v1 (add_incident h0);
  Some (h0, m8).

(** hmesh.cpp:702-717 [get_vertices_around_face], 760-765 [get_halfedges_around_face] *)
Definition get_halfedges_around_face m f := vget (faces m) f.
Fixpoint omap {A B} (g : A -> option B) (l : list A) : option (list B) :=
  match l with
  | [] => Some []
  | a :: r => do b <- g a; do bs <- omap g r; Some (b :: bs)
  end.
Definition get_vertices_around_face m f : option (list Z) :=
  do hs <- get_halfedges_around_face m f;
  omap (target m) hs.

(** hmesh.cpp:767-815 [get_faces_around_face] *)
Definition get_faces_around_face m f : option (list Z) :=
  do hs <- get_halfedges_around_face m f;
  do l <- omap (fun h => do d <- hget m h;
                         if ho d =? null then Some null else face m (ho d)) hs;
  Some (filter (fun x => negb (x =? null)) l).

(** hmesh.cpp:732-745 [get_vertices_around_vertex], 848-855 *)
Definition get_vertices_around_vertex m v : option (list Z) :=
  do d <- vget (verts m) v;
  omap (source m) (vhs d).

(** the pairs (l[i], l[(i+1) % n]) *)
Definition cyc_pairs (l : list Z) : list (Z * Z) :=
  match l with
  | [] => []
  | a :: r => combine l (r ++ [a])
  end.

(** hmesh.cpp:547-625, the loop of [add_face] over the edges of the new face [f].  The list
    of half-edges collected so far is kept in [acc] and stored by the caller; the code appends to the
    slot of the face directly when a slot is reused, which nothing reads in between (except
    the diagnostic print when a vertex list uses a half-edge twice; see below). [RejectUB]:
    the print at l. 606-613 reads the vertices of the face that already owns the
    half-edge; if this is the new face itself and its slot does not exist yet, the access is
    out of range. *)
Inductive loop_res := LOk (m : hmesh) (acc : list Z) | LRejected (m : hmesh) (acc : list Z) | LUB.
Fixpoint add_face_loop (m : hmesh) (f : Z) (reuse : bool) (acc : list Z) (ps : list (Z * Z)) : loop_res :=
  match ps with
  | [] => LOk m acc
  | (v0, v1) :: r =>
      match (do h <- halfedge_st m v0 v1 true;
             if negb (h =? null) then Some (h, m) else add_edge m v0 v1) with
      | None => LUB
      | Some (h, m1) =>
          match face m1 h with
          | None => LUB
          | Some fc =>
              if negb (fc =? null) then
                (* l. 600-619 *)
                match (if reuse && (fc =? f) then Some [] else get_vertices_around_face m1 fc) with
                | None => LUB
                | Some _ => LRejected m1 acc
                end
              else
                match hupd m1 h (fun d => with_f d f) with
                | None => LUB
                | Some m2 => add_face_loop m2 f reuse (acc ++ [h]) r
                end
          end
      end
  end.

Definition link_next (m : hmesh) (hs : list Z) : option hmesh :=
  ofold (fun m p => set_next m (fst p) (snd p)) (cyc_pairs hs) m.

Inductive add_res := Added (f : Z) (m : hmesh) | Rejected (m : hmesh) | AddUB.

(** hmesh.cpp:520-648 [add_face] *)
Definition add_face (m : hmesh) (vi : list Z) : add_res :=
  let '(f, reuse, m0) :=
    match rf m with
    | f :: r => (f, true, set_rf m r)
    | [] => (number_of_faces m, false, m)
    end in
  match add_face_loop m0 f reuse [] (cyc_pairs vi) with
  | LUB => AddUB
  | LRejected m1 acc =>
      if reuse then match vset (faces m1) f acc with
                    | Some fs => Rejected (set_faces m1 fs)
                    | None => AddUB
                    end
      else Rejected m1
  | LOk m1 acc =>
      let fs := if reuse then vset (faces m1) f acc else Some (faces m1 ++ [acc]) in
      match (do x <- fs; link_next (set_faces m1 x) acc) with
      | Some m2 => Added f m2
      | None => AddUB
      end
  end.

(** hmesh.cpp:650-683 [is_insertable] *)
Fixpoint insertable_loop (m : hmesh) (ps : list (Z * Z)) : option bool :=
  match ps with
  | [] => Some true
  | (v0, v1) :: r =>
      do h <- halfedge_st m v0 v1 false;
      if negb (h =? null) then
        do fc <- face m h;
        if negb (fc =? null) then Some false else insertable_loop m r
      else insertable_loop m r
  end.
Definition is_insertable (m : hmesh) (vi : list Z) : option bool := insertable_loop m (cyc_pairs vi).

(** hmesh.cpp:939-967: one turn of the loop of [remove_face] *)
Definition detach_np (m : hmesh) (h : Z) : option hmesh :=
  do d <- hget m h;
  do m1 <- (if negb (hn d =? null) then
              do m' <- hupd m (hn d) (fun x => with_p x null);
              hupd m' h (fun x => with_n x null)
            else Some m);
  do d1 <- hget m1 h;
  if negb (hp d1 =? null) then
    do m' <- hupd m1 (hp d1) (fun x => with_n x null);
    hupd m' h (fun x => with_p x null)
  else Some m1.
Definition detach_face (m : hmesh) (h : Z) : option hmesh :=
  do m1 <- hupd m h (fun d => with_f d null);
  detach_np m1 h.

(** hmesh.cpp:926-982 [remove_face] *)
Definition remove_face (m : hmesh) (f : Z) : option hmesh :=
  do hs <- vget (faces m) f;
  do m1 <- ofold detach_face hs m;
  Some (set_rf m1 (rf m1 ++ [f])).

Fixpoint remove_first (x : Z) (l : list Z) : list Z :=
  match l with
  | [] => []
  | y :: r => if y =? x then r else y :: remove_first x r
  end.

(** hmesh.cpp:985-1033 [remove_halfedge]; the order next, opposite, previous of the code is
    kept.  [erase(end())] (l. 1030 with a missing element) is undefined behaviour. *)
Definition remove_halfedge (m : hmesh) (h : Z) : option hmesh :=
  do d <- hget m h;
  do m1 <- (if negb (hn d =? null) then
              do m' <- hupd m (hn d) (fun x => with_p x null);
              hupd m' h (fun x => with_n x null)
            else Some m);
  do d1 <- hget m1 h;
  do m2 <- (if negb (ho d1 =? null) then
              do m' <- hupd m1 (ho d1) (fun x => with_o x null);
              hupd m' h (fun x => with_o x null)
            else Some m1);
  do d2 <- hget m2 h;
  do m3 <- (if negb (hp d2 =? null) then
              do m' <- hupd m2 (hp d2) (fun x => with_n x null);
              hupd m' h (fun x => with_p x null)
            else Some m2);
  do d3 <- hget m3 h;
  do vd <- vget (verts m3) (ht d3);
  if zmem h (vhs vd) then
    do m4 <- vupd m3 (ht d3) (fun x => VD (vpt x) (remove_first h (vhs x)));
    Some (set_rh m4 (rh m4 ++ [h]))
  else None.

(** hmesh.cpp:1036-1060 [remove_edge] with [remove_halfedges] = true (its default and only
    use) *)
Definition remove_edge (m : hmesh) (e : Z) : option hmesh :=
  do h <- vget (edges m) e;
  let step m x := do m1 <- hupd m x (fun d => with_e d null); remove_halfedge m1 x in
  do m1 <- step m h;
  do m2 <- step m1 (opposite h);
  do es <- vset (edges m2) e null;
  let m3 := set_edges m2 es in
  Some (set_re m3 (re m3 ++ [e])).

(** hmesh.cpp:1062-1071 [remove_vertex] *)
Definition remove_vertex (m : hmesh) (v : Z) : option hmesh :=
  Some (set_rv m (rv m ++ [v])).

(** hmesh.cpp:857-923 [*_begin()] (with removed elements skipped) on an array of [len] slots;
    iterators are raw positions, [len] is the end iterator.  [fuel] bounds the loop by the
    number of slots. *)
Fixpoint skip_removed (fuel : nat) (len : Z) (removed : list Z) (i : Z) : Z :=
  match fuel with
  | O => i
  | S k => if (i <? len) && is_removed removed i then skip_removed k len removed (i + 1) else i
  end.
Definition it_begin (len : Z) (removed : list Z) : Z :=
  skip_removed (Z.to_nat len) len removed 0.
(** hmesh.h:489-513 [operator++]: step, then skip *)
Definition it_next (len : Z) (removed : list Z) (i : Z) : Z :=
  skip_removed (Z.to_nat len) len removed (i + 1).
(** hmesh.h:517-535 [operator+=] (used by std::advance): raw shift, then skip *)
Definition it_advance (len : Z) (removed : list Z) (i n : Z) : Z :=
  skip_removed (Z.to_nat len) len removed (i + n).

(** for (it = begin; it != end; ++it) visit *it *)
Fixpoint it_loop (fuel : nat) (len : Z) (removed : list Z) (i last : Z) : option (list Z) :=
  match fuel with
  | O => if i =? last then Some [] else None
  | S k => if i =? last then Some []
           else do r <- it_loop k len removed (it_next len removed i) last; Some (i :: r)
  end.
Definition iterate (len : Z) (removed : list Z) : option (list Z) :=
  it_loop (Z.to_nat len) len removed (it_begin len removed) len.
