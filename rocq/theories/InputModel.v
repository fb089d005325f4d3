(** Model of [client_input_arrays_to_hmesh] (source/preproc.cpp:56-353): conversion of the
    user's arrays to a half-edge mesh, in the single-threaded build (l. 295-348) and in the
    build with the helper thread pool (l. 135-293).

    Simplifications: a vertex is one opaque point (the three additions of the perturbation
    and the float-to-double conversions of l. 78-114 are done by the caller of the model,
    who passes the resulting points); the bounding box (l. 118-129) and debug messages are left out. *)
From Coq Require Import List ZArith Bool.
From Verif Require Import Vec ParModel ParSumModel HmeshModel.
Import ListNotations.
Open Scope Z_scope.

(** conversion of a uint32_t value to int *)
Definition int32 (x : Z) : Z := let y := wrap32 x in if y <? 2 ^ 31 then y else y - 2 ^ 32.

(** preproc.cpp:78-114, the loops calling [add_vertex] *)
Definition add_vertices (coords : list point) : option hmesh :=
  ofold (fun m p => do r <- add_vertex m p; Some (snd r)) coords hempty.

(** preproc.cpp:137-144, 165, 300: size of face [i]; 3 when no array of sizes was given
    ([None]: access outside the array of sizes). *)
Definition face_size (sizes : option (list Z)) (i : Z) : option Z :=
  match sizes with None => Some 3 | Some l => vget l i end.

Inductive face_check := FcOk (l : list Z) | FcBad (l : list Z) | FcUB.

(** preproc.cpp:185-224 and 309-335: reads the vertex indices of a face.  [acc]: indices stored so far;
    the multi-threaded code searches for duplicates in a vector that has already been resized
    ([padded], l. 182), the single-threaded one in the indices stored so far.  [FcUB]: access
    outside the index array. *)
Fixpoint read_face (padded : bool) (idx : list Z) (nv off : Z) (count : nat) (acc : list Z) : face_check :=
  match count with
  | O => FcOk acc
  | S k =>
      let pad := if padded then repeat null (S k) else [] in
      match vget idx off with
      | None => FcUB
      | Some x =>
          if nv <=? x then FcBad (acc ++ pad)
          else if zmem x (acc ++ pad) then FcBad (acc ++ pad)
          else read_face padded idx nv (off + 1) k (acc ++ [x])
      end
  end.

Inductive conv_res := CAccept (m : hmesh) | CRefuse | CUB.

(** preproc.cpp:298-348: single-threaded loop over the faces; [n] faces remain, the next one is [i], its
    indices start at [off] *)
Fixpoint seq_loop (sizes : option (list Z)) (idx : list Z) (nv : Z) (n : nat) (i off : Z) (m : hmesh) : conv_res :=
  match n with
  | O => CAccept m
  | S k =>
      match face_size sizes i with
      | None => CUB
      | Some sz =>
          let c := int32 sz in
          if c <? 3 then CRefuse else
          match read_face false idx nv off (Z.to_nat c) [] with
          | FcUB => CUB
          | FcBad _ => CRefuse
          | FcOk l =>
              match add_face m l with
              | AddUB => CUB
              | Rejected _ => CRefuse
              | Added _ m' => seq_loop sizes idx nv k (i + 1) (off + c) m'
              end
          end
      end
  end.

Definition seq_convert (coords : list point) (sizes : option (list Z)) (idx : list Z) (nf : Z) : conv_res :=
  match add_vertices coords with
  | None => CUB
  | Some m => seq_loop sizes idx (zlen coords) (Z.to_nat nf) 0 0 m
  end.

(** ** with the thread pool

    The caller and the workers first compute the partial sums of the face sizes
    ([ParSumModel]; preproc.cpp:137-149).  The caller goes on as soon as its own part of the sums is ready (property C11),
    and submits the tasks that read and check the faces (l. 232-238, same block limits because
    the length and the grain are the same).  Worker [i] executes its tasks in order of submission, so
    it finishes its part of the sums first.  When the caller has checked its own block, it
    waits for the workers in turn and inserts their faces (l. 262-292). *)
Inductive checker := Check (k : Z) | Checked.
Inductive collector := Gather (j : Z) (okay : bool) (m : hmesh) | Returned (r : option hmesh).
Record cstate := CS {
  c_sum : sstate;
  c_slots : list (list Z);     (* preproc.cpp:157 [faces] *)
  c_err : bool;                (* l. 154 [atm_result] is not 0 *)
  c_pc : Z -> checker;
  c_col : collector }.

Record arrays := Arr { a_nv : Z; a_sizes : option (list Z); a_idx : list Z; a_nf : Z }.

Inductive cnext := Blocked | Crash | Next (s : cstate).

Definition set_sum s x := CS x (c_slots s) (c_err s) (c_pc s) (c_col s).
Definition set_col s x := CS (c_sum s) (c_slots s) (c_err s) (c_pc s) x.
Definition set_check s slots err i p := CS (c_sum s) slots err (zupd (c_pc s) i p) (c_col s).

(** preproc.cpp:162-225: one iteration of the block loop of thread [i], face [k].  A bad size
    ends the loop (l. 179), a bad index only ends the inner loop (l. 201, 220). *)
Definition check_face (a : arrays) (s : cstate) (i k : Z) : cnext :=
  match face_size (a_sizes a) k with
  | None => Crash
  | Some sz =>
      let c := int32 sz in
      if c <? 3 then Next (set_check s (c_slots s) true i Checked) else
      match vget (smem (c_sum s)) k with
      | None => Crash
      | Some ps =>
          match read_face true (a_idx a) (a_nv a) (int32 (ps - c)) (Z.to_nat c) [] with
          | FcUB => Crash
          | FcOk l => match vset (c_slots s) k l with
                      | Some fs => Next (set_check s fs (c_err s) i (Check (k + 1)))
                      | None => Crash end
          | FcBad l => match vset (c_slots s) k l with
                       | Some fs => Next (set_check s fs true i (Check (k + 1)))
                       | None => Crash end
          end
      end
  end.

(** preproc.cpp:240-260 [add_faces]: inserts the faces of positions [k .. k + n - 1] *)
Inductive add_all := AaOk (m : hmesh) | AaFail (m : hmesh) | AaUB.
Fixpoint add_faces (slots : list (list Z)) (n : nat) (k : Z) (m : hmesh) : add_all :=
  match n with
  | O => AaOk m
  | S n' =>
      match vget slots k with
      | None => AaUB
      | Some l =>
          match add_face m l with
          | AddUB => AaUB
          | Rejected m' => AaFail m'
          | Added _ m' => add_faces slots n' (k + 1) m'
          end
      end
  end.
Definition block_count (c : cfg) (i : Z) : nat := Z.to_nat (blk_last c i + 1 - blk_first c i).

(** preproc.cpp:262-292: the caller, after its own block *)
Definition collect (c : cfg) (s : cstate) : cnext :=
  match c_col s with
  | Returned _ => Blocked
  | Gather j okay m =>
      if j <? c_n c - 1 then
        match c_pc s j with
        | Check _ => Blocked                                  (* l. 266: f.get() *)
        | Checked =>
            let okay1 := okay && negb (c_err s) in            (* l. 268-269 *)
            if negb okay1 then Next (set_col s (Gather (j + 1) false m)) else
            match add_faces (c_slots s) (block_count c j) (blk_first c j) m with
            | AaUB => Crash
            | AaOk m' => Next (set_col s (Gather (j + 1) true m'))
            | AaFail m' => Next (set_col s (Gather (j + 1) false m'))
            end
        end
      else if negb okay || c_err s then Next (set_col s (Returned None))       (* l. 278-279 *)
      else match add_faces (c_slots s) (block_count c j) (blk_first c j) m with
           | AaUB => Crash
           | AaOk m' => Next (set_col s (Returned (Some m')))
           | AaFail _ => Next (set_col s (Returned None))
           end
  end.

(** A step of thread [i]; the threads are 0 .. n-1, the caller is n-1. *)
Definition cstep (c : cfg) (a : arrays) (s : cstate) (i : Z) : cnext :=
  match spc (c_sum s) i with
  | Fin =>
      match spc (c_sum s) (c_n c - 1) with
      | Fin =>
          match c_pc s i with
          | Check k => if k <=? blk_last c i then check_face a s i k
                       else Next (set_check s (c_slots s) (c_err s) i Checked)
          | Checked => if i =? c_n c - 1 then collect c s else Blocked
          end
      | _ => Blocked                                        (* not submitted yet *)
      end
  | WaitPrev => match prom (c_sum s) (i - 1) with
                | None => Blocked
                | Some _ => match sstep c (c_sum s) i with Some x => Next (set_sum s x) | None => Crash end
                end
  | _ => match sstep c (c_sum s) i with Some x => Next (set_sum s x) | None => Crash end
  end.

(** Initial state: [m] is the mesh with the vertices, [v] the sizes of the faces. *)
Definition cinit (c : cfg) (nf : Z) (v : list Z) (m : hmesh) : cstate :=
  CS (sinit v) (repeat [] (Z.to_nat nf)) false (fun i => Check (blk_first c i)) (Gather 0 true m).

Inductive creach (c : cfg) (a : arrays) (s0 : cstate) : cstate -> Prop :=
| cr_init : creach c a s0 s0
| cr_step s i s' : creach c a s0 s -> 0 <= i < c_n c -> cstep c a s i = Next s' -> creach c a s0 s'.

(** A run along a given schedule. *)
Fixpoint crun (c : cfg) (a : arrays) (sched : list Z) (s : cstate) : option cstate :=
  match sched with
  | [] => Some s
  | i :: r => match cstep c a s i with Next s' => crun c a r s' | _ => None end
  end.

(** The start of the multi-threaded conversion with [pool] workers; [None]: undefined behaviour
    or exception before the threads start. *)
Definition par_start (pool : Z) (coords : list point) (sizes : option (list Z)) (idx : list Z) (nf : Z)
  : option (cfg * arrays * cstate) :=
  do m <- add_vertices coords;
  do v <- omap (face_size sizes) (zrange nf);
  do c <- sum_cfg pool nf;
  match parallel_for_plan pool nf 1024 with
  | PlanOk _ _ => Some (c, Arr (zlen coords) sizes idx nf, cinit c nf v m)
  | _ => None
  end.
