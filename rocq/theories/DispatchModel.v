(** Model of the driver of a dispatch ([preproc], source/preproc.cpp:1730-2811): filter flags,
    the loop that perturbs the cut mesh, partitions polygons and invokes the kernel, and the
    creation of connected components; and of the places in the kernel ([dispatch],
    source/kernel.cpp) where filter flags and the number of perturbations are looked at.

    Simplifications: a mesh is the list of its faces, a face the list of the coordinates of its
    vertices (doubles as in [BvhModel]); that the half-edge mesh holds exactly these faces is
    property C17.  The geometric work of the kernel, polygon partitioning, the random numbers,
    the size of the cut mesh and the broad phase are parameters (record [env]).  Debug messages,
    timers, watertightness and the bookkeeping maps of partitioning are left out. *)
From Coq Require Import List ZArith Bool.
From Verif Require Import Vec BvhModel InputModel.
Import ListNotations.
Open Scope Z_scope.

(** ** Flags: include/mcut/mcut.h:386-440 *)
Definition FRAGMENT_LOCATION_ABOVE := 2 ^ 5.
Definition FRAGMENT_LOCATION_BELOW := 2 ^ 6.
Definition FRAGMENT_LOCATION_UNDEFINED := 2 ^ 7.
Definition FRAGMENT_SEALING_INSIDE := 2 ^ 8.
Definition FRAGMENT_SEALING_OUTSIDE := 2 ^ 9.
Definition FRAGMENT_SEALING_NONE := 2 ^ 10.
Definition PATCH_INSIDE := 2 ^ 11.
Definition PATCH_OUTSIDE := 2 ^ 12.
Definition SEAM_SRCMESH := 2 ^ 13.
Definition SEAM_CUTMESH := 2 ^ 14.
Definition ENFORCE_GENERAL_POSITION := 2 ^ 15.
Definition ENFORCE_GENERAL_POSITION_ABSOLUTE := 2 ^ 16.

(** [static_cast<bool>(flags & f)] *)
Definition has_flag (flags f : Z) : bool := negb (Z.land flags f =? 0).

(** preproc.cpp:1777-1787 *)
Definition filter_bits : Z :=
  Z.lor FRAGMENT_LOCATION_ABOVE (Z.lor FRAGMENT_LOCATION_BELOW (Z.lor FRAGMENT_LOCATION_UNDEFINED
 (Z.lor FRAGMENT_SEALING_INSIDE (Z.lor FRAGMENT_SEALING_OUTSIDE (Z.lor FRAGMENT_SEALING_NONE
 (Z.lor PATCH_INSIDE (Z.lor PATCH_OUTSIDE (Z.lor SEAM_SRCMESH SEAM_CUTMESH)))))))).

(** include/mcut/internal/kernel.h:151-164 *)
Record keep := Keep {
  k_below : bool; k_above : bool; k_partial : bool;
  k_unsealed : bool; k_sealed_out : bool; k_sealed_in : bool;
  k_patch_in : bool; k_patch_out : bool; k_seam_src : bool; k_seam_cut : bool }.

(** preproc.cpp:1789-1815 *)
Definition keep_of_flags (flags : Z) : keep :=
  if has_flag flags filter_bits then
    Keep (has_flag flags FRAGMENT_LOCATION_BELOW) (has_flag flags FRAGMENT_LOCATION_ABOVE)
         (has_flag flags FRAGMENT_LOCATION_UNDEFINED)
         (has_flag flags FRAGMENT_SEALING_NONE) (has_flag flags FRAGMENT_SEALING_OUTSIDE)
         (has_flag flags FRAGMENT_SEALING_INSIDE)
         (has_flag flags PATCH_INSIDE) (has_flag flags PATCH_OUTSIDE)
         (has_flag flags SEAM_SRCMESH) (has_flag flags SEAM_CUTMESH)
  else Keep true true true true true true true true true true.

(** preproc.cpp:1817 *)
Definition enforce (flags : Z) : bool :=
  has_flag flags ENFORCE_GENERAL_POSITION || has_flag flags ENFORCE_GENERAL_POSITION_ABSOLUTE.

(** ** What the kernel outputs *)
Inductive floc := Above | Below | Undef.            (* kernel.h:100-104 *)
Inductive ploc := Inside | Outside.                 (* kernel.h:90-94; patches are never UNDEFINED (kernel.cpp:8578-8652) *)

(** What a complete run of the cutting pipeline finds: the fragments of the source mesh, the
    patches of each colour (false: 'A', true: 'B'), the location of each colour, the fragments
    obtained by stitching the patches of a colour, and the conditions of kernel.cpp:6258, 6311
    and 7747.  Components are identified by numbers. *)
Record facts := Facts {
  f_fragments : list (Z * floc);
  f_patches : bool -> list Z;
  f_colour : bool -> ploc;
  f_stitched : bool -> list (Z * floc);
  f_src_seam : bool; f_cut_seam : bool; f_fill : bool }.

(** kernel.h:206-214, in the order in which preproc.cpp:2261-2575 goes through the maps *)
Record kout := Kout {
  o_sealed : list (Z * floc * ploc);
  o_unsealed : list (Z * floc);
  o_patch_in : list Z; o_patch_out : list Z;
  o_seam_src : bool; o_seam_cut : bool }.
Definition no_out := Kout [] [] [] [] false false.

Definition floc_eqb (a b : floc) : bool :=
  match a, b with Above, Above | Below, Below | Undef, Undef => true | _, _ => false end.
Definition ploc_eqb (a b : ploc) : bool :=
  match a, b with Inside, Inside | Outside, Outside => true | _, _ => false end.

(** kernel.cpp:743-745: fragments whose location is wanted *)
Definition keep_loc (k : keep) (l : floc) : bool :=
  (k_above k && floc_eqb l Above) || (k_below k && floc_eqb l Below) || (k_partial k && floc_eqb l Undef).

(** The entries of a [std::map] keyed by location: the keys in the order of the enumeration
    (kernel.h:100-104), equal keys in order of insertion (kernel.cpp:7730, 10674). *)
Definition by_loc {A} (loc : A -> floc) (l : list A) : list A :=
  flat_map (fun x => filter (fun a => floc_eqb (loc a) x) l) [Above; Below; Undef].
Definition by_ploc {A} (loc : A -> ploc) (l : list A) : list A :=
  flat_map (fun x => filter (fun a => ploc_eqb (loc a) x) l) [Inside; Outside].

(** kernel.cpp:7676-7734 *)
Definition unsealed_stage (k : keep) (f : facts) : list (Z * floc) :=
  if k_unsealed k || k_partial k then by_loc snd (filter (fun a => keep_loc k (snd a)) (f_fragments f)) else [].

(** kernel.cpp:8942-9257: the patches of the colours that have location [p] *)
Definition patch_stage (k : keep) (f : facts) (p : ploc) : list Z :=
  flat_map (fun c =>
    match f_colour f c with
    | Inside => if negb (k_patch_in k) then [] else if ploc_eqb p Inside then f_patches f c else []
    | Outside => if negb (k_patch_out k) then [] else if ploc_eqb p Outside then f_patches f c else []
    end) [false; true].

(** kernel.cpp:9474-9511, 10565-10676: the stitched fragments *)
Definition sealed_stage (k : keep) (f : facts) : list (Z * floc * ploc) :=
  let colours := filter (fun c => match f_colour f c with
                                  | Inside => k_sealed_in k | Outside => k_sealed_out k end) [false; true] in
  let extracted := if k_sealed_in k || k_sealed_out k then
                     flat_map (fun c => map (fun a => (a, f_colour f c))
                                            (filter (fun a => keep_loc k (snd a)) (f_stitched f c))) colours
                   else [] in
  flat_map (fun x => by_ploc snd (filter (fun a => floc_eqb (snd (fst a)) x) extracted)) [Above; Below; Undef].

(** kernel.cpp:6250-10685, a run that gets through *)
Definition kernel_stages (k : keep) (f : facts) : kout :=
  let ss := k_seam_src k && f_src_seam f in                            (* l. 6252-6303 *)
  let sc := k_seam_cut k && f_cut_seam f in                            (* l. 6306-6354 *)
  if negb (k_below k || k_above k || k_partial k || k_unsealed k || k_sealed_in k || k_sealed_out k
           || k_patch_in k || k_patch_out k)
  then Kout [] [] [] [] ss sc else                                     (* l. 6356-6367 *)
  let un := unsealed_stage k f in
  if negb (f_fill f) then Kout [] un [] [] ss sc else                  (* l. 7755-7758 *)
  if negb (k_below k || k_above k || k_sealed_in k || k_sealed_out k || k_patch_in k || k_patch_out k)
  then Kout [] un [] [] ss sc else                                     (* l. 7760-7769 *)
  let pin := patch_stage k f Inside in
  let pout := patch_stage k f Outside in
  if negb (k_below k || k_above k || k_partial k || k_sealed_in k || k_sealed_out k)
  then Kout [] un pin pout ss sc else                                  (* l. 9261-9270 *)
  Kout (sealed_stage k f) un pin pout ss sc.

(** ** Connected components *)
Inductive comp :=
| Sealed (id : Z) (l : floc) (p : ploc) | Unsealed (id : Z) (l : floc) | Patch (id : Z) (p : ploc)
| SeamSrc | SeamCut | InputCut | InputSrc.

(** preproc.cpp:2256-2776, in order of creation *)
Definition created (o : kout) : list comp :=
  map (fun a => Sealed (fst (fst a)) (snd (fst a)) (snd a)) (o_sealed o) ++
  map (fun a => Unsealed (fst a) (snd a)) (o_unsealed o) ++
  map (fun i => Patch i Inside) (o_patch_in o) ++
  map (fun i => Patch i Outside) (o_patch_out o) ++
  (if o_seam_src o then [SeamSrc] else []) ++
  (if o_seam_cut o then [SeamCut] else []) ++ [InputCut; InputSrc].

(** The component list of the context after [push_front] of each of them (preproc.cpp:2304 etc.): newest first. *)
Definition delivered (flags : Z) (f : facts) : list comp := rev (created (kernel_stages (keep_of_flags flags) f)).

(** preproc.cpp:2781-2793: is the intersection type "standard" *)
Definition is_standard (cs : list comp) : bool := 2 <? zlen cs.

(** ** The loop *)
Definition surface := list (list vec3).
Inductive kstatus := Success | Violation | Floating | OtherError.  (* kernel.h:51-89 *)

(** What the kernel is called with (kernel.h:119-190) *)
Record kin := Kin {
  i_src : surface; i_cut : surface;
  i_pairs : pimap; i_sboxes : list box; i_cboxes : list box;
  i_gpcount : Z }.

Inductive outcome :=
| NoIntersection                       (* kernel.cpp:3173: no intersection point was found *)
| Found (f : facts)                    (* the run gets through *)
| GPViolation                          (* kernel.cpp:2519, 2552, 2956, 2998, 3016, 3355 *)
| FloatingPolygon                      (* kernel.cpp:4135 *)
| Failed                               (* kernel.cpp:2286, 2326, 3282 *)
| Exception.

Record env := Env {
  e_flags : Z;
  e_attempts : Z;                      (* context: general position enforcement attempts (uint32_t) *)
  e_src : surface; e_cut : surface;    (* the user's meshes *)
  e_cut_valid : bool;                  (* preproc.cpp:1985: the cut-mesh arrays are accepted *)
  e_const : surface -> Z;              (* preproc.cpp:1989-1994: perturbation constant for a cut mesh *)
  e_draw : Z -> Z -> vec3;             (* preproc.cpp:1966-1968: k-th draw, perturbation constant *)
  e_check : surface -> bool;           (* preproc.cpp:388-454 *)
  e_pairs : list box -> list box -> pimap;      (* preproc.cpp:2131 *)
  e_kernel : Z -> kin -> outcome;               (* kernel run number k *)
  e_split_src : Z -> surface -> surface -> option surface;   (* preproc.cpp:2024-2034: [Some]: modified *)
  e_split_cut : Z -> surface -> surface -> option surface }.

(** Trace of observable events *)
Inductive event :=
| ELoad (p : option vec3)              (* the cut mesh is read from the user's arrays, with a perturbation *)
| ESplit (src_modified cut_modified : bool)
| EKernel (k : kin) (s : kstatus).

Record dstate := DS {
  d_src : surface; d_cut : surface;
  d_sboxes : list box; d_cboxes : list box;
  d_rebuilt : bool; d_pairs : pimap;
  d_status : kstatus; d_count : Z; d_run : Z; d_pert : vec3; d_const : Z; d_gpcount : Z;
  d_facts : option facts; d_trace : list event }.

Inductive failure := InvalidMesh | MaxPerturbations | KernelException | Incomplete.
Inductive result :=
| Completed (p : vec3) (cs : list comp)       (* normal end; the perturbation vector stored in the components *)
| NoOverlap                                   (* preproc.cpp:2180 *)
| Error (f : failure).

(** preproc.cpp:87-91, 107-111 *)
Definition perturbed (p : vec3) (s : surface) : surface :=
  map (map (fun q => V3 (fadd (vx q) (vx p)) (fadd (vy q) (vy p)) (fadd (vz q) (vz p)))) s.
Definition load (e : env) (p : option vec3) : surface :=
  match p with None => e_cut e | Some v => perturbed v (e_cut e) end.

(** [std::map::empty]: no face has a candidate *)
Definition no_pairs (m : pimap) (n : Z) : bool := forallb (fun k => match m k with [] => true | _ => false end) (zrange n).

(** kernel.cpp:3173-3191 and the other exits: status of a run *)
Definition run_status (e : env) (gpcount : Z) (o : outcome) : kstatus :=
  match o with
  | NoIntersection => if enforce (e_flags e) && (0 <? gpcount) then Violation else Success
  | Found _ => Success
  | GPViolation => Violation
  | FloatingPolygon => Floating
  | Failed | Exception => OtherError
  end.
Definition found (o : outcome) : option facts := match o with Found f => Some f | _ => None end.

(** preproc.cpp:1824-1905 *)
Definition start (e : env) : dstate :=
  DS (e_src e) [] (face_boxes 0 [] (e_src e)) [] true (fun _ => []) Success 0 (-1) (V3 0 0 0) 0 0 None [].

Inductive next := Loop (s : dstate) | Leave (s : dstate) | Stop (r : result) (s : dstate).

(** preproc.cpp:1943-1971: [None] when the attempts are exhausted *)
Definition perturb_step (e : env) (violated : bool) (s : dstate) : option dstate :=
  if negb violated then Some s else
  if d_count s =? int32 (e_attempts e) then None else
  Some (DS (d_src s) (d_cut s) (d_sboxes s) (d_cboxes s) (d_rebuilt s) (d_pairs s) (d_status s)
           (d_count s + 1) (d_run s) (e_draw e (d_count s) (d_const s)) (d_const s) (d_count s)
           (d_facts s) (d_trace s)).

(** preproc.cpp:1973-2012: [None] when the arrays are refused *)
Definition load_step (e : env) (violated floating : bool) (s : dstate) : option dstate :=
  if ((d_count s =? 0) || violated) && negb floating then
    let p := if d_count s =? 0 then None else Some (d_pert s) in
    if negb (e_cut_valid e) then None else
    let cut := load e p in
    let c := e_const e cut in
    Some (DS (d_src s) cut (d_sboxes s)
             (if d_count s =? 0 then face_boxes c (d_cboxes s) cut else d_cboxes s)
             (if d_count s =? 0 then true else d_rebuilt s)
             (d_pairs s) (d_status s) (d_count s) (d_run s) (d_pert s) c (d_gpcount s)
             (d_facts s) (d_trace s ++ [ELoad p]))
  else Some s.

(** preproc.cpp:2015-2079 *)
Definition split_step (e : env) (floating : bool) (s : dstate) : dstate :=
  if negb floating then s else
  let so := e_split_src e (d_run s) (d_src s) (d_cut s) in
  let co := e_split_cut e (d_run s) (d_src s) (d_cut s) in
  let src := match so with Some x => x | None => d_src s end in
  let cut := match co with Some x => x | None => d_cut s end in
  let sm := match so with Some _ => true | None => false end in
  let cm := match co with Some _ => true | None => false end in
  DS src cut
     (if sm then face_boxes 0 (d_sboxes s) src else d_sboxes s)
     (if cm then face_boxes (d_const s) (d_cboxes s) cut else d_cboxes s)
     (sm || cm) (d_pairs s) (d_status s) (d_count s) (d_run s) (d_pert s) (d_const s) (d_gpcount s)
     (d_facts s) (d_trace s ++ [ESplit sm cm]).

(** preproc.cpp:2201-2211: does the loop go on *)
Definition go_on (e : env) (s : kstatus) : bool :=
  match s with Violation => enforce (e_flags e) | Floating => true | _ => false end.

(** preproc.cpp:2123-2211 *)
Definition kernel_step (e : env) (violated : bool) (s : dstate) : next :=
  let pairs := if d_rebuilt s then e_pairs e (d_sboxes s) (d_cboxes s) else d_pairs s in
  let s1 := DS (d_src s) (d_cut s) (d_sboxes s) (d_cboxes s) false pairs (d_status s) (d_count s) (d_run s)
               (d_pert s) (d_const s) (d_gpcount s) (d_facts s) (d_trace s) in
  if d_rebuilt s && no_pairs pairs (zlen (d_sboxes s) + zlen (d_cboxes s)) then
    if violated && (0 <? d_count s) then                                    (* l. 2153-2161 *)
      let s2 := DS (d_src s1) (d_cut s1) (d_sboxes s1) (d_cboxes s1) false pairs Violation (d_count s1) (d_run s1)
                   (d_pert s1) (d_const s1) (d_gpcount s1) (d_facts s1) (d_trace s1) in
      if go_on e Violation then Loop s2 else Leave s2
    else Stop NoOverlap s1
  else
    let k := Kin (d_src s) (d_cut s) pairs (d_sboxes s) (d_cboxes s) (d_gpcount s) in
    let o := e_kernel e (d_run s) k in
    let st := run_status e (d_gpcount s) o in
    let s2 := DS (d_src s1) (d_cut s1) (d_sboxes s1) (d_cboxes s1) false pairs st (d_count s1) (d_run s1)
                 (d_pert s1) (d_const s1) (d_gpcount s1) (found o) (d_trace s1 ++ [EKernel k st]) in
    match o with
    | Exception => Stop (Error KernelException) s2
    | _ => if go_on e st then Loop s2 else Leave s2
    end.

(** preproc.cpp:1920-2211: one iteration *)
Definition iteration (e : env) (s : dstate) : next :=
  let violated := match d_status s with Violation => true | _ => false end in
  let floating := match d_status s with Floating => true | _ => false end in
  let s0 := DS (d_src s) (d_cut s) (d_sboxes s) (d_cboxes s) (d_rebuilt s) (d_pairs s) Success (d_count s)
               (d_run s + 1) (d_pert s) (d_const s) (d_gpcount s) (d_facts s) (d_trace s) in
  match perturb_step e violated s0 with
  | None => Stop (Error MaxPerturbations) s0
  | Some s1 =>
      match load_step e violated floating s1 with
      | None => Stop (Error InvalidMesh) s1
      | Some s2 =>
          let s3 := split_step e floating s2 in
          if negb (e_check e (d_src s3)) || negb (e_check e (d_cut s3)) then Stop (Error InvalidMesh) s3
          else kernel_step e violated s3
      end
  end.

(** preproc.cpp:2213-2793: after the loop *)
Definition finish (e : env) (s : dstate) : result :=
  match d_status s with
  | Success => Completed (d_pert s)
                 match d_facts s with
                 | Some f => delivered (e_flags e) f
                 | None => rev (created no_out)
                 end
  | _ => Error Incomplete
  end.

(** The whole loop, cut off after [fuel] iterations ([None]: not finished yet) *)
Fixpoint drive (fuel : nat) (e : env) (s : dstate) : option result * dstate :=
  match fuel with
  | O => (None, s)
  | S n => match iteration e s with
           | Loop s' => drive n e s'
           | Leave s' => (Some (finish e s'), s')
           | Stop r s' => (Some r, s')
           end
  end.
Definition dispatch_run (fuel : nat) (e : env) : option result * dstate := drive fuel e (start e).
