(** * The API object tables: contexts, events, connected components

    Model of the entry points of [source/mcut.cpp] and their [*_impl] functions
    in [source/frontend.cpp] as functions on the global tables.  One label is
    one API call (from any thread) or one step of a command that a manager
    thread executes; a history is any list of labels, so every interleaving of
    application threads and manager threads at that granularity is covered.

    Simplifications (all theorems quantify over what is left open):
    - pointers handed in by the caller are "null or not" plus the data behind
      them; bytes written through an output pointer are returned in [out];
    - the text of the debug messages that print a number is a parameter [fmt];
    - allocation and thread creation do not fail;
    - the kernel's work is not run here: which components a dispatch produces,
      which messages it emits, which status it ends with are arguments of the
      labels, that is: arbitrary. *)

From Coq Require Import ZArith List Bool Lia.
Import ListNotations.
Local Open Scope Z_scope.

(** ** Constants of include/mcut/mcut.h *)

Definition MC_NULL_HANDLE : Z := 0.                  (* mcut.h:88 *)
Definition MC_NO_ERROR : Z := 0.                     (* mcut.h:203 *)
Definition MC_INVALID_OPERATION : Z := -2.           (* mcut.h:204 *)
Definition MC_INVALID_VALUE : Z := -4.               (* mcut.h:205 *)
Definition MC_OUT_OF_MEMORY : Z := -8.               (* mcut.h:206 *)
Definition MC_RESULT_MAX_ENUM : Z := 4294967295.     (* mcut.h:207 *)

Definition SOURCE_API : Z := 1.                      (* mcut.h:325 *)
Definition SOURCE_KERNEL : Z := 2.                   (* mcut.h:326 *)
Definition SOURCE_FRONTEND : Z := 4.                 (* mcut.h:327 *)
Definition SOURCE_ALL : Z := 4294967295.             (* mcut.h:329 *)
Definition TYPE_ERROR : Z := 1.                      (* mcut.h:339 *)
Definition TYPE_DEPRECATED : Z := 2.                 (* mcut.h:340 *)
Definition TYPE_OTHER : Z := 4.                      (* mcut.h:341 *)
Definition TYPE_ALL : Z := 4294967295.               (* mcut.h:343 *)
Definition SEV_HIGH : Z := 1.                        (* mcut.h:353 *)
Definition SEV_MEDIUM : Z := 2.                      (* mcut.h:354 *)
Definition SEV_LOW : Z := 4.                         (* mcut.h:355 *)
Definition SEV_NOTIFICATION : Z := 8.                (* mcut.h:356 *)
Definition SEV_ALL : Z := 4294967295.                (* mcut.h:358 *)

Definition FLAG_DEBUG : Z := 1.                      (* mcut.h:368 *)
Definition FLAG_PROFILING : Z := 4.                  (* mcut.h:370 *)

Definition CMD_DISPATCH : Z := 1.                    (* mcut.h:462 *)
Definition CMD_GET_CCS : Z := 2.                     (* mcut.h:463 *)
Definition CMD_GET_CC_DATA : Z := 4.                 (* mcut.h:464 *)
Definition CMD_USER : Z := 8.                        (* mcut.h:465 *)

Definition ST_SUBMITTED : Z := 1.                    (* mcut.h:450 *)
Definition ST_RUNNING : Z := 2.                      (* mcut.h:451 *)
Definition ST_COMPLETE : Z := 4.                     (* mcut.h:452 *)

Definition WINDING_AS_GIVEN : Z := 1.                (* mcut.h:476 *)
Definition WINDING_REVERSED : Z := 2.                (* mcut.h:477 *)

Definition INFO_FLAGS : Z := 1.                      (* mcut.h:501 *)
Definition INFO_EV_RUNTIME : Z := 4.                 (* mcut.h:503 *)
Definition INFO_EV_SUBMIT : Z := 8.                  (* mcut.h:504 *)
Definition INFO_EV_START : Z := 16.                  (* mcut.h:505 *)
Definition INFO_EV_END : Z := 32.                    (* mcut.h:506 *)
Definition INFO_EV_COMMAND : Z := 64.                (* mcut.h:507 *)
Definition INFO_EV_CONTEXT : Z := 128.               (* mcut.h:508 *)
Definition INFO_EV_CMDTYPE : Z := 256.               (* mcut.h:509 *)
Definition INFO_MAX_MSG : Z := 512.                  (* mcut.h:510 *)
Definition INFO_CONST : Z := 1024.                   (* mcut.h:511 *)
Definition INFO_ATTEMPTS : Z := 2048.                (* mcut.h:512 *)
Definition INFO_WINDING : Z := 4096.                 (* mcut.h:513 *)
Definition INFO_ITYPE : Z := 8192.                   (* mcut.h:514 *)

Definition ITYPE_MAX_ENUM : Z := 4294967295.         (* mcut.h: MC_DISPATCH_INTERSECTION_TYPE_MAX_ENUM *)

(** ** Numbers in memory *)

(** The little-endian byte sequence of an [n]-byte number, as [memcpy] from a
    variable of that size writes it (frontend.cpp:303-354). *)
Fixpoint le_bytes (n : nat) (v : Z) : list Z :=
  match n with
  | O => []
  | S k => v mod 256 :: le_bytes k (v / 256)
  end.

(** The number read by [memcpy] into a variable (frontend.cpp:379-399). *)
Fixpoint le_val (bs : list Z) : Z :=
  match bs with
  | [] => 0
  | b :: r => b + 256 * le_val r
  end.

(** The sign and the magnitude of the double with the given bit pattern; NaNs
    are the magnitudes above the one of infinity. *)
Definition double_neg (bits : Z) : bool := 9223372036854775808 <=? bits.
Definition double_mag (bits : Z) : Z := bits mod 9223372036854775808.
Definition double_is_nan (bits : Z) : bool := 9218868437227405312 <? double_mag bits.

(** [value <= 0] for the double with the given bit pattern
    (frontend.cpp:381): false for NaN.  (ApiDouble proves that this is
    Flocq's comparison.) *)
Definition double_le_zero (bits : Z) : bool :=
  negb (double_is_nan bits) && (double_neg bits || (double_mag bits =? 0)).

(** [value >= 1.0] (mcut.cpp:633); the bit pattern of 1.0 is
    0x3FF0000000000000. *)
Definition double_ge_one (bits : Z) : bool :=
  negb (double_is_nan bits) && negb (double_neg bits)
  && (4607182418800017408 <=? double_mag bits).

(** [1e-4] as a double, frontend.h:567. *)
Definition DEFAULT_CONST : Z := 4547007122018943789.

(** ** State *)

(** A logged debug message, frontend.h:867-872. *)
Record dmsg := mkMsg { m_src : Z; m_typ : Z; m_sev : Z; m_txt : list Z }.

(** A connected component, frontend.h:210-290: the handle, the type and (in
    place of the mesh) an opaque identity of its data. *)
Record cc := mkCC { cc_handle : Z; cc_type : Z; cc_data : Z }.

(** A context, frontend.h:486-916 (without threads and queues). *)
Record ctx := mkCtx {
  c_handle : Z; c_flags : Z;
  c_const : Z;          (* bit pattern of the double *)
  c_attempts : Z; c_winding : Z; c_itype : Z;
  c_bsrc : Z; c_btyp : Z; c_bsev : Z;   (* dbgCallbackBitfield* *)
  c_cb : bool;          (* debugCallback != nullptr *)
  c_log : list dmsg;    (* m_debug_logs *)
  c_ccs : list cc       (* connected_components, newest first *)
}.

(** An event, frontend.h:313-346 (without future and callback). *)
Record ev := mkEv {
  e_handle : Z; e_cmd : Z; e_ctx : Z; e_prof : bool; e_fin : bool;
  e_rt : Z;             (* m_runtime_exec_status *)
  e_cs : Z;             (* m_command_exec_status *)
  e_tsub : Z; e_tstart : Z; e_tend : Z
}.

(** The globals of frontend.cpp:64-67.  [g_held] are the context objects that
    are no longer listed in [g_contexts] but are kept alive by a command that
    is executing (the [shared_ptr] of frontend.cpp:673). *)
Record gs := mkGs {
  g_init : bool;        (* g_objects_counter_init_flag *)
  g_counter : Z;        (* g_objects_counter, 64 bits *)
  g_ctxs : list ctx;
  g_held : list ctx;
  g_evs : list ev
}.

Definition gs0 : gs := mkGs false 0 [] [] [].

(** What a call gives back to the caller. *)
Record out := mkOut {
  o_res : Z;              (* the McResult *)
  o_handle : option Z;    (* a handle written to pOutContext / pEvent *)
  o_num : option Z;       (* a number written to pNumBytes / numConnComps / numFetched *)
  o_mem : list Z;         (* the bytes (or handles) written to pMem / messageLog / pConnComps *)
  o_msgs : list dmsg;     (* the calls of the user's debug callback *)
  o_made : list Z;        (* handles of the objects created by the step *)
  o_crash : bool          (* a null pointer was dereferenced *)
}.

Definition ret (r : Z) : out := mkOut r None None [] [] [] false.

(** ** Lists: [threadsafe_list] of tpool.h:873-969.
    [push_front] is cons, [find_first_if] is [find], [remove_if] is [filter];
    a member of the list is a shared pointer, so changing an object changes
    the entry found first. *)

Definition find_ctx (h : Z) (l : list ctx) : option ctx :=
  find (fun c => c_handle c =? h) l.

Definition find_ev (h : Z) (l : list ev) : option ev :=
  find (fun e => e_handle e =? h) l.

Definition find_cc (h : Z) (l : list cc) : option cc :=
  find (fun c => cc_handle c =? h) l.

Fixpoint upd_ctx (h : Z) (f : ctx -> ctx) (l : list ctx) : list ctx :=
  match l with
  | [] => []
  | c :: r => if c_handle c =? h then f c :: r else c :: upd_ctx h f r
  end.

Fixpoint upd_ev (h : Z) (f : ev -> ev) (l : list ev) : list ev :=
  match l with
  | [] => []
  | e :: r => if e_handle e =? h then f e :: r else e :: upd_ev h f r
  end.

Definition on_ctx (h : Z) (f : ctx -> ctx) (s : gs) : gs :=
  mkGs (g_init s) (g_counter s) (upd_ctx h f (g_ctxs s)) (g_held s) (g_evs s).

Definition on_ev (h : Z) (f : ev -> ev) (s : gs) : gs :=
  mkGs (g_init s) (g_counter s) (g_ctxs s) (g_held s) (upd_ev h f (g_evs s)).

Definition with_ctxs (l : list ctx) (s : gs) : gs :=
  mkGs (g_init s) (g_counter s) l (g_held s) (g_evs s).

Definition with_evs (l : list ev) (s : gs) : gs :=
  mkGs (g_init s) (g_counter s) (g_ctxs s) (g_held s) l.

(** [g_objects_counter.fetch_add(1)]: frontend.cpp:79, :427, frontend.h:704,
    preproc.cpp:2281, ... *)
Definition fetch_add (s : gs) : Z * gs :=
  (g_counter s,
   mkGs (g_init s) ((g_counter s + 1) mod 2 ^ 64) (g_ctxs s) (g_held s) (g_evs s)).

(** ** Exceptions *)

(** What an implementation function may throw: [std::invalid_argument],
    [std::runtime_error], [std::logic_error]. *)
Inductive exn := Einvalid | Eruntime | Elogic.

(** CATCH_POSSIBLE_EXCEPTIONS, frontend.h:69-89. *)
Definition code_of (e : exn) : Z :=
  match e with
  | Einvalid => MC_INVALID_VALUE
  | Eruntime => MC_INVALID_OPERATION
  | Elogic => MC_RESULT_MAX_ENUM
  end.

(** An implementation function returns the new state and either its outputs
    or an exception (effects before the exception stay).  The list next to the
    exception are the objects created before it was thrown. *)
Definition impl := (gs * (exn * list Z + out))%type.

Definition invalid : exn * list Z := (Einvalid, []).

Definition catch (r : impl) : gs * out :=
  match r with
  | (s, inl (e, made)) => (s, mkOut (code_of e) None None [] [] made false)
  | (s, inr o) => (s, o)
  end.

(** ** Debug output *)

Definition with_log (l : list dmsg) (c : ctx) : ctx :=
  mkCtx (c_handle c) (c_flags c) (c_const c) (c_attempts c) (c_winding c) (c_itype c)
        (c_bsrc c) (c_btyp c) (c_bsev c) (c_cb c) l (c_ccs c).

(** The filter of frontend.h:892-894. *)
Definition can_log (c : ctx) (m : dmsg) : bool :=
  negb (Z.land (m_src m) (c_bsrc c) =? 0) &&
  negb (Z.land (m_typ m) (c_btyp c) =? 0) &&
  negb (Z.land (m_sev m) (c_bsev c) =? 0).

(** [context_t::dbg_cb], frontend.h:877-915: the context afterwards and the
    calls of the user's callback. *)
Definition dbg_cb (m : dmsg) (c : ctx) : ctx * list dmsg :=
  if negb (Z.land (c_flags c) FLAG_DEBUG =? 0) then
    if can_log c m then
      if c_cb c then (c, [m]) else (with_log (c_log c ++ [m]) c, [])
    else (c, [])
  else (c, []).

(** [trailing_zeroes], frontend.cpp:178-201.  The C code converts the lowest
    set bit to a float and takes the exponent field minus 127, which for a
    power of two is its logarithm. *)
Definition trailing_zeroes (v : Z) : Z := Z.log2 (Z.land v (- v)).

(** [set_bit], frontend.cpp:205-209. *)
Definition set_bit (v pos : Z) : Z := Z.lor v (Z.shiftl 1 pos).

(** [clear_bit], frontend.cpp:211-215. *)
Definition clear_bit (v pos : Z) : Z := Z.ldiff v (Z.shiftl 1 pos).

(** One of the three loops of [debug_message_control_impl],
    frontend.cpp:235-244, :250-262, :268-278. *)
Fixpoint control_bits (param all : Z) (enabled : bool) (flags : list Z) (field : Z) : Z :=
  match flags with
  | [] => field
  | i :: r =>
    let field' :=
      if negb (Z.land param i =? 0) then
        let n := trailing_zeroes (Z.land all i) in
        if enabled then set_bit field n else clear_bit field n
      else field in
    control_bits param all enabled r field'
  end.

Definition with_bits (s t v : Z) (c : ctx) : ctx :=
  mkCtx (c_handle c) (c_flags c) (c_const c) (c_attempts c) (c_winding c) (c_itype c)
        s t v (c_cb c) (c_log c) (c_ccs c).

(** [debug_message_control_impl], frontend.cpp:217-280. *)
Definition debug_message_control_impl (h src typ sev : Z) (en : bool) (s : gs) : impl :=
  match find_ctx h (g_ctxs s) with
  | None => (s, inl invalid)
  | Some _ =>
    (on_ctx h (fun c =>
       with_bits
         (control_bits src SOURCE_ALL en [SOURCE_API; SOURCE_KERNEL] (c_bsrc c))
         (control_bits typ TYPE_ALL en [TYPE_DEPRECATED; TYPE_ERROR; TYPE_OTHER] (c_btyp c))
         (control_bits sev SEV_ALL en [SEV_HIGH; SEV_LOW; SEV_MEDIUM; SEV_NOTIFICATION] (c_bsev c))
         c) s,
     inr (ret MC_NO_ERROR))
  end.

(** [mcDebugMessageControl], mcut.cpp:162-203. *)
Definition mcDebugMessageControl (h src typ sev : Z) (en : bool) (s : gs) : gs * out :=
  if h =? MC_NULL_HANDLE then (s, ret MC_INVALID_VALUE)
  else if negb ((src =? SOURCE_ALL) || (src =? SOURCE_KERNEL) || (src =? SOURCE_ALL))
  then (s, ret MC_INVALID_VALUE)
  else if negb ((typ =? TYPE_ALL) || (typ =? TYPE_DEPRECATED) || (typ =? TYPE_ERROR)
                || (typ =? TYPE_OTHER))
  then (s, ret MC_INVALID_VALUE)
  else if negb ((sev =? SEV_HIGH) || (sev =? SEV_MEDIUM) || (sev =? SEV_LOW)
                || (sev =? SEV_NOTIFICATION) || (sev =? SEV_ALL))
  then (s, ret MC_INVALID_VALUE)
  else catch (debug_message_control_impl h src typ sev en s).

Definition with_cb (b : bool) (c : ctx) : ctx :=
  mkCtx (c_handle c) (c_flags c) (c_const c) (c_attempts c) (c_winding c) (c_itype c)
        (c_bsrc c) (c_btyp c) (c_bsev c) b (c_log c) (c_ccs c).

(** [debug_message_callback_impl], frontend.cpp:95-116; the callback is not
    null here, frontend.cpp:101. *)
Definition debug_message_callback_impl (h : Z) (s : gs) : impl :=
  match find_ctx h (g_ctxs s) with
  | None => (s, inl invalid)
  | Some _ => (on_ctx h (with_cb true) s, inr (ret MC_NO_ERROR))
  end.

(** [mcDebugMessageCallback], mcut.cpp:95-121. *)
Definition mcDebugMessageCallback (h : Z) (cb : bool) (s : gs) : gs * out :=
  if h =? MC_NULL_HANDLE then (s, ret MC_INVALID_VALUE)
  else if negb cb then (s, ret MC_INVALID_VALUE)
  else catch (debug_message_callback_impl h s).

(** The loop of frontend.cpp:144-174: [k] messages are still allowed, [off]
    characters are used; returns how many messages were fetched and the
    characters written. *)
Fixpoint fetch_log (k : nat) (off bufSize : Z) (log : list dmsg) : Z * list Z :=
  match k, log with
  | O, _ => (0, [])
  | _, [] => (0, [])
  | S k', m :: r =>
    let len := Z.of_nat (length (m_txt m)) in
    let newlen := off + len in
    if bufSize <? newlen then (0, [])
    else let '(n, txt) := fetch_log k' newlen bufSize r in (1 + n, m_txt m ++ txt)
  end.

Definition NULL_LOG_MSG (txt : list Z) : dmsg := mkMsg SOURCE_API TYPE_OTHER SEV_NOTIFICATION txt.

(** ** Entry points whose debug message prints a value *)

Section Messages.

(** The text [std::to_string] and friends produce: which item, which value. *)
Variable fmt : Z -> Z -> list Z.

(** [get_debug_message_log_impl], frontend.cpp:118-175.  The parallel output
    arrays [sources], [types], [severities], [lengths] get [numFetched]
    entries each; here only the characters are returned. *)
Definition get_debug_message_log_impl (h count bufSize : Z) (log_ptr : bool) (s : gs) : impl :=
  match find_ctx h (g_ctxs s) with
  | None => (s, inl invalid)
  | Some c =>
    if negb log_ptr then
      let '(c', ms) := dbg_cb (NULL_LOG_MSG (fmt 0 0)) c in
      (on_ctx h (fun _ => c') s, inr (mkOut MC_NO_ERROR None (Some 0) [] ms [] false))
    else
      let N := Z.min count (Z.of_nat (length (c_log c)) mod 2 ^ 32) in
      let '(n, txt) := fetch_log (Z.to_nat N) 0 bufSize (c_log c) in
      (s, inr (mkOut MC_NO_ERROR None (Some n) txt [] [] false))
  end.

(** [mcGetDebugMessageLog], mcut.cpp:123-160. *)
Definition mcGetDebugMessageLog (h count bufSize : Z) (log_ptr num_ptr : bool) (s : gs)
  : gs * out :=
  if h =? MC_NULL_HANDLE then (s, ret MC_INVALID_VALUE)
  else if count =? 0 then (s, ret MC_INVALID_VALUE)
  else if bufSize =? 0 then (s, ret MC_INVALID_VALUE)
  else if negb num_ptr then (s, ret MC_INVALID_VALUE)
  else catch (get_debug_message_log_impl h count bufSize log_ptr s).

(** *** State queries *)

Definition max_len (l : list dmsg) : Z :=
  fold_left (fun a m => Z.max a (Z.of_nat (length (m_txt m)))) l 0.

(** Copy [n] bytes out of a variable with content [bs]: bytes behind the
    variable are written as the marker -1 (indeterminate). *)
Definition copy_out (bs : list Z) (n : Z) : list Z :=
  firstn (Z.to_nat n) bs ++ repeat (-1) (Z.to_nat n - length bs).

Definition out_num (ptr : bool) (n : Z) : out :=
  if ptr then mkOut MC_NO_ERROR None (Some n) [] [] [] false
  else mkOut MC_NO_ERROR None None [] [] [] true.

Definition out_mem (bs : list Z) : out := mkOut MC_NO_ERROR None None bs [] [] false.

(** The [switch] of [get_info_impl], frontend.cpp:295-361. *)
Definition info_of (c : ctx) (info bytes : Z) (mem num : bool) : exn * list Z + out :=
  if info =? INFO_FLAGS then
    if negb mem then inr (out_num num 4)
    else if bytes <? 4 then inl invalid
    else inr (out_mem (copy_out (le_bytes 4 (c_flags c)) bytes))
  else if info =? INFO_MAX_MSG then
    if negb mem then inr (out_num num 8)
    else inr (out_mem (le_bytes 8 (max_len (c_log c))))
  else if info =? INFO_CONST then
    if negb mem then inr (out_num num 8)
    else inr (out_mem (le_bytes 8 (c_const c)))
  else if info =? INFO_ATTEMPTS then
    if negb mem then inr (out_num num 4)
    else inr (out_mem (le_bytes 4 (c_attempts c)))
  else if info =? INFO_WINDING then
    if negb mem then inr (out_num num 4)
    else inr (out_mem (le_bytes 4 (c_winding c)))
  else if info =? INFO_ITYPE then
    if negb mem then inr (out_num num 4)
    else inr (out_mem (le_bytes 4 (c_itype c)))
  else inl invalid.

(** [get_info_impl], frontend.cpp:282-362. *)
Definition get_info_impl (h info bytes : Z) (mem num : bool) (s : gs) : impl :=
  match find_ctx h (g_ctxs s) with
  | None => (s, inl invalid)
  | Some c => (s, info_of c info bytes mem num)
  end.

Definition has (w bit : Z) : bool := negb (Z.land w bit =? 0).

(** [mcGetInfo], mcut.cpp:205-240. *)
Definition mcGetInfo (h info bytes : Z) (mem num : bool) (s : gs) : gs * out :=
  if h =? MC_NULL_HANDLE then (s, ret MC_INVALID_VALUE)
  else if negb (bytes =? 0) && negb mem then (s, ret MC_INVALID_VALUE)
  else if negb (has info INFO_FLAGS || has info INFO_MAX_MSG || has info INFO_CONST
                || has info INFO_ATTEMPTS || has info INFO_ITYPE)
  then (s, ret MC_INVALID_VALUE)
  else if has info INFO_FLAGS && (mem && negb (bytes =? 4)) then (s, ret MC_INVALID_VALUE)
  else catch (get_info_impl h info bytes mem num s).

(** *** Binding state *)

Definition with_const (v : Z) (c : ctx) : ctx :=
  mkCtx (c_handle c) (c_flags c) v (c_attempts c) (c_winding c) (c_itype c)
        (c_bsrc c) (c_btyp c) (c_bsev c) (c_cb c) (c_log c) (c_ccs c).
Definition with_attempts (v : Z) (c : ctx) : ctx :=
  mkCtx (c_handle c) (c_flags c) (c_const c) v (c_winding c) (c_itype c)
        (c_bsrc c) (c_btyp c) (c_bsev c) (c_cb c) (c_log c) (c_ccs c).
Definition with_winding (v : Z) (c : ctx) : ctx :=
  mkCtx (c_handle c) (c_flags c) (c_const c) (c_attempts c) v (c_itype c)
        (c_bsrc c) (c_btyp c) (c_bsev c) (c_cb c) (c_log c) (c_ccs c).
Definition with_itype (v : Z) (c : ctx) : ctx :=
  mkCtx (c_handle c) (c_flags c) (c_const c) (c_attempts c) (c_winding c) v
        (c_bsrc c) (c_btyp c) (c_bsev c) (c_cb c) (c_log c) (c_ccs c).
Definition with_ccs (l : list cc) (c : ctx) : ctx :=
  mkCtx (c_handle c) (c_flags c) (c_const c) (c_attempts c) (c_winding c) (c_itype c)
        (c_bsrc c) (c_btyp c) (c_bsev c) (c_cb c) (c_log c) l.

(** The message every bind emits before the value is checked,
    frontend.cpp:380, :390, :400. *)
Definition bind_msg (info v : Z) : dmsg :=
  mkMsg SOURCE_API TYPE_OTHER SEV_NOTIFICATION (fmt info v).

(** One case of the [switch] of [bind_state_impl]: emit the message, reject or
    store. *)
Definition bind_item (h info v : Z) (bad : bool) (store : ctx -> ctx) (c : ctx) (s : gs) : impl :=
  let '(c', ms) := dbg_cb (bind_msg info v) c in
  if bad then (on_ctx h (fun _ => c') s, inl invalid)
  else (on_ctx h (fun _ => store c') s, inr (mkOut MC_NO_ERROR None None [] ms [] false)).

(** [bind_state_impl], frontend.cpp:364-412.  [data] are the [bytes] bytes
    behind [pMem].  (The calls of the user's debug callback made before an
    exception is thrown are not part of the output.) *)
Definition bind_state_impl (h info : Z) (data : list Z) (s : gs) : impl :=
  match find_ctx h (g_ctxs s) with
  | None => (s, inl invalid)
  | Some c =>
    let v := le_val data in
    if info =? INFO_CONST then
      bind_item h info v (double_le_zero v) (with_const v) c s
    else if info =? INFO_ATTEMPTS then
      bind_item h info v (v <? 1) (with_attempts v) c s
    else if info =? INFO_WINDING then
      bind_item h info v (negb (v =? WINDING_AS_GIVEN) && negb (v =? WINDING_REVERSED))
                (with_winding v) c s
    else (s, inl invalid)
  end.

(** [mcBindState], mcut.cpp:242-284; [mem = None] is a null pointer, [Some d]
    points to the bytes [d] of which the first [bytes] are read. *)
Definition mcBindState (h info bytes : Z) (mem : option (list Z)) (s : gs) : gs * out :=
  if h =? MC_NULL_HANDLE then (s, ret MC_INVALID_VALUE)
  else if bytes =? 0 then (s, ret MC_INVALID_VALUE)
  else match mem with
  | None => (s, ret MC_INVALID_VALUE)
  | Some d =>
    if negb (has info INFO_CONST || has info INFO_ATTEMPTS || has info INFO_WINDING)
    then (s, ret MC_INVALID_VALUE)
    else if (has info INFO_CONST && negb (bytes =? 8))
         || (has info INFO_ATTEMPTS && negb (bytes =? 4))
         || (has info INFO_WINDING && negb (bytes =? 4))
    then (s, ret MC_INVALID_VALUE)
    else catch (bind_state_impl h info (firstn (Z.to_nat bytes) d) s)
  end.

(** ** Contexts *)

(** The constructor [context_t], frontend.h:557-606. *)
Definition new_ctx (h flags : Z) : ctx :=
  mkCtx h flags DEFAULT_CONST 4 WINDING_AS_GIVEN ITYPE_MAX_ENUM 0 0 0 false [] [].

(** [create_context_impl], frontend.cpp:69-93. *)
Definition create_context_impl (flags : Z) (s : gs) : impl :=
  let s1 := if g_init s then s
            else mkGs true 912559 (g_ctxs s) (g_held s) (g_evs s) in
  let '(h, s2) := fetch_add s1 in
  (with_ctxs (new_ctx h flags :: g_ctxs s2) s2,
   inr (mkOut MC_NO_ERROR (Some h) None [] [] [h] false)).

(** [mcCreateContext], mcut.cpp:49-71 and [mcCreateContextWithHelpers],
    mcut.cpp:73-93 (the helper thread count does not enter here). *)
Definition mcCreateContext (ptr : bool) (flags : Z) (s : gs) : gs * out :=
  if negb ptr then (s, ret MC_INVALID_VALUE)
  else catch (create_context_impl flags s).

(** [release_context_impl], frontend.cpp:3765-3774.  [held] says whether a
    command of this context is executing, which keeps the object alive. *)
Definition release_context_impl (h : Z) (held : bool) (s : gs) : impl :=
  match find_ctx h (g_ctxs s) with
  | None => (s, inl invalid)
  | Some c =>
    (mkGs (g_init s) (g_counter s)
          (filter (fun c => negb (c_handle c =? h)) (g_ctxs s))
          (if held then c :: g_held s else g_held s) (g_evs s),
     inr (ret MC_NO_ERROR))
  end.

(** [mcReleaseContext], mcut.cpp:881-906. *)
Definition mcReleaseContext (h : Z) (held : bool) (s : gs) : gs * out :=
  if h =? MC_NULL_HANDLE then (s, ret MC_INVALID_VALUE)
  else catch (release_context_impl h held s).

(** ** Events *)

(** [event_t::event_t] followed by [log_submit_time], frontend.h:376-395,
    :413-421, with the fields set at frontend.h:711-713 / frontend.cpp:434-440. *)
Definition new_ev (h cmd cx : Z) (prof : bool) (now : Z) : ev :=
  mkEv h cmd cx prof false MC_NO_ERROR ST_SUBMITTED (if prof then now else 0) 0 0.

(** [create_user_event_impl], frontend.cpp:414-464. *)
Definition create_user_event_impl (h now : Z) (s : gs) : impl :=
  match find_ctx h (g_ctxs s) with
  | None => (s, inl invalid)
  | Some c =>
    let '(e, s1) := fetch_add s in
    (with_evs (new_ev e CMD_USER h (has (c_flags c) FLAG_PROFILING) now :: g_evs s1) s1,
     inr (mkOut MC_NO_ERROR (Some e) None [] [] [e] false))
  end.

(** [mcCreateUserEvent], mcut.cpp:286-313. *)
Definition mcCreateUserEvent (ptr : bool) (h now : Z) (s : gs) : gs * out :=
  if negb ptr then (s, ret MC_INVALID_VALUE)
  else if h =? MC_NULL_HANDLE then (s, ret MC_INVALID_VALUE)
  else catch (create_user_event_impl h now s).

(** [release_event_impl], frontend.cpp:3712-3724. *)
Definition release_event_impl (e : Z) (s : gs) : gs * bool :=
  match find_ev e (g_evs s) with
  | None => (s, false)
  | Some _ => (with_evs (filter (fun x => negb (e_handle x =? e)) (g_evs s)) s, true)
  end.

(** [release_events_impl], frontend.cpp:3726-3732. *)
Fixpoint release_events_impl (es : list Z) (s : gs) : impl :=
  match es with
  | [] => (s, inr (ret MC_NO_ERROR))
  | e :: r => let '(s', ok) := release_event_impl e s in
              if ok then release_events_impl r s' else (s', inl invalid)
  end.

(** [mcReleaseEvents], mcut.cpp:816-845; the array has [n] entries. *)
Definition mcReleaseEvents (n : Z) (es : option (list Z)) (s : gs) : gs * out :=
  match es with
  | None => if 0 <? n then (s, ret MC_INVALID_VALUE) else (s, ret MC_NO_ERROR)
  | Some l => if n =? 0 then (s, ret MC_INVALID_VALUE)
              else catch (release_events_impl (firstn (Z.to_nat n) l) s)
  end.

(** The [switch] of [get_event_info_impl], frontend.cpp:522-593. *)
Definition ev_info_of (e : ev) (info bytes : Z) (mem num : bool) : exn * list Z + out :=
  let item size v :=
    if negb mem then inr (out_num num (Z.of_nat size))
    else if bytes <? Z.of_nat size then inl invalid
    else inr (out_mem (copy_out (le_bytes size v) bytes)) in
  if info =? INFO_EV_RUNTIME then item 4%nat (e_rt e)
  else if info =? INFO_EV_SUBMIT then item 8%nat (e_tsub e)
  else if info =? INFO_EV_START then item 8%nat (e_tstart e)
  else if info =? INFO_EV_END then item 8%nat (e_tend e)
  else if info =? INFO_EV_COMMAND then item 4%nat (e_cs e)
  else if info =? INFO_EV_CMDTYPE then item 4%nat (e_cmd e)
  else if info =? INFO_EV_CONTEXT then item 8%nat (e_ctx e)
  else inl invalid.

(** [get_event_info_impl], frontend.cpp:509-595. *)
Definition get_event_info_impl (e info bytes : Z) (mem num : bool) (s : gs) : impl :=
  match find_ev e (g_evs s) with
  | None => (s, inl invalid)
  | Some x => (s, ev_info_of x info bytes mem num)
  end.

(** [mcGetEventInfo], mcut.cpp:342-373. *)
Definition mcGetEventInfo (e info bytes : Z) (mem num : bool) (s : gs) : gs * out :=
  if e =? MC_NULL_HANDLE then (s, ret MC_INVALID_VALUE)
  else if negb (bytes =? 0) && negb mem then (s, ret MC_INVALID_VALUE)
  else if (info =? INFO_EV_RUNTIME) && (mem && negb (bytes =? 4)) then (s, ret MC_INVALID_VALUE)
  else if (info =? INFO_EV_COMMAND) && (mem && negb (bytes =? 4)) then (s, ret MC_INVALID_VALUE)
  else if ((info =? INFO_EV_SUBMIT) || (info =? INFO_EV_START) || (info =? INFO_EV_END))
          && (mem && negb (bytes =? 8)) then (s, ret MC_INVALID_VALUE)
  else catch (get_event_info_impl e info bytes mem num s).

Definition ev_started (now : Z) (e : ev) : ev :=
  mkEv (e_handle e) (e_cmd e) (e_ctx e) (e_prof e) (e_fin e) (e_rt e) ST_RUNNING (e_tsub e)
       (if e_prof e then now else e_tstart e) (e_tend e).
Definition ev_notified (r : Z) (e : ev) : ev :=
  mkEv (e_handle e) (e_cmd e) (e_ctx e) (e_prof e) true r (e_cs e) (e_tsub e)
       (e_tstart e) (e_tend e).
Definition ev_ended (now : Z) (e : ev) : ev :=
  mkEv (e_handle e) (e_cmd e) (e_ctx e) (e_prof e) (e_fin e) (e_rt e) ST_COMPLETE (e_tsub e)
       (e_tstart e) (if e_prof e then now else e_tend e).

(** [set_event_callback_impl], frontend.cpp:626-640, and [mcSetEventCallback],
    mcut.cpp:411-442: here only the check of the handle (the callback itself
    is in EventModel). *)
Definition mcSetEventCallback (e : Z) (cb : bool) (s : gs) : gs * out :=
  if negb cb then (s, ret MC_INVALID_VALUE)
  else match find_ev e (g_evs s) with
       | None => (s, ret MC_INVALID_VALUE)
       | Some _ => if e =? MC_NULL_HANDLE then (s, ret MC_INVALID_VALUE)
                   else (s, ret MC_NO_ERROR)
       end.

(** ** Enqueueing commands *)

(** The loop over the wait list in [prepare_and_submit_API_task],
    frontend.h:730-751: true when no exception is thrown. *)
Fixpoint check_waitlist (ws : list Z) (evs : list ev) : bool :=
  match ws with
  | [] => true
  | w :: r =>
    match find_ev w evs with
    | None => false
    | Some e => if negb (e_fin e) && negb (e_cmd e =? CMD_USER) then true
                else check_waitlist r evs
    end
  end.

(** [prepare_and_submit_API_task], frontend.h:692-836 (the choice of the
    manager thread and the execution of the task are not part of this model:
    see EventModel).  Note that [m_context] of the event stays null. *)
Definition prepare_and_submit (c : ctx) (cmd : Z) (ws : list Z) (now : Z) (s : gs) : impl :=
  let '(e, s1) := fetch_add s in
  let s2 := with_evs (new_ev e cmd MC_NULL_HANDLE (has (c_flags c) FLAG_PROFILING) now
                      :: g_evs s1) s1 in
  if check_waitlist ws (g_evs s2)
  then (s2, inr (mkOut MC_NO_ERROR (Some e) None [] [] [e] false))
  else (s2, inl (Einvalid, [e])).

Definition enqueue_impl (h cmd : Z) (ws : list Z) (now : Z) (s : gs) : impl :=
  match find_ctx h (g_ctxs s) with
  | None => (s, inl invalid)
  | Some c => prepare_and_submit c cmd ws now s
  end.

(** The wait list parameters, checked the same way by every enqueue function
    (mcut.cpp:498-503, :635-640, :692-697, :765-770).  [ptr] is [pEvent != NULL]. *)
Definition waitlist_ok (n : Z) (ws : option (list Z)) (ptr : bool) : bool :=
  match ws with
  | None => negb (0 <? n) && (negb (n =? 0) || ptr)
  | Some _ => negb (n =? 0)
  end.

Definition waitlist_of (n : Z) (ws : option (list Z)) : list Z :=
  match ws with None => [] | Some l => firstn (Z.to_nat n) l end.

(** The parameters of a dispatch that the entry point checks. *)
Record dargs := mkDargs {
  d_flags : Z;
  d_svp : bool; d_sfp : bool; d_nsv : Z; d_nsf : Z;     (* source mesh *)
  d_cvp : bool; d_cfp : bool; d_ncv : Z; d_ncf : Z      (* cut mesh *)
}.

(** The checks of [mcEnqueueDispatch], mcut.cpp:467-497. *)
Definition dispatch_args_ok (d : dargs) : bool :=
  negb (d_flags d =? 0) &&
  negb (has (d_flags d) 4 && has (d_flags d) 128) &&
  (has (d_flags d) 1 || has (d_flags d) 2) &&
  d_svp d && negb (d_nsv d <? 3) && d_sfp d && negb (d_nsf d <? 1) &&
  d_cvp d && negb (d_ncv d <? 3) && d_cfp d && negb (d_ncf d <? 1).

(** [mcEnqueueDispatch], mcut.cpp:444-537, and [dispatch_impl],
    frontend.cpp:642-694.  With a wait list and a null [pEvent] the handle is
    written through the null pointer (frontend.cpp:693). *)
Definition mcEnqueueDispatch (h : Z) (d : dargs) (n : Z) (ws : option (list Z)) (ptr : bool)
           (now : Z) (s : gs) : gs * out :=
  if h =? MC_NULL_HANDLE then (s, ret MC_INVALID_VALUE)
  else if negb (dispatch_args_ok d) then (s, ret MC_INVALID_VALUE)
  else if negb (waitlist_ok n ws ptr) then (s, ret MC_INVALID_VALUE)
  else let '(s', o) := catch (enqueue_impl h CMD_DISPATCH (waitlist_of n ws) now s) in
       (s', if ptr then o
            else mkOut (o_res o) None (o_num o) (o_mem o) (o_msgs o) (o_made o)
                       (match o_handle o with None => false | Some _ => true end)).

(** The checks of [mcEnqueueDispatchPlanarSection], mcut.cpp:609-634: the
    normal must not be the zero vector and the offset must not be both
    [<= 0] and [>= 1]. *)
Definition planar_args_ok (d : dargs) (normal_ptr normal_zero : bool) (offset : Z) : bool :=
  negb (d_flags d =? 0) &&
  negb (has (d_flags d) 4 && has (d_flags d) 128) &&
  (has (d_flags d) 1 || has (d_flags d) 2) &&
  d_svp d && negb (d_nsv d <? 3) && d_sfp d && negb (d_nsf d <? 1) &&
  normal_ptr && negb normal_zero &&
  negb (double_le_zero offset && double_ge_one offset).

(** [mcEnqueueDispatchPlanarSection], mcut.cpp:590-671, and
    [dispatch_planar_section_impl], frontend.cpp:865-928. *)
Definition mcEnqueueDispatchPlanarSection (h : Z) (d : dargs) (np nz : bool) (offset : Z)
           (n : Z) (ws : option (list Z)) (ptr : bool) (now : Z) (s : gs) : gs * out :=
  if h =? MC_NULL_HANDLE then (s, ret MC_INVALID_VALUE)
  else if negb (planar_args_ok d np nz offset) then (s, ret MC_INVALID_VALUE)
  else if negb (waitlist_ok n ws ptr) then (s, ret MC_INVALID_VALUE)
  else let '(s', o) := catch (enqueue_impl h CMD_DISPATCH (waitlist_of n ws) now s) in
       (s', if ptr then o
            else mkOut (o_res o) None (o_num o) (o_mem o) (o_msgs o) (o_made o)
                       (match o_handle o with None => false | Some _ => true end)).

(** [mcEnqueueGetConnectedComponents], mcut.cpp:673-717, and
    [get_connected_components_impl], frontend.cpp:930-986 (the command itself
    is [run_get_ccs] below). *)
Definition mcEnqueueGetConnectedComponents (h mask : Z) (buf num : bool) (n : Z)
           (ws : option (list Z)) (ptr : bool) (now : Z) (s : gs) : gs * out :=
  if h =? MC_NULL_HANDLE then (s, ret MC_INVALID_VALUE)
  else if mask =? 0 then (s, ret MC_INVALID_VALUE)
  else if negb num && negb buf then (s, ret MC_INVALID_VALUE)
  else if negb (waitlist_ok n ws ptr) then (s, ret MC_INVALID_VALUE)
  else let '(s', o) := catch (enqueue_impl h CMD_GET_CCS (waitlist_of n ws) now s) in
       (s', if ptr then o
            else mkOut (o_res o) None (o_num o) (o_mem o) (o_msgs o) (o_made o)
                       (match o_handle o with None => false | Some _ => true end)).

(** [mcEnqueueGetConnectedComponentData], mcut.cpp:742-789, and
    [get_connected_component_data_impl], frontend.cpp:3672-3710.  A null
    context with a non-null component reaches the implementation, which does
    not find it. *)
Definition mcEnqueueGetConnectedComponentData (h ccid flags bytes : Z) (mem : bool) (n : Z)
           (ws : option (list Z)) (ptr : bool) (now : Z) (s : gs) : gs * out :=
  if ccid =? MC_NULL_HANDLE then (s, ret MC_INVALID_VALUE)
  else if flags =? 0 then (s, ret MC_INVALID_VALUE)
  else if negb (bytes =? 0) && negb mem then (s, ret MC_INVALID_VALUE)
  else if negb (waitlist_ok n ws ptr) then (s, ret MC_INVALID_VALUE)
  else let '(s', o) := catch (enqueue_impl h CMD_GET_CC_DATA (waitlist_of n ws) now s) in
       let o := if h =? MC_NULL_HANDLE
                then mkOut MC_INVALID_VALUE (o_handle o) (o_num o) (o_mem o) (o_msgs o) (o_made o) false
                else o in
       (s', if ptr then o
            else mkOut (o_res o) None (o_num o) (o_mem o) (o_msgs o) (o_made o)
                       (match o_handle o with None => false | Some _ => true end)).

(** ** Releasing connected components *)

(** The loop of [release_connected_components_impl], frontend.cpp:3749-3761. *)
Fixpoint release_ccs_loop (ids : list Z) (l : list cc) : list cc * bool :=
  match ids with
  | [] => (l, true)
  | i :: r =>
    match find_cc i l with
    | None => (l, false)
    | Some _ => release_ccs_loop r (filter (fun c => negb (cc_handle c =? i)) l)
    end
  end.

(** [(int)numConnComps], frontend.cpp:3749. *)
Definition as_int (n : Z) : Z :=
  let m := n mod 2 ^ 32 in if m <? 2 ^ 31 then m else m - 2 ^ 32.

(** [release_connected_components_impl], frontend.cpp:3734-3763. *)
Definition release_connected_components_impl (h n : Z) (ids : option (list Z)) (s : gs) : impl :=
  match find_ctx h (g_ctxs s) with
  | None => (s, inl invalid)
  | Some c =>
    match ids with
    | None => if n =? 0 then (on_ctx h (with_ccs []) s, inr (ret MC_NO_ERROR))
              else (s, inl invalid)
    | Some l =>
      let '(ccs', ok) := release_ccs_loop (firstn (Z.to_nat (as_int n)) l) (c_ccs c) in
      (on_ctx h (with_ccs ccs') s, if ok then inr (ret MC_NO_ERROR) else inl invalid)
    end
  end.

(** [mcReleaseConnectedComponents], mcut.cpp:847-879. *)
Definition mcReleaseConnectedComponents (h n : Z) (ids : option (list Z)) (s : gs) : gs * out :=
  if h =? MC_NULL_HANDLE then (s, ret MC_INVALID_VALUE)
  else match ids with
  | None => if 0 <? n then (s, ret MC_INVALID_VALUE)
            else catch (release_connected_components_impl h n ids s)
  | Some _ => if n =? 0 then (s, ret MC_INVALID_VALUE)
              else catch (release_connected_components_impl h n ids s)
  end.

(** ** Steps of commands running on manager threads *)

(** The context object of handle [h] as a running command sees it (the locked
    [weak_ptr], frontend.cpp:672-674): listed or only held. *)
Definition run_on (h : Z) (f : ctx -> ctx) (s : gs) : gs :=
  match find_ctx h (g_ctxs s) with
  | Some _ => on_ctx h f s
  | None => mkGs (g_init s) (g_counter s) (g_ctxs s) (upd_ctx h f (g_held s)) (g_evs s)
  end.

Definition run_ctx (h : Z) (s : gs) : option ctx :=
  match find_ctx h (g_ctxs s) with
  | Some c => Some c
  | None => find_ctx h (g_held s)
  end.

(** A dispatch adds a component: preproc.cpp:2281-2304, :2330-2351, :2374-2406,
    :2425-2456, :2480-2513, :2533-2564, :2586-2670, :2693-2772 *)
Definition run_new_cc (h ty data : Z) (s : gs) : gs * out :=
  match run_ctx h s with
  | None => (s, ret MC_NO_ERROR)
  | Some _ =>
    let '(k, s1) := fetch_add s in
    (run_on h (fun c => with_ccs (mkCC k ty data :: c_ccs c) c) s1,
     mkOut MC_NO_ERROR None None [] [] [k] false)
  end.

(** A dispatch emits a debug message: preproc.cpp:70, :172, ... *)
Definition run_message (h : Z) (m : dmsg) (s : gs) : gs * out :=
  match run_ctx h s with
  | None => (s, ret MC_NO_ERROR)
  | Some c => let '(c', ms) := dbg_cb m c in
              (run_on h (fun _ => c') s, mkOut MC_NO_ERROR None None [] ms [] false)
  end.

(** A dispatch records the intersection type: preproc.cpp:1641-1721. *)
Definition run_itype (h t : Z) (s : gs) : gs * out :=
  match run_ctx h s with
  | None => (s, ret MC_NO_ERROR)
  | Some _ => (run_on h (with_itype t) s, ret MC_NO_ERROR)
  end.

(** The [for_each] of frontend.cpp:961-978: the count and the handles written,
    newest component first. *)
Fixpoint collect (mask numEntries : Z) (buf : bool) (l : list cc) (count used : Z)
  : Z * list Z :=
  match l with
  | [] => (count, [])
  | c :: r =>
    if negb (Z.land (cc_type c) mask =? 0) then
      if negb buf then collect mask numEntries buf r (count + 1) used
      else if used =? numEntries then collect mask numEntries buf r count used
      else let '(k, hs) := collect mask numEntries buf r count (used + 1) in
           (k, cc_handle c :: hs)
    else collect mask numEntries buf r count used
  end.

(** The command of [get_connected_components_impl], frontend.cpp:949-981. *)
Definition run_get_ccs (h mask numEntries : Z) (buf num : bool) (s : gs) : gs * out :=
  match run_ctx h s with
  | None => (s, ret MC_NO_ERROR)
  | Some c =>
    let '(k, hs) := collect mask numEntries buf (c_ccs c) 0 0 in
    (s, mkOut MC_NO_ERROR None (if num then Some k else None) hs [] [] false)
  end.

(** The check of the component handle in
    [get_connected_component_data_impl_detail], frontend.cpp:1875-1878: the
    status the command ends with when the handle is not known; the data
    queries themselves are the subject of other files ([res] is the status
    they end with). *)
Definition run_data (h ccid res : Z) (s : gs) : gs * out :=
  match run_ctx h s with
  | None => (s, ret MC_NO_ERROR)
  | Some c => match find_cc ccid (c_ccs c) with
              | None => (s, ret MC_INVALID_VALUE)
              | Some _ => (s, ret res)
              end
  end.

(** ** Histories *)

Inductive label :=
| LCreateContext (ptr : bool) (flags : Z)
| LReleaseContext (h : Z) (held : bool)
| LDebugCallback (h : Z) (cb : bool)
| LDebugLog (h count bufSize : Z) (log_ptr num_ptr : bool)
| LDebugControl (h src typ sev : Z) (en : bool)
| LGetInfo (h info bytes : Z) (mem num : bool)
| LBindState (h info bytes : Z) (mem : option (list Z))
| LCreateUserEvent (ptr : bool) (h now : Z)
| LGetEventInfo (e info bytes : Z) (mem num : bool)
| LSetEventCallback (e : Z) (cb : bool)
| LReleaseEvents (n : Z) (es : option (list Z))
| LEnqueueDispatch (h : Z) (d : dargs) (n : Z) (ws : option (list Z)) (ptr : bool) (now : Z)
| LEnqueuePlanar (h : Z) (d : dargs) (np nz : bool) (off : Z)
                 (n : Z) (ws : option (list Z)) (ptr : bool) (now : Z)
| LEnqueueGetCCs (h mask : Z) (buf num : bool) (n : Z) (ws : option (list Z)) (ptr : bool) (now : Z)
| LEnqueueData (h ccid flags bytes : Z) (mem : bool) (n : Z) (ws : option (list Z)) (ptr : bool) (now : Z)
| LReleaseCCs (h n : Z) (ids : option (list Z))
  (* steps of running commands *)
| LRunNewCC (h ty data : Z)
| LRunMessage (h : Z) (m : dmsg)
| LRunIType (h t : Z)
| LRunGetCCs (h mask numEntries : Z) (buf num : bool)
| LRunData (h ccid res : Z)
| LRunStart (e now : Z)          (* log_start_time, frontend.h:423-429 *)
| LRunNotify (e res : Z)         (* notify_task_complete, frontend.h:458-469 *)
| LRunEnd (e now : Z)            (* log_end_time, frontend.h:432-438 *)
| LRunDrop (h : Z).              (* the last reference to a held context goes *)

Definition step (l : label) (s : gs) : gs * out :=
  match l with
  | LCreateContext p f => mcCreateContext p f s
  | LReleaseContext h held => mcReleaseContext h held s
  | LDebugCallback h cb => mcDebugMessageCallback h cb s
  | LDebugLog h c b lp np => mcGetDebugMessageLog h c b lp np s
  | LDebugControl h a b c en => mcDebugMessageControl h a b c en s
  | LGetInfo h i b m n => mcGetInfo h i b m n s
  | LBindState h i b m => mcBindState h i b m s
  | LCreateUserEvent p h now => mcCreateUserEvent p h now s
  | LGetEventInfo e i b m n => mcGetEventInfo e i b m n s
  | LSetEventCallback e cb => mcSetEventCallback e cb s
  | LReleaseEvents n es => mcReleaseEvents n es s
  | LEnqueueDispatch h d n ws p now => mcEnqueueDispatch h d n ws p now s
  | LEnqueuePlanar h d np nz off n ws p now =>
      mcEnqueueDispatchPlanarSection h d np nz off n ws p now s
  | LEnqueueGetCCs h m b nu n ws p now => mcEnqueueGetConnectedComponents h m b nu n ws p now s
  | LEnqueueData h c f b m n ws p now =>
      mcEnqueueGetConnectedComponentData h c f b m n ws p now s
  | LReleaseCCs h n ids => mcReleaseConnectedComponents h n ids s
  | LRunNewCC h t d => run_new_cc h t d s
  | LRunMessage h m => run_message h m s
  | LRunIType h t => run_itype h t s
  | LRunGetCCs h m ne b nu => run_get_ccs h m ne b nu s
  | LRunData h c r => run_data h c r s
  | LRunStart e now => (on_ev e (ev_started now) s, ret MC_NO_ERROR)
  | LRunNotify e r => (on_ev e (ev_notified r) s, ret MC_NO_ERROR)
  | LRunEnd e now => (on_ev e (ev_ended now) s, ret MC_NO_ERROR)
  | LRunDrop h => (mkGs (g_init s) (g_counter s) (g_ctxs s)
                        (filter (fun c => negb (c_handle c =? h)) (g_held s)) (g_evs s),
                   ret MC_NO_ERROR)
  end.

(** A history: the labels with what they returned. *)
Fixpoint exec (ls : list label) (s : gs) : gs * list (label * out) :=
  match ls with
  | [] => (s, [])
  | l :: r => let '(s1, o) := step l s in
              let '(s2, t) := exec r s1 in
              (s2, (l, o) :: t)
  end.

(** ** The blocking entry points

    [mcGetConnectedComponents], mcut.cpp:719-740: enqueue, wait, release the
    event.  The command is executed between the enqueue and the release; here
    without any other step in between. *)
Definition mcGetConnectedComponents (h mask numEntries : Z) (buf num : bool) (now : Z) (s : gs)
  : gs * out :=
  let '(s1, o1) := mcEnqueueGetConnectedComponents h mask buf num 0 None true now s in
  match o_handle o1 with
  | None => (s1, o1)
  | Some e =>
    let s2 := on_ev e (ev_started now) s1 in
    let '(s3, o3) := run_get_ccs h mask numEntries buf num s2 in
    let s4 := on_ev e (ev_ended now) (on_ev e (ev_notified MC_NO_ERROR) s3) in
    let '(s5, _) := release_events_impl [e] s4 in
    (s5, mkOut MC_NO_ERROR None (o_num o3) (o_mem o3) (o_msgs o3) [] false)
  end.

(** [mcGetConnectedComponentData], mcut.cpp:791-814, with [res] the status the
    query ends with when the component is known. *)
Definition mcGetConnectedComponentData (h ccid flags bytes : Z) (mem : bool) (res now : Z) (s : gs)
  : gs * out :=
  let '(s1, o1) := mcEnqueueGetConnectedComponentData h ccid flags bytes mem 0 None true now s in
  match o_handle o1 with
  | None => (s1, o1)
  | Some e =>
    let s2 := on_ev e (ev_started now) s1 in
    let '(s3, o3) := run_data h ccid res s2 in
    let s4 := on_ev e (ev_ended now) (on_ev e (ev_notified (o_res o3)) s3) in
    let '(s5, _) := release_events_impl [e] s4 in
    (s5, ret (o_res o3))
  end.

End Messages.
