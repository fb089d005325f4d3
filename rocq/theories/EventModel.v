(** * Events, commands and manager threads

    Transition system for [event_t] (include/mcut/internal/frontend.h:313-470),
    [context_t::api_thread_main] (frontend.h:531-555),
    [prepare_and_submit_API_task] (frontend.h:692-836), [~context_t] /
    [shutdown] (frontend.h:608-633) and, in source/frontend.cpp,
    [create_user_event_impl] (:414-464), [set_user_event_status_impl]
    (:471-507), [wait_for_events_impl] (:597-624), [set_event_callback_impl]
    (:626-640), [release_event_impl] (:3712-3724) and [release_context_impl]
    (:3765-3774).

    One label is one atomic step of one thread; any list of labels is a
    schedule.  Simplifications:
    - an event is named by its number (0, 1, ... in the order of creation), a
      context likewise (ApiModel has the 64-bit handles);
    - enqueueing is one step: the handle is not known to any other call before
      the function returns; which manager thread gets a command without a
      predecessor is an argument of the label (the code takes one whose queue
      was seen empty, else the first);
    - the queues are FIFO lists (property C09) and a sleeping manager is woken
      (its failure to do so is property C10);
    - the kernel's work is one step with an arbitrary result;
    - callbacks of the user do not themselves call the library. *)

From Coq Require Import ZArith List Bool Arith.
Import ListNotations.

(** Results and statuses, include/mcut/mcut.h:203-207, :450-452. *)
Definition NO_ERROR : Z := 0.
Definition INVALID_OPERATION : Z := (-2)%Z.
Definition INVALID_VALUE : Z := (-4)%Z.
Definition OUT_OF_MEMORY : Z := (-8)%Z.
Definition MAX_ENUM : Z := 4294967295.
Definition SUBMITTED : Z := 1.
Definition RUNNING : Z := 2.
Definition COMPLETE : Z := 4.

(** Who keeps an event object alive (the [shared_ptr]s): the list [g_events],
    a manager thread, a user thread inside a call. *)
Inductive holder := HList | HMgr (c i : nat) | HUsr (t : nat).

Definition holder_dec : forall a b : holder, {a = b} + {a <> b}.
Proof. decide equality; apply Nat.eq_dec. Defined.

(** What the event stands for: a user event, or a command of context [c] with
    a wait list. *)
Inductive kind := KUser | KCmd (c : nat) (ws : list nat).

(** [event_t], frontend.h:313-346. *)
Record eobj := mkE {
  o_kind : kind;
  o_fut : bool;          (* m_future.valid() *)
  o_ready : bool;        (* the shared state of m_future is ready *)
  o_fin : bool;          (* m_finished *)
  o_rt : Z;              (* m_runtime_exec_status *)
  o_cs : Z;              (* m_command_exec_status *)
  o_cb : option nat;     (* m_callback_info.m_fn_ptr: the number of the registration *)
  o_inv : bool;          (* m_callback_info.m_invoked *)
  o_thr : nat;           (* m_responsible_thread_id *)
  o_refs : list holder   (* the shared pointers; [] = destroyed *)
}.

(** A manager thread: idle, at an entry of the wait list (looking it up /
    blocked on it), inside the API function ([locked]: the context was still
    there), the three steps of [notify_task_complete], [log_end_time], the
    end of the packaged task, stopped. *)
Inductive mstate :=
| MIdle
| MWait (e : nat) (ws : list nat)
| MWaitOn (e w : nat) (ws : list nat)
| MRun (e : nat) (locked : bool)
| MNote1 (e : nat) (r : Z)
| MNote2 (e : nat) (r : Z)
| MNote3 (e : nat) (r : Z)
| MEnd (e : nat)
| MExit (e : nat)
| MStopped.

(** A user thread: not in a modelled call, in [mcWaitForEvents], in
    [mcSetUserEventStatus], joining the managers in [mcReleaseContext]. *)
Inductive ustate :=
| UIdle
| UWait (ws : list nat)
| UWaitOn (w : nat) (ws : list nat)
| USwitch (e : nat) (code : Z)
| UNote1 (e : nat) (r : Z)
| UNote2 (e : nat) (r : Z)
| UNote3 (e : nat) (r : Z)
| UJoin (c : nat).

Record est := mkS {
  s_n : nat;                        (* events created *)
  s_ev : nat -> eobj;
  s_nctx : nat;                     (* contexts created *)
  s_thr : nat -> nat;               (* manager threads of a context *)
  s_listed : nat -> bool;           (* context in g_contexts *)
  s_done : nat -> bool;             (* m_done *)
  s_queue : nat -> nat -> list nat; (* m_queues *)
  s_mgr : nat -> nat -> mstate;
  s_usr : nat -> ustate;
  s_nreg : nat;                     (* callback registrations so far *)
  s_crash : bool
}.

Definition dummy : eobj := mkE KUser false false false NO_ERROR 0 None true 0 [].

Definition est0 : est :=
  mkS 0 (fun _ => dummy) 0 (fun _ => 0) (fun _ => false) (fun _ => false)
      (fun _ _ => []) (fun _ _ => MIdle) (fun _ => UIdle) 0 false.

(** ** Updates *)

Definition upd {A} (f : nat -> A) (k : nat) (v : A) : nat -> A :=
  fun x => if x =? k then v else f x.
Definition upd2 {A} (f : nat -> nat -> A) (c i : nat) (v : A) : nat -> nat -> A :=
  fun x y => if (x =? c) && (y =? i) then v else f x y.

Definition set_ev (e : nat) (o : eobj) (s : est) : est :=
  mkS (s_n s) (upd (s_ev s) e o) (s_nctx s) (s_thr s) (s_listed s) (s_done s) (s_queue s)
      (s_mgr s) (s_usr s) (s_nreg s) (s_crash s).
Definition set_mgr (c i : nat) (m : mstate) (s : est) : est :=
  mkS (s_n s) (s_ev s) (s_nctx s) (s_thr s) (s_listed s) (s_done s) (s_queue s)
      (upd2 (s_mgr s) c i m) (s_usr s) (s_nreg s) (s_crash s).
Definition set_queue (c i : nat) (q : list nat) (s : est) : est :=
  mkS (s_n s) (s_ev s) (s_nctx s) (s_thr s) (s_listed s) (s_done s) (upd2 (s_queue s) c i q)
      (s_mgr s) (s_usr s) (s_nreg s) (s_crash s).
Definition set_usr (t : nat) (u : ustate) (s : est) : est :=
  mkS (s_n s) (s_ev s) (s_nctx s) (s_thr s) (s_listed s) (s_done s) (s_queue s)
      (s_mgr s) (upd (s_usr s) t u) (s_nreg s) (s_crash s).
Definition set_ctx (c : nat) (li dn : bool) (s : est) : est :=
  mkS (s_n s) (s_ev s) (s_nctx s) (s_thr s) (upd (s_listed s) c li) (upd (s_done s) c dn)
      (s_queue s) (s_mgr s) (s_usr s) (s_nreg s) (s_crash s).
Definition set_reg (n : nat) (s : est) : est :=
  mkS (s_n s) (s_ev s) (s_nctx s) (s_thr s) (s_listed s) (s_done s) (s_queue s)
      (s_mgr s) (s_usr s) n (s_crash s).
Definition crash (s : est) : est :=
  mkS (s_n s) (s_ev s) (s_nctx s) (s_thr s) (s_listed s) (s_done s) (s_queue s)
      (s_mgr s) (s_usr s) (s_nreg s) true.
Definition add_ev (o : eobj) (s : est) : est :=
  mkS (S (s_n s)) (upd (s_ev s) (s_n s) o) (s_nctx s) (s_thr s) (s_listed s) (s_done s)
      (s_queue s) (s_mgr s) (s_usr s) (s_nreg s) (s_crash s).

Definition o_set_ready (o : eobj) : eobj :=
  mkE (o_kind o) (o_fut o) true (o_fin o) (o_rt o) (o_cs o) (o_cb o) (o_inv o) (o_thr o) (o_refs o).
Definition o_set_fin (o : eobj) : eobj :=
  mkE (o_kind o) (o_fut o) (o_ready o) true (o_rt o) (o_cs o) (o_cb o) (o_inv o) (o_thr o) (o_refs o).
Definition o_set_rt (r : Z) (o : eobj) : eobj :=
  mkE (o_kind o) (o_fut o) (o_ready o) (o_fin o) r (o_cs o) (o_cb o) (o_inv o) (o_thr o) (o_refs o).
Definition o_set_cs (r : Z) (o : eobj) : eobj :=
  mkE (o_kind o) (o_fut o) (o_ready o) (o_fin o) (o_rt o) r (o_cb o) (o_inv o) (o_thr o) (o_refs o).
Definition o_set_cb (b : option nat) (i : bool) (o : eobj) : eobj :=
  mkE (o_kind o) (o_fut o) (o_ready o) (o_fin o) (o_rt o) (o_cs o) b i (o_thr o) (o_refs o).
Definition o_set_refs (l : list holder) (o : eobj) : eobj :=
  mkE (o_kind o) (o_fut o) (o_ready o) (o_fin o) (o_rt o) (o_cs o) (o_cb o) (o_inv o) (o_thr o) l.

Definition on_ev (e : nat) (f : eobj -> eobj) (s : est) : est := set_ev e (f (s_ev s e)) s.

(** ** Observations *)

Inductive obs :=
| OContext (c : nat) (ooo : bool)         (* a context was created *)
| OUser (e : nat)                         (* a user event was created *)
| OEnq (e c : nat) (ws : list nat)        (* a command was accepted *)
| OStart (e : nat)                        (* a command starts to execute *)
| ONoop (e : nat)                         (* ... but the context is gone: nothing is done *)
| ODone (e : nat) (r : Z)                 (* the API function of a command returned r *)
| ORan (e : nat) (r : Z)                  (* the command is complete with result r *)
| OSkip (e : nat)                         (* a command is not executed (wait list) *)
| ODrop (e : nat)                         (* a command is discarded with its context *)
| OSet (e : nat) (code : Z)               (* mcSetUserEventStatus takes effect *)
| OReg (e k : nat)                        (* mcSetEventCallback, registration k *)
| OCall (e k : nat)                       (* the callback of registration k is called *)
| ORel (e : nat)                          (* the event was released *)
| OWait (t : nat) (ws : list nat)         (* mcWaitForEvents is called *)
| OWaitRet (t : nat) (r : Z)              (* mcWaitForEvents returns *)
| OSetRet (t e : nat) (code r : Z)        (* mcSetUserEventStatus returns *)
| OJoined (t c : nat)                     (* mcReleaseContext returns *)
| OCrash.                                 (* null dereference, out of bounds, terminate *)

(** ** Shared pointers *)

(** Look up an event in [g_events] (find_first_if): is it listed? *)
Definition listed (s : est) (e : nat) : bool :=
  existsb (fun h => if holder_dec h HList then true else false) (o_refs (s_ev s e)).

Definition acquire (h : holder) (e : nat) (s : est) : est :=
  on_ev e (fun o => o_set_refs (h :: o_refs o) o) s.

(** The destructor [~event_t], frontend.h:397-406. *)
Definition destroy (e : nat) (o : eobj) : list obs :=
  match o_cb o with
  | Some k => if negb (o_inv o) && (o_rt o =? 0)%Z then [OCall e k] else []
  | None => []
  end.

(** Give up one shared pointer; the last one destroys the object. *)
Definition drop (h : holder) (e : nat) (s : est) : est * list obs :=
  let o := s_ev s e in
  let refs := remove holder_dec h (o_refs o) in
  (set_ev e (o_set_refs refs o) s,
   match o_refs o, refs with
   | _ :: _, [] => destroy e o
   | _, _ => []
   end).

(** The locked part of [notify_task_complete], frontend.h:463-468. *)
Definition notify_callback (e : nat) (s : est) : est * list obs :=
  let o := s_ev s e in
  match o_cb o with
  | Some k => if negb (o_inv o) then (set_ev e (o_set_cb (Some k) true o) s, [OCall e k]) else (s, [])
  | None => (s, [])
  end.

(** [set_callback_data], frontend.h:441-456. *)
Definition set_callback (e k : nat) (s : est) : est * list obs :=
  let o := s_ev s e in
  if o_fin o then (set_ev e (o_set_cb (Some k) true o) s, [OReg e k; OCall e k])
  else (set_ev e (o_set_cb (Some k) false o) s, [OReg e k]).

(** ** Enqueueing *)

(** The loop over the wait list, frontend.h:730-751: [None] when an entry is
    unknown, [Some None] when no command has to be followed, [Some (Some j)]
    when the first unfinished command of the list sits on thread [j]. *)
Fixpoint responsible (s : est) (ws : list nat) : option (option nat) :=
  match ws with
  | [] => Some None
  | w :: r =>
    if listed s w then
      let o := s_ev s w in
      if negb (o_fin o) && (match o_kind o with KUser => false | KCmd _ _ => true end)
      then Some (if o_fut o then Some (o_thr o) else None)   (* a rejected one: still UINT32_MAX *)
      else responsible s r
    else None
  end.

Definition new_user : eobj := mkE KUser true false false NO_ERROR SUBMITTED None true 0 [HList].
Definition new_cmd (c : nat) (ws : list nat) (fut : bool) (j : nat) : eobj :=
  mkE (KCmd c ws) fut false false NO_ERROR SUBMITTED None true j [HList].

(** [prepare_and_submit_API_task], frontend.h:692-836. *)
Definition enqueue (c : nat) (ws : list nat) (j : nat) (s : est) : option (est * list obs) :=
  if negb (s_listed s c) then Some (s, [])
  else
    let e := s_n s in
    match responsible (add_ev (new_cmd c ws false j) s) ws with
    | None => Some (add_ev (new_cmd c ws false j) s, [])
    | Some r =>
      let j' := match r with Some k => k | None => j end in
      if match r with None => s_thr s c <=? j | Some _ => false end then None
      else if s_thr s c <=? j' then Some (crash s, [OCrash])
      else Some (set_queue c j' (s_queue s c j' ++ [e]) (add_ev (new_cmd c ws true j') s),
                 [OEnq e c ws])
    end.

(** ** Steps of a manager thread *)

(** A thread of the context is inside an API function and holds the context. *)
Fixpoint some_running (s : est) (c n : nat) : bool :=
  match n with
  | O => false
  | S k => match s_mgr s c k with MRun _ true => true | _ => some_running s c k end
  end.

(** [context_weak_ptr.lock()] succeeds: frontend.cpp:672-674. *)
Definition ctx_alive (s : est) (c : nat) : bool := s_listed s c || some_running s c (s_thr s c).

(** One step of thread [i] of context [c] (other than taking a task and
    finishing the API function). *)
Definition mgr_step (c i : nat) (s : est) : option (est * list obs) :=
  match s_mgr s c i with
  | MWait e [] =>                                       (* frontend.h:799-812 *)
    match o_refs (s_ev s e) with
    | [] => Some (crash s, [OCrash])                    (* the weak pointer is dead *)
    | _ =>
      let s1 := on_ev e (o_set_cs RUNNING) (acquire (HMgr c i) e s) in
      if ctx_alive s c then Some (set_mgr c i (MRun e true) s1, [OStart e])
      else Some (set_mgr c i (MRun e false) s1, [ONoop e])
    end
  | MWait e (w :: r) =>                                 (* frontend.cpp:601-608 *)
    if listed s w then Some (set_mgr c i (MWaitOn e w r) (acquire (HMgr c i) w s), [])
    else Some (set_mgr c i (MExit e) s, [OSkip e])      (* the exception ends the task *)
  | MWaitOn e w r =>                                    (* frontend.cpp:610-620 *)
    let o := s_ev s w in
    if negb (o_fut o) then
      let '(s1, a) := drop (HMgr c i) w s in Some (set_mgr c i (MWait e r) s1, a)
    else if o_ready o then
      let '(s1, a) := drop (HMgr c i) w s in
      if (o_rt o =? NO_ERROR)%Z then Some (set_mgr c i (MWait e r) s1, a)
      else Some (set_mgr c i (MExit e) s1, a ++ [OSkip e])
    else None                                           (* blocked *)
  | MNote1 e r => Some (set_mgr c i (MNote2 e r) (on_ev e o_set_fin s), [])   (* :460 *)
  | MNote2 e r => Some (set_mgr c i (MNote3 e r) (on_ev e (o_set_rt r) s), []) (* :461 *)
  | MNote3 e r =>                                       (* frontend.h:463-468 *)
    let '(s1, a) := notify_callback e s in Some (set_mgr c i (MEnd e) s1, a ++ [ORan e r])
  | MEnd e =>                                           (* frontend.h:826, :828 *)
    let '(s1, a) := drop (HMgr c i) e (on_ev e (o_set_cs COMPLETE) s) in
    Some (set_mgr c i (MExit e) s1, a)
  | MExit e => Some (set_mgr c i MIdle (on_ev e o_set_ready s), [])
  | MIdle | MRun _ _ | MStopped => None
  end.

(** The API function returns with result [r]; without the context it does
    nothing and the result is MC_NO_ERROR (frontend.cpp:672-688).  If the
    context was released meanwhile and this thread holds the last reference,
    [~context_t] joins its own thread. *)
Definition finish (c i : nat) (r : Z) (s : est) : option (est * list obs) :=
  match s_mgr s c i with
  | MRun e true =>
    let s1 := set_mgr c i (MNote1 e r) s in
    if ctx_alive s1 c then Some (s1, [ODone e r]) else Some (crash s, [OCrash])
  | MRun e false => if (r =? NO_ERROR)%Z then Some (set_mgr c i (MNote1 e r) s, [ODone e r]) else None
  | _ => None
  end.

(** Taking the next task, [api_thread_main], frontend.h:536-551.  After
    shutdown the task taken is discarded: its promise is broken, which makes
    the future ready. *)
Definition pop (c i : nat) (s : est) : option (est * list obs) :=
  match s_mgr s c i with
  | MIdle =>
    match s_queue s c i with
    | e :: q =>
      let s1 := set_queue c i q s in
      if s_done s c then Some (set_mgr c i MStopped (on_ev e o_set_ready s1), [ODrop e])
      else Some (set_mgr c i (MWait e match o_kind (s_ev s e) with KCmd _ ws => ws | KUser => [] end) s1, [])
    | [] => if s_done s c then Some (set_mgr c i MStopped s, []) else None
    end
  | _ => None
  end.

(** ** Steps of a user thread *)

(** [mcSetUserEventStatus] begins: frontend.cpp:473-483. *)
Definition set_status (t e : nat) (code : Z) (s : est) : option (est * list obs) :=
  match s_usr s t with
  | UIdle =>
    if negb (listed s e) then Some (s, [OSetRet t e code INVALID_VALUE])
    else match o_kind (s_ev s e) with
    | KCmd _ _ => Some (crash s, [OCrash])              (* no task emulator *)
    | KUser =>
      if o_ready (s_ev s e) then Some (s, [OSetRet t e code MAX_ENUM])
      else Some (set_usr t (USwitch e code)
                   (on_ev e (fun o => o_set_ready (o_set_cs RUNNING o)) (acquire (HUsr t) e s)),
                 [OSet e code])
    end
  | _ => None
  end.

Definition is_error_code (code : Z) : bool :=
  ((code =? INVALID_OPERATION) || (code =? INVALID_VALUE) || (code =? OUT_OF_MEMORY))%Z.

Fixpoint all_stopped (s : est) (c n : nat) : bool :=
  match n with
  | O => true
  | S k => match s_mgr s c k with MStopped => all_stopped s c k | _ => false end
  end.

Fixpoint break_all (es : list nat) (s : est) : est :=
  match es with [] => s | e :: r => break_all r (on_ev e o_set_ready s) end.

(** The queues of context [c] are destroyed with the tasks still in them. *)
Fixpoint break_queues (c n : nat) (s : est) : est * list obs :=
  match n with
  | O => (s, [])
  | S k =>
    let '(s1, a) := break_queues c k (set_queue c k [] (break_all (s_queue s c k) s)) in
    (s1, map ODrop (s_queue s c k) ++ a)
  end.

Definition usr_step (t : nat) (s : est) : option (est * list obs) :=
  match s_usr s t with
  | UIdle => None
  | UWait [] => Some (set_usr t UIdle s, [OWaitRet t NO_ERROR])
  | UWait (w :: r) =>                                   (* frontend.cpp:601-608 *)
    if listed s w then Some (set_usr t (UWaitOn w r) (acquire (HUsr t) w s), [])
    else Some (set_usr t UIdle s, [OWaitRet t INVALID_VALUE])
  | UWaitOn w r =>                                      (* frontend.cpp:610-620, mcut.cpp:391-402 *)
    let o := s_ev s w in
    if negb (o_fut o) then
      let '(s1, a) := drop (HUsr t) w s in Some (set_usr t (UWait r) s1, a)
    else if o_ready o then
      let '(s1, a) := drop (HUsr t) w s in
      if (o_rt o =? NO_ERROR)%Z then Some (set_usr t (UWait r) s1, a)
      else Some (set_usr t UIdle s1, a ++ [OWaitRet t INVALID_VALUE])
    else None
  | USwitch e code =>                                   (* frontend.cpp:485-503 *)
    if (code =? COMPLETE)%Z then Some (set_usr t (UNote1 e NO_ERROR) (on_ev e (o_set_cs COMPLETE) s), [])
    else if is_error_code code then Some (set_usr t (UNote1 e code) s, [])
    else let '(s1, a) := drop (HUsr t) e s in
         Some (set_usr t UIdle s1, a ++ [OSetRet t e code INVALID_VALUE])
  | UNote1 e r => Some (set_usr t (UNote2 e r) (on_ev e o_set_fin s), [])
  | UNote2 e r => Some (set_usr t (UNote3 e r) (on_ev e (o_set_rt r) s), [])
  | UNote3 e r =>
    let '(s1, a) := notify_callback e s in
    let '(s2, b) := drop (HUsr t) e s1 in
    Some (set_usr t UIdle s2, a ++ b ++ [OSetRet t e (if (r =? NO_ERROR)%Z then COMPLETE else r) NO_ERROR])
  | UJoin c =>                                          (* frontend.h:626-632 *)
    if all_stopped s c (s_thr s c) then
      let '(s1, a) := break_queues c (s_thr s c) s in Some (set_usr t UIdle s1, a ++ [OJoined t c])
    else None
  end.

(** [mcReleaseContext]: frontend.cpp:3765-3774; the destructor runs here unless
    a manager thread holds the context. *)
Definition release_ctx (t c : nat) (s : est) : option (est * list obs) :=
  match s_usr s t with
  | UIdle =>
    if negb (s_listed s c) then Some (s, [])
    else if some_running s c (s_thr s c) then Some (set_ctx c false false s, [OJoined t c])
    else Some (set_usr t (UJoin c) (set_ctx c false true s), [])
  | _ => None
  end.

(** ** Labels *)

Inductive elabel :=
| LContext (ooo : bool)
| LUser
| LEnqueue (c : nat) (ws : list nat) (j : nat)
| LCallback (e : nat)
| LStatus (t e : nat) (code : Z)
| LWaitFor (t : nat) (ws : list nat)
| LRelease (e : nat)
| LReleaseCtx (t c : nat)
| LPop (c i : nat)
| LMgr (c i : nat)
| LFinish (c i : nat) (r : Z)
| LUsr (t : nat).

Definition estep (l : elabel) (s : est) : option (est * list obs) :=
  if s_crash s then None else
  match l with
  | LContext ooo =>                                     (* frontend.h:582-590 *)
    Some (mkS (s_n s) (s_ev s) (S (s_nctx s)) (upd (s_thr s) (s_nctx s) (if ooo then 2 else 1))
              (upd (s_listed s) (s_nctx s) true) (s_done s) (s_queue s) (s_mgr s) (s_usr s)
              (s_nreg s) (s_crash s), [OContext (s_nctx s) ooo])
  | LUser => Some (add_ev new_user s, [OUser (s_n s)])
  | LEnqueue c ws j => enqueue c ws j s
  | LCallback e =>
    if listed s e then
      let '(s1, a) := set_callback e (s_nreg s) s in Some (set_reg (S (s_nreg s)) s1, a)
    else Some (s, [])
  | LStatus t e code => set_status t e code s
  | LWaitFor t ws =>
    match s_usr s t with UIdle => Some (set_usr t (UWait ws) s, [OWait t ws]) | _ => None end
  | LRelease e => if listed s e then let '(s1, a) := drop HList e s in Some (s1, ORel e :: a) else Some (s, [])
  | LReleaseCtx t c => release_ctx t c s
  | LPop c i => if i <? s_thr s c then pop c i s else None
  | LMgr c i => mgr_step c i s
  | LFinish c i r => finish c i r s
  | LUsr t => usr_step t s
  end.

Fixpoint erun (ls : list elabel) (s : est) : option (est * list obs) :=
  match ls with
  | [] => Some (s, [])
  | l :: r =>
    match estep l s with
    | None => None
    | Some (s1, a) =>
      match erun r s1 with
      | None => None
      | Some (s2, b) => Some (s2, a ++ b)
      end
    end
  end.
