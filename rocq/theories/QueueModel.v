(** Model of [thread_safe_queue] (include/mcut/internal/tpool.h:98-226): a linked list
    with a dummy node, a mutex for the head and one for the tail, and a condition variable.
    Any number of threads (numbered by [nat]) call [push], [try_pop], [wait_and_pop],
    [empty] and the shutdown sequence [m_done.store(true); disrupt_wait_for_data()]
    concurrently.  One transition is one access to shared memory or one operation on a
    mutex / the condition variable; memory is sequentially consistent.  Dereferencing a
    destroyed node, a null [next] or an already moved-out datum leads to [bad = true]. *)
From Coq Require Import List Arith Bool.
Import ListNotations.

Section Queue.
Variable V : Type.   (* the payload; generalised when the section is closed *)

(** Which member function a popping thread is executing:
    [try_pop] (l. 215-219), [wait_and_pop] (l. 210-213), [empty] (l. 221-225). *)
Inductive mode := MTry | MWait | MEmpty.

(** Program counters; the comments give the next action. *)
Inductive pc :=
| Idle
(* push, l. 196-208 *)
| PushLock (n : nat) (v : V)     (* l. 201: lock tail_mutex; [n] = new node (l. 199) *)
| PushData (n : nat) (v : V)     (* l. 202: tail->data = new_data *)
| PushNext (n : nat) (v : V)     (* l. 204: tail->next = p *)
| PushTail (n : nat) (v : V)     (* l. 205: tail = new_tail *)
| PushUnlock                     (* l. 206: unlock tail_mutex *)
| PushNotify                     (* l. 207: data_cond.notify_one() *)
(* try_pop_head l. 115-123, wait_pop_head l. 155-164, empty l. 221-225 *)
| HLock (m : mode)               (* lock head_mutex *)
| WDone                          (* l. 150, predicate of wait: m_done->load() *)
| GTLock (m : mode)              (* get_tail l. 127: lock tail_mutex *)
| GTRead (m : mode)              (* l. 128: read tail *)
| GTUnlock (m : mode) (tl : nat) (* unlock tail_mutex *)
| Cmp (m : mode) (tl : nat)      (* compare head.get() with the tail read *)
| WSleep                         (* predicate false: about to block, head_mutex held *)
| Asleep                         (* blocked in data_cond.wait, head_mutex released *)
| Woken                          (* notified; must re-acquire head_mutex *)
| WDone2                         (* l. 158: m_done->load() == false ? *)
| Move (m : mode)                (* l. 121/159: value = std::move( *head->data) *)
| PopHead (m : mode) (v : V)     (* l. 132-137: head = head->next *)
| HUnlock (m : mode) (r : option V) (old : option nat)  (* unlock head_mutex *)
| Dtor (m : mode) (r : option V) (old : option nat)     (* destroy old_head, return *)
| EUnlock (b : bool)             (* empty: unlock head_mutex *)
| ERet (b : bool)                (* empty: return [b] *)
(* ~thread_pool / ~context_t: m_done.store(true) done; l. 187-188 *)
| DisLock | DisNotify | DisUnlock.

Inductive label :=
| LCallPush (t : nat) (v : V)
| LPushed (t : nat) (v : V)      (* the element is in the queue *)
| LPushRet (t : nat) (woken : option nat)
| LCallPop (t : nat) (m : mode)
| LPopped (t : nat) (v : V)      (* the element has left the queue *)
| LRet (t : nat) (m : mode) (r : option V)   (* try_pop / wait_and_pop returns *)
| LRetEmpty (t : nat) (b : bool)             (* empty returns *)
| LSleep (t : nat)
| LSpurious (t : nat)
| LSetDone (t : nat)
| LDisrupted (t : nat) (woken : option nat)
| LTau (t : nat).

Record state := St {
  head : nat; tail : nat;
  qdata : nat -> option V;       (* node::data (None: empty or moved out) *)
  qnext : nat -> option nat;     (* node::next *)
  alive : nat -> bool; fresh : nat;
  hm : option nat; tm : option nat;   (* owners of head_mutex / tail_mutex *)
  done : bool;
  pcs : nat -> pc;
  bad : bool }.

Definition upd {A} (f : nat -> A) (k : nat) (x : A) : nat -> A :=
  fun i => if Nat.eqb i k then x else f i.

(** l. 167-171: constructor, one dummy node *)
Definition init : state :=
  St 0 0 (fun _ => None) (fun _ => None) (fun n => Nat.eqb n 0) 1 None None false
     (fun _ => Idle) false.

Definition set_pc (s : state) (t : nat) (p : pc) : state :=
  St (head s) (tail s) (qdata s) (qnext s) (alive s) (fresh s) (hm s) (tm s) (done s)
     (upd (pcs s) t p) (bad s).
Definition set_hm (s : state) (o : option nat) : state :=
  St (head s) (tail s) (qdata s) (qnext s) (alive s) (fresh s) o (tm s) (done s) (pcs s) (bad s).
Definition set_tm (s : state) (o : option nat) : state :=
  St (head s) (tail s) (qdata s) (qnext s) (alive s) (fresh s) (hm s) o (done s) (pcs s) (bad s).
Definition set_data (s : state) (n : nat) (d : option V) : state :=
  St (head s) (tail s) (upd (qdata s) n d) (qnext s) (alive s) (fresh s) (hm s) (tm s) (done s) (pcs s) (bad s).
Definition set_next (s : state) (n : nat) (d : option nat) : state :=
  St (head s) (tail s) (qdata s) (upd (qnext s) n d) (alive s) (fresh s) (hm s) (tm s) (done s) (pcs s) (bad s).
Definition set_tail (s : state) (n : nat) : state :=
  St (head s) n (qdata s) (qnext s) (alive s) (fresh s) (hm s) (tm s) (done s) (pcs s) (bad s).
Definition set_head (s : state) (n : nat) : state :=
  St n (tail s) (qdata s) (qnext s) (alive s) (fresh s) (hm s) (tm s) (done s) (pcs s) (bad s).
Definition set_done (s : state) : state :=
  St (head s) (tail s) (qdata s) (qnext s) (alive s) (fresh s) (hm s) (tm s) true (pcs s) (bad s).
Definition set_bad (s : state) : state :=
  St (head s) (tail s) (qdata s) (qnext s) (alive s) (fresh s) (hm s) (tm s) (done s) (pcs s) true.
(** [new node]: empty data, null next *)
Definition new_node (s : state) : state :=
  St (head s) (tail s) (upd (qdata s) (fresh s) None) (upd (qnext s) (fresh s) None)
     (upd (alive s) (fresh s) true) (S (fresh s)) (hm s) (tm s) (done s) (pcs s) (bad s).
Definition free_node (s : state) (n : nat) : state :=
  St (head s) (tail s) (qdata s) (qnext s) (upd (alive s) n false) (fresh s) (hm s) (tm s) (done s) (pcs s) (bad s).

(** What the comparison at [Cmp] leads to: l. 118-119 / 150 / 224. *)
Definition after_cmp (m : mode) (equal : bool) : pc :=
  match m with
  | MTry => if equal then HUnlock MTry None None else Move MTry
  | MWait => if equal then WSleep else WDone2
  | MEmpty => EUnlock equal
  end.

Inductive step (s : state) : label -> state -> Prop :=
(* push *)
| s_call_push t v : pcs s t = Idle ->
    step s (LCallPush t v) (set_pc (new_node s) t (PushLock (fresh s) v))
| s_push_lock t n v : pcs s t = PushLock n v -> tm s = None ->
    step s (LTau t) (set_pc (set_tm s (Some t)) t (PushData n v))
| s_push_data t n v : pcs s t = PushData n v -> alive s (tail s) = true ->
    step s (LTau t) (set_pc (set_data s (tail s) (Some v)) t (PushNext n v))
| s_push_data_bad t n v : pcs s t = PushData n v -> alive s (tail s) = false ->
    step s (LTau t) (set_bad s)
| s_push_next t n v : pcs s t = PushNext n v -> alive s (tail s) = true ->
    step s (LTau t) (set_pc (set_next s (tail s) (Some n)) t (PushTail n v))
| s_push_next_bad t n v : pcs s t = PushNext n v -> alive s (tail s) = false ->
    step s (LTau t) (set_bad s)
| s_push_tail t n v : pcs s t = PushTail n v ->
    step s (LPushed t v) (set_pc (set_tail s n) t PushUnlock)
| s_push_unlock t : pcs s t = PushUnlock ->
    step s (LTau t) (set_pc (set_tm s None) t PushNotify)
| s_push_notify t w : pcs s t = PushNotify -> pcs s w = Asleep ->
    step s (LPushRet t (Some w)) (set_pc (set_pc s t Idle) w Woken)
| s_push_notify_none t : pcs s t = PushNotify -> (forall w, pcs s w <> Asleep) ->
    step s (LPushRet t None) (set_pc s t Idle)
(* pops *)
| s_call_pop t m : pcs s t = Idle ->
    step s (LCallPop t m) (set_pc s t (HLock m))
| s_head_lock t m : pcs s t = HLock m -> hm s = None ->
    step s (LTau t) (set_pc (set_hm s (Some t)) t
                            (match m with MWait => WDone | _ => GTLock m end))
| s_wait_done t : pcs s t = WDone ->
    step s (LTau t) (set_pc s t (if done s then WDone2 else GTLock MWait))
| s_gt_lock t m : pcs s t = GTLock m -> tm s = None ->
    step s (LTau t) (set_pc (set_tm s (Some t)) t (GTRead m))
| s_gt_read t m : pcs s t = GTRead m ->
    step s (LTau t) (set_pc s t (GTUnlock m (tail s)))
| s_gt_unlock t m tl : pcs s t = GTUnlock m tl ->
    step s (LTau t) (set_pc (set_tm s None) t (Cmp m tl))
| s_cmp t m tl : pcs s t = Cmp m tl ->
    step s (LTau t) (set_pc s t (after_cmp m (Nat.eqb (head s) tl)))
| s_sleep t : pcs s t = WSleep ->
    step s (LSleep t) (set_pc (set_hm s None) t Asleep)
| s_spurious t : pcs s t = Asleep ->
    step s (LSpurious t) (set_pc s t Woken)
| s_rewake t : pcs s t = Woken -> hm s = None ->
    step s (LTau t) (set_pc (set_hm s (Some t)) t WDone)
| s_wait_done2 t : pcs s t = WDone2 ->
    step s (LTau t) (set_pc s t (if done s then HUnlock MWait None None else Move MWait))
| s_move t m v : pcs s t = Move m -> alive s (head s) = true -> qdata s (head s) = Some v ->
    step s (LTau t) (set_pc (set_data s (head s) None) t (PopHead m v))
| s_move_bad t m : pcs s t = Move m -> alive s (head s) = false \/ qdata s (head s) = None ->
    step s (LTau t) (set_bad s)
| s_pop_head t m v n : pcs s t = PopHead m v -> alive s (head s) = true -> qnext s (head s) = Some n ->
    step s (LPopped t v) (set_pc (set_head s n) t (HUnlock m (Some v) (Some (head s))))
| s_pop_head_bad t m v : pcs s t = PopHead m v -> alive s (head s) = false \/ qnext s (head s) = None ->
    step s (LTau t) (set_bad s)
| s_head_unlock t m r old : pcs s t = HUnlock m r old ->
    step s (LTau t) (set_pc (set_hm s None) t (Dtor m r old))
| s_ret t m r : pcs s t = Dtor m r None ->
    step s (LRet t m r) (set_pc s t Idle)
| s_ret_free t m r n : pcs s t = Dtor m r (Some n) -> alive s n = true ->
    step s (LRet t m r) (set_pc (free_node s n) t Idle)
| s_ret_free_bad t m r n : pcs s t = Dtor m r (Some n) -> alive s n = false ->
    step s (LTau t) (set_bad s)
| s_empty_unlock t b : pcs s t = EUnlock b ->
    step s (LTau t) (set_pc (set_hm s None) t (ERet b))
| s_empty_ret t b : pcs s t = ERet b ->
    step s (LRetEmpty t b) (set_pc s t Idle)
(* shutdown *)
| s_set_done t : pcs s t = Idle ->
    step s (LSetDone t) (set_pc (set_done s) t DisLock)
| s_dis_lock t : pcs s t = DisLock -> hm s = None ->
    step s (LTau t) (set_pc (set_hm s (Some t)) t DisNotify)
| s_dis_notify t w : pcs s t = DisNotify -> pcs s w = Asleep ->
    step s (LDisrupted t (Some w)) (set_pc (set_pc s t DisUnlock) w Woken)
| s_dis_notify_none t : pcs s t = DisNotify -> (forall w, pcs s w <> Asleep) ->
    step s (LDisrupted t None) (set_pc s t DisUnlock)
| s_dis_unlock t : pcs s t = DisUnlock ->
    step s (LTau t) (set_pc (set_hm s None) t Idle).

(** Executions from the initial state, with their labels (oldest first). *)
Inductive run : list label -> state -> Prop :=
| run_nil : run [] init
| run_snoc tr s l s' : run tr s -> step s l s' -> run (tr ++ [l]) s'.

End Queue.

Arguments Idle {V}. Arguments PushLock {V}. Arguments PushData {V}. Arguments PushNext {V}.
Arguments PushTail {V}. Arguments PushUnlock {V}. Arguments PushNotify {V}. Arguments HLock {V}.
Arguments WDone {V}. Arguments GTLock {V}. Arguments GTRead {V}. Arguments GTUnlock {V}.
Arguments Cmp {V}. Arguments WSleep {V}. Arguments Asleep {V}. Arguments Woken {V}.
Arguments WDone2 {V}. Arguments Move {V}. Arguments PopHead {V}. Arguments HUnlock {V}.
Arguments Dtor {V}. Arguments EUnlock {V}. Arguments ERet {V}. Arguments LRetEmpty {V}. Arguments DisLock {V}. Arguments DisNotify {V}. Arguments DisUnlock {V}.
Arguments LCallPush {V}. Arguments LPushed {V}. Arguments LPushRet {V}. Arguments LCallPop {V}.
Arguments LPopped {V}. Arguments LRet {V}. Arguments LSleep {V}. Arguments LSpurious {V}.
Arguments LSetDone {V}. Arguments LDisrupted {V}. Arguments LTau {V}.
Arguments St {V}. Arguments head {V}. Arguments tail {V}. Arguments qdata {V}. Arguments qnext {V}.
Arguments alive {V}. Arguments fresh {V}. Arguments hm {V}. Arguments tm {V}. Arguments done {V}.
Arguments pcs {V}. Arguments bad {V}. Arguments init {V}. Arguments step {V}. Arguments run {V}.
Arguments set_pc {V}. Arguments set_hm {V}. Arguments set_tm {V}. Arguments set_data {V}.
Arguments set_next {V}. Arguments set_tail {V}. Arguments set_head {V}. Arguments set_done {V}.
Arguments set_bad {V}. Arguments new_node {V}. Arguments free_node {V}. Arguments after_cmp {V}.
