(** * What a user sees of events and commands: notions over the observations *)

From Coq Require Import ZArith List Bool Arith.
From Verif Require Import EventModel.
Import ListNotations.

(** A schedule of the library from the start of the process, with everything
    observed. *)
Definition schedule (ls : list elabel) (s : est) (obs : list obs) : Prop :=
  erun ls est0 = Some (s, obs).

(** Command [e] of context [c] with wait list [ws] was accepted. *)
Definition accepted (h : list obs) (e c : nat) (ws : list nat) : Prop := In (OEnq e c ws) h.

(** The command is over: it ran to completion, was skipped because of its wait
    list, or was discarded with its context. *)
Definition over (h : list obs) (e : nat) : Prop :=
  (exists r, In (ORan e r) h) \/ In (OSkip e) h \/ In (ODrop e) h.

(** How often the callback of registration [k] on event [e] was called. *)
Definition calls (h : list obs) (e k : nat) : nat :=
  length (filter (fun o => match o with
                           | OCall e' k' => (e' =? e) && (k' =? k)
                           | _ => false
                           end) h).

(** [k] is the last registration on [e]. *)
Definition last_registration (h : list obs) (e k : nat) : Prop :=
  In (OReg e k) h /\ forall k', In (OReg e k') h -> k' <= k.

(** The life of command [e]: what is observed of it after it was accepted. *)
Definition fate (e : nat) (o : obs) : bool :=
  match o with
  | OStart x | ONoop x | ODone x _ | ORan x _ | OSkip x | ODrop x => x =? e
  | _ => false
  end.
Definition fates (h : list obs) (e : nat) : list obs := filter (fate e) h.

(** Event [w] failed: its command completed with an error, or the user set it
    to one of the three error codes. *)
Definition error_code (code : Z) : Prop :=
  code = INVALID_OPERATION \/ code = INVALID_VALUE \/ code = OUT_OF_MEMORY.
Definition failed (h : list obs) (w : nat) : Prop :=
  (exists r, In (ORan w r) h /\ r <> NO_ERROR) \/ (exists code, In (OSet w code) h /\ error_code code).

(** Event [w] is not a valid event: it was released, or never handed out. *)
Definition invalid (h : list obs) (w : nat) : Prop :=
  In (ORel w) h \/ (~ In (OUser w) h /\ forall c ws, ~ In (OEnq w c ws) h).
