(** * What a user of the API can expect: notions defined from the history alone

    A history is the list of calls made (and of steps of running commands) with
    what each returned.  Everything here is computed from that list, without
    reference to the library's tables. *)

From Coq Require Import ZArith List Bool.
From Verif Require Import ApiModel.
Import ListNotations.
Local Open Scope Z_scope.

Definition trace := list (label * out).

Definition succeeded (o : out) : bool := o_res o =? MC_NO_ERROR.

Definition returned (o : out) (h : Z) : bool :=
  match o_handle o with Some k => k =? h | None => false end.

(** The objects created in a history, in the order of creation. *)
Definition created (t : trace) : list Z := flat_map (fun x => o_made (snd x)) t.

(** ** Live objects *)

(** The live contexts: created and not released, newest first. *)
Definition contexts_after (L : list Z) (x : label * out) : list Z :=
  match x with
  | (LCreateContext _ _, o) => o_made o ++ L
  | (LReleaseContext h _, o) => if succeeded o then remove Z.eq_dec h L else L
  | _ => L
  end.

Definition live_contexts (t : trace) : list Z := fold_left contexts_after t [].

(** Remove the listed members up to the first entry that is not a member. *)
Fixpoint drop_listed (es S : list Z) : list Z :=
  match es with
  | [] => S
  | e :: r => if in_dec Z.eq_dec e S then drop_listed r (remove Z.eq_dec e S) else S
  end.

(** The live events. *)
Definition events_after (L : list Z) (x : label * out) : list Z :=
  match x with
  | (LCreateUserEvent _ _ _, o)
  | (LEnqueueDispatch _ _ _ _ _ _, o)
  | (LEnqueuePlanar _ _ _ _ _ _ _ _ _, o)
  | (LEnqueueGetCCs _ _ _ _ _ _ _ _, o)
  | (LEnqueueData _ _ _ _ _ _ _ _ _, o) => o_made o ++ L
  | (LReleaseEvents n (Some es), _) =>
      if n =? 0 then L else drop_listed (firstn (Z.to_nat n) es) L
  | _ => L
  end.

Definition live_events (t : trace) : list Z := fold_left events_after t [].

(** A component as the user knows it: handle, type, data. *)
Definition comp := (Z * Z * Z)%type.
Definition comp_handle (c : comp) : Z := fst (fst c).
Definition comp_type (c : comp) : Z := snd (fst c).

Definition without (h : Z) (L : list comp) : list comp :=
  filter (fun c => negb (comp_handle c =? h)) L.

Fixpoint drop_comps (ids : list Z) (L : list comp) : list comp :=
  match ids with
  | [] => L
  | i :: r => if existsb (fun c => comp_handle c =? i) L
              then drop_comps r (without i L) else L
  end.

(** The components of context [h], newest first: those produced by its
    dispatches and not released. *)
Definition components_after (h : Z) (L : list comp) (x : label * out) : list comp :=
  match x with
  | (LCreateContext _ _, o) => if returned o h then [] else L
  | (LRunNewCC h' ty d, o) =>
      if h' =? h then map (fun k => (k, ty, d)) (o_made o) ++ L else L
  | (LReleaseCCs h' n None, o) =>
      if (h' =? h) && succeeded o then [] else L
  | (LReleaseCCs h' n (Some ids), o) =>
      if h' =? h then
        if (1 <=? n) && (n <? 2 ^ 31) then drop_comps (firstn (Z.to_nat n) ids) L else L
      else L
  | _ => L
  end.

Definition components (t : trace) (h : Z) : list comp := fold_left (components_after h) t [].

(** ** Bound state *)

Definition default_bytes (item : Z) : list Z :=
  if item =? INFO_CONST then le_bytes 8 DEFAULT_CONST        (* 1e-4 *)
  else if item =? INFO_ATTEMPTS then le_bytes 4 4
  else le_bytes 4 WINDING_AS_GIVEN.

Definition item_size (item : Z) : Z := if item =? INFO_CONST then 8 else 4.

(** The bytes last bound to [item] of context [h]. *)
Definition bound_after (h item : Z) (v : list Z) (x : label * out) : list Z :=
  match x with
  | (LCreateContext _ _, o) => if returned o h then default_bytes item else v
  | (LBindState h' i n (Some d), o) =>
      if (h' =? h) && (i =? item) && succeeded o then firstn (Z.to_nat n) d else v
  | _ => v
  end.

Definition bound (t : trace) (h item : Z) : list Z :=
  fold_left (bound_after h item) t (default_bytes item).

(** ** Debug filters *)

(** Which parameter of mcDebugMessageControl is meant. *)
Inductive filter_kind := FSource | FType | FSeverity.

Definition picked (k : filter_kind) (src typ sev : Z) : Z :=
  match k with FSource => src | FType => typ | FSeverity => sev end.

(** Whether [bit] is enabled in the [k]-filter of context [h]: what the last
    successful control call that selected the bit said. *)
Definition enabled_after (k : filter_kind) (h bit : Z) (b : bool) (x : label * out) : bool :=
  match x with
  | (LCreateContext _ _, o) => if returned o h then false else b
  | (LDebugControl h' src typ sev en, o) =>
      if (h' =? h) && succeeded o && negb (Z.land (picked k src typ sev) bit =? 0) then en else b
  | _ => b
  end.

Definition enabled (k : filter_kind) (t : trace) (h bit : Z) : bool :=
  fold_left (enabled_after k h bit) t false.

(** Whether a callback was registered on context [h]. *)
Definition callback_after (h : Z) (b : bool) (x : label * out) : bool :=
  match x with
  | (LCreateContext _ _, o) => if returned o h then false else b
  | (LDebugCallback h' _, o) => if (h' =? h) && succeeded o then true else b
  | _ => b
  end.

Definition callback_set (t : trace) (h : Z) : bool := fold_left (callback_after h) t false.

(** The creation flags of context [h]. *)
Definition flags_after (h : Z) (f : Z) (x : label * out) : Z :=
  match x with
  | (LCreateContext _ fl, o) => if returned o h then fl else f
  | _ => f
  end.

Definition flags_of (t : trace) (h : Z) : Z := fold_left (flags_after h) t 0.

(** ** Naming an object in a call *)

Definition listed (h : Z) (n : Z) (l : option (list Z)) : Prop :=
  match l with Some es => In h (firstn (Z.to_nat n) es) | None => False end.

(** The call names [h] as its context. *)
Definition names_context (l : label) (h : Z) : Prop :=
  match l with
  | LReleaseContext k _ | LDebugCallback k _ | LDebugLog k _ _ _ _ | LDebugControl k _ _ _ _
  | LGetInfo k _ _ _ _ | LBindState k _ _ _ | LCreateUserEvent _ k _
  | LEnqueueDispatch k _ _ _ _ _ | LEnqueuePlanar k _ _ _ _ _ _ _ _
  | LEnqueueGetCCs k _ _ _ _ _ _ _ | LEnqueueData k _ _ _ _ _ _ _ _
  | LReleaseCCs k _ _ => k = h
  | _ => False
  end.

(** The call names [e] as an event it works on (not in a wait list). *)
Definition names_event (l : label) (e : Z) : Prop :=
  match l with
  | LGetEventInfo k _ _ _ _ | LSetEventCallback k _ => k = e
  | LReleaseEvents n es => listed e n es
  | _ => False
  end.

(** The call names [e] in its wait list. *)
Definition waits_for (l : label) (e : Z) : Prop :=
  match l with
  | LEnqueueDispatch _ _ n ws _ _ | LEnqueuePlanar _ _ _ _ _ n ws _ _
  | LEnqueueGetCCs _ _ _ _ n ws _ _ | LEnqueueData _ _ _ _ _ n ws _ _ => listed e n ws
  | _ => False
  end.

(** Nothing is returned through the output pointers. *)
Definition no_output (o : out) : Prop :=
  o_handle o = None /\ o_num o = None /\ o_mem o = [] /\ o_msgs o = [] /\ o_crash o = false.

(** Sizes of the C types: [uint32_t] array sizes and [unsigned char] memory. *)
Definition wf_label (l : label) : Prop :=
  match l with
  | LReleaseCCs _ n _ => 0 <= n < 2 ^ 32
  | LBindState _ _ n (Some d) =>
      Forall (fun b => 0 <= b < 256) d /\ 0 <= n <= Z.of_nat (length d)
  | _ => True
  end.

(** A history of the library from the start of the process; fewer than
    [2^64 - 0xDECAF] calls, so that the 64-bit object counter does not wrap. *)
Definition history (fmt : Z -> Z -> list Z) (ls : list label) (s : gs) (t : trace) : Prop :=
  exec fmt ls gs0 = (s, t) /\ Forall wf_label ls /\
  912559 + Z.of_nat (length ls) < 2 ^ 64.
