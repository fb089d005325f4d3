(** * Properties C53-C55: event queries, buffers of info queries, section offset *)

From Coq Require Import ZArith List Bool Lia.
From Verif Require Import ApiModel ApiSpec ApiProofs ApiInv ApiProps ApiProps2.
Import ListNotations.
Local Open Scope Z_scope.

Local Opaque control_bits.

(** ** Specification: what the history says about an event *)

(** The command an event-creating call stands for, and the context it names. *)
Definition cmd_of (l : label) : Z :=
  match l with
  | LCreateUserEvent _ _ _ => CMD_USER
  | LEnqueueDispatch _ _ _ _ _ _ | LEnqueuePlanar _ _ _ _ _ _ _ _ _ => CMD_DISPATCH
  | LEnqueueGetCCs _ _ _ _ _ _ _ _ => CMD_GET_CCS
  | LEnqueueData _ _ _ _ _ _ _ _ _ => CMD_GET_CC_DATA
  | _ => 0
  end.

Definition context_of (l : label) : Z :=
  match l with
  | LCreateUserEvent _ h _ => h
  | LEnqueueDispatch h _ _ _ _ _ | LEnqueuePlanar h _ _ _ _ _ _ _ _ => h
  | LEnqueueGetCCs h _ _ _ _ _ _ _ => h
  | LEnqueueData h _ _ _ _ _ _ _ _ => h
  | _ => 0
  end.

Definition mem_z (e : Z) (l : list Z) : bool := existsb (Z.eqb e) l.

(** Submitted when the event is made, running when its command starts,
    complete when it ends. *)
Definition status_after (e : Z) (v : Z) (x : label * out) : Z :=
  if mem_z e (o_made (snd x)) then ST_SUBMITTED
  else match fst x with
       | LRunStart k _ => if k =? e then ST_RUNNING else v
       | LRunEnd k _ => if k =? e then ST_COMPLETE else v
       | _ => v
       end.
Definition event_status (t : trace) (e : Z) : Z := fold_left (status_after e) t 0.

(** The result the command ended with, MC_NO_ERROR before. *)
Definition result_after (e : Z) (v : Z) (x : label * out) : Z :=
  if mem_z e (o_made (snd x)) then MC_NO_ERROR
  else match fst x with
       | LRunNotify k r => if k =? e then r else v
       | _ => v
       end.
Definition event_result (t : trace) (e : Z) : Z := fold_left (result_after e) t MC_NO_ERROR.

(** ** Proofs *)

Lemma status_snoc t x e : event_status (t ++ [x]) e = status_after e (event_status t e) x.
Proof. unfold event_status. now rewrite fold_left_app. Qed.
Lemma result_snoc t x e : event_result (t ++ [x]) e = result_after e (event_result t e) x.
Proof. unfold event_result. now rewrite fold_left_app. Qed.

Definition ev_new (l : label) (o : out) (x : ev) : Prop :=
  makes_event l /\ o_made o = [e_handle x] /\ e_cmd x = cmd_of l /\
  e_ctx x = (if cmd_of l =? CMD_USER then context_of l else MC_NULL_HANDLE) /\
  e_cs x = ST_SUBMITTED /\ e_rt x = MC_NO_ERROR /\ e_fin x = false.

Definition ev_follows (l : label) (x x' : ev) : Prop :=
  e_handle x' = e_handle x /\ e_cmd x' = e_cmd x /\ e_ctx x' = e_ctx x /\
  e_cs x' = match l with
            | LRunStart k _ => if k =? e_handle x then ST_RUNNING else e_cs x
            | LRunEnd k _ => if k =? e_handle x then ST_COMPLETE else e_cs x
            | _ => e_cs x
            end /\
  e_rt x' = match l with
            | LRunNotify k r => if k =? e_handle x then r else e_rt x
            | _ => e_rt x
            end.

Lemma ev_same l x :
  match l with LRunStart _ _ | LRunEnd _ _ | LRunNotify _ _ => False | _ => True end ->
  ev_follows l x x.
Proof. intro H. unfold ev_follows. destruct l; try destruct H; repeat split. Qed.

Lemma in_upd_ev h f l x :
  NoDup (map e_handle l) -> In x (upd_ev h f l) ->
  (In x l /\ e_handle x <> h) \/ (exists y, In y l /\ e_handle y = h /\ x = f y).
Proof.
  induction l as [|c r IH]; cbn; intros ND H; [tauto|].
  inversion ND as [|? ? Hn ND']; subst.
  destruct (Z.eqb_spec (e_handle c) h) as [E|E].
  - cbn in H. destruct H as [H|H].
    + right. exists c. auto.
    + left. split; [auto|]. intro E'. apply Hn. rewrite E, <- E'. now apply in_map.
  - cbn in H. destruct H as [H|H].
    + left. subst x. auto.
    + destruct (IH ND' H) as [[A B]|(c0 & A & B & C)]; [left; auto|].
      right. exists c0. auto.
Qed.

Lemma release_events_sub es s x :
  In x (g_evs (fst (release_events_impl es s))) -> In x (g_evs s).
Proof.
  revert s. induction es as [|e r IH]; intro s; [auto|].
  cbn. unfold release_event_impl. destruct (find_ev e (g_evs s)); [|auto].
  intro H. apply IH in H. cbn in H. apply filter_In in H. tauto.
Qed.

Lemma enqueue_evs h cmd ws now s s' o x :
  catch (enqueue_impl h cmd ws now s) = (s', o) -> In x (g_evs s') ->
  In x (g_evs s) \/
  (o_made o = [e_handle x] /\ e_cmd x = cmd /\ e_ctx x = MC_NULL_HANDLE /\
   e_cs x = ST_SUBMITTED /\ e_rt x = MC_NO_ERROR /\ e_fin x = false).
Proof.
  unfold enqueue_impl, prepare_and_submit. destruct (find_ctx h (g_ctxs s)) as [c|].
  - cbn -[Z.pow check_waitlist]. intro E.
    assert (exists y, g_evs s' = y :: g_evs s /\ o_made o = [e_handle y] /\ e_cmd y = cmd /\
              e_ctx y = MC_NULL_HANDLE /\ e_cs y = ST_SUBMITTED /\ e_rt y = MC_NO_ERROR /\ e_fin y = false)
      as (y & A & B).
    { destruct (check_waitlist _ _); injection E as <- <-; cbn; eexists; split; reflexivity || auto 10. }
    rewrite A. intros [<-|H]; auto.
  - intro E. injection E as <- <-. auto.
Qed.

Lemma step_evs fmt l s s' o x :
  step fmt l s = (s', o) -> NoDup (map e_handle (g_evs s)) -> In x (g_evs s') ->
  ev_new l o x \/ exists y, In y (g_evs s) /\ ev_follows l y x.
Proof.
  intros E ND Hx.
  assert (g_evs s' = g_evs s ->
          match l with LRunStart _ _ | LRunEnd _ _ | LRunNotify _ _ => False | _ => True end ->
          ev_new l o x \/ exists y, In y (g_evs s) /\ ev_follows l y x) as Hk.
  { intros Es Hl. right. rewrite Es in Hx. exists x. split; [exact Hx|]. now apply ev_same. }
  destruct l; cbn [step] in E.
  - unfold mcCreateContext, create_context_impl in E. apply Hk; [|exact I].
    destruct ptr; cbn -[Z.pow] in E; injection E as <- _; [destruct (g_init s)|]; reflexivity.
  - apply Hk; [|exact I]. unfold mcReleaseContext, release_context_impl in E.
    if_all E; [|destruct (find_ctx h (g_ctxs s))]; injection E as <- _; reflexivity.
  - apply Hk; [|exact I]. unfold mcDebugMessageCallback, debug_message_callback_impl in E.
    if_all E; try (injection E as <- _; reflexivity).
    destruct (find_ctx h (g_ctxs s)); injection E as <- _; reflexivity.
  - apply Hk; [|exact I]. unfold mcGetDebugMessageLog, get_debug_message_log_impl in E.
    if_all E; try (injection E as <- _; reflexivity).
    destruct (find_ctx h (g_ctxs s)); [|injection E as <- _; reflexivity].
    destruct (negb log_ptr); [destruct (dbg_cb _ _)|destruct (fetch_log _ _ _ _)];
      injection E as <- _; reflexivity.
  - apply Hk; [|exact I]. unfold mcDebugMessageControl, debug_message_control_impl in E.
    if_all E; try (injection E as <- _; reflexivity).
    destruct (find_ctx h (g_ctxs s)); injection E as <- _; reflexivity.
  - apply Hk; [|exact I]. unfold mcGetInfo, get_info_impl in E.
    if_all E; try (injection E as <- _; reflexivity).
    destruct (find_ctx h (g_ctxs s)); [|injection E as <- _; reflexivity].
    cbn [catch] in E. destruct (info_of _ _ _ _ _) as [[? ?]|]; injection E as <- _; reflexivity.
  - apply Hk; [|exact I]. unfold mcBindState, bind_state_impl in E.
    destruct mem; if_all E; try (injection E as <- _; reflexivity).
    destruct (find_ctx h (g_ctxs s)); [|injection E as <- _; reflexivity].
    unfold bind_item in E.
    repeat match type of E with
    | context [if ?b then _ else _] => destruct b
    end; cbn -[dbg_cb] in E; try (injection E as <- _; reflexivity);
      destruct (dbg_cb _ _); cbn in E; injection E as <- _; reflexivity.
  - unfold mcCreateUserEvent, create_user_event_impl in E.
    if_all E; try (apply Hk; [injection E as <- _; reflexivity|exact I]).
    destruct (find_ctx h (g_ctxs s)); [|apply Hk; [injection E as <- _; reflexivity|exact I]].
    cbn -[Z.pow] in E. injection E as <- <-. cbn in Hx. destruct Hx as [<-|Hx].
    + left. unfold ev_new. cbn. repeat split.
    + right. exists x. split; [exact Hx|]. now apply ev_same.
  - apply Hk; [|exact I]. unfold mcGetEventInfo, get_event_info_impl in E.
    if_all E; try (injection E as <- _; reflexivity).
    destruct (find_ev e (g_evs s)); cbn [catch] in E; [|injection E as <- _; reflexivity].
    destruct (ev_info_of _ _ _ _ _) as [[? ?]|]; injection E as <- _; reflexivity.
  - apply Hk; [|exact I]. unfold mcSetEventCallback in E.
    destruct (find_ev e (g_evs s)); if_all E; injection E as <- _; reflexivity.
  - unfold mcReleaseEvents in E.
    destruct es as [es|]; if_all E; try (apply Hk; [injection E as <- _; reflexivity|exact I]).
    right. exists x. split; [|now apply ev_same].
    apply (release_events_sub (firstn (Z.to_nat n) es)).
    destruct (release_events_impl _ s) as [s1 [[? ?]|?]]; cbn in *; injection E as <- _; exact Hx.
  - unfold mcEnqueueDispatch in E. if_all E; try (apply Hk; [injection E as <- _; reflexivity|exact I]).
    destruct (catch _) as [s1 o1] eqn:Ec. injection E as <- <-.
    destruct (enqueue_evs _ _ _ _ _ _ _ _ Ec Hx) as [H|(H1 & H2 & H3 & H4 & H5 & H6)].
    + right. exists x. split; [exact H|]. now apply ev_same.
    + left. unfold ev_new. destruct ptr; cbn; auto 10.
  - unfold mcEnqueueDispatchPlanarSection in E. if_all E; try (apply Hk; [injection E as <- _; reflexivity|exact I]).
    destruct (catch _) as [s1 o1] eqn:Ec. injection E as <- <-.
    destruct (enqueue_evs _ _ _ _ _ _ _ _ Ec Hx) as [H|(H1 & H2 & H3 & H4 & H5 & H6)].
    + right. exists x. split; [exact H|]. now apply ev_same.
    + left. unfold ev_new. destruct ptr; cbn; auto 10.
  - unfold mcEnqueueGetConnectedComponents in E. if_all E; try (apply Hk; [injection E as <- _; reflexivity|exact I]).
    destruct (catch _) as [s1 o1] eqn:Ec. injection E as <- <-.
    destruct (enqueue_evs _ _ _ _ _ _ _ _ Ec Hx) as [H|(H1 & H2 & H3 & H4 & H5 & H6)].
    + right. exists x. split; [exact H|]. now apply ev_same.
    + left. unfold ev_new. destruct ptr; cbn; auto 10.
  - unfold mcEnqueueGetConnectedComponentData in E. if_all E; try (apply Hk; [injection E as <- _; reflexivity|exact I]).
    destruct (catch _) as [s1 o1] eqn:Ec. injection E as <- <-.
    destruct (enqueue_evs _ _ _ _ _ _ _ _ Ec Hx) as [H|(H1 & H2 & H3 & H4 & H5 & H6)].
    + right. exists x. split; [exact H|]. now apply ev_same.
    + left. unfold ev_new. destruct ptr, (h =? MC_NULL_HANDLE); cbn; auto 10.
  - apply Hk; [|exact I]. unfold mcReleaseConnectedComponents, release_connected_components_impl in E.
    destruct ids as [ids|]; if_all E; try (injection E as <- _; reflexivity);
      (destruct (find_ctx h (g_ctxs s)); [|injection E as <- _; reflexivity]).
    + destruct (release_ccs_loop _ _) as [? []]; injection E as <- _; reflexivity.
    + destruct (n =? 0); injection E as <- _; reflexivity.
  - apply Hk; [|exact I]. unfold run_new_cc in E. destruct (run_ctx h s); cbn -[Z.pow run_on] in E;
      injection E as <- _; [|reflexivity]. unfold run_on. destruct (find_ctx _ _); reflexivity.
  - apply Hk; [|exact I]. unfold run_message in E.
    destruct (run_ctx h s); [destruct (dbg_cb _ _)|]; injection E as <- _; [|reflexivity].
    unfold run_on. destruct (find_ctx _ _); reflexivity.
  - apply Hk; [|exact I]. unfold run_itype in E. destruct (run_ctx h s); injection E as <- _; [|reflexivity].
    unfold run_on. destruct (find_ctx _ _); reflexivity.
  - apply Hk; [|exact I]. unfold run_get_ccs in E.
    destruct (run_ctx h s); [destruct (collect _ _ _ _ _ _)|]; injection E as <- _; reflexivity.
  - apply Hk; [|exact I]. unfold run_data in E.
    destruct (run_ctx h s); [destruct (find_cc _ _)|]; injection E as <- _; reflexivity.
  - injection E as <- <-. right. cbn in Hx.
    destruct (in_upd_ev _ _ _ _ ND Hx) as [[A B]|(y & A & B & ->)].
    + exists x. split; [exact A|]. unfold ev_follows. destruct (Z.eqb_spec e (e_handle x)); [congruence|auto 10].
    + exists y. split; [exact A|]. unfold ev_follows. subst e. rewrite Z.eqb_refl. cbn. auto 10.
  - injection E as <- <-. right. cbn in Hx.
    destruct (in_upd_ev _ _ _ _ ND Hx) as [[A B]|(y & A & B & ->)].
    + exists x. split; [exact A|]. unfold ev_follows. destruct (Z.eqb_spec e (e_handle x)); [congruence|auto 10].
    + exists y. split; [exact A|]. unfold ev_follows. subst e. rewrite Z.eqb_refl. cbn. auto 10.
  - injection E as <- <-. right. cbn in Hx.
    destruct (in_upd_ev _ _ _ _ ND Hx) as [[A B]|(y & A & B & ->)].
    + exists x. split; [exact A|]. unfold ev_follows. destruct (Z.eqb_spec e (e_handle x)); [congruence|auto 10].
    + exists y. split; [exact A|]. unfold ev_follows. subst e. rewrite Z.eqb_refl. cbn. auto 10.
  - apply Hk; [injection E as <- _; reflexivity|exact I].
Qed.

Definition ev_view (t : trace) (x : ev) : Prop :=
  (exists l o, In (l, o) t /\ In (e_handle x) (o_made o) /\ makes_event l /\
     e_cmd x = cmd_of l /\
     e_ctx x = (if cmd_of l =? CMD_USER then context_of l else MC_NULL_HANDLE)) /\
  e_cs x = event_status t (e_handle x) /\ e_rt x = event_result t (e_handle x).

Lemma mem_z_In e l : mem_z e l = true <-> In e l.
Proof.
  unfold mem_z. rewrite existsb_exists. split.
  - intros (x & A & B). apply Z.eqb_eq in B. now subst.
  - intro H. exists e. split; [exact H|apply Z.eqb_refl].
Qed.

Lemma history_ev_view fmt ls s t :
  history fmt ls s t -> forall x, In x (g_evs s) -> ev_view t x.
Proof.
  intros (E & WF & B). revert s t E. induction ls as [|l ls IH] using rev_ind; intros s t E.
  - injection E as <- <-. intros x [].
  - pose proof E as E0. rewrite exec_snoc in E. apply Forall_app in WF as WF'. destruct WF' as [WF1 Wl].
    rewrite app_length in B. cbn [length] in B.
    destruct (exec fmt ls gs0) as [s1 t1] eqn:E1. destruct (step fmt l s1) as [s2 o] eqn:E2.
    injection E as <- <-.
    assert (912559 + Z.of_nat (length ls) < 2 ^ 64) as B1 by lia.
    assert (history fmt ls s1 t1) as H1 by (split; [exact E1|auto]).
    assert (history fmt (ls ++ [l]) s2 (t1 ++ [(l, o)])) as H2.
    { split; [exact E0|]. split; [exact WF|]. rewrite app_length. cbn [length]. lia. }
    pose proof (history_Inv _ _ _ _ H1) as I1. pose proof (Inv_NoDup _ _ (history_Inv _ _ _ _ H2)) as N2.
    specialize (IH WF1 B1 s1 t1 eq_refl).
    intros x Hx.
    assert (NoDup (map e_handle (g_evs s1))) as ND.
    { rewrite (i_evs _ _ I1). apply live_events_NoDup, (Inv_NoDup _ _ I1). }
    unfold ev_view. rewrite status_snoc, result_snoc. unfold status_after, result_after. cbn [fst snd].
    destruct (step_evs _ _ _ _ _ _ E2 ND Hx) as [(A1 & A2 & A3 & A4 & A5 & A6 & A7)|(y & Hy & F)].
    + split.
      * exists l, o. rewrite in_app_iff. cbn. rewrite A2. cbn. auto 10.
      * replace (mem_z (e_handle x) (o_made o)) with true; [auto|].
        symmetry. apply mem_z_In. rewrite A2. cbn. auto.
    + destruct F as (F1 & F2 & F3 & F4 & F5). destruct (IH y Hy) as ((l0 & o0 & V1 & V2 & V3 & V4 & V5) & V6 & V7).
      rewrite F1. split.
      * exists l0, o0. rewrite in_app_iff, F2, F3. auto 10.
      * replace (mem_z (e_handle y) (o_made o)) with false.
        -- rewrite <- V6, <- V7. auto.
        -- symmetry. apply not_true_iff_false. rewrite mem_z_In. intro K.
           rewrite created_snoc in N2. apply NoDup_app_split in N2. destruct N2 as (_ & _ & N).
           apply (N (e_handle y)); [|exact K]. unfold created. apply in_flat_map. exists (l0, o0). auto.
Qed.

(** ** C53 *)

(** mcGetEventInfo on a live event tells the command status, the result, the
    command type and (for user events) the context, and changes nothing. *)
Theorem C53_event_info_partial fmt ls s t e info bytes num s' o :
  history fmt ls s t -> In e (live_events t) ->
  step fmt (LGetEventInfo e info bytes true num) s = (s', o) ->
  s' = s /\
  (info = INFO_EV_COMMAND -> bytes = 4 ->
     o_res o = MC_NO_ERROR /\ o_mem o = le_bytes 4 (event_status t e)) /\
  (info = INFO_EV_RUNTIME -> bytes = 4 ->
     o_res o = MC_NO_ERROR /\ o_mem o = le_bytes 4 (event_result t e)) /\
  (forall l o1, In (l, o1) t -> In e (o_made o1) ->
     (info = INFO_EV_CMDTYPE -> bytes = 4 ->
        o_res o = MC_NO_ERROR /\ o_mem o = le_bytes 4 (cmd_of l)) /\
     (info = INFO_EV_CONTEXT -> bytes = 8 -> cmd_of l = CMD_USER ->
        o_res o = MC_NO_ERROR /\ o_mem o = le_bytes 8 (context_of l))).
Proof.
  intros H He E. pose proof (history_Inv _ _ _ _ H) as I.
  pose proof He as Hm. apply event_made, made_in_created in Hm. pose proof (Inv_range _ _ _ I Hm) as R.
  pose proof He as Hf. rewrite <- (i_evs _ _ I) in Hf.
  destruct (find_ev e (g_evs s)) as [x|] eqn:F; [|apply find_ev_None in F; tauto].
  destruct (find_ev_In _ _ _ F) as [Hx Eh].
  destruct (history_ev_view _ _ _ _ H x Hx) as ((l0 & o0 & V1 & V2 & V3 & V4 & V5) & V6 & V7).
  rewrite Eh in *.
  cbn [step] in E. unfold mcGetEventInfo, get_event_info_impl in E. rewrite F in E.
  destruct (Z.eqb_spec e MC_NULL_HANDLE) as [->|_]; [unfold MC_NULL_HANDLE in R; lia|].
  cbn [negb andb] in E. rewrite andb_false_r in E.
  split.
  { if_all E; try (injection E as <- _; reflexivity).
    cbn [catch] in E. destruct (ev_info_of _ _ _ _ _) as [[? ?]|]; injection E as <- _; reflexivity. }
  assert (forall n v, copy_out (le_bytes n v) (Z.of_nat n) = le_bytes n v) as Hcopy.
  { intros n v. unfold copy_out. rewrite Nat2Z.id, le_bytes_length, Nat.sub_diag, app_nil_r.
    apply firstn_all2. rewrite le_bytes_length. lia. }
  split; [|split].
  - intros -> ->. cbn in E. injection E as _ <-. cbn [o_res o_mem]. split; [reflexivity|].
    rewrite <- V6. exact (Hcopy 4%nat _).
  - intros -> ->. cbn in E. injection E as _ <-. cbn [o_res o_mem]. split; [reflexivity|].
    rewrite <- V7. exact (Hcopy 4%nat _).
  - intros l o1 Hl Hin.
    assert ((l, o1) = (l0, o0)) as El.
    { apply (maker_unique t _ _ e (Inv_NoDup _ _ I)); auto. }
    injection El as -> ->. split.
    + intros -> ->. cbn in E. injection E as _ <-. cbn [o_res o_mem]. split; [reflexivity|].
      rewrite <- V4. exact (Hcopy 4%nat _).
    + intros -> -> Ec. cbn in E. injection E as _ <-. cbn [o_res o_mem]. split; [reflexivity|].
      rewrite V5, Ec. exact (Hcopy 8%nat _).
Qed.

(** For the event of an enqueued command the context reported is the null
    handle, not the context of the command. *)
Theorem C53_command_context_null_refuted fmt ls s t e num l o1 s' o :
  history fmt ls s t -> In e (live_events t) ->
  In (l, o1) t -> In e (o_made o1) -> cmd_of l <> CMD_USER ->
  step fmt (LGetEventInfo e INFO_EV_CONTEXT 8 true num) s = (s', o) ->
  o_res o = MC_NO_ERROR /\ o_mem o = le_bytes 8 MC_NULL_HANDLE.
Proof.
  intros H He Hl Hin Hc E. pose proof (history_Inv _ _ _ _ H) as I.
  pose proof He as Hm. apply event_made, made_in_created in Hm. pose proof (Inv_range _ _ _ I Hm) as R.
  pose proof He as Hf. rewrite <- (i_evs _ _ I) in Hf.
  destruct (find_ev e (g_evs s)) as [x|] eqn:F; [|apply find_ev_None in F; tauto].
  destruct (find_ev_In _ _ _ F) as [Hx Eh].
  destruct (history_ev_view _ _ _ _ H x Hx) as ((l0 & o0 & V1 & V2 & V3 & V4 & V5) & V6 & V7).
  rewrite Eh in *.
  assert ((l, o1) = (l0, o0)) as El.
  { apply (maker_unique t _ _ e (Inv_NoDup _ _ I)); auto. }
  injection El as -> ->.
  cbn [step] in E. unfold mcGetEventInfo, get_event_info_impl in E. rewrite F in E.
  destruct (Z.eqb_spec e MC_NULL_HANDLE) as [->|_]; [unfold MC_NULL_HANDLE in R; lia|].
  cbn in E. injection E as _ <-. cbn [o_res o_mem]. split; [reflexivity|].
  apply Z.eqb_neq in Hc. rewrite V5, Hc. reflexivity.
Qed.

(** A history in which a user event and a command event exist; the command is
    enqueued on a context with a non-null handle and runs to completion. *)
Definition ev_labels : list label :=
  [ LCreateContext true FLAG_PROFILING;
    LCreateUserEvent true 912559 7;
    LEnqueueGetCCs 912559 1 true true 0 None true 8;
    LRunStart 912561 9; LRunNotify 912561 MC_INVALID_VALUE; LRunEnd 912561 10 ].
Definition ev_state : gs := fst (exec fmt0 ev_labels gs0).
Definition ev_trace : trace := snd (exec fmt0 ev_labels gs0).

Lemma ev_history : history fmt0 ev_labels ev_state ev_trace.
Proof.
  split; [apply surjective_pairing|]. split; [|vm_compute; reflexivity].
  repeat constructor.
Qed.

Example C53_instance :
  In 912560 (live_events ev_trace) /\ In 912561 (live_events ev_trace) /\
  event_status ev_trace 912560 = ST_SUBMITTED /\ event_status ev_trace 912561 = ST_COMPLETE /\
  event_result ev_trace 912561 = MC_INVALID_VALUE /\
  In (LEnqueueGetCCs 912559 1 true true 0 None true 8,
      mkOut MC_NO_ERROR (Some 912561) None [] [] [912561] false) ev_trace /\
  o_mem (snd (step fmt0 (LGetEventInfo 912560 INFO_EV_CONTEXT 8 true false) ev_state))
    = le_bytes 8 912559 /\
  o_mem (snd (step fmt0 (LGetEventInfo 912561 INFO_EV_CONTEXT 8 true false) ev_state))
    = le_bytes 8 MC_NULL_HANDLE.
Proof. vm_compute. repeat split; auto. Qed.

(** ** C54 *)

Definition is_byte (b : Z) : Prop := 0 <= b < 256.

Lemma le_bytes_bytes n v : Forall is_byte (le_bytes n v).
Proof.
  revert v. induction n as [|n IH]; intro v; cbn [le_bytes]; constructor; [|apply IH].
  unfold is_byte. apply Z.mod_pos_bound. lia.
Qed.

Lemma copy_out_length bs n : length (copy_out bs n) = Z.to_nat n.
Proof.
  unfold copy_out. rewrite app_length, firstn_length, repeat_length. lia.
Qed.

Lemma copy_exact n v : copy_out (le_bytes n v) (Z.of_nat n) = le_bytes n v.
Proof.
  unfold copy_out. rewrite Nat2Z.id, le_bytes_length, Nat.sub_diag, app_nil_r.
  apply firstn_all2. rewrite le_bytes_length. lia.
Qed.

(** An info query as the caller makes it: on a context or on an event. *)
Definition info_query (l : label) (bytes : Z) (mem : bool) : Prop :=
  match l with
  | LGetInfo _ _ b m _ | LGetEventInfo _ _ b m _ => b = bytes /\ m = mem
  | _ => False
  end.

(** The same query asking for the size: no memory, a place for the number. *)
Definition size_query (l : label) : label :=
  match l with
  | LGetInfo h i _ _ _ => LGetInfo h i 0 false true
  | LGetEventInfo e i _ _ _ => LGetEventInfo e i 0 false true
  | _ => l
  end.

(** The two-call protocol: if the size query succeeds it reports a number
    [n], and a query with a buffer of [n] bytes succeeds and fills exactly
    the [n] bytes, all of them with the item's bytes.  Holds for every item. *)
Theorem C54_two_calls fmt s l bytes mem s1 o1 n s2 o2 :
  info_query l bytes mem ->
  step fmt (size_query l) s = (s1, o1) -> o_num o1 = Some n ->
  bytes = n -> mem = true ->
  step fmt l s = (s2, o2) ->
  o_res o1 = MC_NO_ERROR /\ o_mem o1 = [] /\ s1 = s /\
  o_res o2 = MC_NO_ERROR /\ Z.of_nat (length (o_mem o2)) = n /\ Forall is_byte (o_mem o2) /\ s2 = s.
Proof.
  intros Q E1 Hn -> -> E2.
  destruct l; try (destruct Q; fail); destruct Q as [-> ->]; cbn [size_query step] in E1, E2.
  - unfold mcGetInfo in E1, E2. cbn [negb andb Z.eqb] in E1.
    destruct (h =? MC_NULL_HANDLE); [injection E1 as <- <-; discriminate|].
    rewrite andb_false_r in E1, E2.
    destruct (negb (has info INFO_FLAGS || has info INFO_MAX_MSG || has info INFO_CONST
                || has info INFO_ATTEMPTS || has info INFO_ITYPE)) eqn:Ei;
      [injection E1 as <- <-; discriminate|].
    unfold get_info_impl in E1, E2.
    destruct (find_ctx h (g_ctxs s)) as [c|].
    2:{ injection E1 as <- <-. discriminate. }
    unfold info_of in E1, E2. cbn [negb] in E1, E2.
    destruct (Z.eqb_spec info INFO_FLAGS) as [->|_].
    { cbn in E1. injection E1 as <- <-. cbn in Hn. injection Hn as <-.
      cbn in E2. injection E2 as <- <-. cbn [o_res o_mem].
      repeat (split; [reflexivity|]). split; [|reflexivity]. exact (le_bytes_bytes 4 _). }
    destruct (has info INFO_FLAGS && _) eqn:Ef in E2.
    { exfalso.
      assert (has info INFO_FLAGS = true) as Hf by (destruct (has info INFO_FLAGS); [reflexivity|discriminate]).
      assert (n <> 4) as Hn4.
      { intros ->. rewrite Hf in Ef. cbn in Ef. discriminate. }
      revert Hf E1. unfold has, INFO_FLAGS, INFO_MAX_MSG, INFO_CONST, INFO_ATTEMPTS, INFO_WINDING, INFO_ITYPE.
      intros Hf E1.
      repeat match type of E1 with context [if ?a =? ?b then _ else _] =>
        destruct (Z.eqb_spec a b) as [->|_]; [discriminate Hf|] end.
      cbn in E1. injection E1 as <- <-. discriminate. }
    repeat match type of E1 with context [if ?a =? ?b then _ else _] =>
        destruct (Z.eqb_spec a b) as [->|_];
        [cbn in E1; injection E1 as <- <-; cbn in Hn; injection Hn as <-;
         cbn in E2; injection E2 as <- <-; cbn [o_res o_mem];
         repeat (split; [reflexivity|]); split; [|reflexivity];
         first [exact (le_bytes_bytes 4 _)|exact (le_bytes_bytes 8 _)]|] end.
    cbn in E1. injection E1 as <- <-. discriminate.
  - unfold mcGetEventInfo in E1, E2. cbn [negb andb Z.eqb] in E1.
    destruct (e =? MC_NULL_HANDLE); [injection E1 as <- <-; discriminate|].
    rewrite !andb_false_r in E1. rewrite andb_false_r in E2.
    unfold get_event_info_impl in E1, E2.
    destruct (find_ev e (g_evs s)) as [x|].
    2:{ injection E1 as <- <-. discriminate. }
    unfold ev_info_of in E1, E2. cbn [negb] in E1, E2.
    repeat match type of E1 with context [if ?a =? ?b then _ else _] =>
        destruct (Z.eqb_spec a b) as [->|_];
        [cbn in E1; injection E1 as <- <-; cbn in Hn; injection Hn as <-;
         cbn in E2; injection E2 as <- <-; cbn [o_res o_mem];
         repeat (split; [reflexivity|]); split; [|reflexivity];
         first [exact (le_bytes_bytes 4 _)|exact (le_bytes_bytes 8 _)]|] end.
    cbn in E1. injection E1 as <- <-. discriminate.
Qed.

(** No event query and no query of the creation flags writes more than
    [bytes] bytes. *)
Theorem C54_no_overflow_partial fmt s l bytes s' o :
  info_query l bytes true -> 0 <= bytes ->
  match l with LGetInfo _ i _ _ _ => i = INFO_FLAGS | _ => True end ->
  step fmt l s = (s', o) ->
  Z.of_nat (length (o_mem o)) <= bytes /\ s' = s.
Proof.
  intros Q Hb Hi E.
  assert (forall X : gs * (exn * list Z + out), (exists r, X = (s, r) /\
    match r with inl _ => True | inr o' => Z.of_nat (length (o_mem o')) <= bytes end) ->
    catch X = (s', o) -> Z.of_nat (length (o_mem o)) <= bytes /\ s' = s) as Hc.
  { intros X (r & -> & Hr) K. destruct r as [[e m]|o']; cbn in K; injection K as <- <-; cbn [o_mem length];
    split; auto. }
  destruct l; try (destruct Q; fail); destruct Q as [-> ->]; cbn [step] in E.
  - subst info. unfold mcGetInfo in E.
    destruct (h =? MC_NULL_HANDLE); [injection E as <- <-; cbn; auto|].
    rewrite andb_false_r in E. cbn [has] in E.
    match type of E with (if ?b then _ else _) = _ => destruct b end; [injection E as <- <-; cbn; auto|].
    match type of E with (if ?b then _ else _) = _ => destruct b end; [injection E as <- <-; cbn; auto|].
    revert E. apply Hc. unfold get_info_impl.
    destruct (find_ctx _ _); [|eexists; split; [reflexivity|exact I]].
    eexists. split; [reflexivity|]. unfold info_of. cbn [negb]. rewrite Z.eqb_refl.
    destruct (bytes <? 4); [exact I|]. cbn [o_mem out_mem]. rewrite copy_out_length. lia.
  - unfold mcGetEventInfo in E.
    repeat match type of E with (if ?b then _ else _) = _ => destruct b; [injection E as <- <-; cbn; auto|] end.
    revert E. apply Hc. unfold get_event_info_impl.
    destruct (find_ev _ _); [|eexists; split; [reflexivity|exact I]].
    eexists. split; [reflexivity|]. unfold ev_info_of. cbn [negb].
    repeat match goal with |- context [if ?b then _ else _] => destruct b end;
      try exact I; cbn [o_mem out_mem]; rewrite copy_out_length; lia.
Qed.

(** The full statement fails: mcGetInfo ignores [bytes] for the perturbation
    constant (and the items below it): a one byte buffer gets eight bytes. *)
Theorem C54_info_overflow_refuted fmt ls s t h num s' o :
  history fmt ls s t -> In h (live_contexts t) ->
  step fmt (LGetInfo h INFO_CONST 1 true num) s = (s', o) ->
  o_res o = MC_NO_ERROR /\ length (o_mem o) = 8%nat.
Proof.
  intros H Hh E. pose proof (history_Inv _ _ _ _ H) as I.
  destruct (live_find _ _ _ I Hh) as (c & F & _).
  pose proof Hh as Hm. apply context_made, made_in_created in Hm. pose proof (Inv_range _ _ _ I Hm) as R.
  assert (h <> MC_NULL_HANDLE) as Hn by (unfold MC_NULL_HANDLE; lia).
  cbn [step] in E. unfold mcGetInfo, get_info_impl in E. rewrite F in E.
  replace (h =? MC_NULL_HANDLE) with false in E by (symmetry; now apply Z.eqb_neq).
  cbn in E. injection E as _ <-. cbn [o_res o_mem]. split; reflexivity.
Qed.

(** And an event query for the command type with a buffer larger than the item
    fills the rest of the buffer with bytes that do not belong to it (-1 marks
    memory that was read behind the variable). *)
Theorem C54_event_overread_refuted fmt ls s t e num bytes s' o :
  history fmt ls s t -> In e (live_events t) -> 4 < bytes ->
  step fmt (LGetEventInfo e INFO_EV_CMDTYPE bytes true num) s = (s', o) ->
  o_res o = MC_NO_ERROR /\ In (-1) (o_mem o).
Proof.
  intros H He Hb E. pose proof (history_Inv _ _ _ _ H) as I.
  pose proof He as Hm. apply event_made, made_in_created in Hm. pose proof (Inv_range _ _ _ I Hm) as R.
  pose proof He as Hf. rewrite <- (i_evs _ _ I) in Hf.
  destruct (find_ev e (g_evs s)) as [x|] eqn:F; [|apply find_ev_None in F; tauto].
  cbn [step] in E. unfold mcGetEventInfo, get_event_info_impl in E. rewrite F in E.
  destruct (Z.eqb_spec e MC_NULL_HANDLE) as [->|_]; [unfold MC_NULL_HANDLE in R; lia|].
  rewrite andb_false_r in E. cbn [andb orb INFO_EV_CMDTYPE INFO_EV_RUNTIME INFO_EV_COMMAND INFO_EV_SUBMIT INFO_EV_START INFO_EV_END Z.eqb Pos.eqb] in E.
  unfold ev_info_of in E. cbn [negb] in E.
  change (INFO_EV_CMDTYPE =? INFO_EV_RUNTIME) with false in E.
  change (INFO_EV_CMDTYPE =? INFO_EV_SUBMIT) with false in E.
  change (INFO_EV_CMDTYPE =? INFO_EV_START) with false in E.
  change (INFO_EV_CMDTYPE =? INFO_EV_END) with false in E.
  change (INFO_EV_CMDTYPE =? INFO_EV_COMMAND) with false in E.
  change (INFO_EV_CMDTYPE =? INFO_EV_CMDTYPE) with true in E.
  cbn [andb orb] in E.
  replace (bytes <? Z.of_nat 4) with false in E by (symmetry; apply Z.ltb_ge; cbn; lia).
  cbn [catch] in E. injection E as _ <-. cbn [o_res o_mem out_mem]. split; [reflexivity|].
  assert (forall bs, (length bs < Z.to_nat bytes)%nat -> In (-1) (copy_out bs bytes)) as K.
  { intros bs Hl. unfold copy_out. apply in_or_app. right.
    destruct (Z.to_nat bytes - length bs)%nat eqn:Kn; [lia|]. left. reflexivity. }
  apply K. cbn. lia.
Qed.

Example C54_instance :
  In 912559 (live_contexts ev_trace) /\
  o_num (snd (step fmt0 (LGetInfo 912559 INFO_CONST 0 false true) ev_state)) = Some 8 /\
  o_num (snd (step fmt0 (LGetEventInfo 912561 INFO_EV_SUBMIT 0 false true) ev_state)) = Some 8 /\
  o_mem (snd (step fmt0 (LGetEventInfo 912561 INFO_EV_SUBMIT 8 true false) ev_state)) = le_bytes 8 8.
Proof. vm_compute. repeat split; auto. Qed.

(** ** C55 *)

(** The documented range of the offset is the open interval (0,1).  The check
    of the entry point rejects no value at all: whether a planar section is
    accepted does not depend on the offset. *)
Theorem C55_offset_unchecked_refuted fmt s h d np nz off off' n ws p now :
  step fmt (LEnqueuePlanar h d np nz off n ws p now) s
  = step fmt (LEnqueuePlanar h d np nz off' n ws p now) s.
Proof.
  assert (forall o, double_le_zero o && double_ge_one o = false) as K.
  { intro o. unfold double_le_zero, double_ge_one.
    destruct (double_is_nan o), (double_neg o); cbn [negb andb orb]; try reflexivity;
      try (rewrite andb_false_r; reflexivity).
    destruct (Z.eqb_spec (double_mag o) 0) as [->|_]; reflexivity. }
  cbn [step]. unfold mcEnqueueDispatchPlanarSection, planar_args_ok. rewrite !K. reflexivity.
Qed.

(** The rest of the argument check is sound: a call that is accepted has
    non-null arrays of at least three vertices and one face, exactly known
    flags and a non-zero normal; anything else is refused without effect. *)
Theorem C55_rejected_partial fmt s h d np nz off n ws p now s' o :
  step fmt (LEnqueuePlanar h d np nz off n ws p now) s = (s', o) ->
  d_svp d = false \/ d_nsv d < 3 \/ d_sfp d = false \/ d_nsf d < 1 \/ np = false \/ nz = true \/
  d_flags d = 0 \/ h = MC_NULL_HANDLE ->
  o_res o = MC_INVALID_VALUE /\ o_handle o = None /\ o_made o = [] /\ s' = s.
Proof.
  intros E H. cbn [step] in E. unfold mcEnqueueDispatchPlanarSection in E.
  destruct (Z.eqb_spec h MC_NULL_HANDLE) as [->|Hn]; [injection E as <- <-; auto|].
  assert (planar_args_ok d np nz off = false) as K.
  { unfold planar_args_ok. apply not_true_iff_false. intro K.
    repeat (apply andb_true_iff in K; destruct K as [K ?]).
    rewrite ?negb_true_iff, ?Z.ltb_ge, ?Z.eqb_neq in *.
    destruct H as [H|[H|[H|[H|[H|[H|[H|H]]]]]]]; try congruence; lia. }
  rewrite K in E. cbn [negb] in E. injection E as <- <-. auto.
Qed.

(** An accepted call with a NaN offset and one with the offset 7.0. *)
Example C55_instance :
  o_handle (snd (step fmt0 (LEnqueuePlanar 912559 da0 true false 9221120237041090560 0 None true 0) ev_state)) = Some 912562 /\
  o_handle (snd (step fmt0 (LEnqueuePlanar 912559 da0 true false 4619567317775286272 0 None true 0) ev_state)) = Some 912562.
Proof. vm_compute. split; reflexivity. Qed.

Print Assumptions C53_event_info_partial.
Print Assumptions C53_command_context_null_refuted.
Print Assumptions C54_two_calls.
Print Assumptions C54_no_overflow_partial.
Print Assumptions C54_info_overflow_refuted.
Print Assumptions C54_event_overread_refuted.
Print Assumptions C55_offset_unchecked_refuted.
Print Assumptions C55_rejected_partial.
