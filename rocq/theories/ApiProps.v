(** * Properties C24-C30: handles, bound state, enumeration, release, debug output

    Every theorem is about an arbitrary [history] of API calls and of steps of
    running commands.  The vocabulary ([created], [live_contexts],
    [live_events], [components], [bound], [enabled], ...) is defined in ApiSpec
    from the calls and their results alone. *)

From Coq Require Import ZArith List Bool Lia.
From Verif Require Import ApiModel ApiSpec ApiProofs ApiInv.
Import ListNotations.
Local Open Scope Z_scope.

Local Opaque control_bits.

(** A history used to show that the hypotheses below can be met: two contexts,
    a dispatch with two components, a user event. *)
Definition fmt0 : Z -> Z -> list Z := fun a b => [a mod 256; b mod 256].

Definition da0 : dargs := mkDargs 1 true true 3 1 true true 3 1.

Definition ex_labels : list label :=
  [ LCreateContext true FLAG_DEBUG;                       (* 912559 *)
    LCreateContext true 0;                                (* 912560 *)
    LDebugControl 912559 SOURCE_ALL TYPE_OTHER SEV_ALL true;
    LBindState 912559 INFO_ATTEMPTS 4 (Some [7; 0; 0; 0]);
    LEnqueueDispatch 912559 da0 0 None true 5;            (* 912561 *)
    LRunStart 912561 6;
    LRunNewCC 912559 1 70;                                (* 912562 *)
    LRunNewCC 912559 4 71;                                (* 912563 *)
    LRunMessage 912559 (mkMsg SOURCE_KERNEL TYPE_OTHER SEV_LOW [104; 105]);
    LRunNotify 912561 0;
    LRunEnd 912561 7;
    LCreateUserEvent true 912560 8 ].                     (* 912564 *)

Definition ex_state : gs := fst (exec fmt0 ex_labels gs0).
Definition ex_trace : trace := snd (exec fmt0 ex_labels gs0).

Lemma ex_history : history fmt0 ex_labels ex_state ex_trace.
Proof.
  split; [|split].
  - unfold ex_state, ex_trace. now destruct (exec fmt0 ex_labels gs0).
  - repeat constructor; cbn; try lia.
  - cbn. lia.
Qed.

Lemma ex_view :
  created ex_trace = [912559; 912560; 912561; 912562; 912563; 912564] /\
  live_contexts ex_trace = [912560; 912559] /\
  live_events ex_trace = [912564; 912561] /\
  components ex_trace 912559 = [(912563, 4, 71); (912562, 1, 70)] /\
  bound ex_trace 912559 INFO_ATTEMPTS = [7; 0; 0; 0] /\
  bound ex_trace 912560 INFO_ATTEMPTS = [4; 0; 0; 0] /\
  enabled FSource ex_trace 912559 SOURCE_KERNEL = true /\
  enabled FSource ex_trace 912560 SOURCE_KERNEL = false.
Proof. vm_compute. repeat split; reflexivity. Qed.

(** ** C24 *)

Lemma returned_made fmt l s s' o h :
  step fmt l s = (s', o) -> o_handle o = Some h -> o_made o = [h].
Proof.
  intros E Ho.
  assert (forall c cmd ws now (ptr : bool) s1 o1,
            catch (enqueue_impl c cmd ws now s) = (s1, o1) ->
            o_handle (if ptr then o1 else
              mkOut (o_res o1) None (o_num o1) (o_mem o1) (o_msgs o1) (o_made o1)
                    match o_handle o1 with None => false | Some _ => true end) = Some h ->
            o_made o1 = [h] /\ ptr = true) as He.
  { intros c cmd ws now ptr s1 o1 Ec Hh. destruct ptr; [|discriminate]. split; [|reflexivity].
    unfold enqueue_impl, prepare_and_submit in Ec.
    destruct (find_ctx c (g_ctxs s)); [|injection Ec as _ <-; discriminate].
    cbn -[Z.pow check_waitlist] in Ec. destruct (check_waitlist _ _); injection Ec as _ <-;
      cbn in *; congruence. }
  destruct l; cbn [step] in E; try (injection E as _ <-; discriminate).
  - unfold mcCreateContext, create_context_impl in E. destruct ptr; cbn -[Z.pow] in E;
      injection E as _ <-; cbn in *; congruence.
  - unfold mcReleaseContext, release_context_impl in E.
    if_all E; try (injection E as _ <-; discriminate).
    destruct (find_ctx _ _); injection E as _ <-; discriminate.
  - unfold mcDebugMessageCallback, debug_message_callback_impl in E.
    if_all E; try (injection E as _ <-; discriminate).
    destruct (find_ctx _ _); injection E as _ <-; discriminate.
  - unfold mcGetDebugMessageLog, get_debug_message_log_impl in E.
    if_all E; try (injection E as _ <-; discriminate).
    destruct (find_ctx _ _); [|injection E as _ <-; discriminate].
    destruct (negb log_ptr); [destruct (dbg_cb _ _)|destruct (fetch_log _ _ _ _)];
      injection E as _ <-; discriminate.
  - unfold mcDebugMessageControl, debug_message_control_impl in E.
    if_all E; try (injection E as _ <-; discriminate).
    destruct (find_ctx _ _); injection E as _ <-; discriminate.
  - unfold mcGetInfo, get_info_impl in E. if_all E; try (injection E as _ <-; discriminate).
    destruct (find_ctx _ _); [|injection E as _ <-; discriminate].
    unfold info_of, out_num, out_mem, catch in E.
    repeat match type of E with
    | context [if ?b then _ else _] => destruct b
    end; injection E as _ <-; discriminate.
  - unfold mcBindState, bind_state_impl in E.
    destruct mem; if_all E; try (injection E as _ <-; discriminate).
    destruct (find_ctx _ _); [|injection E as _ <-; discriminate].
    unfold bind_item in E.
    repeat match type of E with
    | context [if ?b then _ else _] => destruct b
    end; cbn -[dbg_cb] in E; try (injection E as _ <-; discriminate);
      destruct (dbg_cb _ _); cbn in E; injection E as _ <-; discriminate.
  - unfold mcCreateUserEvent, create_user_event_impl in E.
    if_all E; try (injection E as _ <-; discriminate).
    destruct (find_ctx _ _); cbn -[Z.pow] in E; injection E as _ <-; cbn in *; congruence.
  - unfold mcGetEventInfo, get_event_info_impl in E. if_all E; try (injection E as _ <-; discriminate).
    destruct (find_ev _ _); [|injection E as _ <-; discriminate].
    unfold ev_info_of, out_num, out_mem, catch in E.
    repeat match type of E with
    | context [if ?b then _ else _] => destruct b
    end; injection E as _ <-; discriminate.
  - unfold mcSetEventCallback in E. destruct (find_ev _ _); if_all E; injection E as _ <-; discriminate.
  - unfold mcReleaseEvents in E. destruct es as [es|]; if_all E; try (injection E as _ <-; discriminate).
    exfalso. clear He. revert E. generalize (firstn (Z.to_nat n) es). intro L.
    assert (forall s, match snd (release_events_impl L s) with inl _ => True | inr o1 => o_handle o1 = None end) as Hn.
    { induction L as [|x r IH]; intro s0; cbn; [reflexivity|].
      unfold release_event_impl. destruct (find_ev x (g_evs s0)); [apply IH|exact I]. }
    specialize (Hn s). destruct (release_events_impl L s) as [s1 [[? ?]|o1]]; cbn in *;
      intro E; injection E as _ <-; cbn in *; congruence.
  - unfold mcEnqueueDispatch in E. if_all E; try (injection E as _ <-; discriminate).
    destruct (catch _) as [s1 o1] eqn:Ec. injection E as _ <-.
    destruct (He _ _ _ _ _ _ _ Ec Ho) as [Hm ->]. exact Hm.
  - unfold mcEnqueueDispatchPlanarSection in E. if_all E; try (injection E as _ <-; discriminate).
    destruct (catch _) as [s1 o1] eqn:Ec. injection E as _ <-.
    destruct (He _ _ _ _ _ _ _ Ec Ho) as [Hm ->]. exact Hm.
  - unfold mcEnqueueGetConnectedComponents in E. if_all E; try (injection E as _ <-; discriminate).
    destruct (catch _) as [s1 o1] eqn:Ec. injection E as _ <-.
    destruct (He _ _ _ _ _ _ _ Ec Ho) as [Hm ->]. exact Hm.
  - unfold mcEnqueueGetConnectedComponentData in E. if_all E; try (injection E as _ <-; discriminate).
    destruct (catch _) as [s1 o1] eqn:Ec. injection E as _ <-.
    assert (o_made o1 = [h] /\ ptr = true) as [Hm ->].
    { apply (He _ _ _ _ _ _ _ Ec). destruct ptr; [|discriminate].
      destruct (h0 =? MC_NULL_HANDLE); exact Ho. }
    destruct (h0 =? MC_NULL_HANDLE); exact Hm.
  - unfold mcReleaseConnectedComponents, release_connected_components_impl in E.
    destruct ids; if_all E; try (injection E as _ <-; discriminate);
      (destruct (find_ctx _ _); [|injection E as _ <-; discriminate]).
    + destruct (release_ccs_loop _ _) as [? []]; injection E as _ <-; discriminate.
    + destruct (n =? 0); injection E as _ <-; discriminate.
  - unfold run_new_cc in E. destruct (run_ctx h0 s); cbn -[Z.pow] in E; injection E as _ <-; discriminate.
  - unfold run_message in E. destruct (run_ctx h0 s); [destruct (dbg_cb _ _)|]; injection E as _ <-; discriminate.
  - unfold run_itype in E. destruct (run_ctx h0 s); injection E as _ <-; discriminate.
  - unfold run_get_ccs in E. destruct (run_ctx h0 s); [destruct (collect _ _ _ _ _ _)|];
      injection E as _ <-; discriminate.
  - unfold run_data in E. destruct (run_ctx h0 s); [destruct (find_cc _ _)|];
      injection E as _ <-; discriminate.
Qed.

Lemma history_In fmt ls s t l o :
  exec fmt ls gs0 = (s, t) -> In (l, o) t -> exists s1 s2, step fmt l s1 = (s2, o).
Proof.
  generalize gs0. revert s t. induction ls as [|k r IH]; intros s t s0 E H.
  - injection E as <- <-. destruct H.
  - cbn [exec] in E. destruct (step fmt k s0) as [s1 o1] eqn:E1.
    destruct (exec fmt r s1) as [s2 t2] eqn:E2. injection E as <- <-.
    destruct H as [H|H]; [injection H as -> ->; eauto|]. eapply IH; eauto.
Qed.

(** Every object gets a handle of its own, never null, for the whole life of
    the process; the handle a call returns is the one of the object it made;
    two different calls never return the same handle. *)
Theorem C24_handles_never_reused fmt ls s t :
  history fmt ls s t ->
  NoDup (created t) /\
  (forall h, In h (created t) -> h <> MC_NULL_HANDLE) /\
  (forall l o h, In (l, o) t -> o_handle o = Some h -> o_made o = [h]) /\
  (forall i j l1 o1 l2 o2 h, (i < j)%nat ->
     nth_error t i = Some (l1, o1) -> nth_error t j = Some (l2, o2) ->
     o_handle o1 = Some h -> o_handle o2 <> Some h) /\
  (forall h c, In h (live_contexts t) -> In c (components t h) ->
     In (comp_handle c) (created t) /\ ~ In (comp_handle c) (live_contexts t) /\
     ~ In (comp_handle c) (live_events t) /\
     (forall h' c', In c' (components t h') -> comp_handle c' = comp_handle c -> h' = h)) /\
  (forall h, In h (live_contexts t) -> ~ In h (live_events t)).
Proof.
  intro H. pose proof (history_Inv _ _ _ _ H) as I. pose proof (Inv_NoDup _ _ I) as ND.
  assert (forall l o h, In (l, o) t -> o_handle o = Some h -> o_made o = [h]) as Hm.
  { intros l o h Hin Ho. destruct H as (E & _). destruct (history_In _ _ _ _ _ _ E Hin) as (s1 & s2 & Es).
    now apply (returned_made _ _ _ _ _ _ Es). }
  split; [exact ND|]. split; [|split; [exact Hm|split; [|split]]].
  - intros h Hh. pose proof (Inv_range _ _ _ I Hh). unfold MC_NULL_HANDLE. lia.
  - intros i j l1 o1 l2 o2 h Hij H1 H2 O1 O2.
    pose proof (Hm _ _ _ (nth_error_In _ _ H1) O1) as M1.
    pose proof (Hm _ _ _ (nth_error_In _ _ H2) O2) as M2.
    clear - ND Hij H1 H2 M1 M2. revert i j Hij H1 H2.
    unfold created in ND. induction t as [|x t IH]; intros i j Hij H1 H2.
    { destruct i; discriminate. }
    cbn in ND. apply NoDup_app_split in ND. destruct ND as (N1 & N2 & N3).
    destruct j as [|j]; [lia|]. cbn in H2. destruct i as [|i].
    + cbn in H1. injection H1 as ->. apply (N3 h); [cbn; rewrite M1; cbn; auto|].
      apply in_flat_map. exists (l2, o2). split; [now apply nth_error_In with j|].
      cbn. rewrite M2. cbn. auto.
    + cbn in H1. apply (IH N2 i j); auto. lia.
  - intros h c Hh Hc. pose proof (component_made _ _ _ Hc) as M.
    split; [now apply made_in_created in M|]. split; [|split].
    + intro K. destruct (made_in_disjoint _ _ _ _ ND M (context_made _ _ K)) as ([] & A & B); tauto.
    + intro K. destruct (made_in_disjoint _ _ _ _ ND M (event_made _ _ K)) as ([] & A & B); tauto.
    + intros h' c' Hc' E'. pose proof (component_made _ _ _ Hc') as M'. rewrite E' in M'.
      destruct (made_in_disjoint _ _ _ _ ND M M') as (l & A & B). clear - A B.
      destruct l; cbn in A, B; try tauto. congruence.
  - intros h Hh K.
    destruct (made_in_disjoint _ _ _ _ ND (context_made _ _ Hh) (event_made _ _ K)) as ([] & A & B); tauto.
Qed.

(** ** C25 *)

Lemma dead_find s t h : Inv s t -> ~ In h (live_contexts t) -> find_ctx h (g_ctxs s) = None.
Proof. intros I H. apply find_ctx_None. now rewrite (i_ctxs _ _ I). Qed.

Lemma dead_find_ev s t h : Inv s t -> ~ In h (live_events t) -> find_ev h (g_evs s) = None.
Proof. intros I H. apply find_ev_None. now rewrite (i_evs _ _ I). Qed.

(** A call naming a context that is not live (released, or any other value)
    returns MC_INVALID_VALUE, writes nothing and changes nothing. *)
Theorem C25_dead_context_partial fmt ls s t l h s' o :
  history fmt ls s t -> names_context l h -> ~ In h (live_contexts t) ->
  step fmt l s = (s', o) ->
  o_res o = MC_INVALID_VALUE /\ s' = s /\ no_output o /\ o_made o = [].
Proof.
  intros H N D E. pose proof (history_Inv _ _ _ _ H) as I.
  pose proof (dead_find _ _ _ I D) as F.
  assert (forall cmd ws now, catch (enqueue_impl h cmd ws now s) = (s, ret MC_INVALID_VALUE)) as He
    by (intros; unfold enqueue_impl; rewrite F; reflexivity).
  destruct l; cbn in N; try tauto; subst; cbn [step] in E.
  - unfold mcReleaseContext, release_context_impl in E. rewrite F in E.
    if_all E; injection E as <- <-; repeat split; reflexivity.
  - unfold mcDebugMessageCallback, debug_message_callback_impl in E. rewrite F in E.
    if_all E; injection E as <- <-; repeat split; reflexivity.
  - unfold mcGetDebugMessageLog, get_debug_message_log_impl in E. rewrite F in E.
    if_all E; injection E as <- <-; repeat split; reflexivity.
  - unfold mcDebugMessageControl, debug_message_control_impl in E. rewrite F in E.
    if_all E; injection E as <- <-; repeat split; reflexivity.
  - unfold mcGetInfo, get_info_impl in E. rewrite F in E.
    if_all E; injection E as <- <-; repeat split; reflexivity.
  - unfold mcBindState, bind_state_impl in E. rewrite F in E. destruct mem;
    if_all E; injection E as <- <-; repeat split; reflexivity.
  - unfold mcCreateUserEvent, create_user_event_impl in E. rewrite F in E.
    if_all E; injection E as <- <-; repeat split; reflexivity.
  - unfold mcEnqueueDispatch in E. rewrite He in E.
    if_all E; injection E as <- <-; try destruct ptr; repeat split; reflexivity.
  - unfold mcEnqueueDispatchPlanarSection in E. rewrite He in E.
    if_all E; injection E as <- <-; try destruct ptr; repeat split; reflexivity.
  - unfold mcEnqueueGetConnectedComponents in E. rewrite He in E.
    if_all E; injection E as <- <-; try destruct ptr; repeat split; reflexivity.
  - unfold mcEnqueueGetConnectedComponentData in E. rewrite He in E.
    if_all E; injection E as <- <-; try destruct ptr; try destruct (h =? MC_NULL_HANDLE);
      repeat split; reflexivity.
  - unfold mcReleaseConnectedComponents, release_connected_components_impl in E. rewrite F in E.
    destruct ids; if_all E; injection E as <- <-; repeat split; reflexivity.
Qed.

(** Queries and callback registration on an event that is not live. *)
Theorem C25_dead_event_partial fmt ls s t l e s' o :
  history fmt ls s t ->
  (exists info bytes mem num, l = LGetEventInfo e info bytes mem num) \/
  (exists cb, l = LSetEventCallback e cb) ->
  ~ In e (live_events t) -> step fmt l s = (s', o) ->
  o_res o = MC_INVALID_VALUE /\ s' = s /\ no_output o /\ o_made o = [].
Proof.
  intros H N D E. pose proof (history_Inv _ _ _ _ H) as I.
  pose proof (dead_find_ev _ _ _ I D) as F.
  destruct N as [(info & bytes & mem & num & ->)|(cb & ->)]; cbn [step] in E.
  - unfold mcGetEventInfo, get_event_info_impl in E. rewrite F in E.
    if_all E; injection E as <- <-; repeat split; reflexivity.
  - unfold mcSetEventCallback in E. rewrite F in E.
    if_all E; injection E as <- <-; repeat split; reflexivity.
Qed.

(** Releasing events: the call fails when one of the listed events is not
    live (or is listed twice), and exactly the entries in front of the first
    such one are released. *)
Lemma release_events_result es s :
  snd (release_events_impl es s) =
  (if (fix ok es L := match es with
       | [] => true
       | e :: r => if in_dec Z.eq_dec e L then ok r (remove Z.eq_dec e L) else false
       end) es (map e_handle (g_evs s))
   then inr (ret MC_NO_ERROR) else inl invalid).
Proof.
  revert s. induction es as [|e r IH]; intro s; [reflexivity|].
  cbn. unfold release_event_impl.
  destruct (find_ev e (g_evs s)) as [x|] eqn:F.
  - destruct (find_ev_In _ _ _ F) as [A B].
    destruct (in_dec Z.eq_dec e (map e_handle (g_evs s))) as [D|D].
    + rewrite IH. cbn. now rewrite map_filter_remove_ev.
    + exfalso. apply D. rewrite <- B. now apply in_map.
  - destruct (in_dec Z.eq_dec e (map e_handle (g_evs s))) as [D|D]; [|reflexivity].
    apply find_ev_None in F. tauto.
Qed.

Theorem C25_release_events fmt ls s t n es s' o :
  history fmt ls s t -> 1 <= n <= Z.of_nat (length es) ->
  step fmt (LReleaseEvents n (Some es)) s = (s', o) ->
  let named := firstn (Z.to_nat n) es in
  (o_res o = MC_NO_ERROR <-> NoDup named /\ (forall e, In e named -> In e (live_events t))) /\
  (o_res o <> MC_NO_ERROR -> o_res o = MC_INVALID_VALUE) /\
  no_output o /\ g_ctxs s' = g_ctxs s /\
  (forall e, In e (live_events (t ++ [(LReleaseEvents n (Some es), o)])) ->
             In e (live_events t)) /\
  (forall e, In e (live_events t) ->
     (~ In e (live_events (t ++ [(LReleaseEvents n (Some es), o)])) <->
      exists a b, named = a ++ e :: b /\ ~ In e a /\
                  NoDup a /\ (forall x, In x a -> In x (live_events t)))).
Proof.
  intros H Hn E. pose proof (history_Inv _ _ _ _ H) as I. cbn zeta.
  cbn [step] in E. unfold mcReleaseEvents in E.
  destruct (Z.eqb_spec n 0) as [|Hn0]; [lia|].
  rewrite live_events_snoc. cbn [events_after].
  replace (n =? 0) with false by (symmetry; now apply Z.eqb_neq).
  set (named := firstn (Z.to_nat n) es) in *. clearbody named.
  pose proof (release_events_result named s) as R.
  pose proof (release_events_ctxs named s) as Rc.
  rewrite (i_evs _ _ I) in R.
  assert (forall e, In e (drop_listed named (live_events t)) -> In e (live_events t)) as G5
    by (intro e; apply drop_listed_incl).
  set (L := live_events t) in *. clearbody L.
  (* fold the function *)
  set (ok := fix ok es L := match es with
       | [] => true
       | e :: r => if in_dec Z.eq_dec e L then ok r (remove Z.eq_dec e L) else false
       end) in R.
  assert (ok named L = true <-> NoDup named /\ (forall e, In e named -> In e L)) as Hok.
  { clear. revert L. induction named as [|e r IH]; intro L; cbn.
    - split; [intros _; split; [constructor|intros e []]|reflexivity].
    - destruct (in_dec Z.eq_dec e L) as [D|D].
      + rewrite IH. rewrite NoDup_cons_iff. split.
        * intros (A & B). split; [split; [|exact A]|].
          -- intro K. apply B, in_remove in K. tauto.
          -- intros x [<-|Hx]; [exact D|]. apply B, in_remove in Hx. tauto.
        * intros ((A & A') & B). split; [exact A'|]. intros x Hx. apply in_in_remove; auto.
          intros ->. contradiction.
      + split; [discriminate|]. intros (_ & B). exfalso. apply D. auto. }
  assert (forall e, In e L ->
     (~ In e (drop_listed named L) <->
      exists a b, named = a ++ e :: b /\ ~ In e a /\ NoDup a /\ (forall x, In x a -> In x L))) as G6.
  { clear. revert L. induction named as [|f r IH]; intros L e He; cbn.
    - split; [tauto|]. intros (a & b & Eab & _). destruct a; discriminate.
    - destruct (in_dec Z.eq_dec f L) as [D|D].
      + destruct (Z.eq_dec e f) as [->|Hne].
        * split; [intros _; exists [], r; repeat split; auto; [constructor|intros x []]|].
          intros _ K. apply drop_listed_incl, in_remove in K. tauto.
        * assert (In e (remove Z.eq_dec f L)) as He' by (apply in_in_remove; auto).
          rewrite (IH _ _ He'). split.
          -- intros (a & b & -> & A1 & A2 & A3). exists (f :: a), b. repeat split; auto.
             ++ intros [K|K]; [congruence|tauto].
             ++ constructor; [|exact A2]. intro K. apply A3, in_remove in K. tauto.
             ++ intros x [<-|Hx]; [exact D|]. apply A3, in_remove in Hx. tauto.
          -- intros (a & b & Eab & A1 & A2 & A3). destruct a as [|f' a].
             ++ cbn in Eab. injection Eab as -> _. congruence.
             ++ cbn in Eab. injection Eab as <- ->. exists a, b. inversion A2; subst.
                repeat split; auto.
                ** intro K. apply A1. cbn. auto.
                ** intros x Hx. apply in_in_remove; [intros ->; contradiction|]. apply A3. cbn. auto.
      + split; [tauto|]. intros (a & b & Eab & A1 & A2 & A3). destruct a as [|f' a].
        * cbn in Eab. injection Eab as -> _. contradiction.
        * cbn in Eab. injection Eab as <- ->. exfalso. apply D, A3. cbn. auto. }
  destruct (release_events_impl named s) as [s1 r1]. cbn [fst snd] in R, Rc.
  destruct (ok named L) eqn:Ek; subst r1; cbn in E; injection E as <- <-; cbn.
  - split; [tauto|]. split; [tauto|].
    split; [repeat split|]. split; [exact Rc|]. split; [exact G5|exact G6].
  - split; [split; [discriminate|intro K; apply Hok in K; discriminate]|].
    split; [reflexivity|].
    split; [repeat split|]. split; [exact Rc|]. split; [exact G5|exact G6].
Qed.

(** Releasing components of a live context, and asking for data of a component
    that is not one of the context's. *)
Theorem C25_dead_component_partial fmt ls s t h ccid res s' o :
  history fmt ls s t -> In h (live_contexts t) ->
  ~ In ccid (map comp_handle (components t h)) ->
  step fmt (LRunData h ccid res) s = (s', o) ->
  o_res o = MC_INVALID_VALUE /\ s' = s /\ no_output o.
Proof.
  intros H Hh D E. pose proof (history_Inv _ _ _ _ H) as I.
  rewrite <- (i_ctxs _ _ I) in Hh. destruct (find_ctx_ex _ _ Hh) as [c Fc].
  destruct (find_ctx_In _ _ _ Fc) as [Hc Eh].
  cbn [step] in E. unfold run_data, run_ctx in E. rewrite Fc in E.
  assert (find_cc ccid (c_ccs c) = None) as F.
  { apply find_cc_None. intro K. apply D. rewrite <- Eh, <- (v_comps _ _ (i_view _ _ I _ Hc)).
    unfold comps_of. rewrite map_map. exact K. }
  rewrite F in E. injection E as <- <-. repeat split; reflexivity.
Qed.

(** An object that is dead once stays dead. *)
Theorem C25_dead_stays_dead fmt ls ls2 s t s2 t2 h :
  history fmt ls s t -> history fmt (ls ++ ls2) s2 (t ++ t2) -> In h (created t) ->
  (~ In h (live_contexts t) -> ~ In h (live_contexts (t ++ t2))) /\
  (~ In h (live_events t) -> ~ In h (live_events (t ++ t2))) /\
  (forall x, ~ In h (map comp_handle (components t x)) ->
             ~ In h (map comp_handle (components (t ++ t2) x))).
Proof.
  intros H H2 Hc. pose proof (Inv_NoDup _ _ (history_Inv _ _ _ _ H2)) as ND.
  assert (~ In h (created t2)) as Hn.
  { unfold created in ND. rewrite flat_map_app in ND. apply NoDup_app_split in ND.
    destruct ND as (_ & _ & N). now apply N. }
  clear H H2 ND Hc. revert Hn. induction t2 as [|[l o] t2 IH] using rev_ind; intro Hn.
  { rewrite app_nil_r. auto. }
  rewrite created_snoc, in_app_iff in Hn. cbn [snd] in Hn.
  destruct IH as (IH1 & IH2 & IH3); [tauto|].
  rewrite app_assoc, live_contexts_snoc, live_events_snoc. split; [|split].
  - intros D K. specialize (IH1 D). destruct l; cbn in K; try tauto.
    + apply in_app_iff in K. tauto.
    + destruct (succeeded o); [apply in_remove in K|]; tauto.
  - intros D K. specialize (IH2 D). destruct l; cbn in K; try tauto;
      try (apply in_app_iff in K; tauto).
    destruct es; [|tauto]. destruct (n =? 0); [tauto|]. apply drop_listed_incl in K. tauto.
  - intros x D K. specialize (IH3 x D). rewrite components_snoc in K.
    destruct l; cbn in K; try tauto.
    + destruct (returned o x); [destruct K|tauto].
    + destruct ids as [ids|].
      * destruct (h0 =? x); [|tauto]. destruct (_ && _); [|tauto].
        apply in_map_iff in K. destruct K as (c & Ec & Kc). apply drop_comps_incl in Kc.
        apply IH3. rewrite <- Ec. now apply in_map.
      * destruct (_ && _); [destruct K|tauto].
    + destruct (h0 =? x); [|tauto]. rewrite map_app, map_map in K. cbn in K. rewrite map_id in K.
      apply in_app_iff in K. tauto.
Qed.

(** A context that was successfully released is dead from then on; so are
    events. *)
Theorem C25_released_is_dead fmt ls s t :
  history fmt ls s t ->
  (forall h held o, In (LReleaseContext h held, o) t -> o_res o = MC_NO_ERROR ->
     ~ In h (live_contexts t)) /\
  (forall n es o e, In (LReleaseEvents n (Some es), o) t -> o_res o = MC_NO_ERROR -> 0 <= n ->
     In e (firstn (Z.to_nat n) es) -> ~ In e (live_events t)).
Proof.
  intro H.
  assert (forall x, In x t -> exists l1 l2 s1 t1 s2 t2, ls = l1 ++ l2 /\ l1 <> [] /\
            history fmt l1 s1 (t1 ++ [x]) /\ t = (t1 ++ [x]) ++ t2 /\ s2 = s /\
            exists s0 l0, history fmt l0 s0 t1 /\ step fmt (fst x) s0 = (s1, snd x)) as Hsplit.
  { intros x Hx. destruct H as (E & WF & B). 
    destruct (in_split _ _ Hx) as (t1 & t2 & Et). subst t.
    pose proof (exec_length fmt ls gs0) as L. rewrite E in L. cbn in L.
    rewrite app_length in L. cbn in L.
    assert (exists l1 k l2, ls = l1 ++ k :: l2 /\ length l1 = length t1) as (l1 & k & l2 & El & Ll).
    { exists (firstn (length t1) ls). destruct (skipn (length t1) ls) as [|k l2] eqn:Es.
      - exfalso. apply (f_equal (@length _)) in Es. rewrite skipn_length in Es. cbn in Es. lia.
      - exists k, l2. split; [rewrite <- Es; symmetry; apply firstn_skipn|].
        rewrite firstn_length. lia. }
    subst ls. replace (l1 ++ k :: l2) with ((l1 ++ [k]) ++ l2) in * by (now rewrite <- app_assoc).
    rewrite exec_app, exec_snoc in E.
    destruct (exec fmt l1 gs0) as [sa ta] eqn:E1.
    destruct (step fmt k sa) as [sb ob] eqn:E2.
    destruct (exec fmt l2 sb) as [sc tc] eqn:E3.
    injection E as Es Et.
    assert (ta = t1 /\ (k, ob) = x /\ tc = t2) as (-> & <- & ->).
    { pose proof (exec_length fmt l1 gs0) as La. rewrite E1 in La. cbn in La.
      rewrite <- app_assoc in Et. cbn in Et.
      assert (length ta = length t1) as Hl by congruence.
      clear - Et Hl. revert t1 Et Hl. induction ta as [|y ta IH]; intros [|z t1] Et Hl; cbn in *; try discriminate.
      - injection Et as -> ->. auto.
      - injection Et as -> Et. destruct (IH t1 Et) as (-> & ? & ?); auto. }
    rewrite !app_length in B. cbn [length] in B.
    apply Forall_app in WF. destruct WF as [WF _]. pose proof WF as WF'. apply Forall_app in WF'.
    exists (l1 ++ [k]), l2, sb, t1, sc, t2.
    split; [reflexivity|]. split; [destruct l1; discriminate|].
    split; [split; [|split]|].
    - rewrite exec_snoc, E1, E2. reflexivity.
    - exact WF.
    - rewrite app_length. cbn [length]. lia.
    - split; [now rewrite <- app_assoc|]. split; [exact Es|].
      exists sa, l1. split; [|exact E2]. split; [exact E1|]. split; [tauto|lia]. }
  split.
  - intros h held o Hin Ho. destruct (Hsplit _ Hin) as (l1 & l2 & s1 & t1 & s2 & t2 & -> & _ & H1 & -> & -> & s0 & l0 & H0 & Es).
    cbn [fst snd] in Es.
    assert (In h (live_contexts t1)) as Hl.
    { destruct (in_dec Z.eq_dec h (live_contexts t1)) as [D|D]; [exact D|].
      assert (names_context (LReleaseContext h held) h) as Nm by reflexivity.
      destruct (C25_dead_context_partial _ _ _ _ _ _ _ _ H0 Nm D Es) as (K & _).
      rewrite Ho in K. discriminate. }
    refine (proj1 (C25_dead_stays_dead _ _ _ _ _ _ _ h H1 H _) _).
    + rewrite created_snoc, in_app_iff. left. apply context_made, made_in_created in Hl. exact Hl.
    + rewrite live_contexts_snoc. cbn. unfold succeeded. rewrite Ho. cbn. apply remove_In.
  - intros n es o e Hin Ho Hn He.
    destruct (Hsplit _ Hin) as (l1 & l2 & s1 & t1 & s2 & t2 & -> & _ & H1 & -> & -> & s0 & l0 & H0 & Es).
    cbn [fst snd] in Es.
    destruct (Z.eq_dec n 0) as [->|Hn0]; [destruct He|].
    pose proof (history_Inv _ _ _ _ H0) as I0.
    (* all listed were live *)
    pose proof Es as Es'. cbn [step] in Es'. unfold mcReleaseEvents in Es'.
    replace (n =? 0) with false in Es' by (symmetry; now apply Z.eqb_neq).
    pose proof (release_events_result (firstn (Z.to_nat n) es) s0) as R.
    rewrite (i_evs _ _ I0) in R.
    assert (forall L, (fix ok es L := match es with
       | [] => true
       | e :: r => if in_dec Z.eq_dec e L then ok r (remove Z.eq_dec e L) else false
       end) (firstn (Z.to_nat n) es) L = true ->
       In e L /\ ~ In e (drop_listed (firstn (Z.to_nat n) es) L)) as Hok.
    { clear - He. revert He. generalize (firstn (Z.to_nat n) es) as named.
      induction named as [|f r IH]; intros He L K; [destruct He|].
      cbn in K |- *. destruct (in_dec Z.eq_dec f L) as [D|D]; [|discriminate].
      destruct (Z.eq_dec e f) as [->|Hne].
      - split; [exact D|]. intro Z. apply drop_listed_incl, in_remove in Z. tauto.
      - destruct He as [He|He]; [congruence|]. destruct (IH He _ K) as (A & B).
        apply in_remove in A. tauto. }
    specialize (Hok (live_events t1)).
    destruct (release_events_impl (firstn (Z.to_nat n) es) s0) as [sx rx]. cbn [snd] in R.
    match type of R with _ = (if ?b then _ else _) => destruct b end.
    + destruct (Hok eq_refl) as (A & B).
      refine (proj1 (proj2 (C25_dead_stays_dead _ _ _ _ _ _ _ e H1 H _)) _).
      * rewrite created_snoc, in_app_iff. left. apply event_made, made_in_created in A. exact A.
      * rewrite live_events_snoc. cbn [events_after].
        replace (n =? 0) with false by (symmetry; now apply Z.eqb_neq). exact B.
    + subst rx. cbn in Es'. injection Es' as _ <-. discriminate.
Qed.

(** A dead handle at the head of a wait list: the call fails and returns no
    event. *)
Theorem C25_dead_waitlist_partial fmt ls s t l n ws w s' o :
  history fmt ls s t ->
  (exists h d p now, l = LEnqueueDispatch h d n (Some (w :: ws)) p now) \/
  (exists h d a b x p now, l = LEnqueuePlanar h d a b x n (Some (w :: ws)) p now) \/
  (exists h m a b p now, l = LEnqueueGetCCs h m a b n (Some (w :: ws)) p now) \/
  (exists h c f y m p now, l = LEnqueueData h c f y m n (Some (w :: ws)) p now) ->
  1 <= n -> In w (created t) -> ~ In w (live_events t) -> step fmt l s = (s', o) ->
  o_res o = MC_INVALID_VALUE /\ no_output o /\ g_ctxs s' = g_ctxs s.
Proof.
  intros H Hl Hn Cw D E. pose proof (history_Inv _ _ _ _ H) as I.
  pose proof (dead_find_ev _ _ _ I D) as F.
  assert (forall h cmd now, exists s1,
            catch (enqueue_impl h cmd (waitlist_of n (Some (w :: ws))) now s)
            = (s1, mkOut MC_INVALID_VALUE None None [] [] (match find_ctx h (g_ctxs s) with Some _ => [g_counter s] | None => [] end) false) /\ g_ctxs s1 = g_ctxs s) as He.
  { intros h cmd now. unfold enqueue_impl.
    destruct (find_ctx h (g_ctxs s)) as [c|] eqn:Fc; [|eexists; split; reflexivity].
    assert (g_init s = true) as Gi.
    { destruct (g_init s) eqn:G; [reflexivity|]. destruct (Inv_counted _ _ I G) as [K _].
      rewrite K in Fc. discriminate. }
    pose proof (i_counter _ _ I) as Ic. rewrite Gi in Ic.
    pose proof (Inv_range _ _ _ I Cw) as Rw.
    unfold prepare_and_submit. cbn -[Z.pow check_waitlist waitlist_of].
    replace (waitlist_of n (Some (w :: ws))) with (w :: firstn (Z.to_nat n - 1) ws).
    2:{ unfold waitlist_of. destruct (Z.to_nat n) eqn:En; [lia|]. cbn. now rewrite Nat.sub_0_r. }
    cbn [check_waitlist]. unfold find_ev at 1. cbn [find new_ev e_handle].
    destruct (Z.eqb_spec (g_counter s) w); [lia|].
    fold (find_ev w (g_evs s)). rewrite F. eexists; split; reflexivity. }
  assert (forall h cmd now (p : bool) s1 o1,
            (let '(s1, o1) := catch (enqueue_impl h cmd (waitlist_of n (Some (w :: ws))) now s) in
             (s1, if p then o1 else mkOut (o_res o1) None (o_num o1) (o_mem o1) (o_msgs o1) (o_made o1)
                    match o_handle o1 with None => false | Some _ => true end)) = (s1, o1) ->
            o_res o1 = MC_INVALID_VALUE /\ no_output o1 /\ g_ctxs s1 = g_ctxs s) as Hw.
  { intros h cmd now p s1 o1 Eq. destruct (He h cmd now) as (s2 & E2 & E3). rewrite E2 in Eq.
    injection Eq as <- <-. destruct p; cbn; repeat split; auto. }
  destruct Hl as [(h & d & p & now & ->)|[(h & d & a & b & x & p & now & ->)|
    [(h & m & a & b & p & now & ->)|(h & c & f & y & m & p & now & ->)]]]; cbn [step] in E.
  - unfold mcEnqueueDispatch in E. if_all E; try (injection E as <- <-; repeat split; reflexivity).
    eapply Hw; exact E.
  - unfold mcEnqueueDispatchPlanarSection in E. if_all E; try (injection E as <- <-; repeat split; reflexivity).
    eapply Hw; exact E.
  - unfold mcEnqueueGetConnectedComponents in E. if_all E; try (injection E as <- <-; repeat split; reflexivity).
    eapply Hw; exact E.
  - unfold mcEnqueueGetConnectedComponentData in E. if_all E; try (injection E as <- <-; repeat split; reflexivity).
    destruct (He h CMD_GET_CC_DATA now) as (s2 & E2 & E3). rewrite E2 in E. injection E as <- <-.
    destruct p, (h =? MC_NULL_HANDLE); cbn; repeat split; auto.
Qed.

(** The call that fails because of the wait list leaves an event object behind
    that the application was not given. *)
Theorem C25_waitlist_leaks_event_refuted :
  exists fmt ls s t l s' o,
    history fmt ls s t /\ waits_for l 912563 /\ ~ In 912563 (live_events t) /\
    step fmt l s = (s', o) /\ o_res o = MC_INVALID_VALUE /\ o_handle o = None /\
    length (g_evs s') = (length (g_evs s) + 1)%nat.
Proof.
  exists fmt0, ex_labels, ex_state, ex_trace,
    (LEnqueueDispatch 912559 da0 1 (Some [912563]) true 9).
  eexists. eexists. split; [exact ex_history|]. split; [vm_compute; auto|].
  split; [vm_compute; intuition discriminate|]. split; [vm_compute; reflexivity|].
  vm_compute. auto.
Qed.

(** A dead handle behind an unfinished command in the wait list is accepted. *)
Theorem C25_waitlist_unchecked_refuted :
  exists fmt ls s t l s' o,
    history fmt ls s t /\ waits_for l 912563 /\ ~ In 912563 (live_events t) /\
    step fmt l s = (s', o) /\ o_res o = MC_NO_ERROR.
Proof.
  set (l1 := LEnqueueDispatch 912559 da0 0 None true 9).
  set (l2 := LEnqueueDispatch 912559 da0 2 (Some [912565; 912563]) true 9).
  exists fmt0, (ex_labels ++ [l1]), (fst (step fmt0 l1 ex_state)),
    (ex_trace ++ [(l1, snd (step fmt0 l1 ex_state))]), l2.
  eexists. eexists. split.
  { apply history_snoc with ex_state; [exact ex_history|now destruct (step fmt0 l1 ex_state)|exact I|].
    cbn. lia. }
  split; [vm_compute; auto|]. split; [vm_compute; intuition discriminate|].
  split; [vm_compute; reflexivity|]. reflexivity.
Qed.

(** Releasing a list of events one of which is dead does change the state. *)
Theorem C25_release_list_changes_state_refuted :
  exists fmt ls s t l s' o,
    history fmt ls s t /\ names_event l 7 /\ ~ In 7 (live_events t) /\
    step fmt l s = (s', o) /\ o_res o = MC_INVALID_VALUE /\
    In 912564 (live_events t) /\ find_ev 912564 (g_evs s') = None.
Proof.
  exists fmt0, ex_labels, ex_state, ex_trace, (LReleaseEvents 2 (Some [912564; 7])).
  eexists. eexists. split; [exact ex_history|]. split; [vm_compute; auto|].
  split; [vm_compute; intuition discriminate|]. split; [vm_compute; reflexivity|].
  vm_compute. auto.
Qed.

(** Instances. *)
Example C25_instance :
  exists s' o, step fmt0 (LGetInfo 912564 INFO_ATTEMPTS 4 true true) ex_state = (s', o) /\
    o_res o = MC_INVALID_VALUE /\ s' = ex_state.
Proof.
  destruct (step fmt0 (LGetInfo 912564 INFO_ATTEMPTS 4 true true) ex_state) as [s' o] eqn:E.
  exists s', o. split; [reflexivity|].
  assert (names_context (LGetInfo 912564 INFO_ATTEMPTS 4 true true) 912564) as N by reflexivity.
  assert (~ In 912564 (live_contexts ex_trace)) as D by (vm_compute; intuition discriminate).
  destruct (C25_dead_context_partial _ _ _ _ _ _ _ _ ex_history N D E) as (A & B & _). auto.
Qed.

Print Assumptions C24_handles_never_reused.
Print Assumptions C25_dead_context_partial.
Print Assumptions C25_dead_event_partial.
Print Assumptions C25_release_events.
Print Assumptions C25_dead_component_partial.
Print Assumptions C25_dead_stays_dead.
Print Assumptions C25_released_is_dead.
Print Assumptions C25_dead_waitlist_partial.
Print Assumptions C25_waitlist_leaks_event_refuted.
Print Assumptions C25_waitlist_unchecked_refuted.
Print Assumptions C25_release_list_changes_state_refuted.
