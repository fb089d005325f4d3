(** * The tables hold exactly the live objects *)

From Coq Require Import ZArith List Bool Lia FinFun.
From Verif Require Import ApiModel ApiSpec ApiProofs.
Import ListNotations.
Local Open Scope Z_scope.

Local Opaque control_bits.

Lemma dbg_cb_handle m c c' ms : dbg_cb m c = (c', ms) -> c_handle c' = c_handle c.
Proof. intro E. destruct (dbg_cb_log _ _ _ _ E) as [l ->]. reflexivity. Qed.

Lemma catch_bind_handles fmt h info v bad store c s s' o :
  find_ctx h (g_ctxs s) = Some c -> (forall x, c_handle (store x) = c_handle x) ->
  catch (bind_item fmt h info v bad store c s) = (s', o) ->
  map c_handle (g_ctxs s') = map c_handle (g_ctxs s) /\ g_evs s' = g_evs s /\
  g_counter s' = g_counter s /\ g_init s' = g_init s /\ g_held s' = g_held s /\ o_made o = [].
Proof.
  intros F Hs E. unfold bind_item in E.
  destruct (dbg_cb _ c) as [c1 ms] eqn:Ed. pose proof (dbg_cb_handle _ _ _ _ Ed) as Hh.
  destruct (find_ctx_In _ _ _ F) as [_ Hc].
  destruct bad; cbn in E; injection E as <- <-; cbn;
    (split; [apply upd_ctx_handles_const; rewrite ?Hs; congruence|]); auto 10.
Qed.

(** What every step does to the tables, seen through the handles. *)
Record tables (l : label) (s s' : gs) (o : out) : Prop := {
  tb_ctxs : map c_handle (g_ctxs s') = contexts_after (map c_handle (g_ctxs s)) (l, o);
  tb_evs : map e_handle (g_evs s') = events_after (map e_handle (g_evs s)) (l, o);
  tb_made : (o_made o = [] /\ g_counter s' = g_counter s /\ g_init s' = g_init s) \/
            (o_made o = [if g_init s then g_counter s else 912559] /\
             g_counter s' = ((if g_init s then g_counter s else 912559) + 1) mod 2 ^ 64 /\
             g_init s' = true /\ (g_init s = false -> exists p f, l = LCreateContext p f))
}.

Lemma release_events_handles es s :
  map e_handle (g_evs (fst (release_events_impl es s))) = drop_listed es (map e_handle (g_evs s)) /\
  g_ctxs (fst (release_events_impl es s)) = g_ctxs s /\
  g_counter (fst (release_events_impl es s)) = g_counter s /\
  g_init (fst (release_events_impl es s)) = g_init s /\
  g_held (fst (release_events_impl es s)) = g_held s.
Proof.
  revert s. induction es as [|e r IH]; intro s; [cbn; auto 10|].
  cbn. unfold release_event_impl.
  destruct (find_ev e (g_evs s)) as [x|] eqn:F.
  - destruct (find_ev_In _ _ _ F) as [A B].
    destruct (in_dec Z.eq_dec e (map e_handle (g_evs s))) as [D|D].
    + destruct (IH (with_evs (filter (fun x => negb (e_handle x =? e)) (g_evs s)) s))
        as (I1 & I2 & I3 & I4 & I5).
      rewrite I1, I2, I3, I4, I5. cbn. rewrite map_filter_remove_ev. auto.
    + exfalso. apply D. rewrite <- B. now apply in_map.
  - destruct (in_dec Z.eq_dec e (map e_handle (g_evs s))) as [D|D]; [|cbn; auto 10].
    apply find_ev_None in F. tauto.
Qed.

(** Contexts that exist mean the counter is initialised. *)
Definition counted (s : gs) : Prop :=
  g_init s = false -> g_ctxs s = [] /\ g_held s = [].

Lemma enqueue_tables h cmd ws now s s' o :
  counted s -> catch (enqueue_impl h cmd ws now s) = (s', o) ->
  g_ctxs s' = g_ctxs s /\ map e_handle (g_evs s') = o_made o ++ map e_handle (g_evs s) /\
  ((o_made o = [] /\ g_counter s' = g_counter s /\ g_init s' = g_init s) \/
   (o_made o = [g_counter s] /\ g_counter s' = (g_counter s + 1) mod 2 ^ 64 /\ g_init s' = g_init s /\
    g_init s = true)).
Proof.
  intros K E. unfold enqueue_impl, prepare_and_submit in E.
  destruct (find_ctx h (g_ctxs s)) as [c|] eqn:F.
  - assert (g_init s = true) as Hi.
    { destruct (g_init s) eqn:G; [reflexivity|]. destruct (K G) as [Kc _].
      rewrite Kc in F. discriminate. }
    cbn -[Z.pow check_waitlist] in E.
    destruct (check_waitlist _ _); injection E as <- <-; cbn -[Z.pow]; auto 10.
  - injection E as <- <-. cbn. auto 10.
Qed.

Lemma made_of_enqueue s s' o :
  ((o_made o = [] /\ g_counter s' = g_counter s /\ g_init s' = g_init s) \/
   (o_made o = [g_counter s] /\ g_counter s' = (g_counter s + 1) mod 2 ^ 64 /\ g_init s' = g_init s /\
    g_init s = true)) ->
  forall l,
  (o_made o = [] /\ g_counter s' = g_counter s /\ g_init s' = g_init s) \/
  (o_made o = [if g_init s then g_counter s else 912559] /\
   g_counter s' = ((if g_init s then g_counter s else 912559) + 1) mod 2 ^ 64 /\
   g_init s' = true /\ (g_init s = false -> exists p f, l = LCreateContext p f)).
Proof.
  intros [H|(A & B & C & D)] l; [left; exact H|]. right. rewrite D in *.
  repeat split; auto. discriminate.
Qed.

Ltac same_tables E :=
  injection E as <- <-;
  constructor; cbn; rewrite ?andb_false_r; auto.

Lemma step_tables fmt l s s' o :
  step fmt l s = (s', o) -> counted s -> tables l s s' o.
Proof.
  intros E K.
  assert (forall h c, find_ctx h (g_ctxs s) = Some c -> g_init s = true) as Hinit.
  { intros h c F. destruct (g_init s) eqn:G; [reflexivity|].
    destruct (K G) as [Kc _]. rewrite Kc in F. discriminate. }
  destruct l; cbn [step] in E.
  - (* create *)
    unfold mcCreateContext in E. destruct ptr; cbn [negb] in E; [|same_tables E].
    unfold create_context_impl in E. cbn -[Z.pow] in E. injection E as <- <-.
    constructor; cbn -[Z.pow].
    + destruct (g_init s); reflexivity.
    + destruct (g_init s); reflexivity.
    + right. destruct (g_init s) eqn:G; cbn -[Z.pow]; repeat split; auto; try discriminate;
        intros; do 2 eexists; reflexivity.
  - (* release context *)
    unfold mcReleaseContext, release_context_impl in E. if_all E; [same_tables E|].
    destruct (find_ctx h (g_ctxs s)) as [c|] eqn:F; [|same_tables E].
    cbn in E. injection E as <- <-. constructor; cbn; auto. apply map_filter_remove.
  - (* callback *)
    unfold mcDebugMessageCallback, debug_message_callback_impl in E. if_all E; try same_tables E.
    destruct (find_ctx h (g_ctxs s)); [|same_tables E].
    cbn in E. injection E as <- <-. constructor; cbn; auto. apply upd_ctx_handles. reflexivity.
  - (* log *)
    unfold mcGetDebugMessageLog, get_debug_message_log_impl in E. if_all E; try same_tables E.
    destruct (find_ctx h (g_ctxs s)) as [c|] eqn:F; [|same_tables E].
    destruct (negb log_ptr).
    + destruct (dbg_cb _ c) as [c1 ms] eqn:Ed. pose proof (dbg_cb_handle _ _ _ _ Ed).
      destruct (find_ctx_In _ _ _ F) as [_ Hh].
      cbn in E. injection E as <- <-. constructor; cbn; auto.
      apply upd_ctx_handles_const. congruence.
    + destruct (fetch_log _ _ _ _). same_tables E.
  - (* control *)
    unfold mcDebugMessageControl, debug_message_control_impl in E. if_all E; try same_tables E.
    destruct (find_ctx h (g_ctxs s)); [|same_tables E].
    cbn in E. injection E as <- <-. constructor; cbn; auto. apply upd_ctx_handles. reflexivity.
  - (* get info *)
    unfold mcGetInfo, get_info_impl in E. if_all E; try same_tables E.
    destruct (find_ctx h (g_ctxs s)) as [c|]; [|same_tables E].
    unfold catch in E.
    destruct (info_of c info bytes mem num) as [[e md]|o1] eqn:Ei.
    + injection E as <- <-.
      assert (md = []) as ->.
      { unfold info_of, invalid in Ei.
        repeat match type of Ei with
        | (if ?b then _ else _) = _ => destruct b
        end; try discriminate; injection Ei as _ <-; reflexivity. }
      constructor; cbn; auto.
    + injection E as <- <-.
      assert (o_made o1 = []) as Em.
      { unfold info_of, out_num, out_mem in Ei.
        repeat match type of Ei with
        | (if ?b then _ else _) = _ => destruct b
        | inr (if ?b then _ else _) = _ => destruct b
        end; try discriminate; injection Ei as <-; reflexivity. }
      constructor; cbn; auto.
  - (* bind *)
    unfold mcBindState, bind_state_impl in E. if_all E; try same_tables E.
    destruct mem as [d|]; [|same_tables E]. if_all E; try same_tables E.
    destruct (find_ctx h (g_ctxs s)) as [c|] eqn:F; [|same_tables E].
    assert (forall bad store, (forall x, c_handle (store x) = c_handle x) ->
              catch (bind_item fmt h info (le_val (firstn (Z.to_nat bytes) d)) bad store c s) = (s', o) ->
              tables (LBindState h info bytes (Some d)) s s' o) as Hb.
    { intros bad store Hst E'.
      destruct (catch_bind_handles _ _ _ _ _ _ _ _ _ _ F Hst E') as (A1 & A2 & A3 & A4 & A5 & A6).
      constructor; cbn; rewrite ?A2; auto. }
    destruct (info =? INFO_CONST); [eapply Hb; [|exact E]; reflexivity|].
    destruct (info =? INFO_ATTEMPTS); [eapply Hb; [|exact E]; reflexivity|].
    destruct (info =? INFO_WINDING); [eapply Hb; [|exact E]; reflexivity|].
    same_tables E.
  - (* user event *)
    unfold mcCreateUserEvent, create_user_event_impl in E. if_all E; try same_tables E.
    destruct (find_ctx h (g_ctxs s)) as [c|] eqn:F; [|same_tables E].
    pose proof (Hinit _ _ F) as Hi.
    cbn -[Z.pow] in E. injection E as <- <-. constructor; cbn -[Z.pow]; auto.
    right. rewrite Hi. repeat split; auto. discriminate.
  - (* event info *)
    unfold mcGetEventInfo, get_event_info_impl in E. if_all E; try same_tables E.
    destruct (find_ev e (g_evs s)) as [x|]; [|same_tables E].
    unfold catch in E.
    destruct (ev_info_of x info bytes mem num) as [[ee md]|o1] eqn:Ei.
    + injection E as <- <-.
      assert (md = []) as ->.
      { unfold ev_info_of, invalid in Ei.
        repeat match type of Ei with
        | (if ?b then _ else _) = _ => destruct b
        end; try discriminate; injection Ei as _ <-; reflexivity. }
      constructor; cbn; auto.
    + injection E as <- <-.
      assert (o_made o1 = []) as Em.
      { unfold ev_info_of, out_num, out_mem in Ei.
        repeat match type of Ei with
        | (if ?b then _ else _) = _ => destruct b
        | inr (if ?b then _ else _) = _ => destruct b
        end; try discriminate; injection Ei as <-; reflexivity. }
      constructor; cbn; auto.
  - (* event callback *)
    unfold mcSetEventCallback in E.
    destruct (negb cb); [same_tables E|].
    destruct (find_ev e (g_evs s)); [|same_tables E].
    destruct (e =? MC_NULL_HANDLE); same_tables E.
  - (* release events *)
    unfold mcReleaseEvents in E. destruct es as [es|]; [|if_all E; same_tables E].
    destruct (n =? 0) eqn:En.
    + injection E as <- <-. constructor; cbn; rewrite ?En; auto.
    + pose proof (release_events_handles (firstn (Z.to_nat n) es) s) as (A1 & A2 & A3 & A4 & A5).
      assert (exists o', snd (release_events_impl (firstn (Z.to_nat n) es) s) = inr o' /\ o_made o' = []
              \/ snd (release_events_impl (firstn (Z.to_nat n) es) s) = inl invalid) as Hr.
      { clear. generalize (firstn (Z.to_nat n) es) as l. intro l. revert s.
        induction l as [|x r IH]; intro s; cbn; [eexists; left; split; reflexivity|].
        unfold release_event_impl. destruct (find_ev x (g_evs s)); [apply IH|].
        exists (ret 0). right. reflexivity. }
      destruct Hr as [o' Hr].
      destruct (release_events_impl (firstn (Z.to_nat n) es) s) as [s1 r1]. cbn [fst snd] in *.
      assert (s' = s1 /\ o_made o = []) as [-> Hm].
      { destruct Hr as [[-> Hm]| ->]; cbn in E; injection E as <- <-; auto. }
      constructor; cbn; rewrite ?En; auto. now rewrite A2.
  - (* enqueue dispatch *)
    unfold mcEnqueueDispatch in E. if_all E; try same_tables E.
    destruct (catch (enqueue_impl h CMD_DISPATCH (waitlist_of n ws) now s)) as [s1 o1] eqn:Ec.
    destruct (enqueue_tables _ _ _ _ _ _ _ K Ec) as (A1 & A2 & A3).
    assert (s' = s1 /\ o_made o = o_made o1) as [-> Hm]
      by (injection E as <- <-; destruct ptr; auto).
    constructor; cbn [contexts_after events_after]; rewrite ?Hm; [now rewrite A1|exact A2|].
    now apply made_of_enqueue.
  - unfold mcEnqueueDispatchPlanarSection in E. if_all E; try same_tables E.
    destruct (catch (enqueue_impl h CMD_DISPATCH (waitlist_of n ws) now s)) as [s1 o1] eqn:Ec.
    destruct (enqueue_tables _ _ _ _ _ _ _ K Ec) as (A1 & A2 & A3).
    assert (s' = s1 /\ o_made o = o_made o1) as [-> Hm]
      by (injection E as <- <-; destruct ptr; auto).
    constructor; cbn [contexts_after events_after]; rewrite ?Hm; [now rewrite A1|exact A2|].
    now apply made_of_enqueue.
  - unfold mcEnqueueGetConnectedComponents in E. if_all E; try same_tables E.
    destruct (catch (enqueue_impl h CMD_GET_CCS (waitlist_of n ws) now s)) as [s1 o1] eqn:Ec.
    destruct (enqueue_tables _ _ _ _ _ _ _ K Ec) as (A1 & A2 & A3).
    assert (s' = s1 /\ o_made o = o_made o1) as [-> Hm]
      by (injection E as <- <-; destruct ptr; auto).
    constructor; cbn [contexts_after events_after]; rewrite ?Hm; [now rewrite A1|exact A2|].
    now apply made_of_enqueue.
  - unfold mcEnqueueGetConnectedComponentData in E. if_all E; try same_tables E.
    destruct (catch (enqueue_impl h CMD_GET_CC_DATA (waitlist_of n ws) now s)) as [s1 o1] eqn:Ec.
    destruct (enqueue_tables _ _ _ _ _ _ _ K Ec) as (A1 & A2 & A3).
    assert (s' = s1 /\ o_made o = o_made o1) as [-> Hm]
      by (injection E as <- <-; destruct ptr, (h =? MC_NULL_HANDLE); auto).
    constructor; cbn [contexts_after events_after]; rewrite ?Hm; [now rewrite A1|exact A2|].
    now apply made_of_enqueue.
  - (* release components *)
    unfold mcReleaseConnectedComponents, release_connected_components_impl in E.
    destruct (h =? MC_NULL_HANDLE); [same_tables E|].
    destruct ids as [ids|].
    + destruct (n =? 0); [same_tables E|].
      destruct (find_ctx h (g_ctxs s)) as [c|] eqn:F; [|same_tables E].
      destruct (release_ccs_loop _ _) as [ccs' ok].
      destruct ok; cbn in E; injection E as <- <-; constructor; cbn; auto;
        apply upd_ctx_handles; reflexivity.
    + destruct (0 <? n); [same_tables E|].
      destruct (find_ctx h (g_ctxs s)) as [c|] eqn:F; [|same_tables E].
      destruct (n =? 0); [|same_tables E].
      cbn in E. injection E as <- <-. constructor; cbn; auto. apply upd_ctx_handles. reflexivity.
  - (* new component *)
    unfold run_new_cc in E. destruct (run_ctx h s) as [c|] eqn:R; [|same_tables E].
    assert (g_init s = true) as Hi.
    { unfold run_ctx in R. destruct (find_ctx h (g_ctxs s)) eqn:F; [eauto|].
      destruct (g_init s) eqn:G; [reflexivity|]. destruct (K G) as [_ Kh].
      rewrite Kh in R. discriminate. }
    cbn -[Z.pow] in E. injection E as <- <-. unfold run_on. cbn -[Z.pow].
    destruct (find_ctx h (g_ctxs s)) eqn:F; constructor; cbn -[Z.pow]; auto.
    + apply upd_ctx_handles. reflexivity.
    + right. rewrite Hi. repeat split; auto. discriminate.
    + right. rewrite Hi. repeat split; auto. discriminate.
  - (* message *)
    unfold run_message in E. destruct (run_ctx h s) as [c|] eqn:R; [|same_tables E].
    destruct (dbg_cb m c) as [c1 ms] eqn:Ed. pose proof (dbg_cb_handle _ _ _ _ Ed) as Hh.
    injection E as <- <-. unfold run_on, run_ctx in *.
    destruct (find_ctx h (g_ctxs s)) eqn:F; constructor; cbn; auto.
    apply upd_ctx_handles_const. injection R as ->. destruct (find_ctx_In _ _ _ F). congruence.
  - (* type *)
    unfold run_itype in E. destruct (run_ctx h s) as [c|] eqn:R; [|same_tables E].
    injection E as <- <-. unfold run_on. destruct (find_ctx h (g_ctxs s)); constructor; cbn; auto.
    apply upd_ctx_handles. reflexivity.
  - unfold run_get_ccs in E. destruct (run_ctx h s) as [c|] eqn:R; [|same_tables E].
    destruct (collect _ _ _ _ _ _). same_tables E.
  - unfold run_data in E. destruct (run_ctx h s) as [c|] eqn:R; [|same_tables E].
    destruct (find_cc _ _); same_tables E.
  - injection E as <- <-. constructor; cbn; auto. apply upd_ev_handles. reflexivity.
  - injection E as <- <-. constructor; cbn; auto. apply upd_ev_handles. reflexivity.
  - injection E as <- <-. constructor; cbn; auto. apply upd_ev_handles. reflexivity.
  - same_tables E.
Qed.

(** ** Histories, last step first *)

Lemma exec_snoc fmt ls l s :
  exec fmt (ls ++ [l]) s
  = let '(s1, t) := exec fmt ls s in
    let '(s2, o) := step fmt l s1 in (s2, t ++ [(l, o)]).
Proof.
  revert s. induction ls as [|k r IH]; intro s.
  - cbn [app exec]. now destruct (step fmt l s).
  - cbn [app exec]. destruct (step fmt k s) as [s1 o]. rewrite IH.
    destruct (exec fmt r s1) as [s2 t]. destruct (step fmt l s2) as [s3 o3]. reflexivity.
Qed.

Lemma exec_app fmt l1 l2 s :
  exec fmt (l1 ++ l2) s
  = let '(s1, t1) := exec fmt l1 s in
    let '(s2, t2) := exec fmt l2 s1 in (s2, t1 ++ t2).
Proof.
  revert s. induction l1 as [|k r IH]; intro s.
  - cbn [app exec]. now destruct (exec fmt l2 s).
  - cbn [app exec]. destruct (step fmt k s) as [s1 o]. rewrite IH.
    destruct (exec fmt r s1) as [s2 t]. destruct (exec fmt l2 s2) as [s3 t3]. reflexivity.
Qed.

Lemma exec_length fmt ls s : length (snd (exec fmt ls s)) = length ls.
Proof.
  revert s. induction ls as [|k r IH]; intro s; [reflexivity|].
  cbn [exec]. destruct (step fmt k s) as [s1 o]. specialize (IH s1).
  destruct (exec fmt r s1) as [s2 t]. cbn in *. now rewrite IH.
Qed.

Lemma created_snoc t x : created (t ++ [x]) = created t ++ o_made (snd x).
Proof. unfold created. rewrite flat_map_app. cbn. now rewrite app_nil_r. Qed.

Lemma live_contexts_snoc t x : live_contexts (t ++ [x]) = contexts_after (live_contexts t) x.
Proof. unfold live_contexts. now rewrite fold_left_app. Qed.

Lemma live_events_snoc t x : live_events (t ++ [x]) = events_after (live_events t) x.
Proof. unfold live_events. now rewrite fold_left_app. Qed.

Lemma components_snoc t x h : components (t ++ [x]) h = components_after h (components t h) x.
Proof. unfold components. now rewrite fold_left_app. Qed.

Lemma bound_snoc t x h i : bound (t ++ [x]) h i = bound_after h i (bound t h i) x.
Proof. unfold bound. now rewrite fold_left_app. Qed.

Lemma enabled_snoc k t x h b : enabled k (t ++ [x]) h b = enabled_after k h b (enabled k t h b) x.
Proof. unfold enabled. now rewrite fold_left_app. Qed.

Lemma callback_snoc t x h : callback_set (t ++ [x]) h = callback_after h (callback_set t h) x.
Proof. unfold callback_set. now rewrite fold_left_app. Qed.

Lemma flags_snoc t x h : flags_of (t ++ [x]) h = flags_after h (flags_of t h) x.
Proof. unfold flags_of. now rewrite fold_left_app. Qed.

(** ** The handles in use *)

Lemma drop_listed_incl es L x : In x (drop_listed es L) -> In x L.
Proof.
  revert L. induction es as [|e r IH]; intros L H; [exact H|].
  cbn in H. destruct (in_dec Z.eq_dec e L); [|exact H].
  apply IH in H. apply in_remove in H. tauto.
Qed.

Lemma drop_listed_NoDup es L : NoDup L -> NoDup (drop_listed es L).
Proof.
  revert L. induction es as [|e r IH]; intros L H; [exact H|].
  cbn. destruct (in_dec Z.eq_dec e L); [|exact H]. apply IH. now apply NoDup_remove_list.
Qed.

Definition makes_event (l : label) : Prop :=
  match l with
  | LCreateUserEvent _ _ _ | LEnqueueDispatch _ _ _ _ _ _ | LEnqueuePlanar _ _ _ _ _ _ _ _ _
  | LEnqueueGetCCs _ _ _ _ _ _ _ _ | LEnqueueData _ _ _ _ _ _ _ _ _ => True
  | _ => False
  end.

Definition makes_context (l : label) : Prop :=
  match l with LCreateContext _ _ => True | _ => False end.

Definition makes_component (h : Z) (l : label) : Prop :=
  match l with LRunNewCC k _ _ => k = h | _ => False end.

Definition made_in (P : label -> Prop) (t : trace) (h : Z) : Prop :=
  exists l o, In (l, o) t /\ P l /\ In h (o_made o).

Lemma made_in_snoc P t x h : made_in P t h -> made_in P (t ++ [x]) h.
Proof. intros (l & o & A & B & C). exists l, o. rewrite in_app_iff. auto. Qed.

Lemma made_in_last (P : label -> Prop) t l o h : P l -> In h (o_made o) -> made_in P (t ++ [(l, o)]) h.
Proof. intros. exists l, o. rewrite in_app_iff. cbn. auto. Qed.

Lemma made_in_created P t h : made_in P t h -> In h (created t).
Proof. intros (l & o & A & B & C). unfold created. apply in_flat_map. exists (l, o). auto. Qed.

Lemma context_made t h : In h (live_contexts t) -> made_in makes_context t h.
Proof.
  induction t as [|[l o] t IH] using rev_ind; [intros []|].
  rewrite live_contexts_snoc. intro H.
  destruct l; cbn in H; try (apply made_in_snoc, IH, H).
  - apply in_app_iff in H. destruct H as [H|H]; [|apply made_in_snoc, IH, H].
    now apply made_in_last.
  - destruct (succeeded o); [|apply made_in_snoc, IH, H].
    apply in_remove in H. apply made_in_snoc, IH, H.
Qed.

Lemma event_made t h : In h (live_events t) -> made_in makes_event t h.
Proof.
  induction t as [|[l o] t IH] using rev_ind; [intros []|].
  rewrite live_events_snoc. intro H.
  destruct l; cbn in H; try (apply made_in_snoc, IH, H);
    try (apply in_app_iff in H; destruct H as [H|H];
         [now apply made_in_last|apply made_in_snoc, IH, H]).
  destruct es; [|apply made_in_snoc, IH, H].
  destruct (n =? 0); [apply made_in_snoc, IH, H|].
  apply drop_listed_incl in H. apply made_in_snoc, IH, H.
Qed.

Lemma drop_comps_incl ids L x : In x (drop_comps ids L) -> In x L.
Proof.
  revert L. induction ids as [|e r IH]; intros L H; [exact H|].
  cbn in H. destruct (existsb _ L); [|exact H].
  apply IH in H. apply filter_In in H. tauto.
Qed.

Lemma component_made t h c :
  In c (components t h) -> made_in (makes_component h) t (comp_handle c).
Proof.
  induction t as [|[l o] t IH] using rev_ind; [intros []|].
  rewrite components_snoc. intro H.
  destruct l; cbn in H; try (apply made_in_snoc, IH, H).
  - destruct (returned o h); [destruct H|apply made_in_snoc, IH, H].
  - destruct ids as [ids|].
    + destruct (h0 =? h); [|apply made_in_snoc, IH, H].
      destruct (_ && _); [|apply made_in_snoc, IH, H].
      apply drop_comps_incl in H. apply made_in_snoc, IH, H.
    + destruct (_ && _); [destruct H|apply made_in_snoc, IH, H].
  - destruct (Z.eqb_spec h0 h) as [->|]; [|apply made_in_snoc, IH, H].
    apply in_app_iff in H. destruct H as [H|H]; [|apply made_in_snoc, IH, H].
    apply in_map_iff in H. destruct H as (k & <- & Hk). now apply made_in_last.
Qed.

Lemma NoDup_app_split {A} (l1 l2 : list A) :
  NoDup (l1 ++ l2) <-> NoDup l1 /\ NoDup l2 /\ (forall x, In x l1 -> ~ In x l2).
Proof.
  induction l1 as [|a r IH]; cbn.
  - split; [intro H|tauto]. repeat split; auto. constructor.
  - rewrite !NoDup_cons_iff, IH, in_app_iff. split.
    + intros (A1 & A2 & A3 & A4). repeat split; auto. intros x [<-|Hx]; auto.
    + intros ((A1 & A2) & A3 & A4). repeat split; auto.
      intros [H|H]; [auto|]. exact (A4 a (or_introl eq_refl) H).
Qed.

(** A handle has one maker. *)
Lemma maker_unique t x y k :
  NoDup (created t) -> In x t -> In y t -> In k (o_made (snd x)) -> In k (o_made (snd y)) -> x = y.
Proof.
  intros ND Hx Hy Kx Ky. induction t as [|z t IH]; [destruct Hx|].
  unfold created in ND. cbn in ND. apply NoDup_app_split in ND. destruct ND as (N1 & N2 & N3).
  assert (forall w, In w t -> In k (o_made (snd w)) -> In k (created t)) as Hc.
  { intros w Hw Kw. unfold created. apply in_flat_map. eauto. }
  destruct Hx as [->|Hx], Hy as [->|Hy]; auto.
  - exfalso. apply (N3 k Kx). eapply Hc; eauto.
  - exfalso. apply (N3 k Ky). eapply Hc; eauto.
Qed.

Lemma made_in_disjoint (P Q : label -> Prop) t k :
  NoDup (created t) -> made_in P t k -> made_in Q t k -> exists l, P l /\ Q l.
Proof.
  intros ND (l & o & A & B & C) (l' & o' & A' & B' & C').
  pose proof (maker_unique _ _ _ _ ND A A' C C') as E. injection E as <- <-. eauto.
Qed.

Lemma live_contexts_NoDup t : NoDup (created t) -> NoDup (live_contexts t).
Proof.
  induction t as [|[l o] t IH] using rev_ind; [constructor|].
  rewrite created_snoc, live_contexts_snoc, NoDup_app_split. intros (N1 & N2 & N3).
  specialize (IH N1). destruct l; cbn; auto.
  - apply NoDup_app_split. repeat split; auto. intros x Hx Hl.
    apply context_made, made_in_created in Hl. now apply (N3 x).
  - destruct (succeeded o); auto. now apply NoDup_remove_list.
Qed.

Lemma live_events_NoDup t : NoDup (created t) -> NoDup (live_events t).
Proof.
  induction t as [|[l o] t IH] using rev_ind; [constructor|].
  rewrite created_snoc, live_events_snoc, NoDup_app_split. intros (N1 & N2 & N3).
  specialize (IH N1).
  assert (NoDup (o_made o ++ live_events t)) as Ha.
  { apply NoDup_app_split. repeat split; auto. intros x Hx Hl.
    apply event_made, made_in_created in Hl. now apply (N3 x). }
  destruct l; cbn; auto.
  destruct es; [|auto]. destruct (n =? 0); [auto|]. now apply drop_listed_NoDup.
Qed.

Lemma map_without h L :
  map comp_handle (without h L) = remove Z.eq_dec h (map comp_handle L).
Proof.
  unfold without. induction L as [|c r IH]; cbn; [reflexivity|].
  destruct (Z.eqb_spec (comp_handle c) h); destruct (Z.eq_dec h (comp_handle c));
    cbn; try congruence.
Qed.

Lemma drop_comps_NoDup ids L :
  NoDup (map comp_handle L) -> NoDup (map comp_handle (drop_comps ids L)).
Proof.
  revert L. induction ids as [|e r IH]; intros L H; [exact H|].
  cbn. destruct (existsb _ L); [|exact H]. apply IH. rewrite map_without. now apply NoDup_remove_list.
Qed.

Lemma components_NoDup t h : NoDup (created t) -> NoDup (map comp_handle (components t h)).
Proof.
  induction t as [|[l o] t IH] using rev_ind; [constructor|].
  rewrite created_snoc, components_snoc, NoDup_app_split. intros (N1 & N2 & N3).
  specialize (IH N1). destruct l; cbn; auto.
  - destruct (returned o h); [constructor|auto].
  - destruct ids as [ids|].
    + destruct (h0 =? h); [|auto]. destruct (_ && _); [|auto]. now apply drop_comps_NoDup.
    + destruct (_ && _); [constructor|auto].
  - destruct (h0 =? h); [|auto]. rewrite map_app, map_map. cbn. rewrite map_id.
    apply NoDup_app_split. repeat split; auto. intros x Hx Hl.
    apply in_map_iff in Hl. destruct Hl as (c & <- & Hc).
    apply component_made, made_in_created in Hc. now apply (N3 (comp_handle c)).
Qed.

(** ** The invariant *)

Record view (t : trace) (c : ctx) : Prop := {
  v_comps : comps_of c = components t (c_handle c);
  v_bound : forall item, bindable item -> item_bytes c item = bound t (c_handle c) item;
  v_bits : forall k bit, In bit (filter_bits k) ->
             on (field_of k c) bit = enabled k t (c_handle c) bit;
  v_cb : c_cb c = callback_set t (c_handle c);
  v_flags : c_flags c = flags_of t (c_handle c)
}.

Record Inv (s : gs) (t : trace) : Prop := {
  i_created : created t = map (fun i => 912559 + Z.of_nat i) (seq 0 (length (created t)));
  i_short : (length (created t) <= length t)%nat;
  i_counter : if g_init s then g_counter s = 912559 + Z.of_nat (length (created t))
              else created t = [] /\ g_ctxs s = [] /\ g_held s = [];
  i_ctxs : map c_handle (g_ctxs s) = live_contexts t;
  i_evs : map e_handle (g_evs s) = live_events t;
  i_view : forall c, In c (g_ctxs s) -> view t c
}.

Lemma consecutive_NoDup l : l = map (fun i => 912559 + Z.of_nat i) (seq 0 (length l)) -> NoDup l.
Proof.
  intros ->. apply FinFun.Injective_map_NoDup; [|apply seq_NoDup].
  intros x y H. lia.
Qed.

Lemma Inv_NoDup s t : Inv s t -> NoDup (created t).
Proof. intro I. apply consecutive_NoDup. exact (i_created _ _ I). Qed.

Lemma Inv_range s t k : Inv s t -> In k (created t) ->
  912559 <= k < 912559 + Z.of_nat (length (created t)).
Proof.
  intros I H. rewrite (i_created _ _ I) in H. apply in_map_iff in H.
  destruct H as (i & <- & Hi). apply in_seq in Hi. lia.
Qed.

Lemma Inv_ctx_nonnull s t c : Inv s t -> In c (g_ctxs s) -> c_handle c <> MC_NULL_HANDLE.
Proof.
  intros I H. assert (In (c_handle c) (live_contexts t)) as Hl
    by (rewrite <- (i_ctxs _ _ I); now apply in_map).
  apply context_made, made_in_created in Hl. pose proof (Inv_range _ _ _ I Hl).
  unfold MC_NULL_HANDLE. lia.
Qed.

(** The trace-defined state of a fresh handle is the initial one. *)
Lemma fresh_view t h fl o p :
  o_handle o = Some h -> view (t ++ [(LCreateContext p fl, o)]) (new_ctx h fl).
Proof.
  intro Ho. constructor; cbn [new_ctx c_handle].
  - rewrite components_snoc. cbn. unfold returned. rewrite Ho, Z.eqb_refl. reflexivity.
  - intros item Hb. rewrite bound_snoc. cbn [bound_after]. unfold returned. rewrite Ho, Z.eqb_refl.
    unfold item_bytes, default_bytes. reflexivity.
  - intros k bit _. rewrite enabled_snoc. cbn [enabled_after]. unfold returned.
    rewrite Ho, Z.eqb_refl. now destruct k.
  - rewrite callback_snoc. cbn. unfold returned. now rewrite Ho, Z.eqb_refl.
  - rewrite flags_snoc. cbn. unfold returned. now rewrite Ho, Z.eqb_refl.
Qed.

Lemma follows_view t x c c' : view t c -> follows x c c' -> view (t ++ [x]) c'.
Proof.
  intros [V1 V2 V3 V4 V5] (Hh & F1 & F2 & F3 & F4 & F5).
  constructor; rewrite Hh.
  - rewrite components_snoc, <- V1. now symmetry.
  - intros item Hb. rewrite bound_snoc, <- V2 by exact Hb. now symmetry; apply F2.
  - intros k bit Hb. rewrite enabled_snoc, <- V3 by exact Hb. now symmetry; apply F3.
  - rewrite callback_snoc, <- V4. now symmetry.
  - rewrite flags_snoc, <- V5. now symmetry.
Qed.

(** Creating returns the handle it made. *)
Lemma create_made fmt p fl s s' o h :
  step fmt (LCreateContext p fl) s = (s', o) -> o_handle o = Some h -> o_made o = [h].
Proof.
  cbn [step]. unfold mcCreateContext. destruct p; cbn [negb].
  - unfold create_context_impl. cbn -[Z.pow]. intro E. injection E as <- <-. cbn. congruence.
  - intro E. injection E as <- <-. discriminate.
Qed.

Lemma held_init fmt l s s' o :
  step fmt l s = (s', o) -> g_init s' = false -> counted s -> g_ctxs s' = [] /\ g_held s' = [].
Proof.
  intros E G K.
  pose proof (step_tables _ _ _ _ _ E K) as [T1 T2 T3].
  destruct T3 as [(M & C & G')|(M & C & G' & _)]; [|congruence].
  rewrite G' in G. destruct (K G) as [Kc Kh].
  assert (forall h, find_ctx h (g_ctxs s) = None) as Hf by (rewrite Kc; reflexivity).
  assert (forall h, run_ctx h s = None) as Hr
    by (intro h; unfold run_ctx; rewrite Hf, Kh; reflexivity).
  assert (forall h cmd ws now, catch (enqueue_impl h cmd ws now s) = (s, ret MC_INVALID_VALUE)) as He
    by (intros; unfold enqueue_impl; rewrite Hf; reflexivity).
  destruct l; cbn [step] in E;
    try (injection E as <- <-; cbn; rewrite ?Kh; auto; fail).
  - unfold mcCreateContext in E. destruct ptr; cbn [negb] in E; [|injection E as <- <-; auto].
    unfold create_context_impl in E. cbn -[Z.pow] in E. injection E as <- <-. discriminate.
  - unfold mcReleaseContext, release_context_impl in E. rewrite Hf in E.
    if_all E; cbn in E; injection E as <- _; auto.
  - unfold mcDebugMessageCallback, debug_message_callback_impl in E. rewrite Hf in E.
    if_all E; cbn in E; injection E as <- _; auto.
  - unfold mcGetDebugMessageLog, get_debug_message_log_impl in E. rewrite Hf in E.
    if_all E; cbn in E; injection E as <- _; auto.
  - unfold mcDebugMessageControl, debug_message_control_impl in E. rewrite Hf in E.
    if_all E; cbn in E; injection E as <- _; auto.
  - unfold mcGetInfo, get_info_impl in E. rewrite Hf in E.
    if_all E; cbn in E; injection E as <- _; auto.
  - unfold mcBindState, bind_state_impl in E. rewrite Hf in E. destruct mem;
    if_all E; cbn in E; injection E as <- _; auto.
  - unfold mcCreateUserEvent, create_user_event_impl in E. rewrite Hf in E.
    if_all E; cbn in E; injection E as <- _; auto.
  - unfold mcGetEventInfo, get_event_info_impl in E. if_all E; try (injection E as <- _; auto; fail).
    destruct (find_ev e (g_evs s)); cbn [catch] in E; [|injection E as <- _; auto].
    destruct (ev_info_of _ _ _ _ _) as [[? ?]|]; injection E as <- _; auto.
  - unfold mcSetEventCallback in E. destruct (find_ev e (g_evs s)); if_all E; injection E as <- _; auto.
  - unfold mcReleaseEvents in E. destruct es; if_all E; try (injection E as <- _; auto; fail).
    pose proof (release_events_handles (firstn (Z.to_nat n) l) s) as (_ & R1 & _ & _ & R2).
    destruct (release_events_impl _ s) as [s1 [[? ?]|?]]; cbn in *; injection E as <- _; rewrite R1, R2; auto.
  - unfold mcEnqueueDispatch in E. rewrite He in E. if_all E; injection E as <- _; auto.
  - unfold mcEnqueueDispatchPlanarSection in E. rewrite He in E. if_all E; injection E as <- _; auto.
  - unfold mcEnqueueGetConnectedComponents in E. rewrite He in E. if_all E; injection E as <- _; auto.
  - unfold mcEnqueueGetConnectedComponentData in E. rewrite He in E. if_all E; injection E as <- _; auto.
  - unfold mcReleaseConnectedComponents, release_connected_components_impl in E. rewrite Hf in E.
    destruct ids; if_all E; cbn in E; injection E as <- _; auto.
  - unfold run_new_cc in E. rewrite Hr in E. injection E as <- _; auto.
  - unfold run_message in E. rewrite Hr in E. injection E as <- _; auto.
  - unfold run_itype in E. rewrite Hr in E. injection E as <- _; auto.
  - unfold run_get_ccs in E. rewrite Hr in E. injection E as <- _; auto.
  - unfold run_data in E. rewrite Hr in E. injection E as <- _; auto.
Qed.

Lemma Inv_counted s t : Inv s t -> counted s.
Proof. intros I G. pose proof (i_counter _ _ I) as H. rewrite G in H. tauto. Qed.

Lemma Inv_step fmt l s s' o t :
  Inv s t -> step fmt l s = (s', o) -> wf_label l ->
  912559 + Z.of_nat (length t) + 1 < 2 ^ 64 ->
  Inv s' (t ++ [(l, o)]).
Proof.
  intros I E WF B. pose proof (Inv_counted _ _ I) as K.
  pose proof (step_tables _ _ _ _ _ E K) as [T1 T2 T3].
  pose proof (i_counter _ _ I) as Ic. pose proof (i_short _ _ I) as Is.
  assert (o_made o = [] \/ o_made o = [912559 + Z.of_nat (length (created t))]) as Hm.
  { destruct T3 as [(M & _)|(M & _)]; [auto|]. right. rewrite M.
    destruct (g_init s); [congruence|]. destruct Ic as (-> & _). reflexivity. }
  assert (NoDup (map c_handle (g_ctxs s))) as ND.
  { rewrite (i_ctxs _ _ I). apply live_contexts_NoDup, (Inv_NoDup _ _ I). }
  constructor.
  - rewrite created_snoc. cbn [snd]. destruct Hm as [-> | ->].
    + rewrite app_nil_r. exact (i_created _ _ I).
    + rewrite app_length. cbn [length]. rewrite seq_app, map_app. cbn [seq map].
      rewrite (i_created _ _ I) at 1. reflexivity.
  - rewrite created_snoc, !app_length. cbn [snd length].
    destruct Hm as [-> | ->]; cbn [length]; lia.
  - destruct (g_init s') eqn:G'.
    + rewrite created_snoc, app_length. cbn [snd].
      destruct T3 as [(M & C & G)|(M & C & _)].
      * assert (g_init s = true) as Gs by congruence. rewrite Gs in Ic. rewrite M, C. cbn [length]. lia.
      * rewrite M, C. cbn [length].
        destruct (g_init s).
        -- rewrite Z.mod_small by lia. lia.
        -- destruct Ic as (-> & _). rewrite Z.mod_small by lia. reflexivity.
    + destruct T3 as [(M & C & G)|(M & C & G & _)]; [|congruence].
      assert (g_init s = false) as Gs by congruence. rewrite Gs in Ic. destruct Ic as (Ec & _).
      rewrite created_snoc, Ec. cbn [snd]. rewrite M. split; [reflexivity|].
      eapply held_init; eauto.
  - rewrite T1, live_contexts_snoc, (i_ctxs _ _ I). reflexivity.
  - rewrite T2, live_events_snoc, (i_evs _ _ I). reflexivity.
  - intros c' Hc'.
    assert (forall p fl h, l = LCreateContext p fl -> o_handle o = Some h ->
              ~ In h (map c_handle (g_ctxs s))) as Hfresh.
    { intros p fl h -> Ho Hin. pose proof (create_made _ _ _ _ _ _ _ E Ho) as Em.
      rewrite (i_ctxs _ _ I) in Hin. apply context_made, made_in_created in Hin.
      pose proof (Inv_range _ _ _ I Hin) as R.
      destruct Hm as [Hm|Hm]; rewrite Em in Hm; [discriminate|]. assert (h = 912559 + Z.of_nat (length (created t))) as Eh by congruence. clear - R Eh. lia. }
    destruct (step_follows _ _ _ _ _ _ E WF (fun c => Inv_ctx_nonnull _ _ c I) ND Hfresh Hc')
      as [(p & fl & h & -> & Ho & ->)|(c & Hc & F)].
    + now apply fresh_view.
    + apply follows_view with c; [exact (i_view _ _ I c Hc)|exact F].
Qed.

Lemma Inv_init : Inv gs0 [].
Proof. constructor; cbn; auto; intros c []. Qed.

Lemma history_Inv fmt ls s t : history fmt ls s t -> Inv s t.
Proof.
  intros (E & WF & B). revert s t E. induction ls as [|l ls IH] using rev_ind; intros s t E.
  - injection E as <- <-. exact Inv_init.
  - rewrite exec_snoc in E. apply Forall_app in WF. destruct WF as [WF Wl].
    rewrite app_length in B. cbn [length] in B.
    pose proof (exec_length fmt ls gs0) as L.
    destruct (exec fmt ls gs0) as [s1 t1] eqn:E1. destruct (step fmt l s1) as [s2 o] eqn:E2.
    injection E as <- <-. cbn [snd] in L.
    assert (912559 + Z.of_nat (length ls) < 2 ^ 64) as B1 by lia.
    specialize (IH WF B1 s1 t1 eq_refl).
    eapply Inv_step; [exact IH|exact E2|now inversion Wl|]. rewrite L. lia.
Qed.

Lemma history_snoc fmt ls l s t s' o :
  history fmt ls s t -> step fmt l s = (s', o) -> wf_label l ->
  912559 + Z.of_nat (length ls) + 1 < 2 ^ 64 ->
  history fmt (ls ++ [l]) s' (t ++ [(l, o)]).
Proof.
  intros (E & WF & B) Es W B'. split; [|split].
  - rewrite exec_snoc, E, Es. reflexivity.
  - apply Forall_app. auto.
  - rewrite app_length. cbn [length]. lia.
Qed.
