(** * Properties C26-C30: bound state, enumeration, release, debug output *)

From Coq Require Import ZArith Reals List Bool Lia.
From Flocq Require Import IEEE754.Binary IEEE754.Bits.
From Verif Require Import ApiModel ApiSpec ApiProofs ApiInv ApiDouble ApiProps.
Import ListNotations.
Local Open Scope Z_scope.

Local Opaque control_bits.

Lemma live_find s t h :
  Inv s t -> In h (live_contexts t) ->
  exists c, find_ctx h (g_ctxs s) = Some c /\ c_handle c = h /\ In c (g_ctxs s) /\ view t c /\
            h <> MC_NULL_HANDLE.
Proof.
  intros I H. pose proof H as H'. rewrite <- (i_ctxs _ _ I) in H. destruct (find_ctx_ex _ _ H) as [c Fc].
  destruct (find_ctx_In _ _ _ Fc) as [Hc Eh]. exists c.
  split; [exact Fc|]. split; [exact Eh|]. split; [exact Hc|]. split; [exact (i_view _ _ I _ Hc)|].
  rewrite <- Eh. exact (Inv_ctx_nonnull _ _ _ I Hc).
Qed.

(** ** C26 *)

(** What mcGetInfo returns for a bound item of a live context is what was
    bound last; the query has no effect. *)
Theorem C26_read_back fmt ls s t h item bytes num s' o :
  history fmt ls s t -> In h (live_contexts t) ->
  item = INFO_CONST \/ item = INFO_ATTEMPTS ->
  step fmt (LGetInfo h item bytes true num) s = (s', o) ->
  o_res o = MC_NO_ERROR /\ o_mem o = bound t h item /\ s' = s.
Proof.
  intros H Hh Hi E. pose proof (history_Inv _ _ _ _ H) as I.
  destruct (live_find _ _ _ I Hh) as (c & Fc & Eh & _ & V & Hn).
  cbn [step] in E. unfold mcGetInfo, get_info_impl in E. rewrite Fc in E.
  apply Z.eqb_neq in Hn. rewrite Hn in E.
  destruct Hi as [-> | ->]; cbn in E; rewrite andb_false_r in E; injection E as <- <-; cbn;
    (split; [reflexivity|split; [|reflexivity]]); rewrite <- Eh.
  - rewrite <- (v_bound _ _ V INFO_CONST) by (unfold bindable; auto). reflexivity.
  - rewrite <- (v_bound _ _ V INFO_ATTEMPTS) by (unfold bindable; auto). reflexivity.
Qed.

(** The values that can be bound: a constant that is positive, infinite or
    NaN, at least one attempt, one of the two winding orders. *)
Definition acceptable (item : Z) (bs : list Z) : Prop :=
  (item = INFO_CONST /\
   (gt_zero64 (b64_of_bits (le_val bs)) \/ is_nan 53 1024 (b64_of_bits (le_val bs)) = true)) \/
  (item = INFO_ATTEMPTS /\ 1 <= le_val bs) \/
  (item = INFO_WINDING /\ (le_val bs = WINDING_AS_GIVEN \/ le_val bs = WINDING_REVERSED)).

Lemma not_le_zero bits : 0 <= bits < 2 ^ 64 ->
  double_le_zero bits = false <->
  (gt_zero64 (b64_of_bits bits) \/ is_nan 53 1024 (b64_of_bits bits) = true).
Proof.
  intro Hb. pose proof (double_le_zero_spec _ Hb) as S.
  assert (forall x : binary64, ~ le_zero64 x <-> gt_zero64 x \/ is_nan 53 1024 x = true) as T.
  { intro x. unfold le_zero64, gt_zero64.
    destruct x as [sg|sg|sg pl Hpl|sg m e Hx]; cbn [is_nan is_finite].
    - cbn [B2R]. split; [|intros [[K|[_ K]]|K]; try discriminate].
      + intro K. exfalso. apply K. right. split; [reflexivity|apply Rle_refl].
      + exfalso. exact (Rlt_irrefl _ K).
    - destruct sg.
      + split; [intro K; exfalso; auto|]. intros [[K|[K _]]|K]; discriminate.
      + split; [auto|]. intros _ [K|[K _]]; discriminate.
    - split; [auto|]. intros _ [K|[K _]]; discriminate.
    - split.
      + intro K. left. right. split; [reflexivity|].
        apply Rnot_le_lt. intro L. apply K. auto.
      + intros [[K|[_ K]]|K]; [discriminate| |discriminate].
        intros [L|[_ L]]; [discriminate|]. exact (Rlt_not_le _ _ K L). }
  rewrite <- T, <- S. destruct (double_le_zero bits); split; intro K; congruence.
Qed.

Lemma dbg_cb_keeps m c c' ms : dbg_cb m c = (c', ms) -> exists l, c' = with_log l c.
Proof. exact (dbg_cb_log m c c' ms). Qed.

Lemma firstn_sub {A} n (l : list A) x : In x (firstn n l) -> In x l.
Proof. intro H. rewrite <- (firstn_skipn n l). apply in_or_app. auto. Qed.

Lemma bind_item_result fmt h info v bad store c s s' o :
  NoDup (map c_handle (g_ctxs s)) -> find_ctx h (g_ctxs s) = Some c ->
  catch (bind_item fmt h info v bad store c s) = (s', o) ->
  if bad then o_res o = MC_INVALID_VALUE /\ g_evs s' = g_evs s /\
     (forall c', In c' (g_ctxs s') -> exists c l, In c (g_ctxs s) /\ c' = with_log l c)
  else o_res o = MC_NO_ERROR.
Proof.
  intros ND Fc E. unfold bind_item in E.
  destruct (dbg_cb _ c) as [c1 ms] eqn:Ed. destruct (dbg_cb_keeps _ _ _ _ Ed) as [l El].
  destruct bad; cbn in E; injection E as <- <-; cbn; [|reflexivity].
  split; [reflexivity|]. split; [reflexivity|]. intros c' Hc.
  destruct (in_upd _ _ _ _ ND Hc) as [[A B]|(c2 & A & B & C & D)].
  - exists c', (c_log c'). split; [exact A|]. now destruct c'.
  - rewrite Fc in C. injection C as <-. exists c, l. split; [exact A|]. congruence.
Qed.

(** When a bind succeeds; otherwise it reports MC_INVALID_VALUE and every
    context is what it was, up to the debug log. *)
Theorem C26_bind_result fmt ls s t h item n mem s' o :
  history fmt ls s t -> wf_label (LBindState h item n mem) ->
  step fmt (LBindState h item n mem) s = (s', o) ->
  (o_res o = MC_NO_ERROR <->
     In h (live_contexts t) /\ bindable item /\ n = item_size item /\
     exists d, mem = Some d /\ acceptable item (firstn (Z.to_nat n) d)) /\
  (o_res o <> MC_NO_ERROR ->
     o_res o = MC_INVALID_VALUE /\ g_evs s' = g_evs s /\
     (forall c', In c' (g_ctxs s') -> exists c l, In c (g_ctxs s) /\ c' = with_log l c)).
Proof.
  intros H WF E. pose proof (history_Inv _ _ _ _ H) as I.
  assert (NoDup (map c_handle (g_ctxs s))) as ND.
  { rewrite (i_ctxs _ _ I). apply live_contexts_NoDup, (Inv_NoDup _ _ I). }
  assert (forall c, with_log (c_log c) c = c) as Hwl by (intros []; reflexivity).
  assert (forall c', In c' (g_ctxs s) -> exists c l, In c (g_ctxs s) /\ c' = with_log l c) as Hs.
  { intros c' Hc. exists c', (c_log c'). now rewrite Hwl. }
  assert (forall (P : Prop), (P -> False) ->
            (o = ret MC_INVALID_VALUE /\ s' = s) ->
            (o_res o = MC_NO_ERROR <-> P) /\
            (o_res o <> MC_NO_ERROR -> o_res o = MC_INVALID_VALUE /\ g_evs s' = g_evs s /\
             (forall c', In c' (g_ctxs s') -> exists c l, In c (g_ctxs s) /\ c' = with_log l c))) as Hrej.
  { intros P HP (-> & ->). cbn. split; [split; [discriminate|tauto]|]. intros _. auto. }
  cbn [step] in E. unfold mcBindState in E.
  destruct (Z.eqb_spec h MC_NULL_HANDLE) as [Hh0|Hh0].
  { apply Hrej; [|injection E as <- <-; auto]. intros (K & _).
    destruct (live_find _ _ _ I K) as (_ & _ & _ & _ & _ & K'). auto. }
  destruct (Z.eqb_spec n 0) as [Hn0|Hn0].
  { apply Hrej; [|injection E as <- <-; auto]. intros (_ & [K|[K|K]] & K2 & _); subst; discriminate. }
  destruct mem as [d|].
  2:{ apply Hrej; [|injection E as <- <-; auto]. intros (_ & _ & _ & d & K & _). discriminate. }
  cbn in WF. destruct WF as [WF Wn].
  destruct (negb (has item INFO_CONST || has item INFO_ATTEMPTS || has item INFO_WINDING)) eqn:Eb.
  { apply Hrej; [|injection E as <- <-; auto]. intros (_ & [K|[K|K]] & _); subst; discriminate. }
  destruct (has item INFO_CONST && negb (n =? 8) || has item INFO_ATTEMPTS && negb (n =? 4) ||
            has item INFO_WINDING && negb (n =? 4)) eqn:Ez.
  { apply Hrej; [|injection E as <- <-; auto].
    intros (_ & [K|[K|K]] & K2 & _); subst; discriminate. }
  unfold bind_state_impl in E.
  destruct (find_ctx h (g_ctxs s)) as [c|] eqn:Fc.
  2:{ apply Hrej; [|injection E as <- <-; auto]. intros (K & _).
      destruct (live_find _ _ _ I K) as (c & Fc' & _). rewrite Fc' in Fc. discriminate. }
  assert (In h (live_contexts t)) as Hl.
  { rewrite <- (i_ctxs _ _ I). destruct (find_ctx_In _ _ _ Fc) as [A <-]. now apply in_map. }
  set (v := le_val (firstn (Z.to_nat n) d)) in *.
  assert (0 <= v < 256 ^ n) as Hv.
  { unfold v. pose proof (le_val_range (firstn (Z.to_nat n) d)) as R.
    rewrite firstn_length in R.
    replace (Z.of_nat (Nat.min (Z.to_nat n) (length d))) with n in R by lia.
    apply R. apply Forall_forall. intros x Hx. rewrite Forall_forall in WF. apply WF.
    eapply firstn_sub; eauto. }
  assert (forall bad store,
            catch (bind_item fmt h item v bad store c s) = (s', o) ->
            (bad = false <-> (bindable item /\ n = item_size item /\
                              acceptable item (firstn (Z.to_nat n) d))) ->
            (o_res o = MC_NO_ERROR <->
             In h (live_contexts t) /\ bindable item /\ n = item_size item /\
             exists d0, Some d = Some d0 /\ acceptable item (firstn (Z.to_nat n) d0)) /\
            (o_res o <> MC_NO_ERROR ->
             o_res o = MC_INVALID_VALUE /\ g_evs s' = g_evs s /\
             (forall c', In c' (g_ctxs s') -> exists c l, In c (g_ctxs s) /\ c' = with_log l c))) as Hitem.
  { intros bad store E' Hbad. pose proof (bind_item_result _ _ _ _ _ _ _ _ _ _ ND Fc E') as R.
    destruct bad.
    - destruct R as (R1 & R2 & R3). split; [|auto]. rewrite R1. split; [discriminate|].
      intros (_ & K1 & K2 & d0 & K3 & K4). injection K3 as <-.
      destruct Hbad as [_ Hbad]. discriminate Hbad. auto.
    - split; [|congruence]. rewrite R. split; [intros _|reflexivity].
      destruct Hbad as [Hbad _]. destruct (Hbad eq_refl) as (K1 & K2 & K3).
      split; [exact Hl|]. split; [exact K1|]. split; [exact K2|]. exists d. auto. }
  destruct (Z.eqb_spec item INFO_CONST) as [Ei|Ei].
  { apply (Hitem _ _ E). subst item. cbn in Ez.
    destruct (Z.eqb_spec n 8) as [En|En]; [|discriminate]. subst n.
    rewrite (not_le_zero v Hv). unfold acceptable, bindable. fold v.
    split; [intro K|intros (_ & _ & [(_ & K)|[(K & _)|(K & _)]]); try discriminate; exact K].
    split; [auto|]. split; [reflexivity|]. left. auto. }
  destruct (Z.eqb_spec item INFO_ATTEMPTS) as [Ei2|Ei2].
  { apply (Hitem _ _ E). subst item. cbn in Ez.
    destruct (Z.eqb_spec n 4) as [En|En]; [|discriminate]. subst n.
    unfold acceptable, bindable. fold v. rewrite Z.ltb_ge.
    split; [intro K|intros (_ & _ & [(K & _)|[(_ & K)|(K & _)]]); try discriminate; exact K].
    split; [auto|]. split; [reflexivity|]. right. left. auto. }
  destruct (Z.eqb_spec item INFO_WINDING) as [Ei3|Ei3].
  { apply (Hitem _ _ E). subst item. cbn in Ez.
    destruct (Z.eqb_spec n 4) as [En|En]; [|discriminate]. subst n.
    unfold acceptable, bindable. fold v.
    assert (negb (v =? WINDING_AS_GIVEN) && negb (v =? WINDING_REVERSED) = false
            <-> (v = WINDING_AS_GIVEN \/ v = WINDING_REVERSED)) as ->.
    { rewrite andb_false_iff, !negb_false_iff, !Z.eqb_eq. tauto. }
    split; [intro K|intros (_ & _ & [(K & _)|[(K & _)|(_ & K)]]); try discriminate; exact K].
    split; [auto|]. split; [reflexivity|]. right. right. auto. }
  apply Hrej; [|injection E as <- <-; auto].
  intros (_ & [K|[K|K]] & _); contradiction.
Qed.

(** The winding order can be bound but not read back through mcGetInfo. *)
Theorem C26_winding_unreadable_refuted fmt s h bytes mem num :
  o_res (snd (step fmt (LGetInfo h INFO_WINDING bytes mem num) s)) = MC_INVALID_VALUE.
Proof.
  cbn [step]. unfold mcGetInfo. destruct (h =? MC_NULL_HANDLE); [reflexivity|].
  destruct (negb (bytes =? 0) && negb mem); reflexivity.
Qed.

(** The constant may be bound to NaN (which is not positive). *)
Theorem C26_nan_accepted_refuted :
  exists fmt ls s t h d s' o,
    history fmt ls s t /\ is_nan 53 1024 (b64_of_bits (le_val d)) = true /\
    length d = 8%nat /\
    step fmt (LBindState h INFO_CONST 8 (Some d)) s = (s', o) /\ o_res o = MC_NO_ERROR.
Proof.
  exists fmt0, ex_labels, ex_state, ex_trace, 912559, [1; 0; 0; 0; 0; 0; 248; 127].
  eexists. eexists. split; [exact ex_history|]. split; [reflexivity|]. split; [reflexivity|].
  split; [vm_compute; reflexivity|reflexivity].
Qed.

(** Instance: the context of the example has 7 attempts bound; binding 0 is
    rejected, binding 9 is accepted and read back. *)
Definition ex_bind : list label :=
  ex_labels ++ [LBindState 912559 INFO_ATTEMPTS 4 (Some [0; 0; 0; 0]);
                LBindState 912559 INFO_ATTEMPTS 4 (Some [9; 0; 0; 0])].

Example C26_instance :
  history fmt0 ex_bind (fst (exec fmt0 ex_bind gs0)) (snd (exec fmt0 ex_bind gs0)) /\
  map (fun x => o_res (snd x)) (skipn 12 (snd (exec fmt0 ex_bind gs0))) = [MC_INVALID_VALUE; MC_NO_ERROR] /\
  bound (snd (exec fmt0 ex_bind gs0)) 912559 INFO_ATTEMPTS = [9; 0; 0; 0] /\
  In 912559 (live_contexts (snd (exec fmt0 ex_bind gs0))) /\
  o_mem (snd (step fmt0 (LGetInfo 912559 INFO_ATTEMPTS 4 true true) (fst (exec fmt0 ex_bind gs0))))
    = [9; 0; 0; 0].
Proof.
  split; [|vm_compute; auto 6]. split; [|split].
  - now destruct (exec fmt0 ex_bind gs0).
  - repeat constructor; cbn; try lia.
  - cbn. lia.
Qed.

(** ** C27 *)

Definition in_mask (mask : Z) (c : comp) : bool := negb (Z.land (comp_type c) mask =? 0).

Lemma collect_count mask n l count used :
  collect mask n false l count used
  = (count + Z.of_nat (length (filter (in_mask mask) (map comp_of l))), []).
Proof.
  revert count used. induction l as [|c r IH]; intros count used; cbn [collect map filter length].
  - f_equal. lia.
  - unfold in_mask at 1. cbn [comp_of comp_type fst snd].
    destruct (Z.land (cc_type c) mask =? 0); cbn [negb].
    + apply IH.
    + rewrite IH. cbn [length]. f_equal. lia.
Qed.

Lemma collect_fill mask n l count used :
  0 <= used <= n ->
  collect mask n true l count used
  = (count, firstn (Z.to_nat (n - used)) (map comp_handle (filter (in_mask mask) (map comp_of l)))).
Proof.
  revert used. induction l as [|c r IH]; intros used Hu; cbn [collect map filter].
  - now rewrite firstn_nil.
  - unfold in_mask at 1. cbn [comp_of comp_type fst snd].
    destruct (Z.land (cc_type c) mask =? 0); cbn [negb].
    + now apply IH.
    + destruct (Z.eqb_spec used n) as [->|Hne].
      * rewrite IH by lia. now rewrite Z.sub_diag.
      * rewrite IH by lia. replace (Z.to_nat (n - used)) with (S (Z.to_nat (n - (used + 1)))) by lia.
        reflexivity.
Qed.

(** The enumeration of the components of a live context whose type is in the
    mask: without a buffer their number; with a buffer for [n] handles the
    first [n] of them, newest first. *)
Theorem C27_enumeration fmt ls s t h mask n buf num s' o :
  history fmt ls s t -> In h (live_contexts t) -> 0 <= n ->
  step fmt (LRunGetCCs h mask n buf num) s = (s', o) ->
  let selected := filter (in_mask mask) (components t h) in
  s' = s /\ o_res o = MC_NO_ERROR /\
  (buf = false -> num = true -> o_num o = Some (Z.of_nat (length selected))) /\
  (buf = false -> o_mem o = []) /\
  (buf = true -> o_mem o = firstn (Z.to_nat n) (map comp_handle selected)).
Proof.
  intros H Hh Hn E. pose proof (history_Inv _ _ _ _ H) as I. cbn zeta.
  destruct (live_find _ _ _ I Hh) as (c & Fc & Eh & _ & V & _).
  cbn [step] in E. unfold run_get_ccs, run_ctx in E. rewrite Fc in E.
  rewrite <- Eh, <- (v_comps _ _ V). unfold comps_of.
  destruct buf.
  - rewrite collect_fill in E by lia. injection E as <- <-. cbn. rewrite Z.sub_0_r.
    split; [reflexivity|]. split; [reflexivity|]. split; [discriminate|]. split; [discriminate|].
    intros _. reflexivity.
  - rewrite collect_count in E. injection E as <- <-. cbn [o_res o_num o_mem].
    split; [reflexivity|]. split; [reflexivity|].
    split; [intros _ ->; f_equal; lia|]. split; [reflexivity|discriminate].
Qed.

(** The blocking call does the same: it returns MC_NO_ERROR, the number or the
    handles, and leaves contexts and events as they were. *)
Theorem C27_enumeration_blocking fmt ls s t h mask n buf num now s' o :
  history fmt ls s t -> In h (live_contexts t) -> 0 <= n -> mask <> 0 ->
  buf = true \/ num = true ->
  mcGetConnectedComponents h mask n buf num now s = (s', o) ->
  let selected := filter (in_mask mask) (components t h) in
  o_res o = MC_NO_ERROR /\ g_ctxs s' = g_ctxs s /\ g_evs s' = g_evs s /\
  (buf = false -> o_num o = Some (Z.of_nat (length selected))) /\
  (buf = true -> o_mem o = firstn (Z.to_nat n) (map comp_handle selected)).
Proof.
  intros H Hh Hn Hm Hp E. pose proof (history_Inv _ _ _ _ H) as I. cbn zeta.
  destruct (live_find _ _ _ I Hh) as (c & Fc & Eh & Hc & V & Hnull).
  assert (g_init s = true) as Gi.
  { destruct (g_init s) eqn:G; [reflexivity|]. destruct (Inv_counted _ _ I G) as [K _].
    rewrite K in Fc. discriminate. }
  pose proof (i_counter _ _ I) as Ic. rewrite Gi in Ic.
  assert (~ In (g_counter s) (map e_handle (g_evs s))) as Hfresh.
  { rewrite (i_evs _ _ I). intro K. apply event_made, made_in_created in K.
    pose proof (Inv_range _ _ _ I K). lia. }
  unfold mcGetConnectedComponents, mcEnqueueGetConnectedComponents in E.
  apply Z.eqb_neq in Hnull. rewrite Hnull in E. apply Z.eqb_neq in Hm. rewrite Hm in E.
  replace (negb num && negb buf) with false in E by (destruct Hp as [-> | ->]; now rewrite ?andb_false_r).
  cbn -[Z.pow run_get_ccs enqueue_impl] in E. unfold enqueue_impl in E. rewrite Fc in E.
  cbn -[Z.pow run_get_ccs] in E.
  set (s2 := on_ev _ _ _) in E.
  assert (g_ctxs s2 = g_ctxs s) as E2 by reflexivity.
  assert (exists e', g_evs s2 = e' :: g_evs s /\ e_handle e' = g_counter s) as (e' & E3 & E4).
  { unfold s2, on_ev, with_evs. cbn. rewrite Z.eqb_refl. eexists. split; reflexivity. }
  clearbody s2.
  unfold run_get_ccs, run_ctx in E. rewrite E2, Fc in E.
  destruct (collect mask n buf (c_ccs c) 0 0) as [k hs] eqn:Ec.
  unfold release_event_impl in E. unfold find_ev in E. cbn in E. rewrite E3 in E. cbn in E.
  rewrite E4, !Z.eqb_refl in E. cbn in E. rewrite E4, !Z.eqb_refl in E. cbn in E.
  rewrite E4, !Z.eqb_refl in E. cbn in E.
  injection E as <- <-. cbn.
  split; [reflexivity|]. split; [exact E2|]. split.
  { clear - Hfresh. induction (g_evs s) as [|x r IH]; [reflexivity|].
    cbn in *. destruct (Z.eqb_spec (e_handle x) (g_counter s)); [exfalso; auto|].
    cbn. f_equal. apply IH. tauto. }
  rewrite <- Eh, <- (v_comps _ _ V). unfold comps_of.
  destruct buf.
  - rewrite collect_fill in Ec by lia. injection Ec as <- <-. rewrite Z.sub_0_r.
    split; [discriminate|reflexivity].
  - rewrite collect_count in Ec. injection Ec as <- <-.
    destruct Hp as [Hp| ->]; [discriminate|].
    split; [intros _; f_equal; lia|discriminate].
Qed.

(** With a buffer the number reported is always zero. *)
Theorem C27_number_with_buffer_refuted fmt ls s t h mask n s' o :
  history fmt ls s t -> In h (live_contexts t) -> 0 <= n ->
  step fmt (LRunGetCCs h mask n true true) s = (s', o) -> o_num o = Some 0.
Proof.
  intros H Hh Hn E. pose proof (history_Inv _ _ _ _ H) as I.
  destruct (live_find _ _ _ I Hh) as (c & Fc & _).
  cbn [step] in E. unfold run_get_ccs, run_ctx in E. rewrite Fc in E.
  rewrite collect_fill in E by lia. injection E as <- <-. reflexivity.
Qed.

Example C27_instance :
  o_num (snd (step fmt0 (LRunGetCCs 912559 5 0 false true) ex_state)) = Some 2 /\
  o_mem (snd (step fmt0 (LRunGetCCs 912559 5 1 true true) ex_state)) = [912563] /\
  o_mem (snd (step fmt0 (LRunGetCCs 912559 1 9 true true) ex_state)) = [912562].
Proof. vm_compute. auto. Qed.

(** ** C28 *)

Lemma drop_comps_all ids L :
  NoDup ids -> (forall i, In i ids -> In i (map comp_handle L)) ->
  drop_comps ids L = filter (fun c => negb (existsb (Z.eqb (comp_handle c)) ids)) L.
Proof.
  revert L. induction ids as [|i r IH]; intros L ND Hin; cbn [drop_comps].
  - cbn. symmetry. clear. induction L as [|c L IH]; [reflexivity|]. cbn. now rewrite IH.
  - inversion ND as [|? ? Hn ND']; subst.
    assert (existsb (fun c => comp_handle c =? i) L = true) as ->.
    { apply existsb_exists. assert (In i (map comp_handle L)) as K by (apply Hin; cbn; auto).
      apply in_map_iff in K. destruct K as (c & Ec & Hc). exists c. split; [exact Hc|now apply Z.eqb_eq]. }
    rewrite IH; [|exact ND'|].
    + unfold without. clear. induction L as [|c L IHL]; [reflexivity|].
      cbn [filter existsb]. destruct (Z.eqb_spec (comp_handle c) i) as [->|Hne].
      * cbn. exact IHL.
      * cbn [negb orb]. cbn [filter]. rewrite IHL. reflexivity.
    + intros j Hj. rewrite map_without. apply in_in_remove; [intros ->; contradiction|].
      apply Hin. cbn. auto.
Qed.

(** Releasing distinct components of a live context removes exactly these;
    the others keep their handle, type and data and their order.  The other
    contexts keep all components. *)
Theorem C28_release_listed fmt ls s t h n ids s' o :
  history fmt ls s t -> In h (live_contexts t) ->
  1 <= n < 2 ^ 31 ->
  let named := firstn (Z.to_nat n) ids in
  NoDup named -> (forall i, In i named -> In i (map comp_handle (components t h))) ->
  step fmt (LReleaseCCs h n (Some ids)) s = (s', o) ->
  let t' := t ++ [(LReleaseCCs h n (Some ids), o)] in
  o_res o = MC_NO_ERROR /\
  components t' h = filter (fun c => negb (existsb (Z.eqb (comp_handle c)) named)) (components t h) /\
  (forall h', h' <> h -> components t' h' = components t h') /\
  live_contexts t' = live_contexts t /\ live_events t' = live_events t.
Proof.
  intros H Hh Hn. cbn zeta. intros ND Hin E.
  pose proof (history_Inv _ _ _ _ H) as I.
  destruct (live_find _ _ _ I Hh) as (c & Fc & Eh & _ & V & Hnull).
  cbn [step] in E. unfold mcReleaseConnectedComponents in E.
  apply Z.eqb_neq in Hnull. rewrite Hnull in E.
  destruct (Z.eqb_spec n 0) as [|Hn0]; [lia|].
  unfold release_connected_components_impl in E. rewrite Fc in E.
  rewrite as_int_small in E by lia.
  replace (n <? 2 ^ 31) with true in E by (symmetry; apply Z.ltb_lt; lia).
  assert (forall L (l : list cc), NoDup L -> (forall i, In i L -> In i (map cc_handle l)) ->
            snd (release_ccs_loop L l) = true) as Hloop.
  { induction L as [|i r IH]; intros l NL HL; [reflexivity|].
    cbn. inversion NL as [|? ? Hni NL']; subst.
    destruct (find_cc i l) eqn:F.
    - apply IH; [exact NL'|]. intros j Hj.
      assert (In j (map cc_handle l)) as K by (apply HL; cbn; auto).
      apply in_map_iff in K. destruct K as (x & Ex & Hx). apply in_map_iff. exists x.
      split; [exact Ex|]. apply filter_In. split; [exact Hx|].
      apply negb_true_iff, Z.eqb_neq. intros K. apply Hni. congruence.
    - exfalso. apply find_cc_None in F. apply F, HL. cbn. auto. }
  assert (forall i, In i (firstn (Z.to_nat n) ids) -> In i (map cc_handle (c_ccs c))) as Hin'.
  { intros i Hi. specialize (Hin i Hi). rewrite <- Eh, <- (v_comps _ _ V) in Hin.
    unfold comps_of in Hin. rewrite map_map in Hin. exact Hin. }
  specialize (Hloop _ _ ND Hin').
  destruct (release_ccs_loop _ _) as [ccs' ok]. cbn in Hloop. subst ok.
  cbn in E. injection E as <- <-.
  split; [reflexivity|]. split; [|split; [|split]].
  - rewrite components_snoc. cbn -[Z.pow firstn]. rewrite Z.eqb_refl.
    replace (1 <=? n) with true by (symmetry; apply Z.leb_le; lia).
    replace (n <? 2 ^ 31) with true by (symmetry; apply Z.ltb_lt; lia). cbn [andb].
    now apply drop_comps_all.
  - intros h' Hh'. rewrite components_snoc. cbn -[Z.pow firstn].
    destruct (Z.eqb_spec h h'); [congruence|reflexivity].
  - rewrite live_contexts_snoc. reflexivity.
  - rewrite live_events_snoc. reflexivity.
Qed.

(** Called with 0 and NULL it releases all components of the context. *)
Theorem C28_release_all fmt ls s t h s' o :
  history fmt ls s t -> In h (live_contexts t) ->
  step fmt (LReleaseCCs h 0 None) s = (s', o) ->
  let t' := t ++ [(LReleaseCCs h 0 None, o)] in
  o_res o = MC_NO_ERROR /\ components t' h = [] /\
  (forall h', h' <> h -> components t' h' = components t h') /\
  live_contexts t' = live_contexts t /\ live_events t' = live_events t.
Proof.
  intros H Hh E. cbn zeta. pose proof (history_Inv _ _ _ _ H) as I.
  destruct (live_find _ _ _ I Hh) as (c & Fc & Eh & _ & V & Hnull).
  cbn [step] in E. unfold mcReleaseConnectedComponents in E.
  apply Z.eqb_neq in Hnull. rewrite Hnull in E. cbn in E.
  unfold release_connected_components_impl in E. rewrite Fc in E. cbn in E. injection E as <- <-.
  split; [reflexivity|]. split; [|split; [|split]].
  - rewrite components_snoc. cbn. now rewrite Z.eqb_refl.
  - intros h' Hh'. rewrite components_snoc. cbn.
    destruct (Z.eqb_spec h h'); [congruence|reflexivity].
  - rewrite live_contexts_snoc. reflexivity.
  - rewrite live_events_snoc. reflexivity.
Qed.

(** A component of the list that is not one of the context's (or listed
    twice): the call reports MC_INVALID_VALUE, and no component outside the
    list is removed. *)
Theorem C28_release_bad_entry fmt ls s t h n ids s' o :
  history fmt ls s t -> In h (live_contexts t) -> 1 <= n < 2 ^ 31 ->
  let named := firstn (Z.to_nat n) ids in
  ~ (NoDup named /\ forall i, In i named -> In i (map comp_handle (components t h))) ->
  step fmt (LReleaseCCs h n (Some ids)) s = (s', o) ->
  let t' := t ++ [(LReleaseCCs h n (Some ids), o)] in
  o_res o = MC_INVALID_VALUE /\
  (forall c, In c (components t h) -> ~ In (comp_handle c) named -> In c (components t' h)).
Proof.
  intros H Hh Hn. cbn zeta. intros Hbad E.
  pose proof (history_Inv _ _ _ _ H) as I.
  destruct (live_find _ _ _ I Hh) as (c & Fc & Eh & _ & V & Hnull).
  cbn [step] in E. unfold mcReleaseConnectedComponents in E.
  apply Z.eqb_neq in Hnull. rewrite Hnull in E.
  destruct (Z.eqb_spec n 0) as [|Hn0]; [lia|].
  unfold release_connected_components_impl in E. rewrite Fc in E.
  rewrite as_int_small in E by lia.
  replace (n <? 2 ^ 31) with true in E by (symmetry; apply Z.ltb_lt; lia).
  set (named := firstn (Z.to_nat n) ids) in *.
  assert (snd (release_ccs_loop named (c_ccs c)) = false) as Hloop.
  { destruct (snd (release_ccs_loop named (c_ccs c))) eqn:Es; [|reflexivity].
    exfalso. apply Hbad.
    rewrite <- Eh, <- (v_comps _ _ V). unfold comps_of. rewrite map_map.
    change (map (fun x => comp_handle (comp_of x)) (c_ccs c)) with (map cc_handle (c_ccs c)).
    clear - Es. revert Es. generalize (c_ccs c) as l. clearbody named.
    induction named as [|i r IH]; intros l Es; [split; [constructor|intros i []]|].
    cbn in Es. destruct (find_cc i l) eqn:F; [|discriminate].
    destruct (IH _ Es) as [A B].
    assert (forall j, In j r -> In j (map cc_handle l) /\ j <> i) as B'.
    { intros j Hj. specialize (B j Hj). apply in_map_iff in B. destruct B as (x & Ex & Hx).
      apply filter_In in Hx. destruct Hx as [Hx Hx']. apply negb_true_iff, Z.eqb_neq in Hx'.
      split; [rewrite <- Ex; now apply in_map|congruence]. }
    split.
    - constructor; [|exact A]. intro K. destruct (B' _ K). congruence.
    - intros j [<-|Hj]; [|now apply B']. destruct (find_cc_In _ _ _ F) as [X <-]. now apply in_map. }
  destruct (release_ccs_loop named (c_ccs c)) as [ccs' ok]. cbn in Hloop. subst ok.
  cbn in E. injection E as <- <-. split; [reflexivity|].
  intros x Hx Hnot. rewrite components_snoc. cbn -[Z.pow firstn]. rewrite Z.eqb_refl. fold named.
  destruct (_ && _); [|exact Hx].
  clear - Hx Hnot. revert Hx Hnot. generalize (components t h) as L. clearbody named.
  induction named as [|i r IH]; intros L Hx Hnot; [exact Hx|].
  cbn. destruct (existsb _ L); [|exact Hx]. apply IH.
  - apply filter_In. split; [exact Hx|]. apply negb_true_iff, Z.eqb_neq. intro K. apply Hnot. cbn. auto.
  - intro K. apply Hnot. cbn. auto.
Qed.

(** From 2^31 listed components on, the call reports success and releases
    nothing. *)
Theorem C28_huge_list_refuted fmt ls s t h n ids s' o :
  history fmt ls s t -> In h (live_contexts t) -> 2 ^ 31 <= n < 2 ^ 32 ->
  Z.of_nat (length ids) = n ->
  step fmt (LReleaseCCs h n (Some ids)) s = (s', o) ->
  o_res o = MC_NO_ERROR /\
  components (t ++ [(LReleaseCCs h n (Some ids), o)]) h = components t h.
Proof.
  intros H Hh Hn _ E. pose proof (history_Inv _ _ _ _ H) as I.
  destruct (live_find _ _ _ I Hh) as (c & Fc & Eh & _ & V & Hnull).
  cbn [step] in E. unfold mcReleaseConnectedComponents in E.
  apply Z.eqb_neq in Hnull. rewrite Hnull in E.
  destruct (Z.eqb_spec n 0) as [|Hn0]; [lia|].
  unfold release_connected_components_impl in E. rewrite Fc in E.
  rewrite as_int_small in E by lia.
  replace (n <? 2 ^ 31) with false in E by (symmetry; apply Z.ltb_ge; lia).
  cbn in E. injection E as <- <-. split; [reflexivity|].
  rewrite components_snoc. cbn -[Z.pow]. rewrite Z.eqb_refl.
  replace (n <? 2 ^ 31) with false by (symmetry; apply Z.ltb_ge; lia).
  now rewrite andb_false_r.
Qed.

Example C28_instance :
  let t' := ex_trace ++ [(LReleaseCCs 912559 1 (Some [912562]),
                          snd (step fmt0 (LReleaseCCs 912559 1 (Some [912562])) ex_state))] in
  components t' 912559 = [(912563, 4, 71)] /\
  o_mem (snd (step fmt0 (LRunGetCCs 912559 5 9 true true)
                (fst (step fmt0 (LReleaseCCs 912559 1 (Some [912562])) ex_state)))) = [912563].
Proof. vm_compute. auto. Qed.

(** ** C29 *)

(** The messages held in the log of context [h] (what mcGetDebugMessageLog
    reads, see C30). *)
Definition log_of (s : gs) (h : Z) : list dmsg :=
  match find_ctx h (g_ctxs s) with Some c => c_log c | None => [] end.

Lemma find_upd_same h c f l :
  find_ctx h l = Some c -> c_handle (f c) = h -> find_ctx h (upd_ctx h f l) = Some (f c).
Proof.
  unfold find_ctx. induction l as [|x r IH]; cbn; [discriminate|].
  destruct (Z.eqb_spec (c_handle x) h) as [E|E]; intros F Hf.
  - injection F as <-. cbn. now rewrite Hf, Z.eqb_refl.
  - cbn. apply Z.eqb_neq in E. rewrite E. now apply IH.
Qed.

Lemma find_upd_other h k f l :
  h <> k -> (forall c, find_ctx k l = Some c -> c_handle (f c) = k) ->
  find_ctx h (upd_ctx k f l) = find_ctx h l.
Proof.
  intro Hne. unfold find_ctx. induction l as [|x r IH]; cbn; [reflexivity|].
  destruct (Z.eqb_spec (c_handle x) k) as [E|E]; intro Hf.
  - cbn. rewrite (Hf x eq_refl). destruct (Z.eqb_spec k h); [congruence|].
    destruct (Z.eqb_spec (c_handle x) h); [congruence|reflexivity].
  - cbn. destruct (c_handle x =? h); [reflexivity|]. apply IH. intros c F. now apply Hf.
Qed.

(** A message of one of the sources API and KERNEL, of one type and one
    severity, of a live context in debug mode: it reaches the callback, or the
    log when no callback is registered, iff its source, its type and its
    severity are enabled.  No other context is concerned. *)
Theorem C29_delivery_partial fmt ls s t h m s' o :
  history fmt ls s t -> In h (live_contexts t) ->
  Z.land (flags_of t h) FLAG_DEBUG <> 0 ->
  In (m_src m) [SOURCE_API; SOURCE_KERNEL] ->
  In (m_typ m) [TYPE_ERROR; TYPE_DEPRECATED; TYPE_OTHER] ->
  In (m_sev m) [SEV_HIGH; SEV_MEDIUM; SEV_LOW; SEV_NOTIFICATION] ->
  step fmt (LRunMessage h m) s = (s', o) ->
  let pass := enabled FSource t h (m_src m) && enabled FType t h (m_typ m)
              && enabled FSeverity t h (m_sev m) in
  o_msgs o = (if pass && callback_set t h then [m] else []) /\
  log_of s' h = log_of s h ++ (if pass && negb (callback_set t h) then [m] else []) /\
  (forall h', h' <> h -> log_of s' h' = log_of s h').
Proof.
  intros H Hh Hd H1 H2 H3 E. pose proof (history_Inv _ _ _ _ H) as I. cbn zeta.
  destruct (live_find _ _ _ I Hh) as (c & Fc & Eh & _ & V & _).
  cbn [step] in E. unfold run_message, run_ctx in E. rewrite Fc in E.
  rewrite <- Eh in *. rewrite <- (v_cb _ _ V).
  rewrite <- (v_bits _ _ V FSource _ H1), <- (v_bits _ _ V FType _ H2), <- (v_bits _ _ V FSeverity _ H3).
  rewrite <- (v_flags _ _ V) in Hd.
  assert (can_log c m = on (field_of FSource c) (m_src m) && on (field_of FType c) (m_typ m)
                        && on (field_of FSeverity c) (m_sev m)) as Ec.
  { unfold can_log, on, field_of.
    now rewrite (Z.land_comm (m_src m)), (Z.land_comm (m_typ m)), (Z.land_comm (m_sev m)). }
  rewrite <- Ec. unfold dbg_cb in E. apply Z.eqb_neq in Hd. rewrite Hd in E. cbn [negb] in E.
  assert (forall x, c_handle x = c_handle c ->
            forall h', h' <> c_handle c ->
            log_of (run_on (c_handle c) (fun _ => x) s) h' = log_of s h') as Hother.
  { intros x Ex h' Hne. unfold log_of, run_on. rewrite Fc. cbn.
    rewrite find_upd_other; auto. }
  assert (forall x, c_handle x = c_handle c ->
            log_of (run_on (c_handle c) (fun _ => x) s) (c_handle c) = c_log x) as Hsame.
  { intros x Ex. unfold log_of, run_on. rewrite Fc. cbn.
    rewrite (find_upd_same (c_handle c) c (fun _ => x) _ Fc); auto. }
  assert (log_of s (c_handle c) = c_log c) as Hlog by (unfold log_of; now rewrite Fc).
  rewrite Hlog.
  destruct (can_log c m); cbn [andb] in *.
  - destruct (c_cb c); injection E as <- <-; cbn [o_msgs negb].
    + rewrite Hsame by reflexivity. rewrite app_nil_r. auto.
    + rewrite Hsame by reflexivity. cbn. split; [reflexivity|]. split; [reflexivity|].
      now apply Hother.
  - injection E as <- <-. cbn [o_msgs]. rewrite Hsame by reflexivity. rewrite app_nil_r. auto.
Qed.

(** A context that is not in debug mode delivers nothing. *)
Theorem C29_no_debug_no_output fmt ls s t h m s' o :
  history fmt ls s t -> In h (live_contexts t) ->
  Z.land (flags_of t h) FLAG_DEBUG = 0 ->
  step fmt (LRunMessage h m) s = (s', o) ->
  o_msgs o = [] /\ log_of s' h = log_of s h.
Proof.
  intros H Hh Hd E. pose proof (history_Inv _ _ _ _ H) as I.
  destruct (live_find _ _ _ I Hh) as (c & Fc & Eh & _ & V & _).
  cbn [step] in E. unfold run_message, run_ctx in E. rewrite Fc in E.
  rewrite <- Eh in *. rewrite <- (v_flags _ _ V) in Hd.
  unfold dbg_cb in E. rewrite Hd in E. cbn in E. injection E as <- <-.
  split; [reflexivity|]. unfold log_of, run_on. rewrite Fc. cbn.
  rewrite (find_upd_same (c_handle c) c (fun _ => c) _ Fc); auto.
Qed.

(** Which control calls succeed; the others report MC_INVALID_VALUE and change
    nothing.  (What a successful one changes is in the definition of
    [enabled].) *)
Theorem C29_control_result fmt ls s t h src typ sev en s' o :
  history fmt ls s t -> step fmt (LDebugControl h src typ sev en) s = (s', o) ->
  (o_res o = MC_NO_ERROR <->
     In h (live_contexts t) /\
     (src = SOURCE_ALL \/ src = SOURCE_KERNEL) /\
     (typ = TYPE_ALL \/ typ = TYPE_ERROR \/ typ = TYPE_DEPRECATED \/ typ = TYPE_OTHER) /\
     (sev = SEV_ALL \/ sev = SEV_HIGH \/ sev = SEV_MEDIUM \/ sev = SEV_LOW \/ sev = SEV_NOTIFICATION)) /\
  (o_res o <> MC_NO_ERROR -> o_res o = MC_INVALID_VALUE /\ s' = s).
Proof.
  intros H E. pose proof (history_Inv _ _ _ _ H) as I.
  cbn [step] in E. unfold mcDebugMessageControl in E.
  destruct (Z.eqb_spec h MC_NULL_HANDLE) as [Hh0|Hh0].
  { injection E as <- <-. cbn. split; [|auto]. split; [discriminate|]. intros (K & _).
    destruct (live_find _ _ _ I K) as (_ & _ & _ & _ & _ & K'). contradiction. }
  destruct ((src =? SOURCE_ALL) || (src =? SOURCE_KERNEL) || (src =? SOURCE_ALL)) eqn:E1; cbn [negb] in E.
  2:{ injection E as <- <-. cbn. split; [|auto]. split; [discriminate|].
      intros (_ & [-> | ->] & _); discriminate. }
  destruct ((typ =? TYPE_ALL) || (typ =? TYPE_DEPRECATED) || (typ =? TYPE_ERROR) || (typ =? TYPE_OTHER)) eqn:E2;
    cbn [negb] in E.
  2:{ injection E as <- <-. cbn. split; [|auto]. split; [discriminate|].
      intros (_ & _ & [-> |[-> |[-> | ->]]] & _); discriminate. }
  destruct ((sev =? SEV_HIGH) || (sev =? SEV_MEDIUM) || (sev =? SEV_LOW)
                || (sev =? SEV_NOTIFICATION) || (sev =? SEV_ALL)) eqn:E3; cbn [negb] in E.
  2:{ injection E as <- <-. cbn. split; [|auto]. split; [discriminate|].
      intros (_ & _ & _ & [-> |[-> |[-> |[-> | ->]]]]); discriminate. }
  rewrite !orb_true_iff, !Z.eqb_eq in E1.
  rewrite !orb_true_iff, !Z.eqb_eq in E2. rewrite !orb_true_iff, !Z.eqb_eq in E3.
  unfold debug_message_control_impl in E.
  destruct (find_ctx h (g_ctxs s)) as [c|] eqn:Fc.
  - cbn in E. injection E as <- <-. cbn [o_res ret]. split; [|intro K; congruence].
    split; [intros _|reflexivity]. split; [|tauto].
    rewrite <- (i_ctxs _ _ I). destruct (find_ctx_In _ _ _ Fc) as [A <-]. now apply in_map.
  - injection E as <- <-. cbn. split; [|auto]. split; [discriminate|]. intros (K & _).
    destruct (live_find _ _ _ I K) as (c & Fc' & _). rewrite Fc' in Fc. discriminate.
Qed.

(** The API source cannot be selected by itself. *)
Theorem C29_source_api_rejected_refuted fmt s h typ sev en :
  o_res (snd (step fmt (LDebugControl h SOURCE_API typ sev en) s)) = MC_INVALID_VALUE.
Proof.
  cbn [step]. unfold mcDebugMessageControl. destruct (h =? MC_NULL_HANDLE); reflexivity.
Qed.

(** MC_DEBUG_SEVERITY_IGNORE (mcut.h:357, value 8) is documented to leave the
    filter alone; it has the value of MC_DEBUG_SEVERITY_NOTIFICATION and
    switches that. *)
Definition SEV_IGNORE : Z := 8.

Theorem C29_severity_ignore_switches_refuted :
  exists fmt ls s t h s' o,
    history fmt ls s t /\
    step fmt (LDebugControl h SOURCE_ALL TYPE_ALL SEV_IGNORE false) s = (s', o) /\
    o_res o = MC_NO_ERROR /\
    enabled FSeverity t h SEV_NOTIFICATION = true /\
    enabled FSeverity (t ++ [(LDebugControl h SOURCE_ALL TYPE_ALL SEV_IGNORE false, o)]) h SEV_NOTIFICATION = false.
Proof.
  exists fmt0, ex_labels, ex_state, ex_trace, 912559. eexists. eexists.
  split; [exact ex_history|]. split; [vm_compute; reflexivity|]. vm_compute. auto.
Qed.

(** Messages of the FRONTEND source stay disabled when all sources are
    enabled. *)
Definition ex_ctl : list label :=
  ex_labels ++ [LDebugControl 912559 SOURCE_ALL TYPE_ALL SEV_ALL true].

Theorem C29_frontend_never_enabled_refuted :
  exists fmt ls s t h m s' o,
    history fmt ls s t /\ In h (live_contexts t) /\ Z.land (flags_of t h) FLAG_DEBUG <> 0 /\
    m_src m = SOURCE_FRONTEND /\
    enabled FSource t h (m_src m) = true /\ enabled FType t h (m_typ m) = true /\
    enabled FSeverity t h (m_sev m) = true /\
    step fmt (LRunMessage h m) s = (s', o) /\ o_msgs o = [] /\ s' = s.
Proof.
  exists fmt0, ex_ctl, (fst (exec fmt0 ex_ctl gs0)), (snd (exec fmt0 ex_ctl gs0)), 912559,
    (mkMsg SOURCE_FRONTEND TYPE_ERROR SEV_HIGH [1]).
  eexists. eexists. split.
  { split; [|split].
    - now destruct (exec fmt0 ex_ctl gs0).
    - repeat constructor; cbn; try lia.
    - cbn. lia. }
  split; [vm_compute; auto|]. split; [vm_compute; discriminate|].
  split; [reflexivity|]. split; [vm_compute; reflexivity|]. split; [vm_compute; reflexivity|].
  split; [vm_compute; reflexivity|]. split; [vm_compute; reflexivity|]. split; vm_compute; reflexivity.
Qed.

Example C29_instance :
  flags_of ex_trace 912559 = FLAG_DEBUG /\ callback_set ex_trace 912559 = false /\
  enabled FSource ex_trace 912559 SOURCE_KERNEL = true /\
  enabled FType ex_trace 912559 TYPE_OTHER = true /\
  enabled FType ex_trace 912559 TYPE_ERROR = false /\
  log_of ex_state 912559 = [mkMsg SOURCE_API TYPE_OTHER SEV_NOTIFICATION (fmt0 INFO_ATTEMPTS 7);
                            mkMsg SOURCE_KERNEL TYPE_OTHER SEV_LOW [104; 105]].
Proof. vm_compute. auto 8. Qed.

(** ** C30 *)

Definition text (ms : list dmsg) : list Z := concat (map m_txt ms).

Lemma fetch_log_spec k off buf log n txt :
  0 <= off <= buf -> fetch_log k off buf log = (n, txt) ->
  0 <= n <= Z.of_nat k /\ n <= Z.of_nat (length log) /\
  txt = text (firstn (Z.to_nat n) log) /\
  off + Z.of_nat (length txt) <= buf /\
  (n < Z.of_nat k -> n < Z.of_nat (length log) ->
   buf < off + Z.of_nat (length (text (firstn (S (Z.to_nat n)) log)))).
Proof.
  revert off log n txt. induction k as [|k IH]; intros off log n txt Ho E; cbn [fetch_log] in E.
  - injection E as <- <-. cbn [length Z.to_nat firstn text map concat Z.of_nat].
    repeat split; try lia; reflexivity.
  - destruct log as [|m r].
    { injection E as <- <-. cbn [length Z.to_nat firstn text map concat Z.of_nat].
      repeat split; try lia; reflexivity. }
    destruct (Z.ltb_spec buf (off + Z.of_nat (length (m_txt m)))) as [L|L].
    + injection E as <- <-. unfold text. cbn -[Z.of_nat]. rewrite app_nil_r.
      repeat split; try lia.
    + destruct (fetch_log k _ buf r) as [n1 txt1] eqn:E1.
      assert (n = 1 + n1) as -> by congruence. assert (txt = m_txt m ++ txt1) as -> by congruence.
      clear E.
      assert (0 <= off + Z.of_nat (length (m_txt m)) <= buf) as Ho' by lia.
      destruct (IH _ _ _ _ Ho' E1) as (A & B & C & D & F).
      replace (Z.to_nat (1 + n1)) with (S (Z.to_nat n1)) by lia.
      cbn [length]. rewrite app_length.
      split; [lia|]. split; [lia|].
      split; [unfold text; cbn [firstn map concat]; now rewrite C|].
      split; [lia|]. intros F1 F2.
      assert (n1 < Z.of_nat k) as F1' by lia. assert (n1 < Z.of_nat (length r)) as F2' by lia.
      specialize (F F1' F2').
      change (firstn (S (S (Z.to_nat n1))) (m :: r)) with (m :: firstn (S (Z.to_nat n1)) r).
      assert (text (m :: firstn (S (Z.to_nat n1)) r) = m_txt m ++ text (firstn (S (Z.to_nat n1)) r)) as ->
        by reflexivity.
      rewrite app_length. clear - F. lia.
Qed.

(** Fetching the log of a live context: at most [count] messages and at most
    [bufSize] characters, namely the texts of the oldest messages; it stops
    only when [count] messages are written, the log is exhausted or the next
    text does not fit. *)
Theorem C30_log_fetch fmt ls s t h count bufSize s' o :
  history fmt ls s t -> In h (live_contexts t) -> 1 <= count -> 1 <= bufSize ->
  Z.of_nat (length (log_of s h)) < 2 ^ 32 ->
  step fmt (LDebugLog h count bufSize true true) s = (s', o) ->
  exists n, o_num o = Some n /\ o_res o = MC_NO_ERROR /\ s' = s /\
    0 <= n <= count /\ n <= Z.of_nat (length (log_of s h)) /\
    o_mem o = text (firstn (Z.to_nat n) (log_of s h)) /\
    Z.of_nat (length (o_mem o)) <= bufSize /\
    (n < count -> n < Z.of_nat (length (log_of s h)) ->
     bufSize < Z.of_nat (length (text (firstn (S (Z.to_nat n)) (log_of s h))))).
Proof.
  intros H Hh Hc Hb Hl E. pose proof (history_Inv _ _ _ _ H) as I.
  destruct (live_find _ _ _ I Hh) as (c & Fc & Eh & _ & V & Hnull).
  cbn [step] in E. unfold mcGetDebugMessageLog, get_debug_message_log_impl in E. rewrite Fc in E.
  apply Z.eqb_neq in Hnull. rewrite Hnull in E.
  destruct (Z.eqb_spec count 0); [lia|]. destruct (Z.eqb_spec bufSize 0); [lia|]. cbn [negb] in E.
  unfold log_of in *. rewrite Fc in *. rewrite Z.mod_small in E by lia.
  destruct (fetch_log _ 0 bufSize (c_log c)) as [n1 txt] eqn:Ef.
  cbn in E. injection E as <- <-. cbn.
  assert (0 <= 0 <= bufSize) as Ho by lia.
  destruct (fetch_log_spec _ _ _ _ _ _ Ho Ef) as (A & B & C & D & F).
  exists n1. split; [reflexivity|]. split; [reflexivity|]. split; [reflexivity|].
  split; [lia|]. split; [lia|]. split; [exact C|]. split; [lia|].
  intros F1 F2. apply F; lia.
Qed.

(** The bounds hold for logs of any size. *)
Theorem C30_log_fetch_bounds fmt s h count bufSize lp np s' o :
  0 <= count -> 0 <= bufSize ->
  step fmt (LDebugLog h count bufSize lp np) s = (s', o) ->
  Z.of_nat (length (o_mem o)) <= bufSize /\
  (forall n, o_num o = Some n -> 0 <= n <= count) /\
  (o_res o <> MC_NO_ERROR -> o_mem o = [] /\ o_num o = None).
Proof.
  intros Hc Hb E. cbn [step] in E.
  unfold mcGetDebugMessageLog, get_debug_message_log_impl in E.
  if_all E; try (injection E as <- <-; cbn; repeat split; auto; discriminate || lia).
  destruct (find_ctx h (g_ctxs s)) as [c|];
    [|injection E as <- <-; cbn; repeat split; auto; discriminate || lia].
  destruct (negb lp).
  - destruct (dbg_cb _ c). injection E as <- <-. cbn. split; [lia|]. split; [|tauto].
    intros n K. injection K as <-. lia.
  - destruct (fetch_log _ 0 bufSize (c_log c)) as [n1 txt] eqn:Ef.
    injection E as <- <-. cbn.
    assert (0 <= 0 <= bufSize) as Ho by lia.
    destruct (fetch_log_spec _ _ _ _ _ _ Ho Ef) as (A & B & C & D & F).
    split; [lia|]. split; [|tauto]. intros n K. injection K as <-.
    pose proof (Z.mod_pos_bound (Z.of_nat (length (c_log c))) (2 ^ 32)). lia.
Qed.

Example C30_instance :
  let f n b := snd (step fmt0 (LDebugLog 912559 n b true true) ex_state) in
  o_num (f 5 3) = Some 1 /\ o_mem (f 5 3) = fmt0 INFO_ATTEMPTS 7 /\
  o_num (f 5 4) = Some 2 /\ o_mem (f 5 4) = fmt0 INFO_ATTEMPTS 7 ++ [104; 105] /\
  o_num (f 1 9) = Some 1.
Proof. vm_compute. auto 8. Qed.

Print Assumptions C26_read_back.
Print Assumptions C26_bind_result.
Print Assumptions C26_winding_unreadable_refuted.
Print Assumptions C26_nan_accepted_refuted.
Print Assumptions C27_enumeration.
Print Assumptions C27_enumeration_blocking.
Print Assumptions C27_number_with_buffer_refuted.
Print Assumptions C28_release_listed.
Print Assumptions C28_release_all.
Print Assumptions C28_release_bad_entry.
Print Assumptions C28_huge_list_refuted.
Print Assumptions C29_delivery_partial.
Print Assumptions C29_no_debug_no_output.
Print Assumptions C29_control_result.
Print Assumptions C29_source_api_rejected_refuted.
Print Assumptions C29_severity_ignore_switches_refuted.
Print Assumptions C29_frontend_never_enabled_refuted.
Print Assumptions C30_log_fetch.
Print Assumptions C30_log_fetch_bounds.
