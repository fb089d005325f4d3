(** * Invariants of the API object tables over all histories *)

From Coq Require Import ZArith List Bool Lia.
From Verif Require Import ApiModel ApiSpec.
Import ListNotations.
Local Open Scope Z_scope.

(** ** Lists *)

Lemma find_ctx_In h l c : find_ctx h l = Some c -> In c l /\ c_handle c = h.
Proof.
  unfold find_ctx. intro H. destruct (find_some _ _ H) as [A B].
  apply Z.eqb_eq in B. auto.
Qed.

Lemma find_ctx_None h l : find_ctx h l = None <-> ~ In h (map c_handle l).
Proof.
  unfold find_ctx. induction l as [|c r IH]; cbn; [tauto|].
  destruct (Z.eqb_spec (c_handle c) h) as [E|E].
  - split; [discriminate|]. intro H. exfalso. apply H. auto.
  - rewrite IH. tauto.
Qed.

Lemma find_ev_None h l : find_ev h l = None <-> ~ In h (map e_handle l).
Proof.
  unfold find_ev. induction l as [|c r IH]; cbn; [tauto|].
  destruct (Z.eqb_spec (e_handle c) h) as [E|E].
  - split; [discriminate|]. intro H. exfalso. apply H. auto.
  - rewrite IH. tauto.
Qed.

Lemma find_cc_None h l : find_cc h l = None <-> ~ In h (map cc_handle l).
Proof.
  unfold find_cc. induction l as [|c r IH]; cbn; [tauto|].
  destruct (Z.eqb_spec (cc_handle c) h) as [E|E].
  - split; [discriminate|]. intro H. exfalso. apply H. auto.
  - rewrite IH. tauto.
Qed.

Lemma find_ev_In h l e : find_ev h l = Some e -> In e l /\ e_handle e = h.
Proof.
  unfold find_ev. intro H. destruct (find_some _ _ H) as [A B].
  apply Z.eqb_eq in B. auto.
Qed.

Lemma find_cc_In h l e : find_cc h l = Some e -> In e l /\ cc_handle e = h.
Proof.
  unfold find_cc. intro H. destruct (find_some _ _ H) as [A B].
  apply Z.eqb_eq in B. auto.
Qed.

Lemma find_ctx_ex h l : In h (map c_handle l) -> exists c, find_ctx h l = Some c.
Proof.
  intro H. destruct (find_ctx h l) eqn:E; [eauto|]. apply find_ctx_None in E. tauto.
Qed.

Lemma upd_ctx_handles h f l :
  (forall c, c_handle (f c) = c_handle c) -> map c_handle (upd_ctx h f l) = map c_handle l.
Proof.
  intro Hf. induction l as [|c r IH]; cbn; [reflexivity|].
  destruct (c_handle c =? h); cbn; rewrite ?IH, ?Hf; reflexivity.
Qed.

(** The same when [f] is constant. *)
Lemma upd_ctx_handles_const h c0 l :
  c_handle c0 = h -> map c_handle (upd_ctx h (fun _ => c0) l) = map c_handle l.
Proof.
  intro Hf. induction l as [|c r IH]; cbn; [reflexivity|].
  destruct (Z.eqb_spec (c_handle c) h); cbn; rewrite ?IH; congruence.
Qed.

Lemma upd_ev_handles h f l :
  (forall c, e_handle (f c) = e_handle c) -> map e_handle (upd_ev h f l) = map e_handle l.
Proof.
  intro Hf. induction l as [|c r IH]; cbn; [reflexivity|].
  destruct (e_handle c =? h); cbn; rewrite ?IH, ?Hf; reflexivity.
Qed.

Lemma in_upd h f l c' :
  NoDup (map c_handle l) -> In c' (upd_ctx h f l) ->
  (In c' l /\ c_handle c' <> h) \/
  (exists c, In c l /\ c_handle c = h /\ find_ctx h l = Some c /\ c' = f c).
Proof.
  induction l as [|c r IH]; cbn; intros ND H; [tauto|].
  inversion ND as [|? ? Hn ND']; subst.
  destruct (Z.eqb_spec (c_handle c) h) as [E|E].
  - cbn in H. destruct H as [H|H].
    + right. exists c. auto.
    + left. split; [auto|]. intro E'. apply Hn. rewrite E, <- E'. now apply in_map.
  - cbn in H. destruct H as [H|H].
    + left. subst c'. auto.
    + destruct (IH ND' H) as [[A B]|(c0 & A & B & C & D)]; [left; auto|].
      right. exists c0. auto.
Qed.

Arguments find_ctx : simpl never.
Arguments find_ev : simpl never.
Arguments find_cc : simpl never.

Lemma map_filter_remove h (l : list ctx) :
  map c_handle (filter (fun c => negb (c_handle c =? h)) l)
  = remove Z.eq_dec h (map c_handle l).
Proof.
  induction l as [|c r IH]; cbn; [reflexivity|].
  destruct (Z.eqb_spec (c_handle c) h); destruct (Z.eq_dec h (c_handle c));
    cbn; try congruence.
Qed.

Lemma map_filter_remove_ev h (l : list ev) :
  map e_handle (filter (fun c => negb (e_handle c =? h)) l)
  = remove Z.eq_dec h (map e_handle l).
Proof.
  induction l as [|c r IH]; cbn; [reflexivity|].
  destruct (Z.eqb_spec (e_handle c) h); destruct (Z.eq_dec h (e_handle c));
    cbn; try congruence.
Qed.

Lemma NoDup_remove_list h (l : list Z) : NoDup l -> NoDup (remove Z.eq_dec h l).
Proof.
  induction 1 as [|x r Hn ND IH]; cbn; [constructor|].
  destruct (Z.eq_dec h x); [exact IH|]. constructor; [|exact IH].
  intro H. apply in_remove in H. tauto.
Qed.

(** ** Bytes *)

Lemma le_bytes_length n v : length (le_bytes n v) = n.
Proof. revert v. induction n; intro v; cbn; [reflexivity|]. now rewrite IHn. Qed.

Lemma le_bytes_val bs :
  Forall (fun b => 0 <= b < 256) bs -> le_bytes (length bs) (le_val bs) = bs.
Proof.
  induction 1 as [|b r Hb HF IH]; [reflexivity|].
  cbn [length le_val le_bytes].
  replace ((b + 256 * le_val r) mod 256) with b.
  2:{ rewrite Z.mul_comm, Z.mod_add by lia. symmetry. apply Z.mod_small. lia. }
  replace ((b + 256 * le_val r) / 256) with (le_val r).
  2:{ rewrite Z.mul_comm, Z.div_add by lia.
      rewrite Z.div_small by lia. lia. }
  now rewrite IH.
Qed.

(** ** Filters *)

Definition on (w bit : Z) : bool := negb (Z.land w bit =? 0).

Lemma on_pow w k : 0 <= k -> on w (2 ^ k) = Z.testbit w k.
Proof.
  intro Hk. unfold on.
  assert (Z.land w (2 ^ k) = if Z.testbit w k then 2 ^ k else 0) as E.
  { apply Z.bits_inj'. intros n Hn. rewrite Z.land_spec.
    rewrite Z.pow2_bits_eqb by lia.
    destruct (Z.eqb_spec k n) as [->|Hne].
    - rewrite andb_true_r. destruct (Z.testbit w n) eqn:E.
      + now rewrite Z.pow2_bits_true.
      + now rewrite Z.testbit_0_l.
    - rewrite andb_false_r. destruct (Z.testbit w k).
      + now rewrite Z.pow2_bits_false.
      + now rewrite Z.testbit_0_l. }
  rewrite E. destruct (Z.testbit w k).
  - destruct (Z.eqb_spec (2 ^ k) 0); [|reflexivity]. pose proof (Z.pow_pos_nonneg 2 k). lia.
  - reflexivity.
Qed.

Lemma set_bit_test v p n : 0 <= p -> 0 <= n ->
  Z.testbit (set_bit v p) n = Z.testbit v n || (n =? p).
Proof.
  intros. unfold set_bit. rewrite Z.lor_spec, Z.shiftl_1_l, Z.pow2_bits_eqb by lia.
  f_equal. apply Z.eqb_sym.
Qed.

Lemma clear_bit_test v p n : 0 <= p -> 0 <= n ->
  Z.testbit (clear_bit v p) n = Z.testbit v n && negb (n =? p).
Proof.
  intros. unfold clear_bit. rewrite Z.ldiff_spec, Z.shiftl_1_l, Z.pow2_bits_eqb by lia.
  f_equal. f_equal. apply Z.eqb_sym.
Qed.

(** The effect of one control loop on bit [2^n]. *)
Lemma control_bits_spec param en ps field n :
  (forall p, In p ps -> 0 <= p < 32) -> 0 <= n ->
  on (control_bits param 4294967295 en (map (fun p => 2 ^ p) ps) field) (2 ^ n)
  = if existsb (fun p => p =? n) ps && on param (2 ^ n) then en else on field (2 ^ n).
Proof.
  revert field. induction ps as [|p r IH]; intros field Hps Hn; [reflexivity|].
  cbn [map control_bits existsb].
  rewrite IH; [|intros q Hq; apply Hps; cbn; auto|lia].
  assert (0 <= p < 32) as Hp by (apply Hps; cbn; auto).
  assert (trailing_zeroes (Z.land 4294967295 (2 ^ p)) = p) as Etz.
  { assert (Z.land 4294967295 (2 ^ p) = 2 ^ p) as ->.
    { apply Z.bits_inj'. intros m Hm. rewrite Z.land_spec, Z.pow2_bits_eqb by lia.
      replace 4294967295 with (Z.ones 32) by reflexivity.
      destruct (Z.eqb_spec p m) as [->|]; [|apply andb_false_r].
      rewrite Z.ones_spec_low by lia. reflexivity. }
    unfold trailing_zeroes.
    assert (Z.land (2 ^ p) (- 2 ^ p) = 2 ^ p) as ->.
    { apply Z.bits_inj'. intros m Hm. rewrite Z.land_spec, Z.pow2_bits_eqb by lia.
      destruct (Z.eqb_spec p m) as [->|]; [|reflexivity].
      cbn [andb]. rewrite Z.bits_opp by lia.
      replace (Z.pred (2 ^ m)) with (Z.ones m) by (rewrite Z.ones_equiv; lia).
      rewrite Z.ones_spec_high by lia. reflexivity. }
    now rewrite Z.log2_pow2 by lia. }
  rewrite Etz. fold (on param (2 ^ p)).
  assert (on (if on param (2 ^ p) then (if en then set_bit field p else clear_bit field p) else field)
             (2 ^ n)
          = if (p =? n) && on param (2 ^ n) then en else on field (2 ^ n)) as E1.
  { destruct (Z.eqb_spec p n) as [->|Hne].
    - cbn [andb]. destruct (on param (2 ^ n)); [|reflexivity].
      destruct en; rewrite on_pow by lia.
      + rewrite set_bit_test by lia. rewrite Z.eqb_refl. apply orb_true_r.
      + rewrite clear_bit_test by lia. rewrite Z.eqb_refl. apply andb_false_r.
    - cbn [andb]. destruct (on param (2 ^ p)); [|reflexivity].
      rewrite !on_pow by lia.
      destruct en; [rewrite set_bit_test by lia|rewrite clear_bit_test by lia];
        destruct (Z.eqb_spec n p); try congruence; cbn [negb];
        [apply orb_false_r|apply andb_true_r]. }
  rewrite E1.
  destruct (p =? n); cbn [orb andb]; [|reflexivity].
  destruct (on param (2 ^ n)); [|rewrite andb_false_r; reflexivity].
  destruct (existsb _ r); reflexivity.
Qed.

(** ** What a context shows *)

Definition comp_of (c : cc) : comp := (cc_handle c, cc_type c, cc_data c).
Definition comps_of (c : ctx) : list comp := map comp_of (c_ccs c).

Definition item_bytes (c : ctx) (item : Z) : list Z :=
  if item =? INFO_CONST then le_bytes 8 (c_const c)
  else if item =? INFO_ATTEMPTS then le_bytes 4 (c_attempts c)
  else le_bytes 4 (c_winding c).

Definition field_of (k : filter_kind) (c : ctx) : Z :=
  match k with FSource => c_bsrc c | FType => c_btyp c | FSeverity => c_bsev c end.

(** The bits that a filter can hold. *)
Definition filter_bits (k : filter_kind) : list Z :=
  match k with
  | FSource => [SOURCE_API; SOURCE_KERNEL]
  | FType => [TYPE_ERROR; TYPE_DEPRECATED; TYPE_OTHER]
  | FSeverity => [SEV_HIGH; SEV_MEDIUM; SEV_LOW; SEV_NOTIFICATION]
  end.

Definition bindable (item : Z) : Prop :=
  item = INFO_CONST \/ item = INFO_ATTEMPTS \/ item = INFO_WINDING.

(** The step [x] changes what is known of context [h] the way [c] changes
    to [c']. *)
Definition follows (x : label * out) (c c' : ctx) : Prop :=
  c_handle c' = c_handle c /\
  components_after (c_handle c) (comps_of c) x = comps_of c' /\
  (forall item, bindable item ->
     bound_after (c_handle c) item (item_bytes c item) x = item_bytes c' item) /\
  (forall k bit, In bit (filter_bits k) ->
     enabled_after k (c_handle c) bit (on (field_of k c) bit) x = on (field_of k c') bit) /\
  callback_after (c_handle c) (c_cb c) x = c_cb c' /\
  flags_after (c_handle c) (c_flags c) x = c_flags c'.

Lemma drop_comps_loop ids l :
  map comp_of (fst (release_ccs_loop ids l)) = drop_comps ids (map comp_of l).
Proof.
  revert l. induction ids as [|i r IH]; intro l; [reflexivity|].
  cbn [release_ccs_loop drop_comps].
  assert (existsb (fun c => comp_handle c =? i) (map comp_of l)
          = match find_cc i l with Some _ => true | None => false end) as E.
  { clear IH. unfold find_cc. induction l as [|c l IHl]; [reflexivity|].
    cbn. destruct (cc_handle c =? i); [reflexivity|]. exact IHl. }
  rewrite E. destruct (find_cc i l) eqn:F; [|reflexivity].
  rewrite IH. f_equal. clear. unfold without.
  induction l as [|c l IHl]; [reflexivity|].
  cbn. destruct (cc_handle c =? i); cbn; [exact IHl|]. now rewrite IHl.
Qed.

Lemma as_int_small n : 0 <= n < 2 ^ 32 ->
  Z.to_nat (as_int n) = if n <? 2 ^ 31 then Z.to_nat n else O.
Proof.
  intro H. unfold as_int. rewrite Z.mod_small by lia.
  destruct (n <? 2 ^ 31) eqn:E; [reflexivity|].
  apply Z.ltb_ge in E.
  assert (2 ^ 31 = 2147483648) by reflexivity. assert (2 ^ 32 = 4294967296) by reflexivity.
  lia.
Qed.

(** What stays the same when only the log changes. *)
Definition same_but_log (c c' : ctx) : Prop := exists l, c' = with_log l c.

Lemma dbg_cb_log m c c' ms : dbg_cb m c = (c', ms) -> same_but_log c c'.
Proof.
  unfold dbg_cb, same_but_log. intro H.
  destruct (negb _); [|injection H as <- <-; exists (c_log c); now destruct c].
  destruct (can_log c m); [|injection H as <- <-; exists (c_log c); now destruct c].
  destruct (c_cb c); injection H as <- <-; [exists (c_log c); now destruct c|eauto].
Qed.

(** Labels that leave a context's visible state alone. *)
Definition quiet (x : label * out) (h : Z) : Prop :=
  forall L, components_after h L x = L /\
  (forall item v, bindable item -> bound_after h item v x = v) /\
  (forall k bit b, enabled_after k h bit b x = b) /\
  (forall b, callback_after h b x = b) /\
  (forall f, flags_after h f x = f).

Lemma quiet_follows x c : quiet x (c_handle c) -> follows x c c.
Proof.
  intro Q. unfold follows.
  split; [reflexivity|]. split; [apply (Q (comps_of c))|].
  destruct (Q []) as (_ & A & B & C & D).
  split; [intros; now apply A|]. split; [intros; apply B|]. split; [apply C|apply D].
Qed.

Lemma quiet_log x c l : quiet x (c_handle c) -> follows x c (with_log l c).
Proof.
  intro Q. pose proof (quiet_follows x c Q) as F.
  unfold follows in *. cbn. exact F.
Qed.

Lemma follows_log x c c' l : follows x c c' -> follows x c (with_log l c').
Proof. unfold follows. cbn. auto. Qed.

Ltac quiet_tac :=
  let L := fresh in
  intro L; cbn;
  repeat match goal with
  | H : (?a =? ?b) = _ |- context [?a =? ?b] => rewrite H
  end;
  cbn; rewrite ?andb_false_r; cbn;
  repeat split; intros; try reflexivity.

(** [x] does not concern the context. *)
Lemma follows_refl_other l o h c :
  (forall fl p, l = LCreateContext p fl -> returned o (c_handle c) = false) ->
  match l with
  | LCreateContext _ _ => True
  | LRunNewCC k _ _ | LReleaseCCs k _ _ | LBindState k _ _ _ | LDebugControl k _ _ _ _
  | LDebugCallback k _ => k = h
  | _ => True
  end ->
  (h <> c_handle c \/ match l with
                       | LRunNewCC _ _ _ | LReleaseCCs _ _ _ | LBindState _ _ _ _
                       | LDebugControl _ _ _ _ _ | LDebugCallback _ _ => False
                       | _ => True
                       end) ->
  follows (l, o) c c.
Proof.
  intros Hc Hk Hn. apply quiet_follows. intro L.
  destruct l; cbn in *; try (repeat split; intros; reflexivity);
    try (rewrite (Hc _ _ eq_refl); repeat split; intros; reflexivity);
    subst;
    (destruct Hn as [Hn|[]]; apply Z.eqb_neq in Hn;
     repeat match goal with m : option (list Z) |- _ => destruct m end;
     rewrite ?Hn; cbn; repeat split; intros; rewrite ?Hn; reflexivity).
Qed.

(** ** Binding *)

Lemma has_spec i j : has i j = on i j.
Proof. reflexivity. Qed.

Lemma bind_follows fmt h info n mem s s' o c' :
  mcBindState fmt h info n mem s = (s', o) -> wf_label (LBindState h info n mem) ->
  NoDup (map c_handle (g_ctxs s)) -> In c' (g_ctxs s') ->
  exists c, In c (g_ctxs s) /\ follows (LBindState h info n mem, o) c c'.
Proof.
  intros E WF ND Hin.
  (* every rejecting path leaves the state alone, except for the log *)
  assert (forall c, In c (g_ctxs s) -> o_res o <> MC_NO_ERROR -> forall l,
            follows (LBindState h info n mem, o) c (with_log l c)) as Hfail.
  { intros c Hc Ho l. apply quiet_log. intro L. cbn.
    destruct mem; [|repeat split; intros; reflexivity].
    assert (succeeded o = false) as Es by (now apply Z.eqb_neq).
    repeat split; intros; rewrite ?Es, ?andb_false_r; reflexivity. }
  assert (forall c, with_log (c_log c) c = c) as Hwl by (intros []; reflexivity).
  assert (o_res o <> MC_NO_ERROR -> g_ctxs s' = g_ctxs s ->
          exists c, In c (g_ctxs s) /\ follows (LBindState h info n mem, o) c c') as Hsame.
  { intros Ho Es. rewrite Es in Hin. exists c'. split; [exact Hin|].
    rewrite <- (Hwl c') at 2. now apply Hfail. }
  unfold mcBindState in E.
  destruct (h =? MC_NULL_HANDLE); [injection E as <- <-; apply Hsame; [discriminate|reflexivity]|].
  destruct (n =? 0) eqn:En0; [injection E as <- <-; apply Hsame; [discriminate|reflexivity]|].
  destruct mem as [d|]; [|injection E as <- <-; apply Hsame; [discriminate|reflexivity]].
  destruct (negb _); [injection E as <- <-; apply Hsame; [discriminate|reflexivity]|].
  destruct ((has info INFO_CONST && negb (n =? 8)) || (has info INFO_ATTEMPTS && negb (n =? 4))
            || (has info INFO_WINDING && negb (n =? 4))) eqn:Esz;
    [injection E as <- <-; apply Hsame; [discriminate|reflexivity]|].
  apply orb_false_iff in Esz. destruct Esz as [Esz Esz3].
  apply orb_false_iff in Esz. destruct Esz as [Esz1 Esz2].
  unfold bind_state_impl in E.
  destruct (find_ctx h (g_ctxs s)) as [c|] eqn:Fc;
    [|injection E as <- <-; apply Hsame; [discriminate|reflexivity]].
  destruct (find_ctx_In _ _ _ Fc) as [Hc Hh].
  set (data := firstn (Z.to_nat n) d) in *.
  cbn in WF. destruct WF as [WFd WFn].
  assert (Forall (fun b => 0 <= b < 256) data) as Hdata.
  { apply Forall_forall. intros b Hb. rewrite Forall_forall in WFd. apply WFd.
    unfold data in Hb. rewrite <- (firstn_skipn (Z.to_nat n) d). apply in_or_app. auto. }
  assert (length data = Z.to_nat n) as Hlen.
  { unfold data. rewrite firstn_length. lia. }
  (* one item *)
  assert (forall bad store,
    (forall x, c_handle (store x) = c_handle x) ->
    (forall x, comps_of (store x) = comps_of x) ->
    (forall x k, field_of k (store x) = field_of k x) ->
    (forall x, c_cb (store x) = c_cb x /\ c_flags (store x) = c_flags x) ->
    (forall x item, bindable item ->
       item_bytes (store x) item = if item =? info then data else item_bytes x item) ->
    catch (bind_item fmt h info (le_val data) bad store c s) = (s', o) ->
    exists c, In c (g_ctxs s) /\ follows (LBindState h info n (Some d), o) c c') as Hitem.
  { intros bad store Hsh Hcomp Hfld Hcb Hit E'. unfold bind_item in E'.
    destruct (dbg_cb (bind_msg fmt info (le_val data)) c) as [c1 ms] eqn:Ed.
    destruct (dbg_cb_log _ _ _ _ Ed) as [l El].
    destruct bad.
    - cbn in E'. injection E' as <- <-. cbn in Hin.
      destruct (in_upd _ _ _ _ ND Hin) as [[A B]|(c2 & A & B & C & D)].
      + exists c'. split; [exact A|]. rewrite <- (Hwl c') at 2. apply Hfail; [exact A|discriminate].
      + exists c2. split; [exact A|]. rewrite Fc in C. injection C as <-.
        subst c' c1. apply Hfail; [exact A|discriminate].
    - cbn in E'. injection E' as <- <-. cbn in Hin.
      destruct (in_upd _ _ _ _ ND Hin) as [[A B]|(c2 & A & B & C & D)].
      + exists c'. split; [exact A|]. apply quiet_follows. intro L. cbn.
        assert (h =? c_handle c' = false) as Eq by (apply Z.eqb_neq; congruence).
        rewrite Eq. cbn. repeat split; intros; reflexivity.
      + exists c2. split; [exact A|]. rewrite Fc in C. injection C as <-.
        subst c1. rewrite D. unfold follows.
        split; [rewrite Hsh; reflexivity|].
        split; [rewrite Hcomp; reflexivity|].
        split.
        * intros item Hb. cbn. rewrite <- Hh, Z.eqb_refl. cbn.
          rewrite Hit by exact Hb. rewrite (Z.eqb_sym info item).
          destruct (item =? info); reflexivity.
        * split; [intros k bit _; cbn; rewrite Hfld; reflexivity|].
          cbn. rewrite (proj1 (Hcb _)), (proj2 (Hcb _)). split; reflexivity. }
  clear Hsame Hfail.
  assert (forall k, (length data = k)%nat -> le_bytes k (le_val data) = data) as Hrt.
  { intros k <-. now apply le_bytes_val. }
  destruct (Z.eqb_spec info INFO_CONST) as [->|N1].
  { eapply (Hitem _ (with_const (le_val data))); try exact E; intros; try reflexivity.
    - split; reflexivity.
    - unfold item_bytes. cbn [c_const with_const c_attempts c_winding].
      destruct H as [->|[->| ->]]; cbn -[le_bytes]; try reflexivity.
      apply Hrt. cbn in Esz1. apply negb_false_iff, Z.eqb_eq in Esz1. subst n. exact Hlen. }
  destruct (Z.eqb_spec info INFO_ATTEMPTS) as [->|N2].
  { eapply (Hitem _ (with_attempts (le_val data))); try exact E; intros; try reflexivity.
    - split; reflexivity.
    - unfold item_bytes. cbn [c_const with_attempts c_attempts c_winding].
      destruct H as [->|[->| ->]]; cbn -[le_bytes]; try reflexivity.
      apply Hrt. cbn in Esz2. apply negb_false_iff, Z.eqb_eq in Esz2. subst n. exact Hlen. }
  destruct (Z.eqb_spec info INFO_WINDING) as [->|N3].
  { eapply (Hitem _ (with_winding (le_val data))); try exact E; intros; try reflexivity.
    - split; reflexivity.
    - unfold item_bytes. cbn [c_const with_winding c_attempts c_winding].
      destruct H as [->|[->| ->]]; cbn -[le_bytes]; try reflexivity.
      apply Hrt. cbn in Esz3. apply negb_false_iff, Z.eqb_eq in Esz3. subst n. exact Hlen. }
  cbn in E. injection E as <- <-. exists c'. split; [exact Hin|].
  apply quiet_follows. intro L. cbn. repeat split; intros; rewrite ?andb_false_r; reflexivity.
Qed.

(** ** The other calls that change a context *)

Local Opaque control_bits.

Lemma control_follows h src typ sev en s s' o c' :
  mcDebugMessageControl h src typ sev en s = (s', o) ->
  NoDup (map c_handle (g_ctxs s)) -> In c' (g_ctxs s') ->
  exists c, In c (g_ctxs s) /\ follows (LDebugControl h src typ sev en, o) c c'.
Proof.
  intros E ND Hin.
  assert (o_res o <> MC_NO_ERROR -> g_ctxs s' = g_ctxs s ->
          exists c, In c (g_ctxs s) /\ follows (LDebugControl h src typ sev en, o) c c') as Hsame.
  { intros Ho Es. rewrite Es in Hin. exists c'. split; [exact Hin|].
    apply quiet_follows. intro L. cbn.
    assert (succeeded o = false) as Ef by (now apply Z.eqb_neq).
    repeat split; intros; rewrite ?Ef, ?andb_false_r; reflexivity. }
  unfold mcDebugMessageControl in E.
  repeat match type of E with
  | (if ?b then _ else _) = _ =>
      destruct b; [injection E as <- <-; apply Hsame; [discriminate|reflexivity]|]
  end.
  unfold debug_message_control_impl in E.
  destruct (find_ctx h (g_ctxs s)) as [c|] eqn:Fc;
    [|cbn in E; injection E as <- <-; apply Hsame; [discriminate|reflexivity]].
  cbn [catch] in E. injection E as <- <-. cbn [on_ctx g_ctxs] in Hin.
  destruct (in_upd _ _ _ _ ND Hin) as [[A B]|(c2 & A & B & C & D)].
  - exists c'. split; [exact A|]. apply (follows_refl_other _ _ h); [discriminate|reflexivity|].
    left. congruence.
  - exists c2. split; [exact A|]. rewrite D. unfold follows.
    split; [reflexivity|]. split; [reflexivity|]. split; [intros; reflexivity|].
    split; [|split; reflexivity].
    intros k bit Hbit. cbn [enabled_after].
    rewrite <- B, Z.eqb_refl. cbn [succeeded o_res ret andb MC_NO_ERROR Z.eqb].
    change (negb (Z.land (picked k src typ sev) bit =? 0)) with (on (picked k src typ sev) bit).
    destruct k; cbn [picked field_of with_bits c_bsrc c_btyp c_bsev].
    + assert (exists n, 0 <= n /\ bit = 2 ^ n /\ In n [0; 1]) as (n & Hn & -> & Hi).
      { cbn in Hbit. destruct Hbit as [<-|[<-|[]]]; [exists 0|exists 1]; (split; [lia|split; [reflexivity|cbn; tauto]]). }
      change [SOURCE_API; SOURCE_KERNEL] with (map (fun p => 2 ^ p) [0; 1]).
      unfold SOURCE_ALL. rewrite control_bits_spec by (try (intros ? Hq; cbn in Hq); lia).
      replace (existsb (fun p => p =? n) [0; 1]) with true; [reflexivity|].
      symmetry. apply existsb_exists. exists n. split; [exact Hi|apply Z.eqb_refl].
    + assert (exists n, 0 <= n /\ bit = 2 ^ n /\ In n [1; 0; 2]) as (n & Hn & -> & Hi).
      { cbn in Hbit. destruct Hbit as [<-|[<-|[<-|[]]]]; [exists 0|exists 1|exists 2]; (split; [lia|split; [reflexivity|cbn; tauto]]). }
      change [TYPE_DEPRECATED; TYPE_ERROR; TYPE_OTHER] with (map (fun p => 2 ^ p) [1; 0; 2]).
      unfold TYPE_ALL. rewrite control_bits_spec by (try (intros ? Hq; cbn in Hq); lia).
      replace (existsb (fun p => p =? n) [1; 0; 2]) with true; [reflexivity|].
      symmetry. apply existsb_exists. exists n. split; [exact Hi|apply Z.eqb_refl].
    + assert (exists n, 0 <= n /\ bit = 2 ^ n /\ In n [0; 2; 1; 3]) as (n & Hn & -> & Hi).
      { cbn in Hbit.
        destruct Hbit as [<-|[<-|[<-|[<-|[]]]]]; [exists 0|exists 1|exists 2|exists 3]; (split; [lia|split; [reflexivity|cbn; tauto]]). }
      change [SEV_HIGH; SEV_LOW; SEV_MEDIUM; SEV_NOTIFICATION]
        with (map (fun p => 2 ^ p) [0; 2; 1; 3]).
      unfold SEV_ALL. rewrite control_bits_spec by (try (intros ? Hq; cbn in Hq); lia).
      replace (existsb (fun p => p =? n) [0; 2; 1; 3]) with true; [reflexivity|].
      symmetry. apply existsb_exists. exists n. split; [exact Hi|apply Z.eqb_refl].
Qed.

Local Transparent control_bits.

Lemma callback_follows h cb s s' o c' :
  mcDebugMessageCallback h cb s = (s', o) ->
  NoDup (map c_handle (g_ctxs s)) -> In c' (g_ctxs s') ->
  exists c, In c (g_ctxs s) /\ follows (LDebugCallback h cb, o) c c'.
Proof.
  intros E ND Hin.
  assert (o_res o <> MC_NO_ERROR -> g_ctxs s' = g_ctxs s ->
          exists c, In c (g_ctxs s) /\ follows (LDebugCallback h cb, o) c c') as Hsame.
  { intros Ho Es. rewrite Es in Hin. exists c'. split; [exact Hin|].
    apply quiet_follows. intro L. cbn.
    assert (succeeded o = false) as Ef by (now apply Z.eqb_neq).
    repeat split; intros; rewrite ?Ef, ?andb_false_r; reflexivity. }
  unfold mcDebugMessageCallback in E.
  repeat match type of E with
  | (if ?b then _ else _) = _ =>
      destruct b; [injection E as <- <-; apply Hsame; [discriminate|reflexivity]|]
  end.
  unfold debug_message_callback_impl in E.
  destruct (find_ctx h (g_ctxs s)) as [c|] eqn:Fc;
    [|cbn in E; injection E as <- <-; apply Hsame; [discriminate|reflexivity]].
  cbn in E. injection E as <- <-. cbn in Hin.
  destruct (in_upd _ _ _ _ ND Hin) as [[A B]|(c2 & A & B & C & D)].
  - exists c'. split; [exact A|]. apply (follows_refl_other _ _ h); [discriminate|reflexivity|].
    left. congruence.
  - exists c2. split; [exact A|]. rewrite D. unfold follows. cbn.
    rewrite <- B, Z.eqb_refl. repeat split; intros; reflexivity.
Qed.

Lemma release_ccs_follows h n ids s s' o c' :
  mcReleaseConnectedComponents h n ids s = (s', o) -> wf_label (LReleaseCCs h n ids) ->
  (forall c, In c (g_ctxs s) -> c_handle c <> MC_NULL_HANDLE) ->
  NoDup (map c_handle (g_ctxs s)) -> In c' (g_ctxs s') ->
  exists c, In c (g_ctxs s) /\ follows (LReleaseCCs h n ids, o) c c'.
Proof.
  intros E WF Hpos ND Hin. cbn in WF.
  assert (find_ctx h (g_ctxs s) = None -> g_ctxs s' = g_ctxs s ->
          exists c, In c (g_ctxs s) /\ follows (LReleaseCCs h n ids, o) c c') as Hnone.
  { intros Hf Es. rewrite Es in Hin. exists c'. split; [exact Hin|].
    apply (follows_refl_other _ _ h); [discriminate|reflexivity|].
    left. intro Eh. apply find_ctx_None in Hf. apply Hf. rewrite Eh. now apply in_map. }
  unfold mcReleaseConnectedComponents in E.
  destruct (Z.eqb_spec h MC_NULL_HANDLE) as [Hh0|Hh0].
  { injection E as <- <-. apply Hnone; [|reflexivity]. apply find_ctx_None.
    rewrite in_map_iff. intros (c & Ec & Hc). apply (Hpos _ Hc). congruence. }
  destruct ids as [ids|].
  - destruct (Z.eqb_spec n 0) as [Hn0|Hn0].
    { injection E as <- <-. exists c'. split; [exact Hin|].
      apply quiet_follows. intro L. subst n. cbn.
      repeat split; intros; try reflexivity. now destruct (h =? c_handle c'). }
    unfold release_connected_components_impl in E.
    destruct (find_ctx h (g_ctxs s)) as [c|] eqn:Fc;
      [|cbn in E; injection E as <- <-; apply Hnone; reflexivity].
    destruct (release_ccs_loop (firstn (Z.to_nat (as_int n)) ids) (c_ccs c)) as [ccs' ok] eqn:El.
    assert (s' = on_ctx h (with_ccs ccs') s) as Es.
    { destruct ok; cbn in E; injection E as <- <-; reflexivity. }
    subst s'. cbn in Hin.
    destruct (in_upd _ _ _ _ ND Hin) as [[A B]|(c2 & A & B & C & D)].
    + exists c'. split; [exact A|]. apply (follows_refl_other _ _ h); [discriminate|reflexivity|].
      left. congruence.
    + exists c2. split; [exact A|]. rewrite D. rewrite Fc in C; injection C as <-. unfold follows. cbn -[Z.pow].
      rewrite <- B, Z.eqb_refl.
      split; [reflexivity|]. split; [|split; [intros; reflexivity|split; [intros; reflexivity|split; reflexivity]]].
      rewrite as_int_small in El by exact WF.
      pose proof (drop_comps_loop (firstn (if n <? 2 ^ 31 then Z.to_nat n else 0%nat) ids) (c_ccs c)) as Ed.
      rewrite El in Ed. cbn [fst] in Ed. unfold comps_of. cbn [with_ccs c_ccs]. rewrite Ed.
      replace (1 <=? n) with true by (symmetry; apply Z.leb_le; lia). cbn [andb].
      destruct (n <? 2 ^ 31); reflexivity.
  - destruct (0 <? n) eqn:Hn.
    { injection E as <- <-. exists c'. split; [exact Hin|].
      apply quiet_follows. intro L. cbn.
      repeat split; intros; rewrite ?andb_false_r; reflexivity. }
    apply Z.ltb_ge in Hn. assert (n = 0) as -> by lia.
    unfold release_connected_components_impl in E.
    destruct (find_ctx h (g_ctxs s)) as [c|] eqn:Fc;
      [|cbn in E; injection E as <- <-; apply Hnone; reflexivity].
    cbn in E. injection E as <- <-. cbn in Hin.
    destruct (in_upd _ _ _ _ ND Hin) as [[A B]|(c2 & A & B & C & D)].
    + exists c'. split; [exact A|]. apply (follows_refl_other _ _ h); [discriminate|reflexivity|].
      left. congruence.
    + exists c2. split; [exact A|]. rewrite D. unfold follows. cbn.
      rewrite <- B, Z.eqb_refl. repeat split; intros; reflexivity.
Qed.

Lemma new_cc_follows h ty d s s' o c' :
  run_new_cc h ty d s = (s', o) ->
  NoDup (map c_handle (g_ctxs s)) -> In c' (g_ctxs s') ->
  exists c, In c (g_ctxs s) /\ follows (LRunNewCC h ty d, o) c c'.
Proof.
  intros E ND Hin. unfold run_new_cc, run_ctx in E.
  assert (find_ctx h (g_ctxs s) = None -> g_ctxs s' = g_ctxs s ->
          exists c, In c (g_ctxs s) /\ follows (LRunNewCC h ty d, o) c c') as Hnone.
  { intros Hf Es. rewrite Es in Hin. exists c'. split; [exact Hin|].
    apply (follows_refl_other _ _ h); [discriminate|reflexivity|].
    left. intro Eh. apply find_ctx_None in Hf. apply Hf. rewrite Eh. now apply in_map. }
  unfold run_on in E. cbn in E.
  destruct (find_ctx h (g_ctxs s)) as [c|] eqn:Fc.
  - injection E as <- <-. cbn in Hin.
    destruct (in_upd _ _ _ _ ND Hin) as [[A B]|(c2 & A & B & C & D)].
    + exists c'. split; [exact A|]. apply (follows_refl_other _ _ h); [discriminate|reflexivity|].
      left. congruence.
    + exists c2. split; [exact A|]. rewrite D. unfold follows. cbn.
      rewrite <- B, Z.eqb_refl. repeat split; intros; reflexivity.
  - destruct (find_ctx h (g_held s)); injection E as <- <-; apply Hnone; reflexivity.
Qed.

(** Steps that change a context only in its log or intersection type. *)
Lemma run_on_In h f s c' :
  NoDup (map c_handle (g_ctxs s)) -> In c' (g_ctxs (run_on h f s)) ->
  In c' (g_ctxs s) \/ exists c, In c (g_ctxs s) /\ find_ctx h (g_ctxs s) = Some c /\ c' = f c.
Proof.
  unfold run_on. intros ND Hin.
  destruct (find_ctx h (g_ctxs s)) eqn:F; [|left; exact Hin].
  cbn in Hin. destruct (in_upd _ _ _ _ ND Hin) as [[A B]|(c2 & A & B & C & D)]; [auto|].
  right. exists c2. rewrite F in C. auto.
Qed.

Definition new_context_of (l : label) (o : out) (c : ctx) : Prop :=
  exists p fl h, l = LCreateContext p fl /\ o_handle o = Some h /\ c = new_ctx h fl.

Lemma enqueue_ctxs h cmd ws now s : g_ctxs (fst (catch (enqueue_impl h cmd ws now s))) = g_ctxs s.
Proof.
  unfold enqueue_impl, prepare_and_submit. destruct (find_ctx h (g_ctxs s)); [|reflexivity].
  cbn. destruct (check_waitlist _ _); reflexivity.
Qed.

Lemma release_events_ctxs es s : g_ctxs (fst (release_events_impl es s)) = g_ctxs s.
Proof.
  revert s. induction es as [|e r IH]; intro s; [reflexivity|].
  cbn. unfold release_event_impl. destruct (find_ev e (g_evs s)); [|reflexivity].
  rewrite IH. reflexivity.
Qed.

Ltac if_all E :=
  repeat match type of E with
  | (if ?b then _ else _) = _ => destruct b
  end.

(** Calls that leave the list of contexts alone. *)
Definition keeps_contexts (l : label) : Prop :=
  match l with
  | LGetInfo _ _ _ _ _ | LCreateUserEvent _ _ _ | LGetEventInfo _ _ _ _ _ | LSetEventCallback _ _
  | LReleaseEvents _ _ | LEnqueueDispatch _ _ _ _ _ _ | LEnqueuePlanar _ _ _ _ _ _ _ _ _
  | LEnqueueGetCCs _ _ _ _ _ _ _ _ | LEnqueueData _ _ _ _ _ _ _ _ _
  | LRunGetCCs _ _ _ _ _ | LRunData _ _ _ | LRunStart _ _ | LRunNotify _ _ | LRunEnd _ _
  | LRunDrop _ => True
  | _ => False
  end.

Lemma keeps_contexts_step fmt l s s' o :
  step fmt l s = (s', o) -> keeps_contexts l -> g_ctxs s' = g_ctxs s.
Proof.
  intros E K. destruct l; try destruct K; cbn [step] in E;
    try (injection E as <- _; reflexivity).
  - unfold mcGetInfo, get_info_impl in E. if_all E; try (injection E as <- _; reflexivity).
    destruct (find_ctx h (g_ctxs s)); cbn in E; [|injection E as <- _; reflexivity].
    destruct (info_of _ _ _ _ _) as [[? ?]|]; injection E as <- _; reflexivity.
  - unfold mcCreateUserEvent, create_user_event_impl in E.
    if_all E; try (injection E as <- _; reflexivity).
    destruct (find_ctx h (g_ctxs s)); cbn in E; injection E as <- _; reflexivity.
  - unfold mcGetEventInfo, get_event_info_impl in E.
    if_all E; try (injection E as <- _; reflexivity).
    destruct (find_ev e (g_evs s)); cbn [catch] in E; [|injection E as <- _; reflexivity].
    destruct (ev_info_of _ _ _ _ _) as [[? ?]|]; injection E as <- _; reflexivity.
  - unfold mcSetEventCallback in E.
    destruct (find_ev e (g_evs s)); if_all E; injection E as <- _; reflexivity.
  - unfold mcReleaseEvents in E. destruct es; if_all E; try (injection E as <- _; reflexivity).
    pose proof (release_events_ctxs (firstn (Z.to_nat n) l) s) as R.
    destruct (release_events_impl _ s) as [s1 [[? ?]|?]]; cbn in *; injection E as <- _; exact R.
  - unfold mcEnqueueDispatch in E. if_all E; try (injection E as <- _; reflexivity).
    pose proof (enqueue_ctxs h CMD_DISPATCH (waitlist_of n ws) now s) as R.
    destruct (catch _) as [s1 o1]. injection E as <- _. exact R.
  - unfold mcEnqueueDispatchPlanarSection in E. if_all E; try (injection E as <- _; reflexivity).
    pose proof (enqueue_ctxs h CMD_DISPATCH (waitlist_of n ws) now s) as R.
    destruct (catch _) as [s1 o1]. injection E as <- _. exact R.
  - unfold mcEnqueueGetConnectedComponents in E. if_all E; try (injection E as <- _; reflexivity).
    pose proof (enqueue_ctxs h CMD_GET_CCS (waitlist_of n ws) now s) as R.
    destruct (catch _) as [s1 o1]. injection E as <- _. exact R.
  - unfold mcEnqueueGetConnectedComponentData in E. if_all E; try (injection E as <- _; reflexivity).
    pose proof (enqueue_ctxs h CMD_GET_CC_DATA (waitlist_of n ws) now s) as R.
    destruct (catch _) as [s1 o1]. injection E as <- _. exact R.
  - unfold run_get_ccs in E. destruct (run_ctx h s); [|injection E as <- _; reflexivity].
    destruct (collect _ _ _ _ _ _). injection E as <- _. reflexivity.
  - unfold run_data in E. destruct (run_ctx h s); [|injection E as <- _; reflexivity].
    destruct (find_cc _ _); injection E as <- _; reflexivity.
Qed.

Lemma step_follows fmt l s s' o c' :
  step fmt l s = (s', o) -> wf_label l ->
  (forall c, In c (g_ctxs s) -> c_handle c <> MC_NULL_HANDLE) ->
  NoDup (map c_handle (g_ctxs s)) ->
  (forall p fl h, l = LCreateContext p fl -> o_handle o = Some h -> ~ In h (map c_handle (g_ctxs s))) ->
  In c' (g_ctxs s') ->
  new_context_of l o c' \/ exists c, In c (g_ctxs s) /\ follows (l, o) c c'.
Proof.
  intros E WF Hpos ND Hfresh Hin.
  assert (keeps_contexts l -> exists c, In c (g_ctxs s) /\ follows (l, o) c c') as Hkeep.
  { intro K. rewrite (keeps_contexts_step _ _ _ _ _ E K) in Hin. exists c'. split; [exact Hin|].
    apply (follows_refl_other _ _ 0); destruct l; destruct K; try discriminate; auto. }
  destruct l; try (right; apply Hkeep; exact I); clear Hkeep; cbn [step] in E.
  - (* create *)
    unfold mcCreateContext in E.
    assert (g_ctxs s' = g_ctxs s -> o_handle o = None ->
            exists c, In c (g_ctxs s) /\ follows (LCreateContext ptr flags, o) c c') as Hno.
    { intros Es Eo. rewrite Es in Hin. exists c'. split; [exact Hin|].
      apply (follows_refl_other _ _ 0); auto. intros. unfold returned. rewrite Eo. reflexivity. }
    destruct ptr; cbn [negb] in E; [|injection E as <- <-; right; apply Hno; reflexivity].
    unfold create_context_impl, catch in E. cbn in E. injection E as <- <-.
    cbn in Hin. destruct Hin as [<-|Hin].
    + left. exists true, flags. eexists. repeat split; reflexivity.
    + right.
      assert (In c' (g_ctxs s)) as Hin' by (destruct (g_init s); exact Hin).
      exists c'. split; [exact Hin'|].
      apply (follows_refl_other _ _ 0); auto.
      intros fl p _. specialize (Hfresh _ _ _ eq_refl eq_refl).
      unfold returned. cbn. apply Z.eqb_neq. intro Eh. apply Hfresh.
      rewrite Eh. now apply in_map.
  - (* release context *)
    right. unfold mcReleaseContext, release_context_impl in E.
    assert (In c' (g_ctxs s)) as Hin'.
    { if_all E; [injection E as <- _; exact Hin|].
      destruct (find_ctx h (g_ctxs s)); cbn in E; injection E as <- _; [|exact Hin].
      cbn in Hin. apply filter_In in Hin. tauto. }
    exists c'. split; [exact Hin'|]. apply (follows_refl_other _ _ 0); auto. discriminate.
  - right. now apply (callback_follows h cb s s').
  - (* debug log *)
    right.
    assert (forall c l, In c (g_ctxs s) ->
              follows (LDebugLog h count bufSize log_ptr num_ptr, o) c (with_log l c)) as Hq.
    { intros c l Hc. apply quiet_log. intro L. cbn. repeat split; intros; reflexivity. }
    assert (forall c, with_log (c_log c) c = c) as Hwl by (intros []; reflexivity).
    assert (g_ctxs s' = g_ctxs s ->
            exists c, In c (g_ctxs s) /\ follows (LDebugLog h count bufSize log_ptr num_ptr, o) c c') as Hs.
    { intro Es. rewrite Es in Hin. exists c'. split; [exact Hin|].
      rewrite <- (Hwl c') at 2. auto. }
    unfold mcGetDebugMessageLog, get_debug_message_log_impl in E.
    if_all E; try (injection E as <- _; apply Hs; reflexivity).
    destruct (find_ctx h (g_ctxs s)) as [c|] eqn:Fc; [|cbn in E; injection E as <- _; apply Hs; reflexivity].
    destruct (negb log_ptr).
    + destruct (dbg_cb _ c) as [c1 ms] eqn:Ed. destruct (dbg_cb_log _ _ _ _ Ed) as [l El].
      cbn in E. injection E as <- Eo. cbn in Hin.
      destruct (in_upd _ _ _ _ ND Hin) as [[A B]|(c2 & A & B & C & D)].
      * exists c'. split; [exact A|]. rewrite <- (Hwl c') at 2. auto.
      * exists c2. split; [exact A|]. rewrite Fc in C. injection C as <-. subst c1. rewrite D. auto.
    + destruct (fetch_log _ _ _ _). cbn in E. injection E as <- _. apply Hs. reflexivity.
  - right. now apply (control_follows h src typ sev en s s').
  - right. now apply (bind_follows fmt h info bytes mem s s').
  - right. now apply (release_ccs_follows h n ids s s').
  - right. now apply (new_cc_follows h ty data s s').
  - (* message *)
    right. unfold run_message in E.
    assert (forall c l, follows (LRunMessage h m, o) c (with_log l c)) as Hq.
    { intros c l. apply quiet_log. intro L. cbn. repeat split; intros; reflexivity. }
    assert (forall c, with_log (c_log c) c = c) as Hwl by (intros []; reflexivity).
    destruct (run_ctx h s) as [c|] eqn:Rc.
    + destruct (dbg_cb m c) as [c1 ms] eqn:Ed. destruct (dbg_cb_log _ _ _ _ Ed) as [l El].
      injection E as <- Eo.
      destruct (run_on_In _ _ _ _ ND Hin) as [A|(c2 & A & B & D)].
      * exists c'. split; [exact A|]. rewrite <- (Hwl c') at 2. auto.
      * exists c2. split; [exact A|]. unfold run_ctx in Rc. rewrite B in Rc. injection Rc as <-.
        subst c1. rewrite D. auto.
    + injection E as <- _. exists c'. split; [exact Hin|]. rewrite <- (Hwl c') at 2. auto.
  - (* intersection type *)
    right. unfold run_itype in E.
    assert (forall c, follows (LRunIType h t, o) c c) as Hq.
    { intro c. apply quiet_follows. intro L. cbn. repeat split; intros; reflexivity. }
    destruct (run_ctx h s) as [c|] eqn:Rc.
    + injection E as <- Eo.
      destruct (run_on_In _ _ _ _ ND Hin) as [A|(c2 & A & B & D)]; [eauto|].
      exists c2. split; [exact A|]. rewrite D. exact (Hq c2).
    + injection E as <- _. eauto.
Qed.
