(** Further lemmas on the loop: independence of filters, termination, shape of the end. *)
From Coq Require Import List ZArith Bool Lia.
From Verif Require Import Vec VecLemmas BvhModel BvhSpec ParModel InputModel DispatchModel DispatchSpec DispatchProofs DispatchFilter.
Import ListNotations.
Open Scope Z_scope.

(** ** the loop looks at the flags only for general-position enforcement *)
Lemma iteration_flags e flags s : enforce flags = enforce (e_flags e) -> iteration (with_flags e flags) s = iteration e s.
Proof.
  intros H. destruct e as [fl at_ src cut cv cs dr ch pa ke ss sc]. unfold with_flags, iteration, perturb_step, load_step, split_step, kernel_step, run_status, go_on, load.
  cbn [e_flags e_attempts e_src e_cut e_cut_valid e_const e_draw e_check e_pairs e_kernel e_split_src e_split_cut] in *.
  rewrite H. reflexivity.
Qed.

Definition refinish (e : env) (r : option result) (s : dstate) : option result :=
  match r with Some (Completed _ _) => Some (finish e s) | _ => r end.

Lemma drive_flags e flags : enforce flags = enforce (e_flags e) ->
  forall fuel s, drive fuel (with_flags e flags) s
    = (refinish (with_flags e flags) (fst (drive fuel e s)) (snd (drive fuel e s)), snd (drive fuel e s)).
Proof.
  intros H fuel. induction fuel as [|n IH]; intros s; [reflexivity|]. cbn [drive].
  rewrite (iteration_flags e flags s H).
  destruct (iteration e s) as [s'|s'|r s'] eqn:E; [apply IH| |].
  - cbn [fst snd]. unfold finish. destruct (d_status s') eqn:S; cbn [refinish]; unfold finish; rewrite ?S; reflexivity.
  - cbn [fst snd]. destruct r; try reflexivity. exfalso. revert E. unfold iteration.
    destruct (perturb_step _ _ _); [|discriminate]. destruct (load_step _ _ _ _); [|discriminate].
    destruct (negb _ || negb _); [discriminate|]. unfold kernel_step.
    destruct (_ && no_pairs _ _).
    + destruct (_ && (0 <? _)); [destruct (go_on e Violation)|]; discriminate.
    + match goal with |- context [match ?o with NoIntersection => _ | _ => _ end] => destruct o end;
        try destruct (go_on e _); discriminate.
Qed.

Lemma enforce_bits flags : enforce flags = bit flags 15 || bit flags 16.
Proof.
  unfold enforce, ENFORCE_GENERAL_POSITION, ENFORCE_GENERAL_POSITION_ABSOLUTE.
  rewrite !has_flag_bit by lia. reflexivity.
Qed.

Lemma completed_inv e fuel p cs s : dispatch_run fuel e = (Some (Completed p cs), s) ->
  After e s /\ d_status s = Success /\ p = d_pert s /\
  cs = match d_facts s with Some f => delivered (e_flags e) f | None => rev (created no_out) end.
Proof.
  intros H. apply run_inv in H. cbn [Final] in H. destruct H as [(A & G & F) | (_ & _ & _ & [])].
  split; [exact A|]. unfold finish in F. destruct (d_status s) eqn:S; try discriminate.
  injection F as -> ->. auto.
Qed.

(** ** termination *)
Lemma kernel_step_runs e v s s' : (v = true -> d_rebuilt s = false) -> kernel_step e v s = Loop s' ->
  zlen (kernel_runs (d_trace s')) = zlen (kernel_runs (d_trace s)) + 1.
Proof.
  intros V. unfold kernel_step.
  destruct (d_rebuilt s && no_pairs _ _) eqn:E.
  - apply andb_true_iff in E. destruct E as [E _].
    destruct v; cbn [andb]; [specialize (V eq_refl); congruence|]. discriminate.
  - match goal with |- context [match ?o with NoIntersection => _ | _ => _ end] => destruct o end;
      try destruct (go_on e _); intros H; try discriminate; injection H as <-; cbn [d_trace];
      rewrite kernel_runs_app, zlen_app'; cbn; lia.
Qed.

Lemma iteration_runs e s s' : LoopInv e s -> iteration e s = Loop s' ->
  zlen (kernel_runs (d_trace s')) = zlen (kernel_runs (d_trace s)) + 1.
Proof.
  intros I. unfold iteration.
  set (v := match d_status s with Violation => true | _ => false end).
  set (fl := match d_status s with Floating => true | _ => false end).
  set (s0 := DS _ _ _ _ _ _ _ _ _ _ _ _ _ _).
  assert (V : v = true -> d_rebuilt s = false /\ 0 <= d_count s).
  { subst v. intros H. destruct I as [-> | [A _]]; [discriminate|]. split; [exact (a_rebuilt _ _ A)|].
    rewrite (m_count _ _ (a_mid _ _ A)). apply zlen_nonneg. }
  assert (VF : v = true -> fl = false) by (subst v fl; destruct (d_status s); congruence).
  assert (P : forall s1, perturb_step e v s0 = Some s1 ->
            d_trace s1 = d_trace s /\ (v = true -> d_rebuilt s1 = d_rebuilt s /\ d_count s1 = d_count s + 1)).
  { unfold perturb_step. intros s1. destruct v; cbn [negb].
    - destruct (d_count s0 =? int32 (e_attempts e)); [discriminate|]. intros H. injection H as <-. auto.
    - intros H. injection H as <-. split; [reflexivity|discriminate]. }
  destruct (perturb_step e v s0) as [s1|]; [|discriminate]. destruct (P s1 eq_refl) as [T1 R1].
  assert (L : forall s2, load_step e v fl s1 = Some s2 ->
            kernel_runs (d_trace s2) = kernel_runs (d_trace s) /\ (v = true -> d_rebuilt s2 = false)).
  { unfold load_step. intros s2. destruct (((d_count s1 =? 0) || v) && negb fl).
    - destruct (negb (e_cut_valid e)); [discriminate|]. intros H. injection H as <-. cbn [d_trace d_rebuilt].
      rewrite kernel_runs_app, T1. cbn [kernel_runs flat_map app]. rewrite app_nil_r. split; [reflexivity|].
      intros Hv. destruct (V Hv) as [Va Vb]. destruct (R1 Hv) as [Ra Rb].
      assert (X : (d_count s1 =? 0) = false) by (apply Z.eqb_neq; lia). rewrite X, Ra. exact Va.
    - intros H. injection H as <-. rewrite T1. split; [reflexivity|]. intros Hv. destruct (V Hv), (R1 Hv). congruence. }
  destruct (load_step e v fl s1) as [s2|]; [|discriminate]. destruct (L s2 eq_refl) as [T2 R2].
  assert (S : kernel_runs (d_trace (split_step e fl s2)) = kernel_runs (d_trace s) /\ (v = true -> d_rebuilt (split_step e fl s2) = false)).
  { unfold split_step. destruct fl; cbn [negb].
    - cbn [d_trace d_rebuilt]. rewrite kernel_runs_app, T2. cbn [kernel_runs flat_map app]. rewrite app_nil_r.
      split; [reflexivity|]. intros Hv. specialize (VF Hv). discriminate.
    - split; [exact T2|exact R2]. }
  destruct S as [T3 R3].
  destruct (negb _ || negb _); [discriminate|]. intros H.
  rewrite (kernel_step_runs e v _ s' R3 H), T3. reflexivity.
Qed.

Lemma drive_fuel e : forall fuel s s', LoopInv e s -> drive fuel e s = (None, s') ->
  zlen (kernel_runs (d_trace s')) = zlen (kernel_runs (d_trace s)) + Z.of_nat fuel.
Proof.
  induction fuel as [|n IH]; intros s s' I H; [injection H as <-; lia|]. cbn [drive] in H.
  pose proof (iteration_inv e s I) as K.
  destruct (iteration e s) as [s1|s1|r s1] eqn:E; [|discriminate|discriminate].
  rewrite (IH s1 s' (or_intror K) H), (iteration_runs e s s1 I E). lia.
Qed.

(** ** the last mesh given to the kernel *)
Lemma app_last {A} (a b : list A) x y : a ++ [x] = b ++ [y] -> a = b /\ x = y.
Proof. apply app_inj_tail. Qed.

Lemma cut_is_unsplit e tr l c : cut_is e tr l c -> (forall b, ~ In (ESplit b true) tr) ->
  c = match l with None => e_cut e | Some p => translated p (e_cut e) end.
Proof.
  induction 1; intros N; auto.
  - apply IHcut_is. intros b H'. apply (N b). apply in_or_app. auto.
  - apply IHcut_is. intros b0 H'. apply (N b0). apply in_or_app. auto.
  - exfalso. apply (N b). apply in_or_app. right. left. reflexivity.
Qed.
