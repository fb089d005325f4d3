(** The perturbation loop: lemmas for C22 and C50. *)
From Coq Require Import List ZArith Bool Lia.
From Verif Require Import Vec VecLemmas BvhModel BvhSpec ParModel InputModel DispatchModel DispatchSpec.
Import ListNotations.
Open Scope Z_scope.

Lemma perturbations_app a b : perturbations (a ++ b) = perturbations a ++ perturbations b.
Proof. apply flat_map_app. Qed.
Lemma kernel_runs_app a b : kernel_runs (a ++ b) = kernel_runs a ++ kernel_runs b.
Proof. apply flat_map_app. Qed.
Lemma partitionings_app a b : partitionings (a ++ b) = partitionings a ++ partitionings b.
Proof. apply flat_map_app. Qed.
Lemma zlen_app' {A} (a b : list A) : zlen (a ++ b) = zlen a + zlen b.
Proof. unfold zlen. rewrite app_length. lia. Qed.

(** what is known about the cut mesh: its last translation is the stored one *)
Definition moved_by (tr : list event) (pert : vec3) (l : option vec3) : Prop :=
  match l with
  | None => perturbations tr = [] /\ pert = V3 0 0 0
  | Some p => p = pert /\ exists r, perturbations tr = r ++ [p]
  end.

(** holds just before the kernel is invoked, and after *)
Record Mid (e : env) (s : dstate) : Prop := {
  m_count : d_count s = zlen (perturbations (d_trace s));
  m_gp : d_gpcount s = Z.max 0 (d_count s - 1);
  m_cut : exists l, cut_is e (d_trace s) l (d_cut s) /\ moved_by (d_trace s) (d_pert s) l;
  m_runs : zlen (kernel_runs (d_trace s)) <= 1 + zlen (perturbations (d_trace s)) + zlen (partitionings (d_trace s));
  m_enf : enforce (e_flags e) = false -> d_count s = 0;
  m_att : 0 <= int32 (e_attempts e) -> d_count s <= int32 (e_attempts e) }.

(** before: one more run is allowed by the bound *)
Record Before (e : env) (v : bool) (s : dstate) : Prop := {
  b_mid : Mid e s;
  b_lt : zlen (kernel_runs (d_trace s)) < 1 + zlen (perturbations (d_trace s)) + zlen (partitionings (d_trace s));
  b_v : v = true -> d_rebuilt s = false }.

(** after a kernel run *)
Record After (e : env) (s : dstate) : Prop := {
  a_mid : Mid e s;
  a_rebuilt : d_rebuilt s = false;
  a_last : exists tr k n, d_trace s = tr ++ [EKernel k (d_status s)] /\ i_cut k = d_cut s /\
             cut_is e tr n (i_cut k) /\ moved_by (d_trace s) (d_pert s) n /\
             d_status s = run_status e (i_gpcount k) (e_kernel e (d_run s) k) /\
             d_facts s = found (e_kernel e (d_run s) k) /\ i_gpcount k = d_gpcount s }.

Definition LoopInv (e : env) (s : dstate) : Prop :=
  s = start e \/ (After e s /\ go_on e (d_status s) = true).

Lemma kernel_step_inv e v s :
  Before e v s ->
  match kernel_step e v s with
  | Loop s' => After e s' /\ go_on e (d_status s') = true
  | Leave s' => After e s' /\ go_on e (d_status s') = false
  | Stop r s' => Mid e s' /\ (r = NoOverlap \/ r = Error KernelException)
  end.
Proof.
  intros [M B V]. destruct M as [m1 m2 (l & m3 & m3') m4 m5 m6]. unfold kernel_step.
  set (pairs := if d_rebuilt s then e_pairs e (d_sboxes s) (d_cboxes s) else d_pairs s).
  set (k := Kin (d_src s) (d_cut s) pairs (d_sboxes s) (d_cboxes s) (d_gpcount s)).
  destruct (d_rebuilt s && no_pairs pairs (zlen (d_sboxes s) + zlen (d_cboxes s))) eqn:E.
  - apply andb_true_iff in E. destruct E as [E _].
    destruct v; cbn [andb]; [specialize (V eq_refl); congruence|].
    split; [|left; reflexivity]. constructor; cbn; auto. exists l. auto.
  - set (o := e_kernel e (d_run s) k). set (st := run_status e (d_gpcount s) o).
    set (s2 := DS _ _ _ _ _ _ _ _ _ _ _ _ _ _).
    assert (A : After e s2).
    { assert (MV : moved_by (d_trace s ++ [EKernel k st]) (d_pert s) l).
      { destruct l as [p|]; cbn [moved_by] in *; rewrite perturbations_app; cbn [perturbations flat_map]; rewrite !app_nil_r; assumption. }
      constructor.
      - constructor; subst s2; cbn [d_count d_gpcount d_trace d_cut d_pert]; auto.
        + rewrite perturbations_app; cbn [perturbations flat_map]. rewrite app_nil_r. exact m1.
        + exists l. split; [|exact MV]. apply ci_kernel. exact m3.
        + rewrite kernel_runs_app, perturbations_app, partitionings_app; cbn [kernel_runs perturbations partitionings flat_map app].
          rewrite !app_nil_r, zlen_app'. change (zlen [(k, st)]) with 1. lia.
      - reflexivity.
      - exists (d_trace s), k, l. subst s2; cbn [d_trace d_status d_cut d_pert d_run d_facts d_gpcount].
        repeat split; auto. }
    assert (G : forall b, go_on e st = b -> go_on e (d_status s2) = b) by (intros; assumption).
    assert (R : match (if go_on e st then Loop s2 else Leave s2) with
                | Loop s' => After e s' /\ go_on e (d_status s') = true
                | Leave s' => After e s' /\ go_on e (d_status s') = false
                | Stop r s' => Mid e s' /\ (r = NoOverlap \/ r = Error KernelException) end).
    { destruct (go_on e st) eqn:X; split; auto. }
    destruct o; try exact R. split; [exact (a_mid _ _ A)|right; reflexivity].
Qed.

(** the state in which an iteration stops *)
Definition Stopped (e : env) (r : result) (s : dstate) : Prop :=
  zlen (kernel_runs (d_trace s)) <= 1 + zlen (perturbations (d_trace s)) + zlen (partitionings (d_trace s)) /\
  (enforce (e_flags e) = false -> perturbations (d_trace s) = []) /\
  (0 <= int32 (e_attempts e) -> zlen (perturbations (d_trace s)) <= int32 (e_attempts e)) /\
  match r with
  | Completed _ _ => False
  | Error MaxPerturbations =>
      enforce (e_flags e) = true /\ zlen (perturbations (d_trace s)) = int32 (e_attempts e) /\
      exists tr k, d_trace s = tr ++ [EKernel k Violation]
  | Error Incomplete => False
  | _ => True
  end.

Lemma zlen_zero {A} (l : list A) : zlen l = 0 -> l = [].
Proof. destruct l; [reflexivity|]. unfold zlen. cbn. lia. Qed.

Lemma Mid_stopped e r s : Mid e s -> r = NoOverlap \/ r = Error KernelException \/ r = Error InvalidMesh -> Stopped e r s.
Proof.
  intros [m1 m2 m3 m4 m5 m6] R. split; [exact m4|]. split; [|split].
  - intros X. apply zlen_zero. rewrite <- m1. auto.
  - intros X. rewrite <- m1. auto.
  - destruct R as [-> | [-> | ->]]; exact I.
Qed.

(** One iteration: failure, or the kernel is invoked in a state with the invariant *)
Lemma iteration_shape e s :
  LoopInv e s ->
  (exists s', iteration e s = Stop (Error MaxPerturbations) s' /\ Stopped e (Error MaxPerturbations) s') \/
  (exists s', iteration e s = Stop (Error InvalidMesh) s' /\ Stopped e (Error InvalidMesh) s') \/
  (exists s3 v, Before e v s3 /\ iteration e s = kernel_step e v s3).
Proof.
  intros [-> | [A G]].
  - (* first iteration *)
    unfold iteration, start. cbn [d_status d_src d_cut d_sboxes d_cboxes d_rebuilt d_pairs d_count d_run d_pert d_const d_gpcount d_facts d_trace].
    unfold perturb_step, load_step, split_step. cbn [negb andb orb d_count d_pert d_src d_sboxes d_cboxes d_rebuilt d_pairs d_status d_run d_gpcount d_facts d_trace app].
    change (0 =? 0) with true. cbn [orb andb].
    destruct (e_cut_valid e); cbn [negb].
    2:{ right. left. eexists. split; [reflexivity|]. split; [cbn; lia|]. split; [reflexivity|]. split; [cbn; lia|exact I]. }
    set (s3 := DS _ _ _ _ _ _ _ _ _ _ _ _ _ _).
    assert (B : Before e false s3).
    { constructor; [constructor| |discriminate]; subst s3; cbn; try lia; try reflexivity.
      exists None. split; [apply (ci_plain e [])|]. cbn. auto. }
    destruct (negb (e_check e (d_src s3)) || negb (e_check e (d_cut s3))).
    + right. left. eexists. split; [reflexivity|]. apply Mid_stopped; [exact (b_mid _ _ _ B)|auto].
    + right. right. exists s3, false. split; [exact B|reflexivity].
  - destruct A as [M R (tr & k & l0 & T & IC & CI & MV0 & ST & FA & GP)].
    destruct M as [m1 m2 (l & m3 & m3') m4 m5 m6].
    unfold iteration.
    destruct (d_status s) eqn:S; try discriminate G.
    + (* violation *)
      cbn [go_on] in G.
      set (s0 := DS _ _ _ _ _ _ _ _ _ _ _ _ _ _).
      unfold perturb_step. cbn [negb].
      destruct (d_count s0 =? int32 (e_attempts e)) eqn:C.
      * left. exists s0. split; [reflexivity|]. apply Z.eqb_eq in C. subst s0; cbn [d_count] in C.
        split; [exact m4|]. split; [intros; congruence|]. split; [intros; cbn [d_trace]; lia|].
        split; [exact G|]. cbn [d_trace]. split; [lia|]. exists tr, k. exact T.
      * apply Z.eqb_neq in C. subst s0; cbn [d_src d_cut d_sboxes d_cboxes d_rebuilt d_pairs d_status d_count d_run d_pert d_const d_gpcount d_facts d_trace] in *.
        unfold load_step. cbn [d_src d_cut d_sboxes d_cboxes d_rebuilt d_pairs d_status d_count d_run d_pert d_const d_gpcount d_facts d_trace].
        rewrite orb_true_r. cbn [andb negb].
        pose proof (zlen_nonneg (perturbations (d_trace s))) as NN.
        assert (X : (d_count s + 1 =? 0) = false) by (apply Z.eqb_neq; lia). rewrite X.
        destruct (e_cut_valid e); cbn [negb].
        2:{ right. left. eexists. split; [reflexivity|]. split; [exact m4|]. cbn [d_trace].
            split; [intros; congruence|]. split; [intros; lia|exact I]. }
        unfold split_step. cbn [negb].
        set (s3 := DS _ _ _ _ _ _ _ _ _ _ _ _ _ _).
        set (p := e_draw e (d_count s) (d_const s)) in *.
        assert (B : Before e true s3).
        { assert (P : perturbations (d_trace s ++ [ELoad (Some p)]) = perturbations (d_trace s) ++ [p])
            by (rewrite perturbations_app; reflexivity).
          assert (K : kernel_runs (d_trace s ++ [ELoad (Some p)]) = kernel_runs (d_trace s))
            by (rewrite kernel_runs_app; cbn; apply app_nil_r).
          assert (Q : partitionings (d_trace s ++ [ELoad (Some p)]) = partitionings (d_trace s))
            by (rewrite partitionings_app; cbn; apply app_nil_r).
          constructor; [constructor| |]; subst s3;
            cbn [d_src d_cut d_sboxes d_cboxes d_rebuilt d_pairs d_status d_count d_run d_pert d_const d_gpcount d_facts d_trace].
          - rewrite P, zlen_app'. change (zlen [p]) with 1. lia.
          - lia.
          - exists (Some p). split; [apply (ci_moved e (d_trace s) p)|]. cbn [moved_by]. rewrite P. eauto.
          - rewrite P, K, Q, zlen_app'. change (zlen [p]) with 1. lia.
          - intros H. congruence.
          - intros H. specialize (m6 H). lia.
          - rewrite P, K, Q, zlen_app'. change (zlen [p]) with 1. lia.
          - intros _. exact R. }
        destruct (negb (e_check e (d_src s3)) || negb (e_check e (d_cut s3))).
        -- right. left. eexists. split; [reflexivity|]. apply Mid_stopped; [exact (b_mid _ _ _ B)|auto].
        -- right. right. exists s3, true. split; [exact B|reflexivity].
    + (* floating polygon *)
      unfold perturb_step. cbn [negb]. unfold load_step. cbn [negb]. rewrite andb_false_r.
      unfold split_step. cbn [negb].
      set (s3 := DS _ _ _ _ _ _ _ _ _ _ _ _ _ _).
      assert (B : Before e false s3).
      { assert (P : forall a b, perturbations (d_trace s ++ [ESplit a b]) = perturbations (d_trace s))
          by (intros; rewrite perturbations_app; cbn; apply app_nil_r).
        assert (K : forall a b, kernel_runs (d_trace s ++ [ESplit a b]) = kernel_runs (d_trace s))
          by (intros; rewrite kernel_runs_app; cbn; apply app_nil_r).
        assert (Q : forall a b, zlen (partitionings (d_trace s ++ [ESplit a b])) = zlen (partitionings (d_trace s)) + 1)
          by (intros; rewrite partitionings_app, zlen_app'; reflexivity).
        constructor; [constructor| |discriminate]; subst s3;
          cbn [d_src d_cut d_sboxes d_cboxes d_rebuilt d_pairs d_status d_count d_run d_pert d_const d_gpcount d_facts d_trace].
        - rewrite P. exact m1.
        - exact m2.
        - exists l. split.
          + destruct (e_split_cut e (d_run s + 1) (d_src s) (d_cut s)) as [c'|] eqn:SC.
            * eapply ci_cut_split; eauto.
            * apply ci_src_split. exact m3.
          + destruct l as [q|]; cbn [moved_by] in *; rewrite P; assumption.
        - rewrite P, K, Q. lia.
        - exact m5.
        - exact m6.
        - rewrite P, K, Q. lia. }
      destruct (negb (e_check e (d_src s3)) || negb (e_check e (d_cut s3))).
      * right. left. eexists. split; [reflexivity|]. apply Mid_stopped; [exact (b_mid _ _ _ B)|auto].
      * right. right. exists s3, false. split; [exact B|reflexivity].
Qed.

Lemma iteration_inv e s :
  LoopInv e s ->
  match iteration e s with
  | Loop s' => After e s' /\ go_on e (d_status s') = true
  | Leave s' => After e s' /\ go_on e (d_status s') = false
  | Stop r s' => Stopped e r s'
  end.
Proof.
  intros I. destruct (iteration_shape e s I) as [(s' & -> & H) | [(s' & -> & H) | (s3 & v & B & ->)]]; auto.
  pose proof (kernel_step_inv e v s3 B) as K. destruct (kernel_step e v s3) as [s'|s'|r s']; auto.
  destruct K as [M [-> | ->]]; apply Mid_stopped; auto.
Qed.

Definition Final (e : env) (r : option result) (s : dstate) : Prop :=
  match r with
  | None => LoopInv e s
  | Some x => (After e s /\ go_on e (d_status s) = false /\ x = finish e s) \/ Stopped e x s
  end.

Lemma drive_inv e fuel : forall s, LoopInv e s -> Final e (fst (drive fuel e s)) (snd (drive fuel e s)).
Proof.
  induction fuel as [|n IH]; intros s I; [exact I|]. cbn [drive].
  pose proof (iteration_inv e s I) as K. destruct (iteration e s) as [s'|s'|r s'].
  - apply IH. right. exact K.
  - left. tauto.
  - right. exact K.
Qed.

Lemma run_inv e fuel r s : dispatch_run fuel e = (r, s) -> Final e r s.
Proof. intros H. pose proof (drive_inv e fuel (start e) (or_introl eq_refl)) as K. unfold dispatch_run in H. rewrite H in K. exact K. Qed.

(** the counting facts hold in every final state *)
Lemma final_counts e r s :
  Final e r s ->
  zlen (kernel_runs (d_trace s)) <= 1 + zlen (perturbations (d_trace s)) + zlen (partitionings (d_trace s)) /\
  (enforce (e_flags e) = false -> perturbations (d_trace s) = []) /\
  (0 <= int32 (e_attempts e) -> zlen (perturbations (d_trace s)) <= int32 (e_attempts e)).
Proof.
  assert (M : Mid e s -> zlen (kernel_runs (d_trace s)) <= 1 + zlen (perturbations (d_trace s)) + zlen (partitionings (d_trace s)) /\
              (enforce (e_flags e) = false -> perturbations (d_trace s) = []) /\
              (0 <= int32 (e_attempts e) -> zlen (perturbations (d_trace s)) <= int32 (e_attempts e))).
  { intros X. apply (Mid_stopped e NoOverlap) in X; [|auto]. destruct X as (a & b & c & _). auto. }
  destruct r as [x|]; cbn [Final].
  - intros [(A & _) | (a & b & c & _)]; [exact (M (a_mid _ _ A))|auto].
  - intros [-> | [A _]]; [|exact (M (a_mid _ _ A))]. cbn. split; [lia|]. split; [reflexivity|]. intros; exact H.
Qed.

Lemma int32_small x : 0 <= x < 2 ^ 31 -> int32 x = x.
Proof.
  intros H. unfold int32, ParModel.wrap32. rewrite Z.mod_small by lia.
  destruct (Z.ltb_spec x (2 ^ 31)); lia.
Qed.

(** ** a kernel that always reports a violation *)
Section always.
Variable e : env.
Hypothesis Enf : enforce (e_flags e) = true.
Hypothesis Kv : forall n k, e_kernel e n k = GPViolation.
Hypothesis Cv : e_cut_valid e = true.
Hypothesis Ch : forall m, e_check e m = true.
Hypothesis Pr : some_candidates e.

Lemma not_empty : let sb := face_boxes 0 [] (e_src e) in let cb := face_boxes (e_const e (e_cut e)) [] (e_cut e) in
  no_pairs (e_pairs e sb cb) (zlen sb + zlen cb) = false.
Proof.
  destruct Pr as (i & x & R & I). cbv zeta in *. unfold no_pairs.
  destruct (forallb _ _) eqn:F; [|reflexivity]. rewrite forallb_forall in F.
  specialize (F i). rewrite In_zrange in F. specialize (F R).
  destruct (e_pairs e _ _ i); [destruct I|discriminate].
Qed.

Definition Sat (s : dstate) (n : Z) : Prop :=
  d_status s = Violation /\ d_count s = n /\ d_rebuilt s = false /\
  zlen (kernel_runs (d_trace s)) = n + 1 /\ zlen (perturbations (d_trace s)) = n.

Lemma always_step s n :
  Sat s n -> 0 <= n ->
  (n = int32 (e_attempts e) /\ exists s', iteration e s = Stop (Error MaxPerturbations) s' /\
      zlen (kernel_runs (d_trace s')) = n + 1 /\ zlen (perturbations (d_trace s')) = n) \/
  (n <> int32 (e_attempts e) /\ exists s', iteration e s = Loop s' /\ Sat s' (n + 1)).
Proof.
  intros (S1 & S2 & S3 & S4 & S5) Hn.
  unfold iteration. rewrite S1. unfold perturb_step. cbn [negb d_count].
  rewrite S2. destruct (Z.eqb_spec n (int32 (e_attempts e))) as [E|E].
  - left. split; [exact E|]. eexists. split; [reflexivity|]. cbn [d_trace]. auto.
  - right. split; [exact E|]. unfold load_step.
    cbn [d_src d_cut d_sboxes d_cboxes d_rebuilt d_pairs d_status d_count d_run d_pert d_const d_gpcount d_facts d_trace].
    rewrite orb_true_r, Cv. cbn [andb negb]. assert (X : (n + 1 =? 0) = false) by (apply Z.eqb_neq; lia). rewrite X.
    unfold split_step. cbn [negb]. rewrite !Ch. cbn [negb orb].
    unfold kernel_step.
    cbn [d_src d_cut d_sboxes d_cboxes d_rebuilt d_pairs d_status d_count d_run d_pert d_const d_gpcount d_facts d_trace].
    rewrite S3. cbn [andb]. rewrite Kv. cbn [run_status go_on]. rewrite Enf.
    eexists. split; [reflexivity|]. unfold Sat. cbn [d_status d_count d_rebuilt d_trace].
    repeat split; auto.
    + rewrite !kernel_runs_app, !zlen_app', S4. cbn. lia.
    + rewrite !perturbations_app, !zlen_app', S5. cbn. lia.
Qed.

Lemma always_first : exists s', iteration e (start e) = Loop s' /\ Sat s' 0.
Proof.
  unfold iteration, start. cbn [d_status d_src d_cut d_sboxes d_cboxes d_rebuilt d_pairs d_count d_run d_pert d_const d_gpcount d_facts d_trace].
  unfold perturb_step, load_step, split_step. cbn [negb andb orb d_count d_pert d_src d_sboxes d_cboxes d_rebuilt d_pairs d_status d_run d_gpcount d_facts d_trace app].
  change (0 =? 0) with true. cbn [orb andb]. rewrite Cv. cbn [negb]. rewrite !Ch. cbn [negb orb].
  unfold kernel_step.
  cbn [d_src d_cut d_sboxes d_cboxes d_rebuilt d_pairs d_status d_count d_run d_pert d_const d_gpcount d_facts d_trace].
  cbn [load]. rewrite not_empty. cbn [andb]. rewrite Kv. cbn [run_status go_on]. rewrite Enf.
  eexists. split; [reflexivity|]. repeat split.
Qed.

Lemma always_loop : forall fuel s n, Sat s n -> 0 <= n <= int32 (e_attempts e) ->
  (Z.of_nat fuel > int32 (e_attempts e) - n) ->
  exists s', drive fuel e s = (Some (Error MaxPerturbations), s') /\
    zlen (kernel_runs (d_trace s')) = int32 (e_attempts e) + 1 /\
    zlen (perturbations (d_trace s')) = int32 (e_attempts e).
Proof.
  induction fuel as [|f IH]; intros s n S H F; [lia|]. cbn [drive].
  destruct (always_step s n S ltac:(lia)) as [(E & s' & -> & A & B) | (E & s' & -> & S')].
  - exists s'. rewrite <- E. auto.
  - apply (IH s' (n + 1)); auto; lia.
Qed.

Lemma always_run fuel : 0 <= int32 (e_attempts e) -> Z.of_nat fuel > int32 (e_attempts e) + 1 ->
  exists s', dispatch_run fuel e = (Some (Error MaxPerturbations), s') /\
    zlen (kernel_runs (d_trace s')) = int32 (e_attempts e) + 1 /\
    zlen (perturbations (d_trace s')) = int32 (e_attempts e).
Proof.
  intros H F. unfold dispatch_run. destruct fuel as [|f]; [lia|]. cbn [drive].
  destruct always_first as (s' & -> & S). apply (always_loop f s' 0); auto; lia.
Qed.

Lemma never_stops : int32 (e_attempts e) < 0 -> forall fuel, fst (dispatch_run fuel e) = None.
Proof.
  intros H fuel. unfold dispatch_run. destruct fuel as [|f]; [reflexivity|]. cbn [drive].
  destruct always_first as (s' & -> & S).
  assert (L : forall f s n, Sat s n -> 0 <= n -> fst (drive f e s) = None).
  { clear - H Enf Kv Cv Ch Pr. induction f as [|f IH]; intros s n S Hn; [reflexivity|]. cbn [drive].
    destruct (always_step s n S Hn) as [(E & _) | (E & s' & -> & S')]; [lia|]. apply (IH s' (n + 1)); auto; lia. }
  apply (L f s' 0); auto; lia.
Qed.
End always.
