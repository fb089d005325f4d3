(** Candidate lists handed to the kernel: lemmas for C23. *)
From Coq Require Import List ZArith Bool Lia.
From Verif Require Import Vec VecLemmas BvhModel BvhSpec BvhProofs BvhBoxes BvhTraverse ParModel InputModel
  DispatchModel DispatchSpec DispatchProofs.
Import ListNotations.
Open Scope Z_scope.

Lemma zlen_map {A B} (f : A -> B) l : zlen (map f l) = zlen l.
Proof. unfold zlen. rewrite map_length. reflexivity. Qed.

Lemma vget_map {A B} (f : A -> B) l i : vget (map f l) i = option_map f (vget l i).
Proof. unfold vget. destruct (i <? 0); [reflexivity|]. apply nth_error_map. Qed.

Lemma zero_bounded c : 0 <= c -> bounded_by c (V3 0 0 0).
Proof. unfold bounded_by. cbn [vx vy vz]. lia. Qed.

Lemma perturb_zero p : double_pt p -> perturb_pt (V3 0 0 0) p = p.
Proof.
  intros (A & B & C). unfold perturb_pt, fadd. cbn [vx vy vz]. rewrite !Z.add_0_r.
  unfold is_double in *. rewrite A, B, C. destruct p; reflexivity.
Qed.

Lemma in_face_box eps old pts p : 0 <= eps -> In p pts -> double_pt p -> in_box p (face_box eps old pts).
Proof.
  intros He Hp D. apply in_box_sub. unfold face_box.
  assert (S : sub (pbox p) (fold_left expand_pt pts old)) by (apply (proj1 (fold_expand_lub pts old)); right; eauto).
  destruct (0 <? eps); [|exact S].
  rewrite <- (perturb_zero p D). apply sub_pt_enlarge; [exact He|apply zero_bounded; exact He|exact S].
Qed.

Lemma vget_face_boxes eps old faces i pts :
  vget faces i = Some pts -> exists o, vget (face_boxes eps old faces) i = Some (face_box eps o pts).
Proof.
  unfold vget. destruct (i <? 0); [discriminate|]. intros H. unfold face_boxes.
  assert (L : (Z.to_nat i < length (vresize old (length faces) default_box))%nat).
  { rewrite vresize_length. apply nth_error_Some. congruence. }
  apply nth_error_Some in L. destruct (nth_error (vresize old (length faces) default_box) (Z.to_nat i)) as [o|] eqn:E; [|congruence].
  exists o. eapply face_boxes_aux_nth; eauto.
Qed.

Lemma zlen_face_boxes eps old faces : zlen (face_boxes eps old faces) = zlen faces.
Proof. unfold zlen. rewrite face_boxes_length. reflexivity. Qed.

Lemma built_boxes_fit eps old s : 0 <= eps -> good_surface s -> boxes_fit (face_boxes eps old s) s.
Proof.
  intros He [_ G]. split; [apply zlen_face_boxes|]. intros i pts H.
  destruct (vget_face_boxes eps old s i pts H) as (o & E). exists (face_box eps o pts). split; [exact E|].
  intros q Hq. apply in_face_box; auto. apply (G pts (vget_In _ _ _ H)). exact Hq.
Qed.

(** boxes built once with the enlargement fit every translated mesh *)
Lemma moved_boxes_fit c s p : 0 < c -> bounded_by c p -> good_surface s ->
  boxes_fit (face_boxes c [] s) (translated p s).
Proof.
  intros Hc B [_ G]. split; [unfold translated; rewrite zlen_face_boxes, zlen_map; reflexivity|].
  intros i pts H. unfold translated in H. rewrite vget_map in H.
  destruct (vget s i) as [p0|] eqn:E; [|discriminate]. cbn in H. injection H as <-.
  rewrite (face_boxes_fresh c s i p0 E). eexists. split; [reflexivity|].
  intros q Hq. apply in_map_iff in Hq. destruct Hq as (r & <- & Hr).
  unfold face_box. destruct (Z.ltb_spec 0 c); [|lia]. apply in_box_sub, sub_pt_enlarge; [lia|exact B|].
  apply (proj1 (fold_expand_lub p0 default_box)). right. eauto.
Qed.

Lemma fit_proper bs s : boxes_fit bs s -> good_surface s \/ (exists p s0, s = translated p s0 /\ good_surface s0) ->
  finite_boxes bs -> forall b, In b bs -> proper_box b.
Proof.
  intros [L F] G Fin b Hb. destruct (In_vget _ _ Hb) as (i & Hi).
  assert (R : 0 <= i < zlen s) by (rewrite <- L; eapply vget_Some_range; eauto).
  destruct (vget_range_Some s i R) as (pts & Hp). destruct (F i pts Hp) as (b' & Hb' & Q).
  assert (b' = b) by congruence. subst b'.
  assert (NE : pts <> []).
  { destruct G as [[_ G] | (p & s0 & -> & [_ G])].
    - apply (G pts). eapply vget_In; eauto.
    - unfold translated in Hp. rewrite vget_map in Hp. destruct (vget s0 i) as [p0|] eqn:E; [|discriminate].
      cbn in Hp. injection Hp as <-. destruct (G p0 (vget_In _ _ _ E)) as [N _]. destruct p0; [congruence|discriminate]. }
  destruct pts as [|q r]; [congruence|]. specialize (Q q (or_introl eq_refl)).
  destruct (Fin b Hb) as [A B]. unfold in_box, finite_pt, proper_box in *. lia.
Qed.

Lemma good_len s : good_surface s -> 1 <= zlen s <= 2 ^ 23. Proof. intros [H _]. exact H. Qed.

Lemma consistent_intro e src cut sb cb gp :
  broad_phase_is_code e ->
  good_surface src -> good_surface cut \/ (exists p s0, cut = translated p s0 /\ good_surface s0) ->
  boxes_fit sb src -> boxes_fit cb cut -> finite_boxes sb -> finite_boxes cb ->
  consistent_input (Kin src cut (e_pairs e sb cb) sb cb gp).
Proof.
  intros BP GS GC FS FC FinS FinC.
  assert (GCl : 1 <= zlen cut <= 2 ^ 23).
  { destruct GC as [G | (p & s0 & -> & G)]; [exact (good_len _ G)|]. unfold translated. rewrite zlen_map. exact (good_len _ G). }
  assert (E : exact_candidates sb cb (e_pairs e sb cb)).
  { pose proof (fit_proper sb src FS (or_introl GS) FinS) as PS. pose proof (fit_proper cb cut FC GC FinC) as PC.
    assert (LS : 1 <= zlen sb <= 2 ^ 23) by (rewrite (proj1 FS); exact (good_len _ GS)).
    assert (LC : 1 <= zlen cb <= 2 ^ 23) by (rewrite (proj1 FC); exact GCl).
    destruct (BP sb cb LS LC PS PC) as (so & co & sl & cl & ss & cs & sm & cm & fuel & A1 & A2 & A3 & A4 & A5 & A6 & B1 & B2 & R).
    destruct (broad_phase_exact sb cb so co sl cl ss cs LS LC PS PC A1 A2 A3 A4 A5 A6) as (sm' & cm' & B1' & B2' & _ & _ & X).
    assert (sm' = sm) by congruence. assert (cm' = cm) by congruence. subst. exact (X _ _ R). }
  split; [exact FS|]. split; [exact FC|]. split; [exact E|]. cbn [i_src i_cut i_pairs].
  intros f g pf pg bf bg Hf Hg [_ Hbf] [_ Hbg] (p & Pf & Pg).
  destruct (proj2 FS f pf Hf) as (b1 & V1 & I1). destruct (proj2 FC g pg Hg) as (b2 & V2 & I2).
  assert (O : boxes_overlap b1 b2).
  { exists p. split; [apply (Hbf b1 I1 p Pf) | apply (Hbg b2 I2 p Pg)]. }
  pose proof (vget_Some_range _ _ _ Hf) as Rf. pose proof (vget_Some_range _ _ _ Hg) as Rg.
  destruct E as (E1 & E2 & _). rewrite <- (proj1 FS). rewrite <- (proj1 FS) in Rf. rewrite <- (proj1 FC) in Rg. split.
  - apply (proj2 (E1 f Rf)). exists g, b1, b2. auto.
  - apply (proj2 (E2 g Rg)). exists b1, b2. auto.
Qed.

(** ** the invariant of the loop *)
Definition cut_split (tr : list event) : Prop := exists b, In (ESplit b true) tr.
Definition l_ok (e : env) (l : option vec3) : Prop :=
  match l with None => True | Some p => bounded_by (e_const e (e_cut e)) p end.

Inductive CutOk (e : env) (s : dstate) : Prop :=
| co_none : d_trace s = [] -> d_cboxes s = [] -> CutOk e s
| co_loaded l : ~ cut_split (d_trace s) -> d_cut s = load e l -> l_ok e l ->
    d_cboxes s = face_boxes (e_const e (e_cut e)) [] (e_cut e) ->
    0 <= d_const s <= e_const e (e_cut e) -> CutOk e s
| co_split : cut_split (d_trace s) -> boxes_fit (d_cboxes s) (d_cut s) -> good_surface (d_cut s) -> 0 <= d_const s -> CutOk e s.

Record BInv (e : env) (s : dstate) : Prop := {
  bi_fit : boxes_fit (d_sboxes s) (d_src s);
  bi_good : good_surface (d_src s);
  bi_cut : CutOk e s;
  bi_pairs : d_rebuilt s = false -> d_pairs s = e_pairs e (d_sboxes s) (d_cboxes s);
  bi_runs : forall k st, In (EKernel k st) (d_trace s) -> finite_boxes (i_sboxes k) -> finite_boxes (i_cboxes k) -> consistent_input k }.

Lemma clean_prefix a b : no_reload_after_cut_split (a ++ b) -> no_reload_after_cut_split a.
Proof.
  intros H tr1 tr2 c l E I1 I2. apply (H tr1 (tr2 ++ b) c l); [rewrite E, app_assoc; reflexivity|exact I1|].
  apply in_or_app. left. exact I2.
Qed.

Lemma load_translated e l : load e l = match l with None => e_cut e | Some p => translated p (e_cut e) end.
Proof. destruct l; reflexivity. Qed.

(** before the kernel is invoked, the cut mesh has been read *)
Lemma kernel_step_binv e v s :
  sane e -> BInv e s -> d_trace s <> [] ->
  match kernel_step e v s with Loop s' | Leave s' | Stop _ s' => BInv e s' end.
Proof.
  intros SA [B1 B2 B3 B4 B5] NE. unfold kernel_step.
  set (pairs := if d_rebuilt s then e_pairs e (d_sboxes s) (d_cboxes s) else d_pairs s).
  assert (PE : pairs = e_pairs e (d_sboxes s) (d_cboxes s)).
  { subst pairs. destruct (d_rebuilt s); [reflexivity|]. apply B4. reflexivity. }
  clearbody pairs. subst pairs.
  set (k := Kin (d_src s) (d_cut s) _ (d_sboxes s) (d_cboxes s) (d_gpcount s)).
  assert (KC : finite_boxes (d_sboxes s) -> finite_boxes (d_cboxes s) -> consistent_input k).
  { intros FS FC. subst k. destruct B3 as [T _ | l NC DC LO CB DK | CS BF GC DK]; [congruence| |].
    - rewrite CB in *. pose proof (sa_cut e SA) as GC. pose proof (sa_const e SA) as CP.
      destruct l as [p|]; cbn [load] in DC; rewrite DC.
      + apply consistent_intro; auto; [exact (sa_pairs e SA)|right; exists p, (e_cut e); auto|].
        apply moved_boxes_fit; auto.
      + apply consistent_intro; auto; [exact (sa_pairs e SA)|].
        apply built_boxes_fit; auto. lia.
    - apply consistent_intro; auto. exact (sa_pairs e SA). }
  assert (CO' : forall tr x sb r pr st ct rn pt gp fa, tr = d_trace s \/ tr = d_trace s ++ [EKernel k x] ->
              CutOk e (DS (d_src s) (d_cut s) sb (d_cboxes s) r pr st ct rn pt (d_const s) gp fa tr)).
  { intros tr x sb r pr st ct rn pt gp fa T.
    assert (TT : cut_split tr <-> cut_split (d_trace s)).
    { destruct T as [-> | ->]; [tauto|]. unfold cut_split. split; intros (b & H); exists b.
      - apply in_app_or in H. destruct H as [H | [H | []]]; [exact H|discriminate].
      - apply in_or_app. left. exact H. }
    destruct B3 as [T0 _ | l NC DC LO CB DK | CS BF GC DK]; [congruence| |].
    - apply (co_loaded _ _ l); cbn; auto. rewrite TT. exact NC.
    - apply co_split; cbn; auto. rewrite TT. exact CS. }
  destruct (d_rebuilt s && no_pairs _ _) eqn:E.
  - assert (G : forall st, BInv e (DS (d_src s) (d_cut s) (d_sboxes s) (d_cboxes s) false (e_pairs e (d_sboxes s) (d_cboxes s)) st
                             (d_count s) (d_run s) (d_pert s) (d_const s) (d_gpcount s) (d_facts s) (d_trace s))).
    { intros st. constructor; cbn; auto. apply (CO' _ Success). auto. }
    destruct (v && (0 <? d_count s)); [destruct (go_on e Violation)|]; apply G.
  - set (o := e_kernel e (d_run s) k). set (st := run_status e (d_gpcount s) o).
    cbn [d_src d_cut d_sboxes d_cboxes d_rebuilt d_pairs d_status d_count d_run d_pert d_const d_gpcount d_facts d_trace].
    set (s2 := DS _ _ _ _ _ _ _ _ _ _ _ _ _ _).
    assert (G : BInv e s2).
    { subst s2. constructor; cbn [d_sboxes d_src d_rebuilt d_pairs d_cboxes d_trace]; auto.
      - apply (CO' _ st). auto.
      - intros k' st' Hin. apply in_app_or in Hin. destruct Hin as [Hin | [Hin | []]]; [apply (B5 _ _ Hin)|].
        injection Hin as <- _. exact KC. }
    destruct o; try destruct (go_on e st); exact G.
Qed.

Lemma start_binv e : sane e -> BInv e (start e).
Proof.
  intros SA. constructor; cbn.
  - apply built_boxes_fit; [lia|exact (sa_src e SA)].
  - exact (sa_src e SA).
  - apply co_none; reflexivity.
  - discriminate.
  - intros k st [].
Qed.

Lemma draw_bounded e k c : sane e -> 0 <= c <= e_const e (e_cut e) -> bounded_by (e_const e (e_cut e)) (e_draw e k c).
Proof.
  intros SA H. pose proof (sa_draw e SA k c ltac:(lia)) as B. unfold bounded_by in *. lia.
Qed.

Lemma iteration_binv e s :
  sane e -> LoopInv e s -> BInv e s ->
  exists s' evs, (iteration e s = Loop s' \/ iteration e s = Leave s' \/ exists r, iteration e s = Stop r s') /\
    d_trace s' = d_trace s ++ evs /\ (no_reload_after_cut_split (d_trace s') -> BInv e s').
Proof.
  intros SA LI BI.
  (* the trace after kernel_step *)
  assert (KT : forall v s3, exists s', (kernel_step e v s3 = Loop s' \/ kernel_step e v s3 = Leave s' \/ exists r, kernel_step e v s3 = Stop r s') /\
                exists evs, d_trace s' = d_trace s3 ++ evs).
  { intros v s3. unfold kernel_step.
    destruct (d_rebuilt s3 && no_pairs _ _).
    - destruct (v && (0 <? d_count s3)); [destruct (go_on e Violation)|]; (eexists; split; [eauto|exists []; cbn; rewrite app_nil_r; reflexivity]).
    - match goal with |- context [match ?o with NoIntersection => _ | _ => _ end] => destruct o end;
        try destruct (go_on e _); eexists; (split; [eauto|cbn [d_trace]; eauto]). }
  assert (KS : forall v s3, (no_reload_after_cut_split (d_trace s3) -> BInv e s3) -> d_trace s3 <> [] ->
             (exists evs, d_trace s3 = d_trace s ++ evs) -> iteration e s = kernel_step e v s3 ->
             exists s' evs, (iteration e s = Loop s' \/ iteration e s = Leave s' \/ exists r, iteration e s = Stop r s') /\
             d_trace s' = d_trace s ++ evs /\ (no_reload_after_cut_split (d_trace s') -> BInv e s')).
  { intros v s3 B NE (ev3 & T3) EQ. destruct (KT v s3) as (s' & R & evs & T).
    exists s', (ev3 ++ evs). rewrite EQ. split; [exact R|]. split; [rewrite T, T3, app_assoc; reflexivity|].
    intros C. rewrite T in C. apply clean_prefix in C.
    pose proof (kernel_step_binv e v s3 SA (B C) NE) as K.
    destruct R as [R | [R | (r & R)]]; rewrite R in K; exact K. }
  destruct LI as [-> | [A G]].
  - unfold iteration, start in *. cbn [d_status d_src d_cut d_sboxes d_cboxes d_rebuilt d_pairs d_count d_run d_pert d_const d_gpcount d_facts d_trace] in *.
    unfold perturb_step, load_step, split_step in *. cbn [negb andb orb d_count d_pert d_src d_sboxes d_cboxes d_rebuilt d_pairs d_status d_run d_gpcount d_facts d_trace app] in *.
    change (0 =? 0) with true in *. cbn [orb andb] in *.
    destruct (e_cut_valid e); cbn [negb] in *.
    2:{ eexists. exists []. split; [right; right; eexists; reflexivity|]. cbn [d_trace]. split; [reflexivity|].
        intros _. destruct BI as [b1 b2 b3 b4 b5]. constructor; auto. apply co_none; reflexivity. }
    match goal with |- context [kernel_step e false ?x] => set (s3 := x) in * end.
    assert (B : BInv e s3).
    { destruct BI as [b1 b2 b3 b4 b5]. subst s3. constructor; cbn; auto; try discriminate.
      - apply (co_loaded _ _ None); cbn; auto.
        + intros (b & [H | []]). discriminate.
        + pose proof (sa_const e SA). lia.
      - intros k st [H | []]. discriminate. }
    destruct (negb (e_check e (d_src s3)) || negb (e_check e (d_cut s3))).
    + exists s3, [ELoad None]. split; [right; right; eexists; reflexivity|]. split; [reflexivity|auto].
    + apply (KS false s3); [auto|subst s3; discriminate|exists [ELoad None]; reflexivity|reflexivity].
  - destruct A as [M R (tr & k & l0 & T & IC & CI & MV0 & ST & FA & GP)].
    assert (NE : d_trace s <> []) by (rewrite T; destruct tr; discriminate).
    destruct BI as [b1 b2 b3 b4 b5].
    pose proof (m_count e s M) as mc. pose proof (zlen_nonneg (perturbations (d_trace s))) as NN.
    unfold iteration in *. destruct (d_status s) eqn:S; try discriminate G.
    + set (s0 := DS _ _ _ _ _ _ _ _ _ _ _ _ _ _) in *.
      unfold perturb_step in *. cbn [negb] in *.
      destruct (d_count s0 =? int32 (e_attempts e)) eqn:C.
      * exists s0, []. split; [right; right; eexists; reflexivity|]. subst s0; cbn [d_trace]. rewrite app_nil_r. split; [reflexivity|].
        intros _. constructor; cbn; auto. destruct b3; [congruence|eapply co_loaded; eauto|apply co_split; auto].
      * subst s0; cbn [d_src d_cut d_sboxes d_cboxes d_rebuilt d_pairs d_status d_count d_run d_pert d_const d_gpcount d_facts d_trace] in *.
        unfold load_step in *. cbn [d_src d_cut d_sboxes d_cboxes d_rebuilt d_pairs d_status d_count d_run d_pert d_const d_gpcount d_facts d_trace] in *.
        rewrite orb_true_r in *. cbn [andb negb] in *.
        assert (X : (d_count s + 1 =? 0) = false) by (apply Z.eqb_neq; lia). rewrite X in *.
        destruct (e_cut_valid e); cbn [negb] in *.
        2:{ eexists. exists []. split; [right; right; eexists; reflexivity|]. cbn [d_trace]. rewrite app_nil_r. split; [reflexivity|].
            intros _. constructor; cbn; auto. destruct b3; [congruence|eapply co_loaded; eauto|apply co_split; auto]. }
        unfold split_step in *. cbn [negb] in *.
        match goal with |- context [kernel_step e true ?x] => set (s3 := x) in * end.
        set (p := e_draw e (d_count s) (d_const s)) in *.
        assert (B : no_reload_after_cut_split (d_trace s3) -> BInv e s3).
        { intros CL. subst s3. cbn [d_trace] in CL. constructor; cbn [d_sboxes d_src d_rebuilt d_pairs d_cboxes d_trace]; auto.
          - destruct b3 as [T0 _ | l NC DC LO CB DK | (b & CS) BF GC DK]; [congruence| |].
            + assert (BP : bounded_by (e_const e (e_cut e)) p) by (apply draw_bounded; auto).
              apply (co_loaded _ _ (Some p)); cbn; auto.
              * intros (b & H). apply in_app_or in H. destruct H as [H | [H | []]]; [|discriminate]. apply NC. exists b. exact H.
              * apply (sa_const_moved e SA p BP).
            + exfalso. apply (CL (d_trace s) [ELoad (Some p)] b (Some p) eq_refl CS). left. reflexivity.
          - intros k' st' H. apply in_app_or in H. destruct H as [H | [H | []]]; [|discriminate]. exact (b5 _ _ H). }
        destruct (negb (e_check e (d_src s3)) || negb (e_check e (d_cut s3))).
        -- exists s3, [ELoad (Some p)]. split; [right; right; eexists; reflexivity|]. split; [reflexivity|exact B].
        -- apply (KS true s3); [exact B|subst s3; cbn [d_trace]; destruct (d_trace s); discriminate|exists [ELoad (Some p)]; reflexivity|reflexivity].
    + unfold perturb_step in *. cbn [negb] in *. unfold load_step in *. cbn [negb] in *. rewrite andb_false_r in *.
      unfold split_step in *. cbn [negb] in *.
      match goal with |- context [kernel_step e false ?x] => set (s3 := x) in * end.
      assert (B : BInv e s3).
      { subst s3. cbn [d_src d_cut d_sboxes d_cboxes d_rebuilt d_pairs d_status d_count d_run d_pert d_const d_gpcount d_facts d_trace].
        assert (DK : 0 <= d_const s) by (destruct b3 as [T0 _ | l NC DC LO CB DK | CS BF GC DK]; [congruence|lia|lia]).
        assert (KEEP : forall src sb b r pr st ct rn pt gp fa,
                  CutOk e (DS src (d_cut s) sb (d_cboxes s) r pr st ct rn pt (d_const s) gp fa (d_trace s ++ [ESplit b false]))).
        { intros. destruct b3 as [T0 _ | l NC DC LO CB DK1 | (bb & CS) BF GC DK1]; [congruence| |].
          - apply (co_loaded _ _ l); cbn [d_trace d_cboxes d_cut d_const]; auto.
            intros (bb & H); apply in_app_or in H; destruct H as [H | [H | []]]; [|discriminate]; apply NC; exists bb; exact H.
          - apply co_split; cbn [d_trace d_cboxes d_cut d_const]; auto. exists bb; apply in_or_app; left; exact CS. }
        assert (NEW : forall src cut' sb b r pr st ct rn pt gp fa, e_split_cut e (d_run s + 1) (d_src s) (d_cut s) = Some cut' ->
                  CutOk e (DS src cut' sb (face_boxes (d_const s) (d_cboxes s) cut') r pr st ct rn pt (d_const s) gp fa (d_trace s ++ [ESplit b true]))).
        { intros src cut' sb b r pr st ct rn pt gp fa SC. apply co_split; cbn [d_trace d_cboxes d_cut d_const]; auto.
          - eexists; apply in_or_app; right; left; reflexivity.
          - apply built_boxes_fit; [exact DK | exact (sa_split_cut e SA _ _ _ _ SC)].
          - exact (sa_split_cut e SA _ _ _ _ SC). }
        assert (RUNS : forall a b k' st', In (EKernel k' st') (d_trace s ++ [ESplit a b]) -> finite_boxes (i_sboxes k') -> finite_boxes (i_cboxes k') -> consistent_input k').
        { intros a b k' st' H. apply in_app_or in H; destruct H as [H | [H | []]]; [|discriminate]; exact (b5 _ _ H). }
        destruct (e_split_src e (d_run s + 1) (d_src s) (d_cut s)) as [src'|] eqn:SS;
        destruct (e_split_cut e (d_run s + 1) (d_src s) (d_cut s)) as [cut'|] eqn:SC; cbn [orb].
        - constructor; cbn [d_sboxes d_src d_rebuilt d_pairs d_cboxes d_trace]; eauto; try discriminate.
          + apply built_boxes_fit; [lia | exact (sa_split_src e SA _ _ _ _ SS)].
          + exact (sa_split_src e SA _ _ _ _ SS).
        - constructor; cbn [d_sboxes d_src d_rebuilt d_pairs d_cboxes d_trace]; eauto; try discriminate.
          + apply built_boxes_fit; [lia | exact (sa_split_src e SA _ _ _ _ SS)].
          + exact (sa_split_src e SA _ _ _ _ SS).
        - constructor; cbn [d_sboxes d_src d_rebuilt d_pairs d_cboxes d_trace]; eauto; try discriminate.
        - constructor; cbn [d_sboxes d_src d_rebuilt d_pairs d_cboxes d_trace]; eauto. }
      destruct (negb (e_check e (d_src s3)) || negb (e_check e (d_cut s3))).
      * exists s3. eexists. split; [right; right; eexists; reflexivity|]. split; [reflexivity|auto].
      * apply (KS false s3); [auto|subst s3; cbn [d_trace]; destruct (d_trace s); discriminate|eexists; reflexivity|reflexivity].
Qed.

Lemma drive_binv e fuel : sane e -> forall s, LoopInv e s -> (no_reload_after_cut_split (d_trace s) -> BInv e s) ->
  (exists evs, d_trace (snd (drive fuel e s)) = d_trace s ++ evs) /\
  (no_reload_after_cut_split (d_trace (snd (drive fuel e s))) -> BInv e (snd (drive fuel e s))).
Proof.
  intros SA. induction fuel as [|n IH]; intros s LI B; [split; [exists []; cbn; rewrite app_nil_r; reflexivity|exact B]|].
  (* the trace only grows, whatever the invariant *)
  assert (TR : forall s, LoopInv e s -> match iteration e s with Loop s' | Leave s' | Stop _ s' => exists evs, d_trace s' = d_trace s ++ evs end).
  { clear -SA. intros s LI. unfold iteration.
    assert (KT : forall v s3, match kernel_step e v s3 with Loop s' | Leave s' | Stop _ s' => exists evs, d_trace s' = d_trace s3 ++ evs end).
    { intros v s3. unfold kernel_step. destruct (d_rebuilt s3 && no_pairs _ _).
      - destruct (v && (0 <? d_count s3)); [destruct (go_on e Violation)|]; exists []; cbn; rewrite app_nil_r; reflexivity.
      - match goal with |- context [match ?o with NoIntersection => _ | _ => _ end] => destruct o end;
          try destruct (go_on e _); cbn [d_trace]; eauto. }
    set (v := match d_status s with Violation => true | _ => false end).
    set (fl := match d_status s with Floating => true | _ => false end).
    set (s0 := DS _ _ _ _ _ _ _ _ _ _ _ _ _ _).
    assert (P : forall s1, perturb_step e v s0 = Some s1 -> d_trace s1 = d_trace s).
    { unfold perturb_step. intros s1. destruct (negb v); [intros H; injection H as <-; reflexivity|].
      destruct (d_count s0 =? int32 (e_attempts e)); [discriminate|]. intros H. injection H as <-. reflexivity. }
    destruct (perturb_step e v s0) as [s1|]; [|exists []; cbn; rewrite app_nil_r; reflexivity]. specialize (P s1 eq_refl).
    assert (L : forall s2, load_step e v fl s1 = Some s2 -> exists evs, d_trace s2 = d_trace s ++ evs).
    { unfold load_step. intros s2. destruct (((d_count s1 =? 0) || v) && negb fl).
      - destruct (negb (e_cut_valid e)); [discriminate|]. intros H. injection H as <-. cbn [d_trace]. rewrite P. eauto.
      - intros H. injection H as <-. exists []. rewrite app_nil_r. exact P. }
    destruct (load_step e v fl s1) as [s2|]; [|exists []; rewrite app_nil_r; exact P]. destruct (L s2 eq_refl) as (ev & T2).
    assert (T3 : exists evs, d_trace (split_step e fl s2) = d_trace s ++ evs).
    { unfold split_step. destruct (negb fl); [eauto|]. cbn [d_trace]. rewrite T2, <- app_assoc. eauto. }
    destruct T3 as (ev3 & T3).
    destruct (negb (e_check e (d_src (split_step e fl s2))) || negb (e_check e (d_cut (split_step e fl s2)))); [eauto|].
    pose proof (KT v (split_step e fl s2)) as K. destruct (kernel_step e v (split_step e fl s2)) as [s'|s'|r s'];
      destruct K as (ev' & T'); exists (ev3 ++ ev'); rewrite T', T3, app_assoc; reflexivity. }
  cbn [drive].
  pose proof (TR s LI) as Ts. pose proof (iteration_inv e s LI) as LI'.
  assert (BI : forall s', (iteration e s = Loop s' \/ iteration e s = Leave s' \/ exists r, iteration e s = Stop r s') ->
               no_reload_after_cut_split (d_trace s') -> BInv e s').
  { intros s' R C.
    assert (CS : no_reload_after_cut_split (d_trace s)).
    { destruct R as [R | [R | (r & R)]]; rewrite R in Ts; destruct Ts as (ev & T'); rewrite T' in C; eapply clean_prefix; eauto. }
    destruct (iteration_binv e s SA LI (B CS)) as (s'' & evs & R' & T'' & BB).
    assert (s'' = s').
    { destruct R as [R | [R | (r & R)]]; destruct R' as [R' | [R' | (r' & R')]]; congruence. }
    subst s''. auto. }
  destruct (iteration e s) as [s'|s'|r s'] eqn:EI.
  - destruct (IH s' (or_intror LI')) as [(ev & T) Q]; [apply BI; auto|].
    split; [|exact Q]. destruct Ts as (ev0 & T0). exists (ev0 ++ ev). rewrite T, T0, app_assoc. reflexivity.
  - split; [exact Ts|]. apply BI. auto.
  - split; [exact Ts|]. apply BI. eauto.
Qed.

Lemma run_consistent e fuel r s :
  sane e -> dispatch_run fuel e = (r, s) -> no_reload_after_cut_split (d_trace s) ->
  forall k st, In (EKernel k st) (d_trace s) -> finite_boxes (i_sboxes k) -> finite_boxes (i_cboxes k) -> consistent_input k.
Proof.
  intros SA H C. unfold dispatch_run in H.
  destruct (drive_binv e fuel SA (start e) (or_introl eq_refl) (fun _ => start_binv e SA)) as [_ B].
  rewrite H in B. cbn [snd] in B. exact (bi_runs _ _ (B C)).
Qed.
