(** Filters, perturbation and candidate lists of a dispatch: properties C21, C22, C23, C50. *)
From Coq Require Import List ZArith Bool Lia Permutation.
From Verif Require Import Vec VecLemmas BvhModel BvhSpec BvhArith BvhProofs BvhBoxes BvhTraverse ParModel InputModel
  DispatchModel DispatchSpec DispatchProofs DispatchFilter DispatchCand DispatchEnd.
Import ListNotations.
Open Scope Z_scope.

(** * C21 *)

(** Two calls that differ in filters only (flags without filters [f0], flags with filters [f1]): the loop
    goes the same way, and the second delivers exactly the named components of the first.
    Full statement: without the hypothesis on bits 7 and 10 (refuted below). *)
Theorem C21_filters_select_partial e f0 f1 fuel p cs s :
  any_filter f0 = false ->
  bit f0 15 = bit f1 15 -> bit f0 16 = bit f1 16 ->
  (bit f1 7 = true -> bit f1 10 = true) ->
  dispatch_run fuel (with_flags e f0) = (Some (Completed p cs), s) ->
  dispatch_run fuel (with_flags e f1) = (Some (Completed p (filter (wanted f1) cs)), s).
Proof.
  intros N0 B15 B16 H7 R.
  assert (EN : enforce f1 = enforce f0) by (rewrite !enforce_bits; congruence).
  unfold dispatch_run in *. pose proof (drive_flags (with_flags e f0) f1 EN fuel (start e)) as D.
  change (with_flags (with_flags e f0) f1) with (with_flags e f1) in D.
  change (start (with_flags e f0)) with (start e) in R. change (start (with_flags e f1)) with (start e).
  rewrite D, R. cbn [fst snd refinish]. f_equal. f_equal.
  assert (R' : dispatch_run fuel (with_flags e f0) = (Some (Completed p cs), s)) by exact R.
  apply completed_inv in R'. destruct R' as (_ & S & -> & ->). unfold finish. rewrite S. f_equal.
  destruct (d_facts s) as [f|].
  - change (e_flags (with_flags e f1)) with f1. change (e_flags (with_flags e f0)) with f0.
    rewrite (delivered_filter f1 f H7), (delivered_none f0 f N0). reflexivity.
  - cbn [created no_out map app rev o_sealed o_unsealed o_patch_in o_patch_out o_seam_src o_seam_cut filter].
    unfold wanted. cbn [named]. rewrite !orb_true_r. reflexivity.
Qed.
Print Assumptions C21_filters_select_partial.

(** No filter behaves as all filters. *)
Theorem C21_no_filter_is_all e f0 fuel :
  any_filter f0 = false ->
  dispatch_run fuel (with_flags e (Z.lor f0 all_filters)) = dispatch_run fuel (with_flags e f0).
Proof.
  intros N0.
  assert (EN : enforce (Z.lor f0 all_filters) = enforce f0).
  { rewrite !enforce_bits. unfold bit. rewrite !Z.lor_spec.
    change (Z.testbit all_filters 15) with false. change (Z.testbit all_filters 16) with false. rewrite !orb_false_r. reflexivity. }
  unfold dispatch_run in *. pose proof (drive_flags (with_flags e f0) (Z.lor f0 all_filters) EN fuel (start e)) as D.
  change (with_flags (with_flags e f0) (Z.lor f0 all_filters)) with (with_flags e (Z.lor f0 all_filters)) in D.
  change (start (with_flags e f0)) with (start e). change (start (with_flags e (Z.lor f0 all_filters))) with (start e).
  rewrite D. destruct (drive fuel (with_flags e f0) (start e)) as [r s] eqn:R. cbn [fst snd]. f_equal.
  destruct r as [[p cs| |]|]; cbn [refinish]; try reflexivity.
  assert (R' : dispatch_run fuel (with_flags e f0) = (Some (Completed p cs), s)) by exact R.
  apply completed_inv in R'. destruct R' as (_ & S & -> & ->). unfold finish. rewrite S. f_equal. f_equal.
  destruct (d_facts s) as [f|]; [|reflexivity].
  apply (delivered_all f0 f N0).
Qed.
Print Assumptions C21_no_filter_is_all.

(** The missing case: with LOCATION_UNDEFINED and without SEALING_NONE, unsealed fragments are delivered
    although they are not named (kernel.cpp:7676). *)
Theorem C21_unsealed_not_requested_refuted :
  exists flags f c, 0 <= flags < 2 ^ 32 /\ bit flags 10 = false /\ any_filter flags = true /\
    In c (delivered flags f) /\ named flags c = false.
Proof.
  exists (2 ^ 5 + 2 ^ 7 + 2 ^ 8)%Z, (Facts [(1, Above)] (fun _ => []) (fun _ => Inside) (fun _ => []) true true true), (Unsealed 1 Above).
  split; [lia|]. split; [reflexivity|]. split; [reflexivity|]. split; [|reflexivity].
  vm_compute. auto 10.
Qed.
Print Assumptions C21_unsealed_not_requested_refuted.

(** * C22 *)

Theorem C22_perturbations_bounded e fuel r s :
  dispatch_run fuel e = (r, s) ->
  (0 <= e_attempts e < 2 ^ 31 -> zlen (perturbations (d_trace s)) <= e_attempts e) /\
  (bit (e_flags e) 15 = false -> bit (e_flags e) 16 = false -> perturbations (d_trace s) = []) /\
  zlen (kernel_runs (d_trace s)) <= 1 + zlen (perturbations (d_trace s)) + zlen (partitionings (d_trace s)).
Proof.
  intros H. destruct (final_counts e r s (run_inv e fuel r s H)) as (A & B & C).
  split; [|split; [|exact A]].
  - intros R. rewrite (int32_small _ R) in C. apply C. lia.
  - intros X Y. apply B. rewrite enforce_bits, X, Y. reflexivity.
Qed.
Print Assumptions C22_perturbations_bounded.

(** The loop ends: an unfinished run of [fuel] iterations needs that many attempts or partitionings. *)
Theorem C22_terminates e fuel s :
  0 <= e_attempts e < 2 ^ 31 ->
  dispatch_run fuel e = (None, s) ->
  Z.of_nat fuel <= 1 + e_attempts e + zlen (partitionings (d_trace s)).
Proof.
  intros R H. pose proof (C22_perturbations_bounded e fuel None s H) as (A & _ & C). specialize (A R).
  pose proof (drive_fuel e fuel (start e) s (or_introl eq_refl) H) as F. cbn in F. change (zlen []) with 0 in F. lia.
Qed.
Print Assumptions C22_terminates.

(** Attempts exhausted: only with enforcement requested, after exactly the configured number of
    perturbations, the last kernel run being a violation; and a finished dispatch that is not an error
    ended with a successful kernel run. *)
Theorem C22_exhaustion e fuel r s :
  0 <= e_attempts e < 2 ^ 31 ->
  dispatch_run fuel e = (Some r, s) ->
  (r = Error MaxPerturbations ->
     (bit (e_flags e) 15 = true \/ bit (e_flags e) 16 = true) /\
     zlen (perturbations (d_trace s)) = e_attempts e /\
     exists tr k, d_trace s = tr ++ [EKernel k Violation]) /\
  ((exists p cs, r = Completed p cs) -> exists tr k, d_trace s = tr ++ [EKernel k Success]).
Proof.
  intros R H. pose proof (run_inv e fuel _ s H) as F. split.
  - intros ->. cbn [Final] in F. destruct F as [(A & G & E) | (_ & _ & _ & E & L & T)].
    + unfold finish in E. destruct (d_status s); discriminate.
    + rewrite enforce_bits in E. apply orb_true_iff in E. rewrite (int32_small _ R) in L. auto.
  - intros (p & cs & ->). apply completed_inv in H. destruct H as (A & S & _).
    destruct (a_last _ _ A) as (tr & k & n & T & _). rewrite S in T. eauto.
Qed.
Print Assumptions C22_exhaustion.

(** A kernel that always reports a violation makes the dispatch fail after 1 + attempts runs. *)
Theorem C22_exhaustion_reported e fuel :
  (bit (e_flags e) 15 = true \/ bit (e_flags e) 16 = true) ->
  (forall n k, e_kernel e n k = GPViolation) -> e_cut_valid e = true -> (forall m, e_check e m = true) ->
  some_candidates e ->
  0 <= e_attempts e < 2 ^ 31 -> Z.of_nat fuel > e_attempts e + 1 ->
  exists s, dispatch_run fuel e = (Some (Error MaxPerturbations), s) /\
    zlen (kernel_runs (d_trace s)) = e_attempts e + 1 /\ zlen (perturbations (d_trace s)) = e_attempts e.
Proof.
  intros E K V C P R F. pose proof (int32_small _ R) as I.
  assert (EN : enforce (e_flags e) = true) by (rewrite enforce_bits; apply orb_true_iff; exact E).
  destruct (always_run e EN K V C P fuel) as (s & X); [lia|lia|]. rewrite I in X. eauto.
Qed.
Print Assumptions C22_exhaustion_reported.

(** The reported vector is the last translation of the cut mesh that went into the final kernel run:
    zero if the user's mesh was used as it is, else the perturbation; if no cut-mesh polygon was
    partitioned the mesh of the final run is the user's mesh with that vector added. *)
Theorem C22_reported_vector e fuel p cs s :
  dispatch_run fuel e = (Some (Completed p cs), s) ->
  exists tr k l, d_trace s = tr ++ [EKernel k Success] /\ cut_is e tr l (i_cut k) /\
    (l = None /\ p = V3 0 0 0 /\ perturbations tr = [] \/ l = Some p /\ exists r, perturbations tr = r ++ [p]) /\
    ((forall b, ~ In (ESplit b true) tr) ->
       i_cut k = match l with None => e_cut e | Some _ => translated p (e_cut e) end).
Proof.
  intros H. apply completed_inv in H. destruct H as (A & S & -> & _).
  destruct (a_last _ _ A) as (tr & k & l & T & IC & CI & MV & _). rewrite S in T. exists tr, k, l.
  split; [exact T|]. split; [exact CI|].
  assert (P : perturbations (d_trace s) = perturbations tr).
  { rewrite T, perturbations_app. cbn. apply app_nil_r. }
  assert (D : l = None /\ d_pert s = V3 0 0 0 /\ perturbations tr = [] \/ l = Some (d_pert s) /\ exists r, perturbations tr = r ++ [d_pert s]).
  { destruct l as [q|]; cbn [moved_by] in MV; rewrite P in MV.
    - right. destruct MV as [-> X]. auto.
    - left. tauto. }
  split; [exact D|]. intros N. rewrite (cut_is_unsplit e tr l (i_cut k) CI N).
  destruct D as [(-> & _) | (-> & _)]; reflexivity.
Qed.
Print Assumptions C22_reported_vector.

(** The number of attempts is compared as a signed number: with 2^31 attempts or more (accepted by the
    API, frontend.cpp:387-394) the loop does not end. *)
Theorem C22_many_attempts_refuted e :
  (bit (e_flags e) 15 = true \/ bit (e_flags e) 16 = true) ->
  (forall n k, e_kernel e n k = GPViolation) -> e_cut_valid e = true -> (forall m, e_check e m = true) ->
  some_candidates e ->
  2 ^ 31 <= e_attempts e < 2 ^ 32 ->
  forall fuel, fst (dispatch_run fuel e) = None.
Proof.
  intros E K V C P R.
  assert (EN : enforce (e_flags e) = true) by (rewrite enforce_bits; apply orb_true_iff; exact E).
  apply (never_stops e EN K V C P). unfold int32, wrap32. rewrite Z.mod_small by lia.
  destruct (Z.ltb_spec (e_attempts e) (2 ^ 31)); lia.
Qed.
Print Assumptions C22_many_attempts_refuted.

(** * C23 *)

(** Full statement: without the hypothesis [no_reload_after_cut_split] (refuted below). *)
Theorem C23_candidates_match_partial e fuel r s :
  sane e -> dispatch_run fuel e = (r, s) -> no_reload_after_cut_split (d_trace s) ->
  forall k st, In (EKernel k st) (d_trace s) ->
    finite_boxes (i_sboxes k) -> finite_boxes (i_cboxes k) -> consistent_input k.
Proof. exact (run_consistent e fuel r s). Qed.
Print Assumptions C23_candidates_match_partial.

(** ** a concrete environment *)
Definition tri (x : Z) : list vec3 := [V3 x 0 0; V3 (x + 4) 0 0; V3 x 4 4].
Definition ex_src : surface := [tri 0; tri 1].
Definition ex_cut : surface := [tri 2].
Definition ex_cut2 : surface := [tri 2; tri 3].

Definition ex_fuel (sb cb : list box) : nat := (3 ^ (Z.to_nat (depth (zlen sb)) + Z.to_nat (depth (zlen cb))))%nat.
Definition build_id (bs : list box) : option (list box) :=
  build_oibvh bs (zrange (zlen bs)) (zrange (zlen bs)) (fun l => zrange (nodes_on_level (zlen bs) l)).
Definition ex_pairs (sb cb : list box) : pimap :=
  match build_id sb, build_id cb with
  | Some sm, Some cm => match intersectOIBVHs (ex_fuel sb cb) sm (zrange (zlen sb)) cm (zrange (zlen cb)) with
                        | Some (_, m) => m | None => fun _ => [] end
  | _, _ => fun _ => []
  end.

Definition ex_env (flags attempts : Z) (kernel : Z -> kin -> outcome) : env :=
  Env flags attempts ex_src ex_cut true (fun _ => 1) (fun k c => V3 (c * (2 * (k mod 2) - 1)) 0 c) (fun _ => true) ex_pairs kernel
      (fun _ _ _ => None) (fun n _ _ => if n =? 1 then Some ex_cut2 else None).


Lemma ex_pairs_code flags att k : broad_phase_is_code (ex_env flags att k).
Proof.
  intros sb cb Ls Lc Ps Pc. cbn [e_pairs ex_env].
  set (so := zrange (zlen sb)). set (co := zrange (zlen cb)).
  set (ss := fun l => zrange (nodes_on_level (zlen sb) l)). set (cs := fun l => zrange (nodes_on_level (zlen cb) l)).
  assert (Os : any_order so (zlen sb)) by apply Permutation_refl.
  assert (Oc : any_order co (zlen cb)) by apply Permutation_refl.
  assert (Ss : forall l, any_order (ss l) (nodes_on_level (zlen sb) l)) by (intros; apply Permutation_refl).
  assert (Sc : forall l, any_order (cs l) (nodes_on_level (zlen cb) l)) by (intros; apply Permutation_refl).
  destruct (build_ok sb so Ls Os Ps so ss Os) as (sm & Esm & _ & Hsm); [intros l _; apply Ss|].
  destruct (build_ok cb co Lc Oc Pc co cs Oc) as (cm & Ecm & _ & Hcm); [intros l _; apply Sc|].
  destruct (intersect_ok sb so cb co Ls Lc Os Oc sm cm Hsm Hcm (ex_fuel sb cb)) as (b & m & E & Hb & _).
  rewrite (Hb (le_n _)) in E.
  exists so, co, so, co, ss, cs, sm, cm, (ex_fuel sb cb).
  do 6 (split; [assumption|]). split; [exact Esm|]. split; [exact Ecm|].
  unfold ex_pairs, build_id. fold so co. fold ss cs. rewrite Esm, Ecm, E. reflexivity.
Qed.

Ltac surf := split; [vm_compute; split; discriminate|]; let pts := fresh in let H := fresh in
  intros pts H; repeat (destruct H as [<- | H]; [split; [discriminate|]; let p := fresh in let Hp := fresh in intros p Hp;
  repeat (destruct Hp as [<- | Hp]; [vm_compute; repeat split; try discriminate; try reflexivity|]); destruct Hp|]); destruct H.

Lemma ex_sane flags att k : sane (ex_env flags att k).
Proof.
  constructor; cbn [e_src e_cut e_split_src e_split_cut e_draw e_const ex_env].
  - surf.
  - surf.
  - discriminate.
  - intros n s c x H. destruct (n =? 1); [|discriminate]. injection H as <-. surf.
  - intros n c H. unfold bounded_by. cbn [vx vy vz]. pose proof (Z.mod_pos_bound n 2 ltac:(lia)) as M. nia.
  - lia.
  - intros; lia.
  - apply ex_pairs_code.
Qed.

Definition no_facts := Facts [(1, Above); (2, Below); (3, Undef)] (fun c => if c then [10] else [11; 12])
  (fun c => if c then Inside else Outside) (fun c => if c then [(20, Above); (21, Below)] else [(22, Above); (23, Below)]) true true true.

(** Non-vacuity of C22/C23: two violations, then success; two perturbations; candidates hold. *)
Definition ok_kernel (n : Z) (k : kin) : outcome := if n <? 2 then GPViolation else Found no_facts.
Definition ok_env := ex_env (2 ^ 15) 3 ok_kernel.
Example ok_run : exists cs s, dispatch_run 10 ok_env = (Some (Completed (V3 1 0 1) cs), s) /\
  perturbations (d_trace s) = [V3 (-1) 0 1; V3 1 0 1] /\ zlen (kernel_runs (d_trace s)) = 3 /\ zlen cs = 14 /\
  no_reload_after_cut_split (d_trace s) /\
  (forall k st, In (EKernel k st) (d_trace s) -> finite_boxes (i_sboxes k) /\ finite_boxes (i_cboxes k)).
Proof.
  set (R := dispatch_run 10 ok_env). vm_compute in R.
  eexists. eexists. split; [reflexivity|]. split; [reflexivity|]. split; [reflexivity|]. split; [reflexivity|]. split.
  - intros tr1 tr2 b l E I. exfalso.
    assert (N : In (ESplit b true) (tr1 ++ tr2)) by (apply in_or_app; auto). rewrite <- E in N. clear -N.
    cbn [d_trace] in N. repeat (destruct N as [N | N]; [discriminate|]). exact N.
  - intros k st H. cbn [d_trace] in H.
    repeat (destruct H as [H | H]; [try discriminate; injection H as <- <-; split; intros b Hb;
      repeat (destruct Hb as [<- | Hb]; [vm_compute; repeat split; discriminate|]); destruct Hb|]). destruct H.
Qed.

(** A polygon of the cut mesh is partitioned, then the kernel reports a degeneracy: the cut mesh is read
    again from the user's arrays, but boxes and candidates are still those of the partitioned mesh.  The
    kernel is handed candidate faces that do not exist. *)
Definition bad_kernel (n : Z) (k : kin) : outcome :=
  if n =? 0 then FloatingPolygon else if n =? 1 then GPViolation else Found no_facts.
Definition bad_env := ex_env (2 ^ 15) 3 bad_kernel.

Theorem C23_stale_candidates_refuted :
  exists e fuel p cs s k st f x,
    sane e /\ dispatch_run fuel e = (Some (Completed p cs), s) /\ In (EKernel k st) (d_trace s) /\
    finite_boxes (i_sboxes k) /\ finite_boxes (i_cboxes k) /\
    0 <= f < zlen (i_src k) /\ In x (i_pairs k f) /\ x >= zlen (i_src k) + zlen (i_cut k) /\
    ~ consistent_input k.
Proof.
  exists bad_env, 10%nat.
  set (R := dispatch_run 10 bad_env). vm_compute in R.
  do 3 eexists. exists (Kin ex_src (translated (V3 (-1) 0 1) ex_cut)
     (ex_pairs (face_boxes 0 [] ex_src) (face_boxes 1 (face_boxes 1 [] ex_cut) ex_cut2))
     (face_boxes 0 [] ex_src) (face_boxes 1 (face_boxes 1 [] ex_cut) ex_cut2) 0), Success, 0, 3.
  split; [apply ex_sane|]. split; [reflexivity|].
  assert (FB : forall bs, (forall b, In b bs -> (finite_pt (bmin b) /\ finite_pt (bmax b))) -> finite_boxes bs) by (intros; assumption).
  assert (NC : zlen (face_boxes 1 (face_boxes 1 [] ex_cut) ex_cut2) <> zlen (translated (V3 (-1) 0 1) ex_cut)) by (vm_compute; discriminate).
  split; [|split; [|split; [|split; [|split; [|split]]]]].
  - vm_compute. auto 10.
  - cbn [i_sboxes]. apply FB. intros b Hb. vm_compute in Hb.
    repeat (destruct Hb as [<- | Hb]; [vm_compute; repeat split; discriminate|]). destruct Hb.
  - cbn [i_cboxes]. apply FB. intros b Hb. vm_compute in Hb.
    repeat (destruct Hb as [<- | Hb]; [vm_compute; repeat split; discriminate|]). destruct Hb.
  - cbn; lia.
  - vm_compute. auto.
  - vm_compute. discriminate.
  - intros (_ & [L _] & _). cbn [i_cboxes i_cut] in L. exact (NC L).
Qed.
Print Assumptions C23_stale_candidates_refuted.

(** * C50 *)

(** A configuration reached by perturbation in which the meshes do not intersect is not accepted:
    proved when the cut mesh was perturbed at least twice.  Full statement: at least once (refuted below). *)
Theorem C50_moved_apart_not_accepted_partial e fuel p cs s :
  dispatch_run fuel e = (Some (Completed p cs), s) ->
  2 <= zlen (perturbations (d_trace s)) ->
  exists tr k n f, d_trace s = tr ++ [EKernel k Success] /\ e_kernel e n k = Found f /\
    cs = delivered (e_flags e) f.
Proof.
  intros H L. pose proof H as H'. apply completed_inv in H. destruct H as (A & S & -> & ->).
  destruct (a_last _ _ A) as (tr & k & l & T & IC & CI & MV & ST & FA & GP).
  assert (EN : enforce (e_flags e) = true).
  { destruct (enforce (e_flags e)) eqn:E; [reflexivity|].
    destruct (final_counts e _ s (run_inv e fuel _ s H')) as (_ & B & _). rewrite (B E) in L. cbn in L. lia. }
  assert (G : 0 < i_gpcount k).
  { rewrite GP. pose proof (m_gp _ _ (a_mid _ _ A)) as M. rewrite (m_count _ _ (a_mid _ _ A)) in M. lia. }
  rewrite S in T, ST. exists tr, k, (d_run s). rewrite FA. 
  assert (B : (0 <? i_gpcount k) = true) by (apply Z.ltb_lt; exact G).
  destruct (e_kernel e (d_run s) k) as [|f| | | |]; cbn [run_status] in ST; try discriminate.
  - rewrite EN, B in ST. discriminate.
  - exists f. auto.
Qed.
Print Assumptions C50_moved_apart_not_accepted_partial.

(** One perturbation: the count handed to the kernel is still zero (preproc.cpp:1958 stores it before
    the increment of l. 1971), and kernel.cpp:3175 accepts the configuration. *)
Definition apart_kernel (n : Z) (k : kin) : outcome := if n =? 0 then GPViolation else NoIntersection.
Theorem C50_moved_apart_accepted_refuted :
  exists e fuel p cs s, sane e /\ bit (e_flags e) 15 = true /\
    dispatch_run fuel e = (Some (Completed p cs), s) /\ perturbations (d_trace s) = [p] /\
    (exists tr k n, d_trace s = tr ++ [EKernel k Success] /\ e_kernel e n k = NoIntersection) /\
    cs = [InputSrc; InputCut].
Proof.
  exists (ex_env (2 ^ 15) 3 apart_kernel), 10%nat.
  set (R := dispatch_run 10 (ex_env (2 ^ 15) 3 apart_kernel)). vm_compute in R.
  do 3 eexists. split; [apply ex_sane|]. split; [reflexivity|]. split; [reflexivity|]. split; [reflexivity|]. split; [|reflexivity].
  do 3 eexists. split.
  - cbn [d_trace]. match goal with |- [?a; ?b; ?c; ?d] = _ => exact (eq_refl ([a; b; c] ++ [d])) end.
  - instantiate (1 := 1). reflexivity.
Qed.
Print Assumptions C50_moved_apart_accepted_refuted.

(** Non-vacuity of C21 and C50 (two perturbations) *)
Example ok_filtered : exists cs s,
  dispatch_run 10 (with_flags ok_env (2 ^ 15)) = (Some (Completed (V3 1 0 1) cs), s) /\
  filter (wanted (2 ^ 15 + 2 ^ 11 + 2 ^ 5 + 2 ^ 8)) cs = [InputSrc; InputCut; Patch 10 Inside; Sealed 20 Above Inside].
Proof. do 2 eexists. split; [vm_compute; reflexivity|]. vm_compute. reflexivity. Qed.

(** Non-vacuity of C22_exhaustion_reported, C22_exhaustion and C22_many_attempts_refuted *)
Definition viol_env attempts := ex_env (2 ^ 16) attempts (fun _ _ => GPViolation).
Example viol_candidates attempts : some_candidates (viol_env attempts).
Proof. exists 0, 2. vm_compute. split; [split; [discriminate|reflexivity]|auto]. Qed.
Example viol_run : exists s, dispatch_run 10 (viol_env 3) = (Some (Error MaxPerturbations), s) /\
  zlen (kernel_runs (d_trace s)) = 4 /\ zlen (perturbations (d_trace s)) = 3.
Proof.
  apply (C22_exhaustion_reported (viol_env 3) 10); try reflexivity; [right; reflexivity|apply viol_candidates|cbn; lia].
Qed.
Example viol_forever fuel : fst (dispatch_run fuel (viol_env (2 ^ 31))) = None.
Proof.
  apply (C22_many_attempts_refuted (viol_env (2 ^ 31))); try reflexivity; [right; reflexivity|apply viol_candidates|cbn; lia].
Qed.
