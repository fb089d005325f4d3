(** Theorems about the connected-component data queries: C36 - C39. *)
From Coq Require Import List ZArith Lia Bool.
From Verif Require Import Vec VecLemmas HmeshModel HmeshSpec HmeshCore HmeshProps InputModel InputSpec InputProofs CompProps DispatchCand ParModel ParProofs HmeshParModel
  ParSumModel ParSumSpec ParSumProofs DataModel DataSpec DataProofs DataFull DataRows DataEdges DataOver DataFace DataRace DataFan.
Import ListNotations.
Open Scope Z_scope.
Ltac Zify.zify_post_hook ::= idtac.

(** ** Components after any number of queries *)

Lemma fresh_coherent c : fresh c -> coherent c.
Proof. intros (_ & F & A). split; intros l H; congruence. Qed.

Lemma coherent_fsize c rows l : coherent c -> face_rows (c_mesh c) = Some rows ->
  l = Some (map zlen rows) \/ l = c_fsize c -> coherent (set_fsize c l).
Proof.
  intros [A B] E [->| ->]; split; cbn [c_fsize c_asize c_mesh set_fsize]; intros x H; auto. injection H as <-. eauto.
Qed.
Lemma coherent_asize c rows l : coherent c -> adj_rows (c_mesh c) = Some rows ->
  l = Some (map zlen rows) \/ l = c_asize c -> coherent (set_asize c l).
Proof.
  intros [A B] E [->| ->]; split; cbn [c_fsize c_asize c_mesh set_asize]; intros x H; auto. injection H as <-. eauto.
Qed.

Lemma fill_sizes_cases pool cache rows l : fill_sizes pool cache rows = Some l -> Some l = Some (map zlen rows) \/ Some l = cache.
Proof.
  unfold fill_sizes. destruct cache as [x|]; [auto|]. destruct (par_blocks _ _ _); cbn; [|discriminate]. intros H. left. congruence.
Qed.
Lemma q_sizes_cases pool nf cache rows d : snd (q_sizes pool nf cache rows d) = Some (map zlen rows) \/ snd (q_sizes pool nf cache rows d) = cache.
Proof.
  unfold q_sizes. destruct d; cbn [snd]; auto. destruct (_ <? _); cbn [snd]; auto. destruct (negb _); cbn [snd]; auto.
  destruct (fill_sizes pool cache rows) eqn:E; cbn [snd]; auto. apply fill_sizes_cases in E. exact E.
Qed.

Lemma queried_same c c' : queried c c' -> fresh c -> coherent c' /\
  exists f a, c' = set_asize (set_fsize c f) a.
Proof.
  intros Q F. induction Q as [c|c c' e d Q IH|c c' e d Q IH|c c' e seen d Q IH|c c' e seen d Q IH].
  - split; [apply fresh_coherent; exact F|]. exists (c_fsize c), (c_asize c). destruct c; reflexivity.
  - destruct (IH F) as (Co & f & a & Ec). unfold q_face_size. destruct (face_rows (c_mesh c')) as [rows|] eqn:E; [|split; [exact Co|eauto]].
    destruct (q_sizes_cases (e_pool e) (number_of_faces (c_mesh c')) (c_fsize c') rows d) as [K|K];
    destruct (q_sizes _ _ _ _ _) as [r l]; cbn [snd] in *; (split; [eapply coherent_fsize; eauto|]); exists l, a; subst c'; reflexivity.
  - destruct (IH F) as (Co & f & a & Ec). unfold q_adj_size. destruct (adj_rows (c_mesh c')) as [rows|] eqn:E; [|split; [exact Co|eauto]].
    destruct (q_sizes_cases (e_pool e) (number_of_faces (c_mesh c')) (c_asize c') rows d) as [K|K];
    destruct (q_sizes _ _ _ _ _) as [r l]; cbn [snd] in *; (split; [eapply coherent_asize; eauto|]); exists f, l; subst c'; reflexivity.
  - destruct (IH F) as (Co & f & a & Ec). unfold q_face. destruct (face_rows (c_mesh c')) as [rows|] eqn:E; [|split; [exact Co|eauto]].
    destruct d as [|bytes]; cbn [snd]; [split; [exact Co|eauto]|]. destruct (negb _); cbn [snd]; [split; [exact Co|eauto]|].
    destruct (fill_sizes _ _ _) as [l|] eqn:El; cbn [snd]; [|split; [exact Co|eauto]]. apply fill_sizes_cases in El.
    split; [eapply coherent_fsize; eauto|]. exists (Some l), a. subst c'; reflexivity.
  - destruct (IH F) as (Co & f & a & Ec). unfold q_adj. destruct (adj_rows (c_mesh c')) as [rows|] eqn:E; [|split; [exact Co|eauto]].
    destruct d as [|bytes]; cbn [snd]; [split; [exact Co|eauto]|]. destruct (negb _); cbn [snd]; [split; [exact Co|eauto]|].
    destruct (fill_sizes _ _ _) as [l|] eqn:El; cbn [snd]; [|split; [exact Co|eauto]]. apply fill_sizes_cases in El.
    split; [eapply coherent_asize; eauto|]. exists f, (Some l). subst c'; reflexivity.
Qed.

Lemma queried_mesh c c' : queried c c' -> fresh c -> c_mesh c' = c_mesh c /\ component_mesh (c_mesh c') /\ coherent c'.
Proof.
  intros Q F. destruct (queried_same _ _ Q F) as (Co & f & a & ->). split; [reflexivity|]. split; [exact (proj1 F)|exact Co].
Qed.

Lemma rows_of_unique f n a b : rows_of f n a -> rows_of f n b -> a = b.
Proof.
  intros [La Ha] [Lb Hb]. apply CompProps.vget_ext; [lia|]. intros i Hi. rewrite <- Ha, <- Hb by lia. reflexivity.
Qed.

Lemma face_rows_is m rows : component_mesh m -> rows_of (get_vertices_around_face m) (zlen (faces m)) rows -> face_rows m = Some rows.
Proof. intros C R. destruct (face_rows_ok m C) as (rows' & E & R'). rewrite E. f_equal. eapply rows_of_unique; eassumption. Qed.
Lemma adj_rows_is m rows : component_mesh m -> rows_of (get_faces_around_face m) (zlen (faces m)) rows -> adj_rows m = Some rows.
Proof. intros C R. destruct (adj_rows_ok m C) as (rows' & E & R'). rewrite E. f_equal. eapply rows_of_unique; eassumption. Qed.

(** ** C36: size query and data query agree, and the buffer is filled completely with *)

(** ... the coordinates of the vertices, as doubles or as floats *)
Theorem C36_vertices : forall c0 c e, fresh c0 -> queried c0 c -> pool_ok e ->
  agrees (q_vertex_double e c) 8 (coords (c_mesh c0)) /\
  agrees (q_vertex_float e c) 4 (map (e_float e) (coords (c_mesh c0))).
Proof.
  intros c0 c e F Q P. destruct (queried_mesh _ _ Q F) as (<- & C & _). split; [apply q_vertex_double_full|apply q_vertex_float_full]; assumption.
Qed.

(** ... the perturbation vector and the enumeration values, where the kind of component has them *)
Theorem C36_small_values : forall c0 c, fresh c0 -> queried c0 c ->
  (exists x y z, c_perturbation c0 = (x, y, z) /\ agrees (q_perturbation c) 8 [x; y; z]) /\
  agrees (q_type c) 4 [c_type c0] /\
  (c_type c0 = TYPE_FRAGMENT -> agrees (q_fragment_location c) 4 [c_fragloc c0] /\ agrees (q_seal_type c) 4 [c_seal c0]) /\
  (c_type c0 = TYPE_FRAGMENT \/ c_type c0 = TYPE_PATCH -> agrees (q_patch_location c) 4 [c_patchloc c0]) /\
  (c_type c0 = TYPE_SEAM \/ c_type c0 = TYPE_INPUT -> agrees (q_origin c) 4 [c_origin c0]).
Proof.
  intros c0 c F Q. destruct (queried_same _ _ Q F) as (_ & f & a & ->).
  split; [|split; [apply q_scalar_full|split; [|split]]].
  - pose proof (q_perturbation_full (set_asize (set_fsize c0 f) a)) as H. cbn [c_perturbation set_asize set_fsize] in H.
    destruct (c_perturbation c0) as [[x y] z]. eauto.
  - intros T. unfold agrees, q_fragment_location, q_seal_type. cbn [c_type c_fragloc c_seal set_asize set_fsize]. rewrite T. split; apply q_scalar_full.
  - intros T. unfold agrees, q_patch_location. cbn [c_type c_patchloc set_asize set_fsize]. destruct T as [-> | ->]; apply q_scalar_full.
  - intros T. unfold agrees, q_origin. cbn [c_type c_origin set_asize set_fsize]. destruct T as [-> | ->]; apply q_scalar_full.
Qed.

(** ... the numbers of vertices of the faces and of their adjacent faces *)
Theorem C36_sizes : forall c0 c e frows arows, fresh c0 -> queried c0 c -> pool_ok e ->
  rows_of (get_vertices_around_face (c_mesh c0)) (zlen (faces (c_mesh c0))) frows ->
  rows_of (get_faces_around_face (c_mesh c0)) (zlen (faces (c_mesh c0))) arows ->
  agrees (fun d => fst (q_face_size e c d)) 4 (map zlen frows) /\
  agrees (fun d => fst (q_adj_size e c d)) 4 (map zlen arows).
Proof.
  intros c0 c e frows arows F Q P Rf Ra. destruct (queried_mesh _ _ Q F) as (Em & C & Co). rewrite <- Em in Rf, Ra.
  pose proof (face_rows_is _ _ C Rf) as Ef. pose proof (adj_rows_is _ _ C Ra) as Ea.
  pose proof (rows_len _ _ _ C Rf) as Lf. pose proof (rows_len _ _ _ C Ra) as La. split.
  - assert (H : agrees (fun d => fst (q_sizes (e_pool e) (number_of_faces (c_mesh c)) (c_fsize c) frows d)) 4 (map zlen frows)).
    { apply q_sizes_full; try assumption; [rewrite no_removed_faces by exact C; symmetry; apply Rf|].
      intros l El. destruct (proj1 Co l El) as (x & Ex & ->). congruence. }
    unfold agrees in *. unfold q_face_size. rewrite Ef. destruct (q_sizes _ _ _ _ Null). destruct (q_sizes _ _ _ _ (Buffer _)). exact H.
  - assert (H : agrees (fun d => fst (q_sizes (e_pool e) (number_of_faces (c_mesh c)) (c_asize c) arows d)) 4 (map zlen arows)).
    { apply q_sizes_full; try assumption; [rewrite no_removed_faces by exact C; symmetry; apply Ra|].
      intros l El. destruct (proj2 Co l El) as (x & Ex & ->). congruence. }
    unfold agrees in *. unfold q_adj_size. rewrite Ea. destruct (q_sizes _ _ _ _ Null). destruct (q_sizes _ _ _ _ (Buffer _)). exact H.
Qed.

(** ... the adjacent faces, whatever values of the partial sums the threads read *)
Theorem C36_adjacent_faces : forall c0 c e arows seen, fresh c0 -> queried c0 c -> pool_ok e ->
  rows_of (get_faces_around_face (c_mesh c0)) (zlen (faces (c_mesh c0))) arows -> total arows < 2 ^ 32 ->
  reads_ok (e_pool e) 1024 (map zlen arows) seen ->
  agrees (fun d => fst (q_adj e c seen d)) 4 (concat arows).
Proof.
  intros c0 c e arows seen F Q P Ra Ht Rd. destruct (queried_mesh _ _ Q F) as (Em & C & Co). rewrite <- Em in Ra.
  apply q_adj_full; try assumption. apply adj_rows_is; assumption.
Qed.

(** ... the edges *)
Theorem C36_edges : forall c0 c e, fresh c0 -> queried c0 c -> pool_ok e ->
  agrees (q_edge e c) 4 (flat2 (edge_list (c_mesh c0))).
Proof.
  intros c0 c e F Q P. destruct (queried_mesh _ _ Q F) as (<- & C & _). apply q_edge_full; try assumption. apply has_edges. exact C.
Qed.

(** ... the seam vertices and the maps, in user numbering *)
Theorem C36_seam_vertices : forall c0 c e, fresh c0 -> queried c0 c -> pool_ok e -> c_type c0 <> TYPE_INPUT ->
  c_seam c0 <> [] -> zlen (c_seam c0) < 2 ^ 31 -> agrees (q_seam_vertex e c) 4 (c_seam c0).
Proof. intros c0 c e F Q P T N S. destruct (queried_same _ _ Q F) as (_ & f & a & ->). exact (q_seam_full e (set_asize (set_fsize c0 f) a) T N S P). Qed.

Theorem C36_maps : forall c0 c e, fresh c0 -> queried c0 c -> pool_ok e ->
  (c_vmap c0 <> [] -> zlen (c_vmap c0) < 2 ^ 31 -> agrees (q_vertex_map e c) 4 (map (user_vertex c0) (c_vmap c0))) /\
  (c_fmap c0 <> [] -> zlen (c_fmap c0) < 2 ^ 31 -> agrees (q_face_map e c) 4 (map (user_face c0) (c_fmap c0))).
Proof.
  intros c0 c e F Q P. destruct (queried_same _ _ Q F) as (_ & f & a & ->). split; intros N S.
  - apply (q_map_full (user_vertex (set_asize (set_fsize c0 f) a)) (e_pool e) (c_vmap c0)); assumption.
  - apply (q_map_full (user_face (set_asize (set_fsize c0 f) a)) (e_pool e) (c_fmap c0)); assumption.
Qed.

(** ... the faces, when they are copied by one thread or by all the threads that computed the
    partial sums.  Missing: the other numbers of faces and threads, where it is false. *)
Theorem C36_faces_partial : forall c0 c e frows seen, fresh c0 -> queried c0 c -> pool_ok e ->
  rows_of (get_vertices_around_face (c_mesh c0)) (zlen (faces (c_mesh c0))) frows -> total frows < 2 ^ 32 ->
  face_copy_safe (e_pool e) (zlen frows) -> reads_ok (e_pool e) (2 ^ 14) (map zlen frows) seen ->
  agrees (fun d => fst (q_face e c seen d)) 4 (concat (oriented (e_flip e) frows)).
Proof.
  intros c0 c e frows seen F Q P Rf Ht Sf Rd. destruct (queried_mesh _ _ Q F) as (Em & C & Co). rewrite <- Em in Rf.
  apply q_face_full; try assumption. apply face_rows_is; assumption.
Qed.

(** The full statement is false: with at least two helper threads and between 2^14 and 2^15
    faces there is a schedule in which the buffer is not filled, for any component. *)
Theorem C36_face_race_refuted : forall c0 c e frows, fresh c0 -> queried c0 c -> pool_ok e ->
  rows_of (get_vertices_around_face (c_mesh c0)) (zlen (faces (c_mesh c0))) frows -> total frows < 2 ^ 32 ->
  2 <= e_pool e -> 2 ^ 14 < zlen frows <= 2 ^ 15 ->
  exists seen, reads_ok (e_pool e) (2 ^ 14) (map zlen frows) seen /\
    forall content, ~ agrees (fun d => fst (q_face e c seen d)) 4 content.
Proof.
  intros c0 c e frows F Q P Rf Ht Hp Hn. destruct (queried_mesh _ _ Q F) as (Em & C & Co). rewrite <- Em in Rf. pose proof (face_rows_is _ _ C Rf) as E.
  pose proof P as P'. unfold pool_ok in P'.
  destruct (sched_ok (zlen frows) (e_pool e + 1) 1024) as (n1 & b1 & Es & H1 & H2 & H3 & H4); try lia.
  pose proof (sched_block _ _ _ _ _ Es) as Eb.
  assert (Ec : sum_cfg (e_pool e) (zlen frows) = Some (Cfg (zlen frows) n1 b1)).
  { unfold sum_cfg. assert (W1 : wrap32 (zlen frows) = zlen frows) by (apply Z.mod_small; lia).
    assert (W2 : wrap32 (e_pool e + 1) = e_pool e + 1) by (apply Z.mod_small; lia). rewrite W1, W2, Es. reflexivity. }
  assert (N1 : 3 <= n1 <= 32). { rewrite H4. assert (16 <= (zlen frows + 1024 - 1) / 1024 <= 32) by (clear - Hn; Z.to_euclidean_division_equations; lia). lia. }
  set (L := zlen frows) in *.
  assert (B1 : n1 * b1 <= L < n1 * b1 + n1). { subst b1. pose proof (Z.div_mod L n1 ltac:(lia)). pose proof (Z.mod_pos_bound L n1 ltac:(lia)). lia. }
  assert (Bp : 500 < b1) by nia.
  assert (Hh : L - 1 <= 2 * (L / 2) <= L) by (clear; Z.to_euclidean_division_equations; lia).
  assert (Hi : exists i, 0 < i < n1 - 1 /\ i * b1 <= L / 2 < i * b1 + b1 - 1).
  { exists (n1 / 2). assert (n1 = 2 * (n1 / 2) \/ n1 = 2 * (n1 / 2) + 1) as [K|K] by (clear; Z.to_euclidean_division_equations; lia);
    generalize dependent (n1 / 2); intros h K; clear - B1 N1 Bp Hh K; generalize dependent (L / 2); intros g Hh; subst n1; split; try lia;
    rewrite ?Z.mul_add_distr_r, ?Z.mul_1_l, <- ?Z.mul_assoc in B1;
    generalize dependent (h * b1); intros; lia. }
  destruct Hi as (i & I1 & I2).
  destruct (race e c frows i (Cfg L n1 b1) C Co P E Rf Ht) as (seen & Rd & No); try assumption; try (unfold L in *; lia); cbn [ParSumModel.c_n]; try lia.
  { unfold blk_first, blk_last. cbn [ParSumModel.c_n c_bs c_len]. destruct (Z.eqb_spec i (n1 - 1)); [lia|]. fold L. lia. }
  exists seen. split; [exact Rd|]. intros content [A1 A2].
  assert (Lc : zlen content = total frows).
  { unfold q_face in A1. rewrite E in A1. cbn [fst] in A1. rewrite count_indices_ok in A1; try assumption; try (unfold L in *; lia). assert (total frows * 4 = 4 * zlen content) by congruence. lia. }
  rewrite Lc in A2. exact (No content Lc A2).
Qed.

(** ** C38: the arrays are consistent with each other and with the mesh *)

Lemma pair_next hs h : In h hs -> exists g, In (h, g) (cyc_pairs hs).
Proof.
  destruct hs as [|x r]; [intros []|]. unfold cyc_pairs. intros H. apply In_nth_error in H. destruct H as [i H].
  destruct (nth_error (r ++ [x]) i) as [g|] eqn:E.
  - exists g. revert i H E. generalize (x :: r) (r ++ [x]). intros a b. revert b.
    induction a as [|u a IH]; intros [|v b] [|i] H E; cbn in *; try discriminate; [left; congruence|right; eauto].
  - apply nth_error_None in E. rewrite app_length in E. cbn in E. assert (i < length (x :: r))%nat by (apply nth_error_Some; congruence). cbn in *. lia.
Qed.
Lemma pair_prev hs h : In h hs -> exists g, In (g, h) (cyc_pairs hs).
Proof.
  destruct hs as [|x r]; [intros []|]. unfold cyc_pairs. intros H.
  assert (K : In h (r ++ [x])) by (apply in_app_iff; destruct H; [right; left|left]; assumption).
  apply In_nth_error in K. destruct K as [i K].
  destruct (nth_error (x :: r) i) as [g|] eqn:E.
  - exists g. revert i K E. generalize (x :: r) (r ++ [x]). intros a b. revert b.
    induction a as [|u a IH]; intros [|v b] [|i] K E; cbn in *; try discriminate; [left; congruence|right; eauto].
  - apply nth_error_None in E. assert (i < length (r ++ [x]))%nat by (apply nth_error_Some; congruence). rewrite app_length in *. cbn in *. lia.
Qed.

Lemma face_row_mesh m rows i r : component_mesh m -> rows_of (get_vertices_around_face m) (zlen (faces m)) rows -> vget rows i = Some r ->
  exists hs, get_halfedges_around_face m i = Some hs /\ omap (target m) hs = Some r /\ (3 <= length hs)%nat /\
    (forall h, In h hs -> live_halfedge m h /\ face m h = Some i) /\
    (forall a b, In (a, b) (cyc_pairs hs) -> next m a = Some b /\ prev m b = Some a /\ target m a = source m b).
Proof.
  intros C [L H] V. pose proof (vget_Some_range _ _ _ V) as R. rewrite L in R. specialize (H i R). rewrite V in H.
  pose proof (HInv_consistent m (history_inv m (cm_history m C))) as K. destruct (k_face m K i (live_faces m i C R)) as (hs & E & L3 & _ & Lv & N).
  unfold get_vertices_around_face in H. rewrite E in H. cbn [obind] in H. exists hs. auto.
Qed.

Lemma omap_combine2 {A B} (f : A -> option B) (l l' : list A) r r' : omap f l = Some r -> omap f l' = Some r' ->
  forall a b, In (a, b) (combine r r') -> exists x y, In (x, y) (combine l l') /\ f x = Some a /\ f y = Some b.
Proof.
  revert l' r r'. induction l as [|x l IH]; intros l' r r' E E' a b H; cbn in E.
  - injection E as <-. destruct H.
  - destruct (f x) as [u|] eqn:Fx; [|discriminate]. cbn in E. destruct (omap f l) as [r0|] eqn:E0; [|discriminate]. cbn in E. injection E as <-.
    destruct l' as [|y l']; cbn in E'; [injection E' as <-; destruct H|]. destruct (f y) as [w|] eqn:Fy; [|discriminate]. cbn in E'.
    destruct (omap f l') as [r1|] eqn:E1; [|discriminate]. cbn in E'. injection E' as <-. cbn in H. destruct H as [H|H].
    + injection H as <- <-. exists x, y. split; [left; reflexivity|auto].
    + destruct (IH l' r0 r1 eq_refl E1 a b H) as (x' & y' & H' & G). exists x', y'. split; [right; exact H'|exact G].
Qed.

Lemma omap_from {A B} (f : A -> option B) l r y : omap f l = Some r -> In y r -> exists x, In x l /\ f x = Some y.
Proof.
  revert r. induction l as [|x l IH]; intros r E H; cbn in E; [injection E as <-; destruct H|].
  destruct (f x) as [u|] eqn:Fx; [|discriminate]. cbn in E. destruct (omap f l) as [r0|]; [|discriminate]. cbn in E. injection E as <-.
  destruct H as [<-|H]; [exists x; split; [left; reflexivity|exact Fx]|]. destruct (IH r0 eq_refl H) as (z & Hz & E). exists z. split; [right|]; assumption.
Qed.

Lemma omap_app1 {A B} (f : A -> option B) l x r u : omap f l = Some r -> f x = Some u -> omap f (l ++ [x]) = Some (r ++ [u]).
Proof.
  revert r. induction l as [|y l IH]; intros r E Fx; cbn in *.
  - injection E as <-. rewrite Fx. reflexivity.
  - destruct (f y); [|discriminate]. cbn in *. destruct (omap f l) as [r0|] eqn:E0; [|discriminate]. cbn in E. injection E as <-.
    rewrite (IH r0 eq_refl Fx). reflexivity.
Qed.

Lemma omap_cyc (f : Z -> option Z) hs r : omap f hs = Some r -> forall a b, In (a, b) (cyc_pairs r) ->
  exists x y, In (x, y) (cyc_pairs hs) /\ f x = Some a /\ f y = Some b.
Proof.
  intros E a b H. destruct hs as [|x l]; cbn in E.
  - injection E as <-. destruct H.
  - destruct (f x) as [u|] eqn:Fx; [|discriminate]. cbn in E. destruct (omap f l) as [r0|] eqn:E0; [|discriminate]. cbn in E. injection E as <-.
    unfold cyc_pairs in *. eapply omap_combine2; [| |exact H].
    + cbn. rewrite Fx, E0. reflexivity.
    + apply omap_app1; assumption.
Qed.

Lemma cyc_pairs_In l a b : In (a, b) (cyc_pairs l) -> In a l /\ In b l.
Proof.
  unfold cyc_pairs. destruct l as [|x r]; [intros []|]. intros H. pose proof (in_combine_l _ _ _ _ H). apply in_combine_r in H. apply in_app_iff in H. cbn in *. tauto.
Qed.

Lemma face_row_edges m rows i r : component_mesh m -> rows_of (get_vertices_around_face m) (zlen (faces m)) rows -> vget rows i = Some r ->
  forall a b, In (a, b) (cyc_pairs r) -> In (a, b) (edge_list m) \/ In (b, a) (edge_list m).
Proof.
  intros C R V a b H. destruct (face_row_mesh m rows i r C R V) as (hs & E & T & _ & Lv & N).
  destruct (omap_cyc _ _ _ T a b H) as (x & y & Hxy & Fx & Fy). destruct (N x y Hxy) as (_ & _ & Ns). apply cyc_pairs_In in Hxy. destruct Hxy as [_ Hy].
  destruct (Lv y Hy) as [Ly _]. assert (Sy : source m y = Some a) by congruence.
  pose proof (HInv_consistent m (history_inv m (cm_history m C))) as K.
  destruct (k_opposite m K y Ly) as (Lo & _ & _ & _ & Le & Cs). destruct (edge_ends_ok m (edge_of y) (cm_history m C) Le) as (u & w & Ee & Su & Tu & _).
  assert (In (u, w) (edge_list m)).
  { unfold edge_list. apply in_map_iff. exists (edge_of y). rewrite Ee. split; [reflexivity|]. unfold live_slots. apply filter_In.
    destruct Le as [Le1 Le2]. split; [apply In_zrange; exact Le1|]. destruct (in_dec _ _ _); [contradiction|reflexivity]. }
  destruct Cs as [Cs|Cs].
  - rewrite Cs in Sy, Fy. assert (w = a) by congruence. assert (u = b) by congruence. subst. auto.
  - destruct (k_edge m K _ Le) as (L0 & _ & O0). destruct (k_ends m K _ L0) as (p & q & S0 & T0 & _ & _ & _ & S1 & T1).
    rewrite O0, <- Cs in S1, T1. assert (q = a) by congruence. assert (p = b) by congruence. assert (w = p) by congruence. assert (u = q) by congruence. subst. auto.
Qed.

Lemma face_row_range m rows i r : component_mesh m -> rows_of (get_vertices_around_face m) (zlen (faces m)) rows -> vget rows i = Some r ->
  (3 <= length r)%nat /\ forall v, In v r -> 0 <= v < zlen (verts m).
Proof.
  intros C R V. destruct (face_row_mesh m rows i r C R V) as (hs & E & T & L3 & Lv & _). destruct (omap_nth _ _ _ T) as [L _]. split; [lia|].
  intros v Hv. destruct (omap_from _ _ _ _ T Hv) as (h & Hh & Th). destruct (Lv h Hh) as [Lh _].
  pose proof (HInv_consistent m (history_inv m (cm_history m C))) as K. destruct (k_ends m K h Lh) as (a & b & _ & Tb & _ & _ & [Vb _] & _).
  assert (b = v) by congruence. subst. exact Vb.
Qed.

Lemma adj_row_iff m rows i r g : component_mesh m -> rows_of (get_faces_around_face m) (zlen (faces m)) rows -> vget rows i = Some r ->
  In g r <-> g <> null /\ share_edge m i g.
Proof.
  intros C [L H] V. pose proof (vget_Some_range _ _ _ V) as R. rewrite L in R. specialize (H i R). rewrite V in H.
  pose proof (history_inv m (cm_history m C)) as HI. pose proof (HInv_consistent m HI) as K. destruct HI as [I _].
  destruct (k_face m K i (live_faces m i C R)) as (hs & E & L3 & _ & Lv & _).
  unfold get_faces_around_face in H. rewrite E in H. cbn [obind] in H.
  destruct (omap _ hs) as [l|] eqn:El; [|discriminate]. cbn [obind] in H. injection H as <-.
  assert (Op : forall h d, live_halfedge m h -> hget m h = Some d -> ho d = opposite h).
  { intros h d Lh Ed. destruct (c_he m I h d (proj1 (lh_live m h I) Lh) Ed) as (Eo & _). exact Eo. }
  assert (Nn : forall h, live_halfedge m h -> opposite h <> null).
  { intros h Lh. destruct (k_opposite m K h Lh) as ((R0 & _) & _). unfold null. lia. }
  assert (St : forall h x, live_halfedge m h -> (do d <- hget m h; if ho d =? null then Some null else face m (ho d)) = Some x <-> face m (opposite h) = Some x).
  { intros h x Lh. destruct (vget_range_Some (hes m) h (proj1 Lh)) as [d Ed]. unfold hget in *. rewrite Ed. cbn [obind]. rewrite (Op h d Lh Ed).
    destruct (Z.eqb_spec (opposite h) null) as [En|_]; [destruct (Nn h Lh En)|reflexivity]. }
  rewrite filter_In. split.
  - intros [Hg Ng]. split; [destruct (Z.eqb_spec g null); [discriminate|assumption]|].
    destruct (omap_from _ _ _ _ El Hg) as (h & Hh & Eh). destruct (Lv h Hh) as [Lh Fh]. exists h. rewrite (St h g Lh) in Eh. auto.
  - intros (Ng & h & Lh & Fh & Fo). split; [|destruct (Z.eqb_spec g null); [contradiction|reflexivity]].
    destruct (k_he_face m K h i Lh Fh) as (_ & hs' & E' & Hh); [unfold null; lia|]. assert (hs' = hs) by congruence. subst hs'.
    destruct (omap_In _ _ _ _ El Hh) as (y & Ey & Hy). rewrite (St h y Lh) in Ey. assert (y = g) by congruence. subst. exact Hy.
Qed.

Lemma live_slots_iff len removed i : In i (live_slots len removed) <-> 0 <= i < len /\ ~ In i removed.
Proof.
  unfold live_slots. rewrite filter_In, In_zrange. destruct (in_dec _ _ _) as [H|H]; intuition discriminate.
Qed.
Lemma live_slots_NoDup len removed : NoDup (live_slots len removed).
Proof.
  unfold live_slots. apply NoDup_filter. unfold zrange. apply FinFun.Injective_map_NoDup; [intros x y; lia|apply seq_NoDup].
Qed.

(** What the face, face-size, adjacent-face, adjacent-face-size and edge queries fill their buffers
    with, for the same component, in any state of its caches and whatever the schedules:
    - the face sizes are the lengths of the faces; the face array is their concatenation (each
      reversed with the reversed winding option); every face has at least three vertices, all of
      them indices smaller than the number of vertices, and consecutive ones are the end points
      of an edge of the edge array;
    - the adjacent faces are exactly the faces that share an edge with the face;
    - the edge array has one entry per edge: its two end points, which are distinct.
    Missing: the numbers of faces and threads excluded by [face_copy_safe], see
    [C36_face_race_refuted]. *)
Theorem C38_arrays_partial : forall c0 c e, fresh c0 -> queried c0 c -> pool_ok e ->
  let m := c_mesh c0 in let nf := zlen (faces m) in let nv := zlen (verts m) in
  exists frows arows es,
    zlen frows = nf /\ zlen arows = nf /\ zlen es = number_of_edges m /\
    agrees (fun d => fst (q_face_size e c d)) 4 (map zlen frows) /\
    (total frows < 2 ^ 32 -> face_copy_safe (e_pool e) nf -> forall seen, reads_ok (e_pool e) (2 ^ 14) (map zlen frows) seen ->
       agrees (fun d => fst (q_face e c seen d)) 4 (concat (oriented (e_flip e) frows))) /\
    agrees (fun d => fst (q_adj_size e c d)) 4 (map zlen arows) /\
    (total arows < 2 ^ 32 -> forall seen, reads_ok (e_pool e) 1024 (map zlen arows) seen ->
       agrees (fun d => fst (q_adj e c seen d)) 4 (concat arows)) /\
    agrees (q_edge e c) 4 (flat2 es) /\
    (forall i r, vget frows i = Some r -> (3 <= length r)%nat /\ (forall v, In v r -> 0 <= v < nv) /\
       forall a b, In (a, b) (cyc_pairs r) -> In (a, b) es \/ In (b, a) es) /\
    (forall i r g, vget arows i = Some r -> In g r <-> 0 <= g < nf /\ share_edge m i g) /\
    (exists ds, NoDup ds /\ (forall d, In d ds <-> live_edge m d) /\ zlen ds = zlen es /\
       forall k d a b, vget ds k = Some d -> vget es k = Some (a, b) ->
         a <> b /\ 0 <= a < nv /\ 0 <= b < nv /\
         target m (edge_halfedge d 0) = Some a /\ source m (edge_halfedge d 0) = Some b).
Proof.
  intros c0 c e F Q P m nf nv. destruct F as [C F']. pose proof (conj C F' : fresh c0) as F.
  destruct (face_rows_ok m C) as (frows & _ & Rf). destruct (adj_rows_ok m C) as (arows & _ & Ra).
  exists frows, arows, (edge_list m). destruct (C36_sizes c0 c e frows arows F Q P Rf Ra) as [S1 S2].
  split; [apply Rf|]. split; [apply Ra|]. split; [apply edge_list_len; apply C|]. split; [exact S1|]. split.
  { intros Ht Sf seen Rd. apply (C36_faces_partial c0 c e frows seen F Q P Rf Ht); [|exact Rd]. rewrite (proj1 Rf). exact Sf. }
  split; [exact S2|]. split; [intros Ht seen Rd; apply (C36_adjacent_faces c0 c e arows seen F Q P Ra Ht Rd)|].
  split; [apply (C36_edges c0 c e F Q P)|]. split; [|split].
  - intros i r V. destruct (face_row_range m frows i r C Rf V). split; [assumption|]. split; [assumption|]. apply (face_row_edges m frows i r C Rf V).
  - intros i r g V. rewrite (adj_row_iff m arows i r g C Ra V). split; intros [H1 H2]; (split; [|exact H2]).
    + destruct H2 as (h & Lh & Fh & Fo). pose proof (HInv_consistent m (history_inv m (cm_history m C))) as K.
      destruct (k_opposite m K h Lh) as (Lo & _). destruct (k_he_face m K _ _ Lo Fo H1) as [[Lg _] _]. exact Lg.
    + unfold null. lia.
  - exists (live_slots (zlen (edges m)) (re m)). split; [apply live_slots_NoDup|]. split; [apply live_slots_iff|].
    split; [unfold edge_list; rewrite zlen_map; reflexivity|]. intros k d a b Vd Ve.
    assert (Ld : live_edge m d) by (apply live_slots_iff; eapply vget_In; exact Vd).
    destruct (edge_ends_ok m d (cm_history m C) Ld) as (a' & b' & Ee & Sb & Ta & Ne & [La _] & [Lb _]).
    unfold edge_list in Ve. rewrite (DispatchCand.vget_map _ _ k), Vd in Ve. cbn in Ve. rewrite Ee in Ve. injection Ve as <- <-. auto 10.
Qed.

(** ** C39: the reversed winding option reverses each face and nothing else *)

Theorem C39_faces_partial : forall c0 c c' e e' seen seen' frows, fresh c0 -> queried c0 c -> queried c0 c' -> pool_ok e ->
  e_pool e' = e_pool e -> e_flip e = false -> e_flip e' = true ->
  rows_of (get_vertices_around_face (c_mesh c0)) (zlen (faces (c_mesh c0))) frows -> total frows < 2 ^ 32 ->
  face_copy_safe (e_pool e) (zlen frows) ->
  reads_ok (e_pool e) (2 ^ 14) (map zlen frows) seen -> reads_ok (e_pool e) (2 ^ 14) (map zlen frows) seen' ->
  agrees (fun d => fst (q_face e c seen d)) 4 (concat frows) /\
  agrees (fun d => fst (q_face e' c' seen' d)) 4 (concat (map (@rev Z) frows)).
Proof.
  intros c0 c c' e e' seen seen' frows F Q Q' P Ep E0 E1 Rf Ht Sf R1 R2. split.
  - pose proof (C36_faces_partial c0 c e frows seen F Q P Rf Ht Sf R1) as H. unfold oriented in H. rewrite E0, map_id in H. exact H.
  - assert (P' : pool_ok e') by (unfold pool_ok in *; rewrite Ep; exact P). rewrite <- Ep in Sf, R2.
    pose proof (C36_faces_partial c0 c' e' frows seen' F Q' P' Rf Ht Sf R2) as H. unfold oriented in H. rewrite E1 in H. exact H.
Qed.

(** All the other replies are the same, and so are the effects on the component. *)
Theorem C39_other_data : forall c e e' seen d, e_pool e' = e_pool e -> e_float e' = e_float e ->
  q_vertex_float e' c d = q_vertex_float e c d /\ q_vertex_double e' c d = q_vertex_double e c d /\
  q_face_size e' c d = q_face_size e c d /\ q_adj_size e' c d = q_adj_size e c d /\ q_adj e' c seen d = q_adj e c seen d /\
  q_edge e' c d = q_edge e c d /\ q_seam_vertex e' c d = q_seam_vertex e c d /\
  q_vertex_map e' c d = q_vertex_map e c d /\ q_face_map e' c d = q_face_map e c d /\
  fst (q_face e' c seen Null) = fst (q_face e c seen Null) /\ snd (q_face e' c seen d) = snd (q_face e c seen d).
Proof.
  intros c [p f x] [p' f' x'] seen d Ep Ex. cbn [e_pool e_float] in Ep, Ex. subst p' x'.
  repeat (split; [reflexivity|]). unfold q_face. cbn [e_pool e_float e_flip]. destruct (face_rows _); [|reflexivity].
  destruct d; [reflexivity|]. destruct (negb _); [reflexivity|]. destruct (fill_sizes _ _ _); reflexivity.
Qed.

(** ** C37: data queries never write past the given byte count *)

(** The maps and the enumeration values: any byte count.  Vertices and seam vertices: when one
    thread copies them.  Faces: when the buffer reaches into the last face, up to 2^14 faces.
    Missing: the other cases, most of which are false (below). *)
Theorem C37_inside_partial : forall c0 c e bytes, fresh c0 -> queried c0 c -> pool_ok e -> 0 <= bytes ->
  (zlen (c_vmap c0) < 2 ^ 31 -> inside (q_vertex_map e c (Buffer bytes)) bytes) /\
  (zlen (c_fmap c0) < 2 ^ 31 -> inside (q_face_map e c (Buffer bytes)) bytes) /\
  inside (q_type c (Buffer bytes)) bytes /\ inside (q_fragment_location c (Buffer bytes)) bytes /\
  inside (q_patch_location c (Buffer bytes)) bytes /\ inside (q_seal_type c (Buffer bytes)) bytes /\
  inside (q_origin c (Buffer bytes)) bytes /\
  (0 < bytes -> inside (q_perturbation c (Buffer bytes)) bytes) /\
  (one_block e (zlen (verts (c_mesh c0))) ->
     inside (q_vertex_double e c (Buffer bytes)) bytes /\ inside (q_vertex_float e c (Buffer bytes)) bytes) /\
  (c_seam c0 <> [] -> zlen (c_seam c0) < 2 ^ 31 -> one_block e (zlen (c_seam c0)) -> 0 < bytes ->
     inside (q_seam_vertex e c (Buffer bytes)) bytes) /\
  (forall seen pre last, rows_of (get_vertices_around_face (c_mesh c0)) (zlen (faces (c_mesh c0))) (pre ++ [last]) ->
     zlen (pre ++ [last]) <= 2 ^ 14 -> total (pre ++ [last]) < 2 ^ 32 -> reads_ok (e_pool e) (2 ^ 14) (map zlen (pre ++ [last])) seen ->
     4 * total pre < bytes < 2 ^ 34 -> inside (fst (q_face e c seen (Buffer bytes))) bytes).
Proof.
  intros c0 c e bytes F Q P Hb. destruct (queried_mesh _ _ Q F) as (Em & C & Co).
  assert (Sc : forall b : bool, forall v, inside (if b then Throws else q_scalar v (Buffer bytes)) bytes).
  { intros [] v; [exact I|apply q_scalar_inside; exact Hb]. }
  assert (Faces : forall seen pre last, rows_of (get_vertices_around_face (c_mesh c0)) (zlen (faces (c_mesh c0))) (pre ++ [last]) ->
     zlen (pre ++ [last]) <= 2 ^ 14 -> total (pre ++ [last]) < 2 ^ 32 -> reads_ok (e_pool e) (2 ^ 14) (map zlen (pre ++ [last])) seen ->
     4 * total pre < bytes < 2 ^ 34 -> inside (fst (q_face e c seen (Buffer bytes))) bytes).
  { intros seen pre last Rf Hn Ht Rd Hl. rewrite <- Em in Rf. pose proof (face_rows_is _ _ C Rf) as Ef.
    destruct (Z.eq_dec (bytes mod 4) 0) as [M|M].
    - rewrite (q_face_one_block e c seen _ bytes C Co P Ef Rf Ht Hn Rd M) by lia. intros o v Hv. cbn [concat] in Hv. rewrite app_nil_r in Hv.
      assert (Db : bytes = 4 * (bytes / 4)) by (pose proof (Z.div_mod bytes 4); lia).
      apply (copy_faces_inside (e_flip e) (bytes / 4) last pre) in Hv; try lia.
    - unfold q_face. rewrite Ef. destruct (Z.eqb_spec (bytes mod 4) 0); [contradiction|]. exact I. }
  assert (Vx : one_block e (zlen (verts (c_mesh c0))) -> inside (q_vertex_double e c (Buffer bytes)) bytes /\ inside (q_vertex_float e c (Buffer bytes)) bytes).
  { rewrite <- Em. intros O. split; [apply q_vertex_double_inside|apply q_vertex_float_inside]; assumption. }
  destruct (queried_same _ _ Q F) as (_ & f & a & Ec).
  assert (Sm : c_seam c0 <> [] -> zlen (c_seam c0) < 2 ^ 31 -> one_block e (zlen (c_seam c0)) -> 0 < bytes -> inside (q_seam_vertex e c (Buffer bytes)) bytes).
  { intros N S O B. assert (Es : c_seam c = c_seam c0) by (subst c; reflexivity). apply q_seam_inside; rewrite ?Es; assumption. }
  assert (V1 : c_vmap c = c_vmap c0) by (subst c; reflexivity). assert (V2 : c_fmap c = c_fmap c0) by (subst c; reflexivity).
  split; [intros; apply q_map_inside; rewrite ?V1; assumption|]. split; [intros; apply q_map_inside; rewrite ?V2; assumption|].
  split; [apply q_scalar_inside; exact Hb|]. split; [apply Sc|]. split; [apply Sc|]. split; [apply Sc|]. split; [apply Sc|].
  split; [|auto]. intros B. unfold q_perturbation. destruct (Z.ltb_spec (8 * 3) bytes); [exact I|].
  destruct (Z.eqb_spec (bytes mod (8 * 3)) 0) as [M|M]; cbn [negb]; [|exact I]. assert (bytes = 24) by (revert M; Z.to_euclidean_division_equations; lia). subst bytes.
  destruct (c_perturbation c) as [[x y] z]. intros o v Hv. cbn in Hv. intuition; match goal with H : _ = (o, v) |- _ => injection H as <- <- end; lia.
Qed.

(** False for the faces: a buffer of a multiple of four bytes that does not reach into the last
    face is overrun. *)
Theorem C37_faces_refuted : forall c0 c e bytes seen pre last, fresh c0 -> queried c0 c -> pool_ok e ->
  rows_of (get_vertices_around_face (c_mesh c0)) (zlen (faces (c_mesh c0))) (pre ++ [last]) ->
  zlen (pre ++ [last]) <= 2 ^ 14 -> total (pre ++ [last]) < 2 ^ 32 -> reads_ok (e_pool e) (2 ^ 14) (map zlen (pre ++ [last])) seen ->
  0 <= bytes <= 4 * total pre -> bytes mod 4 = 0 -> overruns (fst (q_face e c seen (Buffer bytes))) bytes.
Proof.
  intros c0 c e bytes seen pre last F Q P Rf Hn Ht Rd Hb M. destruct (queried_mesh _ _ Q F) as (Em & C & Co). rewrite <- Em in Rf.
  pose proof (face_rows_is _ _ C Rf) as Ef. pose proof (total_app pre [last]) as Ta. pose proof (total_nonneg [last]).
  rewrite (q_face_one_block e c seen _ bytes C Co P Ef Rf Ht Hn Rd M) by lia.
  assert (Db : bytes = 4 * (bytes / 4)) by (pose proof (Z.div_mod bytes 4); lia).
  destruct (copy_faces_over (e_flip e) (bytes / 4) last pre) with (off := 0) as (o & v & Ho & Hg); try lia.
  { intros r Hr. pose proof (row_nonempty _ _ _ r C eq_refl Rf Hr) as L3. destruct r; [cbn in L3; lia|discriminate]. }
  exists 4, [copy_faces (e_flip e) (bytes / 4) 0 (pre ++ [last])], o, v. split; [reflexivity|]. cbn [concat]. rewrite app_nil_r. split; [exact Ho|]. lia.
Qed.

(** False for the sizes, the adjacent faces and the edges: every buffer that passes the
    divisibility test and is too small is overrun. *)
Theorem C37_sizes_refuted : forall c0 c e bytes, fresh c0 -> queried c0 c -> pool_ok e ->
  0 <= bytes < 4 * zlen (faces (c_mesh c0)) -> bytes mod 4 = 0 ->
  overruns (fst (q_face_size e c (Buffer bytes))) bytes /\ overruns (fst (q_adj_size e c (Buffer bytes))) bytes.
Proof.
  intros c0 c e bytes F Q P Hb M. destruct (queried_mesh _ _ Q F) as (Em & C & Co). rewrite <- Em in Hb.
  destruct (face_rows_ok _ C) as (frows & Ef & Rf). destruct (adj_rows_ok _ C) as (arows & Ea & Ra). pose proof (rows_len _ _ _ C Rf). pose proof (rows_len _ _ _ C Ra).
  unfold q_face_size, q_adj_size. rewrite Ef, Ea, no_removed_faces by exact C. split.
  - rewrite <- (proj1 Rf) in Hb |- *. pose proof (q_sizes_over (e_pool e) frows (c_fsize c) bytes) as O.
    destruct (q_sizes _ _ _ _ _) as [r l]. cbn [fst] in *. apply O; try assumption.
    intros x Ex. destruct (proj1 Co x Ex) as (y & Ey & ->). congruence.
  - rewrite <- (proj1 Ra) in Hb |- *. pose proof (q_sizes_over (e_pool e) arows (c_asize c) bytes) as O.
    destruct (q_sizes _ _ _ _ _) as [r l]. cbn [fst] in *. apply O; try assumption.
    intros x Ex. destruct (proj2 Co x Ex) as (y & Ey & ->). congruence.
Qed.

Lemma q_adj_bytes e c seen b b' : b mod 4 = 0 -> b' mod 4 = 0 -> q_adj e c seen (Buffer b) = q_adj e c seen (Buffer b').
Proof. intros M M'. unfold q_adj. destruct (adj_rows _); [|reflexivity]. rewrite M, M'. reflexivity. Qed.

Theorem C37_adjacent_faces_refuted : forall c0 c e arows bytes seen, fresh c0 -> queried c0 c -> pool_ok e ->
  rows_of (get_faces_around_face (c_mesh c0)) (zlen (faces (c_mesh c0))) arows -> total arows < 2 ^ 32 ->
  reads_ok (e_pool e) 1024 (map zlen arows) seen ->
  0 <= bytes < 4 * total arows -> bytes mod 4 = 0 -> overruns (fst (q_adj e c seen (Buffer bytes))) bytes.
Proof.
  intros c0 c e arows bytes seen F Q P Ra Ht Rd Hb M. destruct (C36_adjacent_faces c0 c e arows seen F Q P Ra Ht Rd) as [_ Fi].
  rewrite (q_adj_bytes e c seen bytes (4 * zlen (concat arows)) M) by (rewrite Z.mul_comm; apply Z.mod_mul; lia).
  eapply fills_over; [exact Fi|exact Hb|lia].
Qed.

Theorem C37_edges_refuted : forall c0 c e bytes, fresh c0 -> queried c0 c -> pool_ok e ->
  0 <= bytes < 8 * number_of_edges (c_mesh c0) -> bytes mod 8 = 0 -> overruns (q_edge e c (Buffer bytes)) bytes.
Proof.
  intros c0 c e bytes F Q P Hb M. destruct (queried_mesh _ _ Q F) as (Em & C & Co). rewrite <- Em in Hb.
  destruct (q_edge_stores e c bytes C P) as (ts & Es & Ec); try lia. rewrite Es. eapply store_all_over; [exact Ec| |lia|lia].
  rewrite flat2_len, edge_list_len by apply C. lia.
Qed.

(** False for vertices and seam vertices copied by several threads, and for empty buffers of the
    perturbation vector and of the seam vertices. *)
Theorem C37_several_threads_refuted : forall c0 c e n, fresh c0 -> queried c0 c -> pool_ok e -> 1 <= e_pool e -> 0 <= n ->
  (1024 < zlen (verts (c_mesh c0)) -> 4 * n < zlen (verts (c_mesh c0)) ->
     overruns (q_vertex_double e c (Buffer (24 * n))) (24 * n) /\ overruns (q_vertex_float e c (Buffer (12 * n))) (12 * n)) /\
  (c_type c0 <> TYPE_INPUT -> 1024 < zlen (c_seam c0) < 2 ^ 31 -> 4 * n < zlen (c_seam c0) ->
     overruns (q_seam_vertex e c (Buffer (4 * n))) (4 * n)).
Proof.
  intros c0 c e n F Q P Hp Hn. destruct (queried_mesh _ _ Q F) as (Em & C & Co). rewrite <- Em. split.
  - intros H1 H2. split; [apply q_vertex_double_over|apply q_vertex_float_over]; assumption.
  - destruct (queried_same _ _ Q F) as (_ & f & a & Ec). intros T S1 S2. subst c. apply q_seam_over; assumption.
Qed.
Theorem C37_empty_buffer_refuted : forall c0 c e, fresh c0 -> queried c0 c -> pool_ok e ->
  overruns (q_perturbation c (Buffer 0)) 0 /\
  (c_type c0 <> TYPE_INPUT -> c_seam c0 <> [] -> zlen (c_seam c0) < 2 ^ 31 -> overruns (q_seam_vertex e c (Buffer 0)) 0).
Proof.
  intros c0 c e F Q P. destruct (queried_same _ _ Q F) as (_ & f & a & ->). split; [apply q_perturbation_over|].
  intros T N S. apply q_seam_over_zero; assumption.
Qed.

(** ** Instances: components with any number of triangles, and the largest race *)

Definition fan_component (m : hmesh) : cc :=
  CC TYPE_FRAGMENT m [0; 1] [0; 1; 2] [0] (0, 0, 0) 1 1 1 1 [] [] [] [] 3 3 1 1 None None.
Lemma fan_fresh m : component_mesh m -> fresh (fan_component m).
Proof. intros C. split; [exact C|split; reflexivity]. Qed.

Definition fan_rows (n : nat) : list (list Z) := map (fun i => [i + 1; i + 2; 0]) (zrange (Z.of_nat n)).
Lemma zlen_zrange n : 0 <= n -> zlen (zrange n) = n.
Proof. intros H. unfold zlen, zrange. rewrite map_length, seq_length. lia. Qed.
Lemma vget_zrange n i : 0 <= i < n -> vget (zrange n) i = Some i.
Proof.
  intros H. unfold vget. destruct (Z.ltb_spec i 0); [lia|]. unfold zrange. rewrite nth_error_map, (nth_error_nth' _ O) by (rewrite seq_length; lia).
  cbn. rewrite seq_nth by lia. f_equal. lia.
Qed.
Lemma fan_rows_of m n : zlen (faces m) = Z.of_nat n -> (forall i, 0 <= i < Z.of_nat n -> get_vertices_around_face m i = Some [i + 1; i + 2; 0]) ->
  rows_of (get_vertices_around_face m) (zlen (faces m)) (fan_rows n).
Proof.
  intros L H. rewrite L. split; [unfold fan_rows; rewrite zlen_map; apply zlen_zrange; lia|]. intros i Hi. rewrite H by exact Hi.
  unfold fan_rows. rewrite DispatchCand.vget_map, vget_zrange by exact Hi. reflexivity.
Qed.
Lemma fan_total n : total (fan_rows n) = 3 * Z.of_nat n.
Proof.
  unfold fan_rows. rewrite <- (zlen_zrange (Z.of_nat n)) at 2 by lia. induction (zrange (Z.of_nat n)) as [|x l IH]; [reflexivity|].
  cbn [map]. rewrite total_cons, IH. rewrite !zlen_cons, zlen_nil. lia.
Qed.

(** 16385 triangles and two helper threads: all the hypotheses of the refutation hold. *)
Example C36_race_instance : exists c e frows, fresh c /\ queried c c /\ pool_ok e /\
  rows_of (get_vertices_around_face (c_mesh c)) (zlen (faces (c_mesh c))) frows /\ total frows < 2 ^ 32 /\
  2 <= e_pool e /\ 2 ^ 14 < zlen frows <= 2 ^ 15.
Proof.
  destruct (fan_mesh (Z.to_nat 16385)) as (m & C & Lf & Lv & Hr); [lia|lia|].
  exists (fan_component m), (Env 2 false (fun x => x)), (fan_rows (Z.to_nat 16385)). split; [apply fan_fresh; exact C|]. split; [constructor|].
  split; [unfold pool_ok; cbn; lia|]. split; [apply fan_rows_of; assumption|]. rewrite fan_total. split; [lia|]. split; [cbn; lia|].
  unfold fan_rows. rewrite zlen_map, zlen_zrange by lia. lia.
Qed.

(** For every component and number of threads there are possible values to be read. *)
Example reads_exist : forall pool grain sizes, 1 <= zlen sizes < 2 ^ 31 -> 0 <= pool < 2 ^ 32 - 1 -> 1 <= grain <= 2 ^ 20 -> all_u32 sizes ->
  exists seen, reads_ok pool grain sizes seen.
Proof.
  intros pool grain sizes Hl Hp Hg Hu. destruct (sum_cfg_good pool (zlen sizes)) as (cf & Ec & G & HL & _); try lia.
  destruct (drive_range cf sizes G HL Hu (Z.to_nat (ParSumModel.c_n cf)) (sinit sizes) 0) as (s & R & Fn & _); [constructor|lia|destruct G; lia|intros; left; reflexivity|].
  pose proof (sreach_inv cf sizes G HL Hu s R) as I. destruct (par_blocks_ok pool (zlen sizes) grain) as (bs & n & b & Eb & Ch & Pb & _ & Ln & Hn & _); try lia.
  exists (fun k => match vget bs k with Some x => match vget (smem s) (bfirst x) with Some y => y | None => 0 end | None => 0 end).
  intros bs' k x Eb' Vx. assert (bs' = bs) by congruence. subst bs'. exists cf, s. split; [exact Ec|]. split; [exact R|].
  assert (N1 : 1 <= ParSumModel.c_n cf) by (destruct G; lia).
  split; [apply Fn; lia|]. pose proof (vget_Some_range _ _ _ Vx) as Rk. split; [intros; apply Fn; lia|]. rewrite Vx.
  assert (B : 0 <= bfirst x < zlen sizes).
  { pose proof (Pb x (vget_In _ _ _ Vx)) as Lt. assert (Gc : forall l a z, chain a l z -> In x l -> a <= bfirst x /\ blast x <= z).
    { clear. induction l as [|y l IH]; intros a z C H; [destruct H|]. cbn in C. destruct C as (E1 & E2 & C). destruct H as [->|H].
      - apply chain_le in C. lia.
      - destruct (IH _ _ C H). lia. }
    destruct (Gc bs 0 (zlen sizes) Ch (vget_In _ _ _ Vx)). lia. }
  destruct (vget_range_Some (smem s) (bfirst x)) as [y Vy]; [rewrite (si_len _ _ _ I); lia|]. rewrite Vy. reflexivity.
Qed.

(** A component of five triangles meets the hypotheses of C37 - C39, for any number of threads. *)
Example C37_instance : exists c frows, fresh c /\ queried c c /\
  rows_of (get_vertices_around_face (c_mesh c)) (zlen (faces (c_mesh c))) (frows ++ [[5; 6; 0]]) /\ zlen frows = 4 /\ total frows = 12 /\
  forall e, pool_ok e -> face_copy_safe (e_pool e) 5 /\ one_block e 7 /\
    (exists seen, reads_ok (e_pool e) (2 ^ 14) (map zlen (frows ++ [[5; 6; 0]])) seen) /\
    overruns (q_edge e c (Buffer 8)) 8 /\ overruns (fst (q_face_size e c (Buffer 4))) 4.
Proof.
  destruct (fan_mesh 5) as (m & C & Lf & Lv & Hr); [lia|lia|]. pose proof (fan_rows_of m 5 Lf Hr) as Rf.
  exists (fan_component m), (fan_rows 4). change (fan_rows 4 ++ [[5; 6; 0]]) with (fan_rows 5).
  pose proof (fan_fresh m C) as F. split; [exact F|]. split; [constructor|]. split; [exact Rf|]. split; [reflexivity|]. split; [reflexivity|].
  intros e P. split; [left; lia|]. split; [left; lia|]. split; [|split].
  - apply reads_exist; try (apply P); try lia; [change (zlen (map zlen (fan_rows 5))) with 5; lia|]. apply sizes_u32. rewrite fan_total. lia.
  - apply (C37_edges_refuted (fan_component m)); try assumption; [constructor|split; [lia|]|reflexivity].
    pose proof (face_row_mesh m (fan_rows 5) 0 [1; 2; 0] C Rf eq_refl) as (hs & E & T & L3 & Lh & _).
    assert (E1 : 1 < number_of_edges m); [|cbn [c_mesh fan_component]; lia].
    rewrite <- (edge_list_len m (cm_history m C)).
    pose proof (face_row_edges m (fan_rows 5) 0 [1; 2; 0] C Rf eq_refl 1 2 ltac:(cbn; auto)) as H1.
    pose proof (face_row_edges m (fan_rows 5) 0 [1; 2; 0] C Rf eq_refl 2 0 ltac:(cbn; auto)) as H2.
    destruct (edge_list m) as [|p [|q l]].
    + destruct H1 as [[]|[]].
    + cbn in H1, H2. exfalso. destruct H1 as [[H1|[]]|[H1|[]]]; destruct H2 as [[H2|[]]|[H2|[]]]; congruence.
    + rewrite !zlen_cons. pose proof (zlen_nonneg l). lia.
  - apply (C37_sizes_refuted (fan_component m)); try assumption; [constructor|cbn [c_mesh fan_component]; lia|reflexivity].
Qed.

Print Assumptions C36_faces_partial. Print Assumptions C36_face_race_refuted. Print Assumptions C38_arrays_partial.
Print Assumptions C39_faces_partial. Print Assumptions C37_inside_partial. Print Assumptions C37_faces_refuted.
