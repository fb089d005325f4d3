(** The tables of the blocks, and the executions of the threads. *)
From Coq Require Import List Arith Bool Lia Permutation Sorting.
From Verif Require Import CutModel CutProofs SplitModel SplitProofs PointsModel PointsSpec PointsProofs.
Import ListNotations.

Section Points.
Variables (psf : nat -> option nat * option nat) (sm_face_count : nat) (cut_vertex : nat -> bool) (tests : nat -> nat -> result) (cnt : nat).
Variable shuffle : forall A, list (nat * A) -> list (nat * A).
Variable shuffle2 : forall A, list ((nat * nat) * A) -> list ((nat * nat) * A).
Hypothesis SH : forall A (m : list (nat * A)), Permutation (shuffle A m) m.
Hypothesis SH2 : forall A (m : list ((nat * nat) * A)), Permutation (shuffle2 A m) m.
Notation hit := (nat * nat)%type.
Notation add_point := (add_point psf sm_face_count cut_vertex). Notation points_of_edge := (points_of_edge psf sm_face_count cut_vertex tests).
Notation points_of_block := (points_of_block psf sm_face_count cut_vertex tests). Notation merge_tables := (merge_tables cnt shuffle shuffle2). Notation of_master := (of_master cnt).
Notation face_pairs := (face_pairs psf sm_face_count). Notation point_faces := (point_faces psf).

Definition edge_key (k : nat) (x : hit) : bool := Nat.eqb k (fst x).
Definition face_key (k : nat) (x : hit) : bool := existsb (Nat.eqb k) (point_faces (fst x) (snd x)).
Definition pair_key (k : nat * nat) (x : hit) : bool := existsb (pair_eqb k) (face_pairs (fst x) (snd x)).
Definition border_key (x : hit) : bool := belongs_to_cm psf sm_face_count (fst x) && is_border_edge psf (fst x).
Definition partial_key (x : hit) : bool := cut_vertex (fst x) && is_border_edge psf (fst x).
Definition good (x : hit) : Prop := NoDup (point_faces (fst x) (snd x)).
Record T (b : nat) (h : list hit) (t : tables) : Prop := {
  t_registry : registry t = h;
  t_coordinates : map Hit (coordinates t) = map (fun x => tests (fst x) (snd x)) h;
  t_border : border t = numbers border_key b h;
  t_edges : TI Nat.eqb edge_key b h (on_edges t);
  t_between : TI pair_eqb pair_key b h (between t);
  t_faces : TI Nat.eqb face_key b h (on_faces t);
  t_partial : partial_cut t = existsb partial_key h }.
Lemma T_nil b : T b [] no_points.
Proof. constructor; try reflexivity; apply TI_nil. Qed.
Lemma T_length b h t : T b h t -> length (coordinates t) = length h.
Proof. intros H. rewrite <- (map_length Hit), (t_coordinates _ _ _ H), map_length. reflexivity. Qed.
Lemma make_pair_inj f a c : make_pair f a = make_pair f c \/ make_pair f a = make_pair c f \/ make_pair a f = make_pair c f -> a = c.
Proof. unfold make_pair. destruct (Nat.ltb_spec f a), (Nat.ltb_spec f c), (Nat.ltb_spec a f), (Nat.ltb_spec c f); intros [H'|[H'|H']]; inversion H'; lia. Qed.
Lemma good_pairs e f : good (e, f) -> NoDup (face_pairs e f).
Proof.
  unfold good, PointsModel.point_faces, PointsModel.face_pairs, edge_face, other_face. cbn [fst snd]. intros N. assert (M : match fst (psf e), snd (psf e) with Some a, Some c => a <> c | _, _ => True end).
  { destruct (fst (psf e)), (snd (psf e)); auto. cbn in N. inversion_clear N as [|? ? _ N']. inversion_clear N' as [|? ? N'' _]. intros ->. apply N''. left. reflexivity. }
  destruct (belongs_to_cm psf sm_face_count e); destruct (fst (psf e)), (snd (psf e)); cbn; repeat constructor; first [intros []; fail|intros [E|[]]; apply M; symmetry; eapply make_pair_inj; eauto].
Qed.
Lemma add_point_spec h t e f p : T 0 h t -> good (e, f) -> tests e f = Hit p -> T 0 (h ++ [(e, f)]) (add_point t e f p).
Proof.
  intros H G E. pose proof (T_length _ _ _ H) as L. constructor; cbn [registry coordinates border on_edges between on_faces partial_cut PointsModel.add_point]; rewrite ?L.
  - rewrite (t_registry _ _ _ H). reflexivity.
  - rewrite !map_app, (t_coordinates _ _ _ H). cbn. rewrite E. reflexivity.
  - rewrite numbers_app. cbn [numbers]. unfold border_key at 2. cbn [fst]. rewrite (t_border _ _ _ H). destruct (_ && _); [reflexivity|]. cbn. rewrite app_nil_r. reflexivity.
  - apply (TI_add Nat.eqb Nat.eqb_eq edge_key 0 h (on_edges t) (e, f) [e] (t_edges _ _ _ H)); [repeat constructor; intros []|]. intros k. cbn. rewrite orb_false_r. reflexivity.
  - apply (TI_add pair_eqb pair_eqb_eq pair_key 0 h (between t) (e, f) (face_pairs e f) (t_between _ _ _ H)); [apply good_pairs, G|reflexivity].
  - apply (TI_add Nat.eqb Nat.eqb_eq face_key 0 h (on_faces t) (e, f) (point_faces e f) (t_faces _ _ _ H)); [exact G|reflexivity].
  - rewrite existsb_app, (t_partial _ _ _ H). cbn. rewrite orb_false_r. unfold partial_key at 3. cbn. destruct (existsb partial_key h); reflexivity.
Qed.
Definition is_hit (e f : nat) : bool := match tests e f with Hit _ => true | _ => false end.
Definition is_violation (e f : nat) : bool := match tests e f with Violation => true | _ => false end.
Definition hits (block : list (nat * list nat)) : list hit := flat_map (fun p => map (fun f => (fst p, f)) (filter (is_hit (fst p)) (snd p))) block.
Definition violated (block : list (nat * list nat)) : bool := existsb (fun p => existsb (is_violation (fst p)) (snd p)) block.
Definition fine (block : list (nat * list nat)) : Prop := forall e fs f, In (e, fs) block -> In f fs -> good (e, f).
Lemma points_of_edge_spec e fs : forall h t, T 0 h t -> (forall f, In f fs -> good (e, f)) ->
  match points_of_edge e fs t with
  | Some t' => existsb (is_violation e) fs = false /\ T 0 (h ++ map (fun f => (e, f)) (filter (is_hit e) fs)) t'
  | None => existsb (is_violation e) fs = true end.
Proof.
  induction fs as [|f fs IH]; intros h t H G; cbn [PointsModel.points_of_edge existsb filter map]; [rewrite app_nil_r; auto|]. unfold is_violation at 1 3, is_hit at 1. destruct (tests e f) as [| |p] eqn:E; cbn [orb].
  - apply IH; [exact H|]. intros; apply G; right; assumption.
  - reflexivity.
  - specialize (IH (h ++ [(e, f)]) (add_point t e f p) (add_point_spec h t e f p H (G f (or_introl eq_refl)) E) (fun f' I => G f' (or_intror I))). destruct (points_of_edge e fs _); [|exact IH]. destruct IH as [I1 I2]. split; [exact I1|]. cbn [map]. rewrite <- app_assoc in I2. exact I2.
Qed.
Lemma points_of_block_spec block : fine block -> match points_of_block block with Some t => violated block = false /\ T 0 (hits block) t | None => violated block = true end.
Proof.
  intros F. unfold PointsModel.points_of_block.
  assert (G : forall block h t, fine block -> T 0 h t -> match fold_left (fun t p => let* t := t in points_of_edge (fst p) (snd p) t) block (Some t) with Some t' => violated block = false /\ T 0 (h ++ hits block) t' | None => violated block = true end);
    [|apply (G block [] no_points F), T_nil].
  clear block F. induction block as [|[e fs] block IH]; intros h t F H; cbn [fold_left hits flat_map violated existsb]; [rewrite app_nil_r; auto|]. cbn [bind fst snd].
  pose proof (points_of_edge_spec e fs h t H (fun f I => F e fs f (or_introl eq_refl) I)) as P. destruct (points_of_edge e fs t) as [t1|].
  - destruct P as [P1 P2]. rewrite P1. cbn [orb]. rewrite app_assoc. apply IH; [|exact P2]. intros e' fs' f I J. exact (F e' fs' f (or_intror I) J).
  - rewrite P. cbn [orb]. assert (Z : fold_left (fun (t : option tables) (p : nat * list nat) => let* t0 := t in points_of_edge (fst p) (snd p) t0) block None = None) by (clear; induction block as [|p block IH]; [reflexivity|exact IH]). rewrite Z. reflexivity.
Qed.
Lemma of_master_spec h t : T 0 h t -> T cnt h (of_master t).
Proof.
  intros H. constructor; cbn; try apply H.
  - rewrite (t_border _ _ _ H), <- numbers_shift, Nat.add_0_r. reflexivity.
  - apply TI_shift, H.
  - apply TI_shift, H.
  - apply TI_shift, H.
Qed.
Lemma merge_tables_spec h t h' f : T cnt h t -> T 0 h' f -> (forall x y, In x h -> In y h' -> fst x <> fst y) -> T cnt (h ++ h') (merge_tables t f).
Proof.
  intros H H' D. pose proof (T_length _ _ _ H) as L. constructor; cbn [registry coordinates border on_edges between on_faces partial_cut PointsModel.merge_tables]; rewrite ?L.
  - rewrite (t_registry _ _ _ H), (t_registry _ _ _ H'). reflexivity.
  - rewrite !map_app, (t_coordinates _ _ _ H), (t_coordinates _ _ _ H'). reflexivity.
  - rewrite numbers_app, (t_border _ _ _ H), (t_border _ _ _ H'), <- numbers_shift, Nat.add_0_r. reflexivity.
  - apply (TI_merge Nat.eqb Nat.eqb_eq edge_key cnt h (on_edges t) h' (on_edges f)); [apply H|apply H'|apply SH|]. right. intros k. rewrite (proj2 (t_edges _ _ _ H)), (proj2 (t_edges _ _ _ H')).
    destruct (numbers (edge_key k) cnt h) as [|x r] eqn:E; [left; reflexivity|right]. rewrite numbers_none; [reflexivity|]. intros y I. assert (J : In x (numbers (edge_key k) cnt h)) by (rewrite E; left; reflexivity). apply numbers_In in J. destruct J as (_ & z & J1 & J2). apply nth_error_In in J1. unfold edge_key in *. apply Nat.eqb_eq in J2. apply Nat.eqb_neq. rewrite J2. apply D; assumption.
  - apply (TI_merge pair_eqb pair_eqb_eq pair_key cnt h (between t) h' (between f)); [apply H|apply H'|apply SH2|left; reflexivity].
  - apply (TI_merge Nat.eqb Nat.eqb_eq face_key cnt h (on_faces t) h' (on_faces f)); [apply H|apply H'|apply SH|left; reflexivity].
  - rewrite existsb_app, (t_partial _ _ _ H), (t_partial _ _ _ H'). destruct (_ || _); reflexivity.
Qed.

(** ** Executions *)
Section Run.
Variable blocks : list (list (nat * list nat)).
Hypothesis NE : blocks <> [].
Notation step := (step psf sm_face_count cut_vertex tests cnt shuffle shuffle2 blocks).
Notation execute := (execute psf sm_face_count cut_vertex tests cnt shuffle shuffle2 blocks).
Notation outcome := (outcome cnt).
Definition n := length blocks.
Definition pob (i : nat) : option tables := match nth_error blocks i with Some b => points_of_block b | None => None end.
Lemma replace_length {A} (l : list A) i a : i < length l -> length (replace l i a) = length l.
Proof. intros L. unfold replace. rewrite app_length, firstn_length. cbn [length]. rewrite skipn_length. lia. Qed.
Lemma nth_replace {A} (l : list A) i a j : i < length l -> nth_error (replace l i a) j = if Nat.eqb j i then Some a else nth_error l j.
Proof.
  intros L. unfold replace. assert (F : length (firstn i l) = i) by (rewrite firstn_length; lia). destruct (Nat.eqb_spec j i) as [->|N].
  - rewrite nth_error_app2 by lia. rewrite F, Nat.sub_diag. reflexivity.
  - destruct (Nat.lt_ge_cases j i) as [A1|A1].
    + rewrite nth_error_app1 by lia. rewrite <- (firstn_skipn i l) at 2. rewrite nth_error_app1 by lia. reflexivity.
    + rewrite nth_error_app2 by lia. rewrite F. destruct (j - i) as [|d] eqn:E; [lia|]. cbn [nth_error]. rewrite <- (firstn_skipn (S i) l) at 2. rewrite nth_error_app2; rewrite firstn_length; [|lia]. f_equal. lia.
Qed.
(** the tables after merging the first k futures *)
Fixpoint merged_tables (k : nat) : option tables :=
  match k with
  | O => option_map of_master (pob (n - 1))
  | S k' => match merged_tables k', pob k' with Some t, Some f => Some (merge_tables t f) | _, _ => None end
  end.
Definition done (r : run) (i : nat) : Prop := exists t, nth_error (phases r) i = Some (Done t).
Record RI (r : run) : Prop := {
  r_length : length (phases r) = n;
  r_bad : okay r = false -> exists i, i < n /\ pob i = None;
  r_done : forall i t, nth_error (phases r) i = Some (Done t) -> okay r = true -> pob i = Some t;
  r_running : forall i, i < n -> pob i = None -> done r i -> okay r = false;
  r_merged : merged r <= n - 1;
  r_before : 0 < merged r -> done r (n - 1) /\ forall i, i < merged r -> done r i;
  r_acc : 0 < merged r -> okay r = true -> merged_tables (merged r) = Some (acc r);
  r_seen : 0 < merged r -> merged r = n - 1 -> seen r = okay r }.
Lemma RI_initial : RI (initial n).
Proof.
  assert (P : forall i t, nth_error (repeat Waiting n) i <> Some (Done t)) by (intros i t E; apply nth_error_In, repeat_spec in E; discriminate).
  constructor; cbn [initial okay phases merged acc seen]; try lia.
  - apply repeat_length.
  - intros i t E. destruct (P i t E).
  - intros i L N (t & E). destruct (P i t E).
Qed.
Lemma step_RI r ev r' : RI r -> step r ev = Some r' -> RI r'.
Proof.
  intros H E. destruct ev as [i|i|]; cbn [PointsModel.step] in E.
  - destruct (nth_error (phases r) i) as [[| |t]|] eqn:P; try discriminate. injection E as <-. assert (L : i < length (phases r)) by (apply nth_error_Some; congruence).
    assert (M : 0 < merged r -> i <> n - 1 /\ merged r <= i). { intros Z. destruct (r_before r H Z) as ((t & A) & B). split; [intros ->; congruence|]. destruct (Nat.lt_ge_cases i (merged r)) as [C|C]; [|exact C]. destruct (B i C) as (t' & C'). congruence. }
    assert (KD : forall j, done r j -> j <> i /\ done {| okay := okay r; phases := replace (phases r) i (if okay r then Running else Done no_points); merged := merged r; acc := acc r; seen := seen r |} j).
    { intros j (t & A). assert (j <> i) by (intros ->; congruence). split; [assumption|]. exists t. cbn. rewrite nth_replace by exact L. destruct (Nat.eqb_spec j i); [contradiction|exact A]. }
    constructor; cbn [okay phases merged acc seen].
    + rewrite replace_length by exact L. apply H.
    + apply H.
    + intros j t J O. rewrite nth_replace in J by exact L. destruct (Nat.eqb_spec j i) as [->|N]; [rewrite O in J; discriminate|]. exact (r_done r H j t J O).
    + intros j J N (t & D). cbn in D. rewrite nth_replace in D by exact L. destruct (Nat.eqb_spec j i) as [->|X]; [destruct (okay r); [discriminate|reflexivity]|]. apply (r_running r H j J N). exists t. exact D.
    + apply H.
    + intros Z. destruct (r_before r H Z) as (A & B). split; [apply KD, A|]. intros j J. apply KD, B, J.
    + apply H.
    + apply H.
  - destruct (nth_error (phases r) i) as [[| |t]|] eqn:P; try discriminate. destruct (nth_error blocks i) as [b|] eqn:EB; [|discriminate]. assert (L : i < length (phases r)) by (apply nth_error_Some; congruence).
    assert (PB : pob i = points_of_block b) by (unfold pob; rewrite EB; reflexivity).
    assert (M : 0 < merged r -> merged r < n - 1). { intros Z. destruct (r_before r H Z) as ((t & A) & B). assert (i <> n - 1) by (intros ->; congruence). assert (~ i < merged r) by (intros C; destruct (B i C) as (t' & C'); congruence). pose proof (r_length r H). lia. }
    assert (KD : forall j o t', done r j -> done {| okay := o; phases := replace (phases r) i (Done t'); merged := merged r; acc := acc r; seen := seen r |} j).
    { intros j o t' (t & A). unfold done. cbn. rewrite nth_replace by exact L. destruct (Nat.eqb j i); eauto. }
    assert (LI : i < n) by (rewrite <- (r_length r H); exact L).
    destruct (points_of_block b) as [t|] eqn:PT; injection E as <-; constructor; cbn [okay phases merged acc seen].
    + rewrite replace_length by exact L. exact (r_length r H).
    + exact (r_bad r H).
    + intros j t' J O. rewrite nth_replace in J by exact L. destruct (Nat.eqb_spec j i) as [->|N]; [injection J as <-; exact PB|]. exact (r_done r H j t' J O).
    + intros j J N (t' & D). cbn in D. rewrite nth_replace in D by exact L. destruct (Nat.eqb_spec j i) as [->|X]; [congruence|]. apply (r_running r H j J N). exists t'. exact D.
    + exact (r_merged r H).
    + intros Z. destruct (r_before r H Z) as (A & B). split; [apply KD, A|]. intros j J. apply KD, B, J.
    + exact (r_acc r H).
    + exact (r_seen r H).
    + rewrite replace_length by exact L. exact (r_length r H).
    + intros _. exists i. auto.
    + intros; discriminate.
    + intros; reflexivity.
    + exact (r_merged r H).
    + intros Z. destruct (r_before r H Z) as (A & B). split; [apply KD, A|]. intros j J. apply KD, B, J.
    + intros; discriminate.
    + intros Z1 Z2. specialize (M Z1). lia.
  - rewrite (r_length r H) in E. destruct (nth_error (phases r) (n - 1)) as [[| |own]|] eqn:P; try discriminate. destruct (nth_error (phases r) (merged r)) as [[| |t]|] eqn:Q; try discriminate.
    destruct (Nat.ltb_spec (merged r) (n - 1)) as [L|L]; [|discriminate]. injection E as <-. constructor; cbn [okay phases merged acc seen]; [exact (r_length r H)|exact (r_bad r H)|exact (r_done r H)|exact (r_running r H)|lia| | |].
    + intros _. split; [exists own; exact P|]. intros j J. destruct (Nat.eq_dec j (merged r)) as [->|N]; [exists t; exact Q|]. apply (r_before r H); lia.
    + intros _ O. rewrite O. cbn [merged_tables]. rewrite (r_done r H _ _ Q O). destruct (merged r) as [|k] eqn:EM; [cbn [merged_tables]; rewrite (r_done r H _ _ P O); reflexivity|]. rewrite <- EM, (r_acc r H) by (lia || exact O). reflexivity.
    + reflexivity.
Qed.
Lemma execute_RI evs r : execute evs = Some r -> RI r.
Proof.
  unfold PointsModel.execute. assert (G : forall evs r0, RI r0 -> fold_left (fun r ev => let* r := r in step r ev) evs (Some r0) = Some r -> RI r); [|apply G, RI_initial].
  clear evs. induction evs as [|ev evs IH]; intros r0 H E; [injection E as <-; exact H|]. cbn [fold_left bind] in E. destruct (step r0 ev) as [r1|] eqn:S1.
  - apply (IH r1); [exact (step_RI r0 ev r1 H S1)|exact E].
  - exfalso. clear - E. induction evs as [|x evs IH]; [discriminate|exact (IH E)].
Qed.
Lemma n_pos : 0 < n. Proof. unfold n. destruct blocks; [congruence|cbn; lia]. Qed.
(** what an execution that has come to its end returns *)
Lemma outcome_spec r o : RI r -> outcome r = Some o ->
  match o with
  | None => exists i, i < n /\ pob i = None
  | Some t => (forall i, i < n -> pob i <> None) /\ merged_tables (n - 1) = Some t
  end.
Proof.
  intros H E. unfold PointsModel.outcome in E. pose proof n_pos as NP. rewrite (r_length r H) in E. destruct (Nat.eqb_spec (merged r) (n - 1)) as [M|M]; [|discriminate]. destruct (nth_error (phases r) (n - 1)) as [[| |own]|] eqn:P; try discriminate.
  destruct (Nat.eqb_spec n 1) as [N1|N1].
  - destruct (okay r) eqn:O; injection E as <-; [|exact (r_bad r H O)]. replace (n - 1) with 0 in * by lia. split.
    + intros i L. replace i with 0 by lia. rewrite (r_done r H _ _ P O). discriminate.
    + cbn [merged_tables]. replace (n - 1) with 0 by lia. rewrite (r_done r H _ _ P O). reflexivity.
  - assert (Z : 0 < merged r) by lia. rewrite (r_seen r H Z M) in E. destruct (okay r) eqn:O; injection E as <-; [|exact (r_bad r H O)]. destruct (r_before r H Z) as (A & B). split.
    + intros i L X. assert (D : done r i) by (destruct (Nat.eq_dec i (n - 1)) as [->|]; [exact A|apply B; lia]). pose proof (r_running r H i L X D). congruence.
    + rewrite <- M. apply (r_acc r H Z O).
Qed.
(** *** an execution ends *)
Definition todo (p : phase) : nat := match p with Waiting => 2 | Running => 1 | Done _ => 0 end.
Definition measure (r : run) : nat := list_sum (map todo (phases r)) + (n - 1 - merged r).
Lemma replace_sum l i p q : nth_error l i = Some p -> list_sum (map todo (replace l i q)) + todo p = list_sum (map todo l) + todo q.
Proof.
  revert i. induction l as [|x l IH]; intros i E; [destruct i; discriminate|]. destruct i as [|i]; cbn in E.
  - injection E as ->. unfold replace. cbn. lia.
  - specialize (IH i E). change (replace (x :: l) (S i) q) with (x :: replace l i q). cbn [map list_sum fold_right]. unfold list_sum in *. cbn [fold_right]. lia.
Qed.
Lemma step_measure r ev r' : RI r -> step r ev = Some r' -> measure r' < measure r.
Proof.
  intros H E. unfold measure. destruct ev as [i|i|]; cbn [PointsModel.step] in E.
  - destruct (nth_error (phases r) i) as [[| |t]|] eqn:P; try discriminate. injection E as <-. cbn [phases merged]. pose proof (replace_sum _ _ _ (if okay r then Running else Done no_points) P). destruct (okay r); cbn [todo] in *; lia.
  - destruct (nth_error (phases r) i) as [[| |t]|] eqn:P; try discriminate. destruct (nth_error blocks i); [|discriminate]. destruct (points_of_block l) as [t|]; injection E as <-; cbn [phases merged]; [pose proof (replace_sum _ _ _ (Done t) P)|pose proof (replace_sum _ _ _ (Done no_points) P)]; cbn [todo] in *; lia.
  - rewrite (r_length r H) in E. destruct (nth_error (phases r) (n - 1)) as [[| |own]|]; try discriminate. destruct (nth_error (phases r) (merged r)) as [[| |t]|]; try discriminate. destruct (Nat.ltb_spec (merged r) (n - 1)); [|discriminate]. injection E as <-. cbn [phases merged]. lia.
Qed.
Lemma execute_short evs r : execute evs = Some r -> length evs + measure r <= 3 * n - 1.
Proof.
  unfold PointsModel.execute. assert (G : forall evs r0, RI r0 -> fold_left (fun r ev => let* r := r in step r ev) evs (Some r0) = Some r -> length evs + measure r <= measure r0).
  { clear evs. induction evs as [|ev evs IH]; intros r0 H E; [injection E as <-; cbn; lia|]. cbn [fold_left bind length] in *. destruct (step r0 ev) as [r1|] eqn:S1.
    - specialize (IH r1 (step_RI r0 ev r1 H S1) E). pose proof (step_measure r0 ev r1 H S1). lia.
    - exfalso. clear - E. induction evs as [|x evs IH]; [discriminate|exact (IH E)]. }
  intros E. specialize (G evs (initial n) RI_initial E). assert (M : measure (initial n) = 3 * n - 1); [|lia]. unfold measure. cbn [phases merged initial]. assert (X : forall k, list_sum (map todo (repeat Waiting k)) = 2 * k) by (induction k as [|k IH]; [reflexivity|]; cbn [repeat map]; unfold list_sum in *; cbn [fold_right todo]; lia). rewrite X. pose proof n_pos. lia.
Qed.
Lemma progress r : RI r -> (forall ev, step r ev = None) -> outcome r <> None.
Proof.
  intros H ST. pose proof n_pos as NP. assert (D : forall i, i < n -> done r i).
  { intros i L. assert (L' : i < length (phases r)) by (rewrite (r_length r H); exact L). destruct (nth_error (phases r) i) as [[| |t]|] eqn:P; [| |exists t; exact P|apply nth_error_None in P; lia]; exfalso.
    - specialize (ST (Start i)). cbn in ST. rewrite P in ST. discriminate.
    - specialize (ST (Finish i)). cbn in ST. rewrite P in ST. destruct (nth_error blocks i) eqn:EB; [|apply nth_error_None in EB; unfold n in L; lia]. destruct (points_of_block l); discriminate. }
  unfold PointsModel.outcome. rewrite (r_length r H). destruct (D (n - 1)) as (own & P); [lia|]. rewrite P. destruct (Nat.eqb_spec (merged r) (n - 1)) as [M|M]; [destruct (Nat.eqb n 1); discriminate|]. exfalso.
  pose proof (r_merged r H). specialize (ST Merge). cbn [PointsModel.step] in ST. rewrite (r_length r H), P in ST. destruct (D (merged r)) as (t & Q); [lia|]. rewrite Q in ST. destruct (Nat.ltb_spec (merged r) (n - 1)); [discriminate ST|lia].
Qed.
End Run.
End Points.
