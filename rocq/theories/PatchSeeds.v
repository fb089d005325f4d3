(** Seeds, adjacency of the patches, locations: proofs. *)
From Coq Require Import List Arith Bool Lia Permutation Relations.
From Verif Require Import CutModel CutProofs ClipModel ClipProofs SplitProofs PatchModel PatchSpec PatchProofs PatchColour.
Import ListNotations.
Open Scope nat_scope.

Section Seeds.
Variables (polygons : list (list nat)) (sm_count c : nat).
Notation side := (side polygons). Notation cm := (cut_mesh_polygon polygons sm_count).
Notation cut := (fun h => h < 2 * c).
Notation un := (uncut_neighbours polygons sm_count opp cut). Notation together := (together polygons sm_count opp cut).

Lemma index_of_spec h l : In h l -> exists i, index_of h l = Some i /\ nth_error l i = Some h.
Proof. induction l as [|x l IH]; [intros []|]. intros I. cbn. destruct (Nat.eqb_spec h x) as [E|E]; [exists 0; subst x; auto|]. destruct I as [I|I]; [congruence|]. destruct (IH I) as (i & X & Y). exists (S i). rewrite X. auto. Qed.
(** the position [snd x] in the cut-mesh polygon [fst x] is the halfedge h *)
Definition seed_at (h : nat) (x : nat * nat) : Prop := cm (fst x) /\ exists polygon, nth_error polygons (fst x) = Some polygon /\ nth_error polygon (snd x) = Some h.
Lemma seed_at_side h x : seed_at h x -> cm (fst x) /\ side (fst x) h.
Proof. intros (C & l & E & I). split; [exact C|]. exists l. split; [exact E|]. apply nth_error_In in I. exact I. Qed.
Lemma seed_ok h : (exists p, cm p /\ side p h) -> exists x, seed_of polygons sm_count h = Some x /\ seed_at h x.
Proof.
  intros (p & C & S). unfold seed_of. destruct (find (fun i => Nat.leb sm_count i) (h_to_ply polygons h)) as [q|] eqn:F.
  - apply find_some in F. destruct F as [F L]. apply Nat.leb_le in L. apply h_to_ply_side in F. destruct F as (l & E & I). cbn [bind]. rewrite E. cbn [bind]. destruct (index_of_spec h l I) as (i & X & Y). rewrite X. cbn [bind]. exists (q, i). split; [reflexivity|]. split; [split; [exact L|apply nth_error_Some; cbn; congruence]|]. exists l. auto.
  - exfalso. apply h_to_ply_side in S. pose proof (find_none _ _ F p S) as Z. cbn in Z. apply Nat.leb_gt in Z. destruct C. lia.
Qed.
Definition pair_at (sequences : list (list nat)) (idx : nat) (x : (nat * nat) * (nat * nat)) : Prop := exists e, starts sequences idx e /\ seed_at (2 * e) (fst x) /\ seed_at (2 * e + 1) (snd x).
Definition unpair (x : (nat * nat) * (nat * nat)) : list (nat * nat) := [fst x; snd x].
Lemma seeds_ok curves sequences : (forall idx, In idx curves -> bordered polygons sm_count cut sequences idx) ->
  exists pairs, seeds_of polygons sm_count curves sequences = Some (flat_map unpair pairs) /\ Forall2 (pair_at sequences) curves pairs.
Proof.
  intros H. unfold seeds_of. assert (G : forall cs acc, (forall idx, In idx cs -> bordered polygons sm_count cut sequences idx) -> exists pairs, fold_left (fun acc idx => let* acc := acc in let* sequence := nth_error sequences idx in let* e := hd_error sequence in let* s0 := seed_of polygons sm_count (2 * e) in let* s1 := seed_of polygons sm_count (2 * e + 1) in Some (acc ++ [s0; s1])) cs (Some acc) = Some (acc ++ flat_map unpair pairs) /\ Forall2 (pair_at sequences) cs pairs).
  { induction cs as [|idx cs IH]; intros acc HC; [exists []; cbn; rewrite app_nil_r; auto|]. destruct (HC idx (or_introl eq_refl)) as (e & (l & E) & _ & B0 & B1). destruct (seed_ok _ B0) as (x0 & E0 & A0). destruct (seed_ok _ B1) as (x1 & E1 & A1).
    cbn [fold_left]. set (st := fold_left _ cs). cbn [bind]. rewrite E. cbn [bind hd_error]. rewrite E0, E1. cbn [bind]. subst st. destruct (IH (acc ++ [x0; x1])) as (pairs & X & F); [intros; apply HC; right; assumption|]. exists ((x0, x1) :: pairs). rewrite X, <- app_assoc. split; [reflexivity|]. constructor; [|exact F]. exists e. split; [exists l; exact E|]. auto. }
  destruct (G curves [] H) as (pairs & X & F). exists pairs. auto.
Qed.
Lemma pairs_In curves sequences pairs x : Forall2 (pair_at sequences) curves pairs -> In x pairs -> exists idx, In idx curves /\ pair_at sequences idx x.
Proof. intros F. induction F as [|i y cs ps A F IH]; [intros []|]. intros [<-|I]; [exists i; cbn; auto|]. destruct (IH I) as (j & J & K). exists j. cbn. auto. Qed.
Lemma curve_In curves sequences pairs idx : Forall2 (pair_at sequences) curves pairs -> In idx curves -> exists x, In x pairs /\ pair_at sequences idx x.
Proof. intros F. induction F as [|i y cs ps A F IH]; [intros []|]. intros [<-|I]; [exists y; cbn; auto|]. destruct (IH I) as (j & J & K). exists j. cbn. auto. Qed.

(** ** Adjacency *)
Definition listed (m : list (nat * list nat)) (k j : nat) : Prop := exists l, lookup m k = Some l /\ In j l.
Lemma push_listed m k e i j : listed (push m k e) i j <-> listed m i j \/ i = k /\ j = e.
Proof.
  unfold listed. rewrite push_lookup. destruct (Nat.eqb_spec i k) as [E|E].
  - subst i. destruct (lookup m k) as [l|]; split.
    + intros (l' & X & I). injection X as <-. apply in_app_iff in I. destruct I as [I|[<-|[]]]; [left; eauto|auto].
    + intros [(l' & X & I)|[_ ->]]; eexists; (split; [reflexivity|]); apply in_app_iff; [left; congruence|right; left; reflexivity].
    + intros (l' & X & I). injection X as <-. destruct I as [<-|[]]. auto.
    + intros [(l' & X & I)|[_ ->]]; [discriminate|]. eexists. split; [reflexivity|]. left. reflexivity.
  - split; [auto|]. intros [A|[A _]]; [exact A|congruence].
Qed.
Definition joined (known : list (nat * nat)) (pairs : list ((nat * nat) * (nat * nat))) (i j : nat) : Prop :=
  exists x, In x pairs /\ (lookup known (fst (fst x)) = Some i /\ lookup known (fst (snd x)) = Some j \/ lookup known (fst (fst x)) = Some j /\ lookup known (fst (snd x)) = Some i).
Lemma joined_sym known pairs i j : joined known pairs i j -> joined known pairs j i.
Proof. intros (x & I & [A|A]); exists x; tauto. Qed.
Lemma adjacency_ok known pairs : (forall x, In x pairs -> (exists i, lookup known (fst (fst x)) = Some i) /\ exists j, lookup known (fst (snd x)) = Some j) ->
  forall m, NoDup (map fst m) -> exists adj, adjacency known (flat_map unpair pairs) m = Some adj /\ NoDup (map fst adj) /\ (forall i j, listed adj i j <-> listed m i j \/ joined known pairs i j) /\
    (forall i, In i (map fst adj) <-> In i (map fst m) \/ exists j, joined known pairs i j).
Proof.
  induction pairs as [|x pairs IH]; intros H m ND.
  - exists m. split; [reflexivity|]. split; [exact ND|]. split; [intros i j; split; [auto|]; intros [A|(x & [] & _)]; exact A|]. intros i. split; [auto|]. intros [A|(j & x & [] & _)]; exact A.
  - destruct (H x (or_introl eq_refl)) as [(i0 & E0) (j0 & E1)]. cbn [flat_map unpair app adjacency]. rewrite E0. cbn [bind]. rewrite E1. cbn [bind]. destruct (IH (fun y I => H y (or_intror I)) (push (push m i0 j0) j0 i0)) as (adj & X & N & L & K); [apply push_NoDup, push_NoDup, ND|]. exists adj. split; [exact X|]. split; [exact N|].
    assert (J : forall i j, joined known (x :: pairs) i j <-> (i = i0 /\ j = j0 \/ i = j0 /\ j = i0) \/ joined known pairs i j).
    { intros i j. split; [intros (y & [<-|I] & A)|intros [A|(y & I & A)]].
      - left. destruct A as [[A B]|[A B]]; [left|right]; split; congruence.
      - right. exists y. auto.
      - exists x. split; [left; reflexivity|]. destruct A as [[-> ->]|[-> ->]]; [left|right]; auto.
      - exists y. split; [right; exact I|exact A]. }
    split.
    + intros i j. rewrite L, !push_listed, J. tauto.
    + intros i. rewrite K. assert (KP : forall m k e i, In i (map fst (push m k e)) <-> In i (map fst m) \/ i = k). { intros m' k e i'. rewrite push_keys. destruct (CutModel.mem m' k) eqn:M; [apply mem_In in M; split; [auto|intros [A|A]; [exact A|subst; exact M]]|]. rewrite in_app_iff. cbn. split; intros [A|A]; [auto|destruct A as [A|[]]; auto|auto|auto]. }
      rewrite !KP. split.
      * intros [[[A|A]|A]|(j & A)]; [auto|right; exists j0; apply J; auto|right; exists i0; apply J; auto|right; exists j; apply J; auto].
      * intros [A|(j & A)]; [auto|]. apply J in A. destruct A as [[[A _]|[A _]]|A]; eauto.
Qed.

(** ** Locations of the patches *)
Hypothesis TM : two_meshes polygons sm_count opp cut.
Lemma tm_U1 p q h : ~ cut h -> side p h -> side q h -> p = q. Proof. intros N A B. apply (tm_once _ _ _ _ TM p q h A B). intros X. contradiction. Qed.
Lemma tm_U2 p q h : ~ cut h -> cm p -> side p h -> side q (opp h) -> cm q. Proof. apply (tm_apart _ _ _ _ TM). Qed.
Variables (sequences : list (list nat)) (curves : list nat).
Hypothesis BO : forall idx, In idx curves -> bordered polygons sm_count cut sequences idx.

(** What is found. *)
Lemma patches_ok : exists pairs s, seeds_of polygons sm_count curves sequences = Some (flat_map unpair pairs) /\ Forall2 (pair_at sequences) curves pairs /\
  build_patches polygons (2 * c) (flat_map unpair pairs) = Some s /\ binv polygons sm_count c s /\
  (forall x, In x pairs -> In (fst (fst x)) (concat (patches s)) /\ In (fst (snd x)) (concat (patches s))) /\
  Forall (fun seed => exists x, In x pairs /\ (seed = fst x \/ seed = snd x)) (patch_seeds s).
Proof.
  destruct (seeds_ok curves sequences BO) as (pairs & E & F). assert (A : forall y, In y (flat_map unpair pairs) <-> exists x, In x pairs /\ (y = fst x \/ y = snd x)). { intros y. rewrite in_flat_map. split; intros (x & I & J); exists x; (split; [exact I|]); cbn in *; [destruct J as [J|[J|[]]]; auto|destruct J as [J|J]; auto]. }
  destruct (build_ok polygons sm_count c tm_U1 tm_U2 (flat_map unpair pairs)) as (s & X & B & Y & Z).
  { intros y I. apply A in I. destruct I as (x & I & J). destruct (pairs_In _ _ _ _ F I) as (idx & _ & e & _ & S0 & S1). apply seed_at_side in S0, S1. destruct J as [-> | ->]; tauto. }
  exists pairs, s. split; [exact E|]. split; [exact F|]. split; [exact X|]. split; [exact B|]. split.
  - intros x I. split; apply Y, A; exists x; auto.
  - apply Forall_forall. intros y I. apply A, Z, I.
Qed.

Variable inside : nat -> bool.
Hypothesis LO : located polygons sm_count opp cut inside.
Hypothesis CC : curves_cover polygons sm_count opp cut sequences curves.
Hypothesis CN : forall p q, cm p -> cm q -> connected polygons sm_count opp p q.
Lemma together_inside p q : together p q -> inside p = inside q.
Proof. intros T. induction T as [p q N| |p q r _ A _ B]; [apply (lo_same _ _ _ _ _ LO), N|reflexivity|congruence]. Qed.

Section Found.
Variables (pairs : list ((nat * nat) * (nat * nat))) (s : found).
Hypothesis FP : Forall2 (pair_at sequences) curves pairs.
Hypothesis BS : binv polygons sm_count c s.
Hypothesis SI : forall x, In x pairs -> In (fst (fst x)) (concat (patches s)) /\ In (fst (snd x)) (concat (patches s)).
Notation known := (known s).
Lemma known_together p q k : lookup known p = Some k -> together p q -> lookup known q = Some k.
Proof. intros E T. apply (b_known _ _ _ _ BS) in E. destruct E as (P & E & I). apply (b_known _ _ _ _ BS). exists P. split; [exact E|]. apply (ap_together _ _ _ _ _ (b_patches _ _ _ _ BS) P p q (nth_error_In _ _ E) I). exact T. Qed.
Lemma known_same p q k : lookup known p = Some k -> lookup known q = Some k -> together p q.
Proof. intros E E'. apply (b_known _ _ _ _ BS) in E, E'. destruct E as (P & E & I). destruct E' as (P' & E' & I'). assert (P' = P) by congruence. subst P'. apply (ap_together _ _ _ _ _ (b_patches _ _ _ _ BS) P p q (nth_error_In _ _ E) I). exact I'. Qed.
Lemma known_lt p k : lookup known p = Some k -> k < length (patches s) /\ cm p.
Proof. intros E. apply (b_known _ _ _ _ BS) in E. destruct E as (P & E & I). split; [apply nth_error_Some; congruence|]. apply (ap_cut_mesh _ _ _ _ _ (b_patches _ _ _ _ BS) P p (nth_error_In _ _ E) I). Qed.
Lemma known_concat p : In p (concat (patches s)) <-> exists k, lookup known p = Some k.
Proof. rewrite concat_nth. split; [intros (k & P & E & I); exists k; apply (b_known _ _ _ _ BS); eauto|]. intros (k & E). apply (b_known _ _ _ _ BS) in E. destruct E as (P & E & I). eauto. Qed.
Lemma patch_some k : k < length (patches s) -> exists p, lookup known p = Some k.
Proof. intros L. destruct (nth_error (patches s) k) as [P|] eqn:E; [|apply nth_error_None in E; lia]. destruct P as [|p P]; [destruct (ap_nonempty _ _ _ _ _ (b_patches _ _ _ _ BS) [] (nth_error_In _ _ E)); reflexivity|]. exists p. apply (b_known _ _ _ _ BS). exists (p :: P). split; [exact E|left; reflexivity]. Qed.
Lemma opp_start e : opp (2 * e) = 2 * e + 1 /\ opp (2 * e + 1) = 2 * e. Proof. destruct (opp_2 e) as [A B]. split; [rewrite A; lia|replace (2 * e + 1) with (S (2 * e)) by lia; rewrite <- B; f_equal; lia]. Qed.
(** across a curve *)
Lemma cross p q h : cm p -> cm q -> side p h -> side q (opp h) -> cut h -> exists i j, lookup known p = Some i /\ lookup known q = Some j /\ joined known pairs i j.
Proof.
  intros P Q S1 S2 K. destruct (CC p q h P Q S1 S2 K) as (idx & e & h0 & p0 & q0 & I & ST & H0 & P0 & Q0 & T1 & T2 & G1 & G2).
  destruct (curve_In _ _ _ _ FP I) as (x & IX & e' & ST' & A0 & A1). assert (e' = e) by (destruct ST as (l & X); destruct ST' as (l' & X'); congruence). subst e'.
  pose proof (seed_at_side _ _ A0) as [C0 D0]. pose proof (seed_at_side _ _ A1) as [C1 D1]. destruct (SI x IX) as [J0 J1]. apply known_concat in J0, J1. destruct J0 as (i & J0). destruct J1 as (j & J1). destruct (opp_start e) as [O1 O2].
  assert (ON : forall a b h, cm a -> cm b -> side a h -> side b h -> a = b) by (intros a b h' A B X Y; apply (tm_once _ _ _ _ TM a b h' X Y); tauto).
  destruct H0 as [-> | ->].
  - rewrite O1 in T2. assert (p0 = fst (fst x)) by (apply (ON _ _ (2 * e)); assumption). assert (q0 = fst (snd x)) by (apply (ON _ _ (2 * e + 1)); assumption). subst p0 q0. exists i, j. split; [apply (known_together _ _ _ J0), together_sym, G1|]. split; [apply (known_together _ _ _ J1), together_sym, G2|]. exists x. auto.
  - rewrite O2 in T2. assert (q0 = fst (fst x)) by (apply (ON _ _ (2 * e)); assumption). assert (p0 = fst (snd x)) by (apply (ON _ _ (2 * e + 1)); assumption). subst p0 q0. exists j, i. split; [apply (known_together _ _ _ J1), together_sym, G1|]. split; [apply (known_together _ _ _ J0), together_sym, G2|]. exists x. auto.
Qed.
Lemma joined_inside i j p q : joined known pairs i j -> lookup known p = Some i -> lookup known q = Some j -> inside p <> inside q.
Proof.
  intros (x & I & A) EP EQ. destruct (pairs_In _ _ _ _ FP I) as (idx & IC & e & ST & S0 & S1). apply seed_at_side in S0, S1. destruct S0 as [C0 D0]. destruct S1 as [C1 D1]. destruct (BO idx IC) as (e' & ST' & K & _). assert (e' = e) by (destruct ST as (l & Z); destruct ST' as (l' & Z'); congruence). subst e'.
  assert (X : inside (fst (fst x)) <> inside (fst (snd x))).
  { apply (lo_other _ _ _ _ _ LO _ _ (2 * e)); [exact C0|exact C1|exact D0|rewrite (proj1 (opp_start e)); exact D1|exact K]. }
  destruct A as [[A B]|[A B]]; [rewrite (together_inside p _ (known_same _ _ _ EP A)), (together_inside q _ (known_same _ _ _ EQ B)); exact X|rewrite (together_inside p _ (known_same _ _ _ EP B)), (together_inside q _ (known_same _ _ _ EQ A)); congruence].
Qed.
Hypothesis SE : Forall (fun seed => exists x, In x pairs /\ (seed = fst x \/ seed = snd x)) (patch_seeds s).
Hypothesis NE : curves <> [].
Lemma some_pair : exists x, In x pairs.
Proof. destruct curves as [|idx l]; [congruence|]. inversion FP as [|? y ? ps A B]. subst. exists y. left. reflexivity. Qed.
Lemma all_known p : cm p -> exists k, lookup known p = Some k.
Proof.
  intros C. destruct some_pair as (x & I). destruct (SI x I) as [J _]. apply known_concat in J. destruct J as (k0 & J). pose proof (known_lt _ _ J) as [_ C0]. pose proof (CN _ _ C0 C) as T. apply clos_rt_rtn1 in T. clear C C0.
  induction T as [|q r N T IH]; [eauto|]. destruct IH as (k & K). destruct N as (Q & R & h & S1 & S2). destruct (Nat.lt_ge_cases h (2 * c)) as [X|X].
  - destruct (cross q r h Q R S1 S2 X) as (i & j & _ & E & _). eauto.
  - exists k. apply (known_together _ _ _ K). apply rt_step. split; [exact Q|]. split; [exact R|]. exists h. split; [exact S1|]. split; [exact S2|]. lia.
Qed.
Lemma patches_connected p q i j : lookup known p = Some i -> lookup known q = Some j -> clos_refl_trans nat (joined known pairs) i j.
Proof.
  intros E F. pose proof (known_lt _ _ E) as [_ C1]. pose proof (known_lt _ _ F) as [_ C2]. pose proof (CN _ _ C1 C2) as T. apply clos_rt_rtn1 in T. clear C2. revert j F. induction T as [|q r N T IH]; intros j F; [assert (i = j) by congruence; subst j; apply rt_refl|].
  destruct N as (Q & R & h & S1 & S2). destruct (all_known q Q) as (k & K). apply rt_trans with k; [apply IH, K|]. destruct (Nat.lt_ge_cases h (2 * c)) as [X|X].
  - destruct (cross q r h Q R S1 S2 X) as (a & b & A & B & J). assert (a = k) by congruence. assert (b = j) by congruence. subst a b. apply rt_step, J.
  - assert (L : lookup known r = Some k). { apply (known_together _ _ _ K). apply rt_step. split; [exact Q|]. split; [exact R|]. exists h. split; [exact S1|]. split; [exact S2|]. lia. } assert (k = j) by congruence. subst k. apply rt_refl.
Qed.
Lemma patch_seed k : k < length (patches s) -> exists j, joined known pairs k j.
Proof.
  intros L. destruct (nth_error (patches s) k) as [P|] eqn:E; [|apply nth_error_None in E; lia].
  assert (G : exists seed, In seed (patch_seeds s) /\ In (fst seed) P). { clear L. pose proof (b_seeds _ _ _ _ BS) as BB. clear - BB E. revert k E. induction BB as [|A b l l' X Y IH]; intros k E; [destruct k; discriminate|]. destruct k as [|k]; [injection E as ->; exists b; cbn; auto|]. destruct (IH k E) as (z & Z1 & Z2). exists z. cbn. auto. }
  destruct G as (seed & I & J). rewrite Forall_forall in SE. destruct (SE seed I) as (x & IX & O). assert (K : lookup known (fst seed) = Some k) by (apply (b_known _ _ _ _ BS); eauto). destruct (SI x IX) as [J0 J1]. apply known_concat in J0, J1. destruct J0 as (a & J0). destruct J1 as (b & J1).
  destruct O as [O|O]; rewrite O in K; [exists b|exists a]; exists x; auto.
Qed.
Lemma colours_ok shuffle p0 : (forall A (m : list (nat * A)), Permutation (shuffle A m) m) -> lookup known p0 = Some 0 ->
  exists red blue, colours shuffle (flat_map unpair pairs) s = Some (red, blue) /\ Permutation (red ++ blue) (seq 0 (length (patches s))) /\ forall k p, lookup known p = Some k -> (In k red <-> inside p = inside p0).
Proof.
  intros SH K0. set (n := length (patches s)). unfold colours. fold n.
  destruct (adjacency_ok known pairs) with (m := @nil (nat * list nat)) as (adj & EA & ND & LI & KE); [intros x I; destruct (SI x I) as [A B]; apply known_concat in A, B; auto|constructor|].
  rewrite EA. cbn [bind]. assert (LI' : forall i j, listed adj i j <-> joined known pairs i j) by (intros i j; rewrite LI; split; [intros [(l & X & _)|A]; [discriminate|exact A]|auto]).
  assert (JL : forall i j, joined known pairs i j -> i < n /\ j < n) by (intros i j (x & I & [[A B]|[A B]]); apply known_lt in A, B; unfold n; tauto).
  assert (JI : forall i j, joined known pairs i j -> i <> j). { intros i j J X. subst j. destruct (patch_some i) as (p & P); [apply (JL i i J)|]. exact (joined_inside i i p p J P P eq_refl). }
  destruct (matrix_ok shuffle n adj SH) as [SQ EN].
  { intros k l x I J. apply JL. apply LI'. exists l. split; [apply In_lookup; assumption|exact J]. }
  set (m := adjacency_matrix shuffle n adj) in *.
  assert (EN' : forall i j, i < n -> j < n -> (0 < entry m i j <-> joined known pairs i j)).
  { intros i j I J. rewrite (EN i j I J). split; [intros (_ & l & A & B); apply LI'; exists l; split; [apply In_lookup; assumption|exact B]|]. intros A. split; [apply JI, A|]. apply LI' in A. destruct A as (l & A & B). exists l. split; [apply lookup_In, A|exact B]. }
  assert (N0 : 0 < n) by (apply (known_lt _ _ K0)).
  destruct (colour_ok n (product m m)) as (red & EC & NR & RE); [cbn; apply SQ|exact N0|]. rewrite EC. cbn [bind]. eexists. eexists. split; [reflexivity|].
  (** two steps *)
  assert (TW : forall i j, i < n -> (two n (product m m) i j <-> i <> j /\ exists k, joined known pairs i k /\ joined known pairs k j)).
  { intros i j I. unfold two. split.
    - intros (J & NEQ & P). split; [exact NEQ|]. apply (product_entry n m i j SQ I J) in P. destruct P as (k & K & A & B). exists k. split; apply EN'; assumption.
    - intros (NEQ & k & A & B). pose proof (JL _ _ A) as [_ LK]. pose proof (JL _ _ B) as [_ LJ]. split; [exact LJ|]. split; [exact NEQ|]. apply (product_entry n m i j SQ I LJ). exists k. split; [exact LK|]. split; apply EN'; assumption. }
  assert (RL : forall k, clos_refl_trans nat (two n (product m m)) 0 k -> k < n). { intros k T. apply clos_rt_rtn1 in T. destruct T as [|a b T _]; [exact N0|apply T]. }
  assert (RI : forall k, clos_refl_trans nat (two n (product m m)) 0 k -> forall p, lookup known p = Some k -> inside p = inside p0).
  { intros k T. pose proof (clos_rt_rtn1 _ _ _ _ T) as U. clear T. induction U as [|a b T U IH]; intros p P; [apply together_inside, (known_same _ _ _ P K0)|].
    pose proof (RL a (clos_rtn1_rt _ _ _ _ U)) as LA. apply (TW a b LA) in T. destruct T as (_ & k & A & B). destruct (patch_some a LA) as (pa & PA). destruct (patch_some k) as (pk & PK); [apply (JL _ _ A)|]. rewrite <- (IH pa PA). pose proof (joined_inside _ _ _ _ A PA PK). pose proof (joined_inside _ _ _ _ B PK P). destruct (inside pa), (inside pk), (inside p); congruence. }
  assert (IR : forall k, clos_refl_trans nat (joined known pairs) 0 k -> forall p, lookup known p = Some k -> (inside p = inside p0 /\ In k red) \/ (inside p <> inside p0 /\ exists j, In j red /\ joined known pairs j k)).
  { intros k T. apply clos_rt_rtn1 in T. induction T as [|a b J T IH]; intros p P; [left; split; [apply together_inside, (known_same _ _ _ P K0)|apply RE, rt_refl]|].
    destruct (patch_some a) as (pa & PA); [apply (JL _ _ J)|]. pose proof (joined_inside _ _ _ _ J PA P) as X. destruct (IH pa PA) as [[Y1 Y2]|(Y1 & j & Y2 & Y3)].
    - right. split; [congruence|]. eauto.
    - left. split; [destruct (inside p), (inside pa), (inside p0); congruence|]. destruct (Nat.eq_dec j b) as [E|E]; [subst; exact Y2|]. apply RE. apply rt_trans with j; [apply RE, Y2|]. apply rt_step. apply TW; [apply RL, RE, Y2|]. eauto. }
  assert (ALL : forall k p, lookup known p = Some k -> (In k red <-> inside p = inside p0)).
  { intros k p P. split; [intros I; apply RE in I; exact (RI k I p P)|]. intros E. destruct (IR k (patches_connected _ _ _ _ K0 P) p P) as [[_ Y]|[Y _]]; [exact Y|congruence]. }
  split; [|exact ALL].
  apply NoDup_Permutation; [|apply seq_NoDup|].
  - assert (NB : NoDup (filter (fun p => negb (existsb (Nat.eqb p) red)) (map fst (shuffle _ adj)))) by (apply NoDup_filter; eapply Permutation_NoDup; [apply Permutation_map, Permutation_sym, SH|exact ND]).
    assert (DJ : forall x, In x red -> ~ In x (filter (fun p => negb (existsb (Nat.eqb p) red)) (map fst (shuffle _ adj)))) by (intros x X Y; apply filter_In in Y; destruct Y as [_ Y]; apply existsb_In in X; rewrite X in Y; discriminate).
    clear - NR NB DJ. revert NB DJ. generalize (filter (fun p => negb (existsb (Nat.eqb p) red)) (map fst (shuffle _ adj))). intros B NB DJ. induction red as [|b L IH]; [exact NB|]. inversion_clear NR as [|? ? N1 N2]. cbn. constructor; [|apply IH; [exact N2|intros; apply DJ; right; assumption]]. rewrite in_app_iff. intros [I|I]; [exact (N1 I)|exact (DJ b (or_introl eq_refl) I)].
  - intros k. rewrite in_seq, in_app_iff, filter_In. split.
    + intros [I|[I _]]; [apply RE, RL in I; lia|]. apply (Permutation_in _ (Permutation_map _ (SH _ adj))) in I. apply KE in I. destruct I as [[]|(j & J)]. apply JL in J. lia.
    + intros [_ L]. cbn in L. destruct (existsb (Nat.eqb k) red) eqn:X; [left; apply existsb_In, X|]. right. split; [|reflexivity]. apply (Permutation_in _ (Permutation_map _ (Permutation_sym (SH _ adj)))). apply KE. right. apply patch_seed, L.
Qed.
End Found.
End Seeds.
