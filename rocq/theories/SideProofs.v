(** Above and below the cut mesh: the loop does what SideSpec says. *)
From Coq Require Import List Arith ZArith Bool Reals Lia Lra Permutation Sorted.
From Verif Require Import CutModel ClipModel SplitModel PatchModel TriModel PatchSpec PatchProofs SideModel SideSpec.
Import ListNotations.
Open Scope nat_scope.

Lemma existsb_eqb p l : existsb (Nat.eqb p) l = true <-> In p l.
Proof. rewrite existsb_exists. split; [intros (x & I & E); apply Nat.eqb_eq in E; subst; exact I|intros I; exists p; split; [exact I|apply Nat.eqb_refl]]. Qed.

Lemma insert_perm x l : Permutation (insert x l) (x :: l).
Proof. induction l as [|y l IH]; cbn; [apply Permutation_refl|]. destruct (Nat.leb x y); [apply Permutation_refl|]. rewrite IH. apply perm_swap. Qed.
Lemma sort_perm l : Permutation (sort l) l.
Proof. induction l as [|y l IH]; cbn; [apply perm_nil|]. rewrite insert_perm. apply perm_skip, IH. Qed.
Lemma insert_sorted x l : StronglySorted le l -> StronglySorted le (insert x l).
Proof.
  induction 1 as [|y l S IH F]; cbn; [repeat constructor|]. destruct (Nat.leb_spec x y).
  - constructor; [constructor; assumption|]. constructor; [assumption|]. eapply Forall_impl; [|exact F]. intros; cbn in *; lia.
  - constructor; [exact IH|]. rewrite Forall_forall in F |- *. intros z I. apply (Permutation_in _ (insert_perm x l)) in I. destruct I as [<-|I]; [lia|auto].
Qed.
Lemma sort_sorted l : StronglySorted le (sort l).
Proof. induction l; cbn; [constructor|apply insert_sorted; assumption]. Qed.
Lemma In_sort x l : In x (sort l) <-> In x l.
Proof. split; apply Permutation_in; [|apply Permutation_sym]; apply sort_perm. Qed.
Lemma sort_nil l : sort l = [] <-> l = [].
Proof. split; [intros E; apply Permutation_nil; rewrite <- E; apply Permutation_sym, Permutation_sym, sort_perm|intros ->; reflexivity]. Qed.

Lemma wrap_next (i n : nat) : 0 < n -> Z.to_nat (wrap_integer (Z.of_nat i + 1) 0 (Z.of_nat n - 1)) = (i + 1) mod n.
Proof.
  intros L. unfold wrap_integer. destruct (Z.ltb_spec (Z.of_nat i + 1) 0) as [A|_]; [lia|]. rewrite Z.add_0_l, !Z.sub_0_r. replace (Z.of_nat n - 1 + 1)%Z with (Z.of_nat n) by lia.
  replace (Z.of_nat i + 1)%Z with (Z.of_nat (i + 1)) by lia. rewrite <- Nat2Z.inj_mod. apply Nat2Z.id.
Qed.

Section Sides.
Variable polygons : list (list nat).
Variable sm_count : nat.
Variable cutpath_halfedges : nat.
Variable seg : nat -> nat * nat.
Variable registry : list (nat * nat).
Variable cnt : nat.
Variables (sm_vtx_cnt sm_face_count : nat).
Variable pvertex0 : nat -> nat.
Variable psf : nat -> option nat * option nat.
Variable normal : nat -> vec.
Variable position : nat -> vec.
Variable adjacent : list nat.
Notation cut := (fun h => h < cutpath_halfedges).
Notation arrives := (arrives polygons cut (src seg) (tgt seg) position cnt registry normal).
Notation goes_on := (goes_on polygons).
Notation scene := (scene polygons sm_count opp cut (src seg) (tgt seg) position cnt registry normal adjacent (fun e => pvertex0 e < sm_vtx_cnt) (fun f => sm_face_count <= f)).
Notation negative := (negative cutpath_halfedges seg registry cnt sm_vtx_cnt sm_face_count pvertex0 psf normal position (fun x => x)).
Notation side_step := (side_step polygons sm_count cutpath_halfedges seg registry cnt sm_vtx_cnt sm_face_count pvertex0 psf normal position (fun x => x)).
Notation side_polygon := (side_polygon polygons sm_count cutpath_halfedges seg registry cnt sm_vtx_cnt sm_face_count pvertex0 psf normal position (fun x => x)).
Notation above_below := (above_below polygons sm_count cutpath_halfedges seg registry cnt sm_vtx_cnt sm_face_count pvertex0 psf normal position (fun x => x)).
Hypothesis SC : scene.

Lemma dot_exact a b : dot_product (fun x => x) a b = scalar_product a b.
Proof. destruct a as [[x y] z], b as [[x' y'] z']. cbn. ring. Qed.
Lemma front_negative f a b : (dot_product (fun x => x) (normal f) (vminus (fun x => x) b a) < 0)%R <-> in_front normal f a b.
Proof. rewrite dot_exact. unfold in_front. destruct (normal f) as [[x y] z], a as [[a1 a2] a3], b as [[b1 b2] b3]. cbn. lra. Qed.

Lemma tested_source e f : pvertex0 e < sm_vtx_cnt -> sm_face_count <= f -> tested_face sm_vtx_cnt sm_face_count pvertex0 psf e f = Some f.
Proof. intros A B. unfold tested_face. destruct (Nat.leb_spec sm_vtx_cnt (pvertex0 e)); [lia|]. cbn [find]. destruct (Nat.leb_spec sm_face_count f); [reflexivity|lia]. Qed.

Lemma negative_ok p polygon i h : In p adjacent -> nth_error polygons p = Some polygon -> nth_error polygon i = Some h ->
  exists b, negative h = Some b /\ (b = true <-> exists f, arrives p i h f).
Proof.
  intros I E1 E2. assert (S : side polygons p h) by (exists polygon; split; [exact E1|eapply nth_error_In; exact E2]).
  unfold SideModel.negative, ClipModel.ivtx. destruct (Nat.leb_spec cnt (tgt seg h)) as [L|L]; cbn [negb].
  2: { exists false. split; [reflexivity|]. split; [discriminate|]. intros (f & po & e & _ & _ & _ & [C _] & _). lia. }
  destruct (sc_registry _ _ _ _ _ _ _ _ _ _ _ _ _ SC p h I S L) as (e & f & _ & R). rewrite R. cbn [bind].
  unfold is_boundary_halfedge. destruct (Nat.leb_spec cutpath_halfedges h) as [B|B].
  - rewrite orb_true_r. cbn [negb]. assert (CR : crossing cnt registry (tgt seg h) e f) by (split; assumption).
    destruct (sc_along _ _ _ _ _ _ _ _ _ _ _ _ _ SC p h e f I S (proj2 (Nat.nlt_ge h cutpath_halfedges) B) CR) as [A1 A2]. rewrite (tested_source e f A1 A2). cbn [bind]. eexists. split; [reflexivity|].
    destruct (Rlt_dec _ 0) as [N|N]; rewrite front_negative in N; split; try discriminate; try reflexivity.
    + intros _. exists f, polygon, e. split; [exact E1|]. split; [exact E2|]. split; [cbn; lia|]. split; [exact CR|exact N].
    + intros (f' & po & e' & _ & _ & _ & [_ R'] & F). exfalso. apply N. congruence.
  - pose proof (sc_curve _ _ _ _ _ _ _ _ _ _ _ _ _ SC p h I S B) as L2. destruct (Nat.leb_spec cnt (src seg h)); [|lia]. cbn [negb orb].
    exists false. split; [reflexivity|]. split; [discriminate|]. intros (f' & po & e' & _ & _ & C & _). lia.
Qed.

Lemma across_ok p polygon i h f : In p adjacent -> nth_error polygons p = Some polygon -> nth_error polygon i = Some h -> arrives p i h f ->
  exists g q, across polygons sm_count polygon i = Some q /\ goes_on p i g /\ q < sm_count /\ side polygons q (opp g) /\
    forall q', q' < sm_count -> side polygons q' (opp g) -> q' = q.
Proof.
  intros I E1 E2 A. assert (L : 0 < length polygon) by (destruct polygon; [destruct i; discriminate|cbn; lia]).
  unfold across. rewrite (wrap_next i (length polygon) L). destruct (nth_error polygon ((i + 1) mod length polygon)) as [g|] eqn:G.
  2: { apply nth_error_None in G. pose proof (Nat.mod_upper_bound (i + 1) (length polygon)). lia. }
  cbn [bind]. assert (GO : goes_on p i g) by (exists polygon; auto). destruct (sc_turn _ _ _ _ _ _ _ _ _ _ _ _ _ SC p i h f g I A GO) as (q & Q1 & Q2).
  destruct (find _ _) as [q'|] eqn:F.
  - apply find_some in F. destruct F as [F1 F2]. apply Nat.ltb_lt in F2. apply h_to_ply_side in F1. exists g, q'. repeat split; try assumption.
    intros q'' H1 H2. eapply (sc_one _ _ _ _ _ _ _ _ _ _ _ _ _ SC); eassumption.
  - exfalso. apply (h_to_ply_side polygons (opp g) q) in Q2. pose proof (find_none _ _ F q Q2) as X. cbn in X. apply Nat.ltb_ge in X. lia.
Qed.

Record inv (D : nat -> nat -> Prop) (s : list nat * list nat) : Prop := {
  i_nd : NoDup (fst s);
  i_above : forall p, In p (fst s) <-> exists i h f, D p i /\ arrives p i h f;
  i_sound : forall q, In q (snd s) -> exists p i h f g, D p i /\ arrives p i h f /\ goes_on p i g /\ q < sm_count /\ side polygons q (opp g);
  i_complete : forall p i h f g q, D p i -> arrives p i h f -> goes_on p i g -> q < sm_count -> side polygons q (opp g) -> In q (snd s) \/ In p (snd s);
  i_both : fst s <> [] -> snd s <> [] }.

Lemma arrives_det p i h h' f f' : arrives p i h f -> arrives p i h' f' -> h = h' /\ f = f'.
Proof. intros (po & e & A & B & _ & [_ C] & _) (po' & e' & A' & B' & _ & [_ C'] & _). assert (po' = po) by congruence. subst po'. assert (h' = h) by congruence. subst h'. split; [reflexivity|congruence]. Qed.
Lemma goes_on_det p i g g' : goes_on p i g -> goes_on p i g' -> g = g'.
Proof. intros (po & A & B) (po' & A' & B'). congruence. Qed.

Lemma step_inv D s p polygon i : In p adjacent -> nth_error polygons p = Some polygon -> i < length polygon -> inv D s ->
  exists s', side_step p polygon s i = Some s' /\ inv (fun p' i' => D p' i' \/ (p' = p /\ i' = i)) s'.
Proof.
  intros I E L V. unfold SideModel.side_step. destruct (nth_error polygon i) as [h|] eqn:Eh; [|apply nth_error_None in Eh; lia]. cbn [bind].
  destruct (negative_ok p polygon i h I E Eh) as (b & -> & NB). cbn [bind]. destruct b.
  2: { exists s. split; [reflexivity|]. assert (N : forall h' f, ~ arrives p i h' f). { intros h' f A. assert (h' = h) by (destruct A as (po & e & A1 & A2 & _); congruence). subst h'. destruct NB as [_ NB]. specialize (NB (ex_intro _ f A)). discriminate. }
    destruct V as [V1 V2 V3 V4 V5]. constructor; [exact V1| | |intros p' i' h' f g q [Dp|[-> ->]] A; [eauto|destruct (N _ _ A)]|exact V5].
    - intros p'. rewrite V2. split; intros (i' & h' & f & X & A); exists i', h', f; [auto|]. split; [|exact A]. destruct X as [X|[-> ->]]; [exact X|destruct (N _ _ A)].
    - intros q J. destruct (V3 q J) as (p' & i' & h' & f & g & X & Y). exists p', i', h', f, g. split; [left; exact X|exact Y]. }
  destruct NB as [NB _]. destruct (NB eq_refl) as (f & A). destruct (across_ok p polygon i h f I E Eh A) as (g & q & -> & GO & Q1 & Q2 & Q3). cbn [bind].
  eexists. split; [reflexivity|]. destruct V as [V1 V2 V3 V4 V5]. constructor; cbn [fst snd].
  - destruct (existsb (Nat.eqb p) (fst s)) eqn:X; [exact V1|]. apply (Permutation_NoDup (Permutation_cons_append _ _)). constructor; [|exact V1]. intros J. apply existsb_eqb in J. congruence.
  - intros p'. assert (X : In p' (if existsb (Nat.eqb p) (fst s) then fst s else fst s ++ [p]) <-> In p' (fst s) \/ p' = p).
    { destruct (existsb (Nat.eqb p) (fst s)) eqn:X; [apply existsb_eqb in X; split; [auto|intros [J| ->]; assumption]|]. rewrite in_app_iff. cbn. intuition. }
    rewrite X, V2. split.
    + intros [(i' & h' & f' & Y & Z)| ->]; [exists i', h', f'; auto|exists i, h, f; auto].
    + intros (i' & h' & f' & [Y|[-> ->]] & Z); [left; eauto|right; reflexivity].
  - intros q' J. destruct (existsb (Nat.eqb p) (snd s)) eqn:X; [|apply in_app_iff in J; destruct J as [J|[<-|[]]]].
    + destruct (V3 q' J) as (p' & i' & h' & f' & g' & Y & Z). exists p', i', h', f', g'. split; [left; exact Y|exact Z].
    + destruct (V3 q' J) as (p' & i' & h' & f' & g' & Y & Z). exists p', i', h', f', g'. split; [left; exact Y|exact Z].
    + exists p, i, h, f, g. auto.
  - intros p' i' h' f' g' q' [Y|[-> ->]] A' G' L' S'.
    + destruct (V4 p' i' h' f' g' q' Y A' G' L' S') as [J|J]; destruct (existsb (Nat.eqb p) (snd s)); auto; rewrite !in_app_iff; auto.
    + assert (g' = g) by (eapply goes_on_det; eassumption). subst g'. rewrite (Q3 q' L' S'). destruct (existsb (Nat.eqb p) (snd s)) eqn:X; [apply existsb_eqb in X; auto|]. left. apply in_app_iff. cbn. auto.
  - intros _. destruct (existsb (Nat.eqb p) (snd s)) eqn:X; [apply existsb_eqb in X; destruct (snd s); [destruct X|discriminate]|destruct (snd s); discriminate].
Qed.

Lemma inv_ext D D' s : (forall p i, D p i <-> D' p i) -> inv D s -> inv D' s.
Proof.
  intros X [V1 V2 V3 V4 V5]. constructor; auto.
  - intros p. rewrite V2. split; intros (i & h & f & Y & Z); exists i, h, f; (split; [apply X, Y|exact Z]).
  - intros q J. destruct (V3 q J) as (p & i & h & f & g & Y & Z). exists p, i, h, f, g. split; [apply X, Y|exact Z].
  - intros p i h f g q Y. apply X in Y. eauto.
Qed.

Lemma fold_none {A B} (F : A -> B -> option A) (l : list B) : fold_left (fun s x => let* s := s in F s x) l None = None.
Proof. induction l; cbn; auto. Qed.

Lemma polygon_inv D s p : In p adjacent -> inv D s -> exists s', side_polygon s p = Some s' /\ inv (fun p' i' => D p' i' \/ (p' = p /\ exists h polygon, nth_error polygons p = Some polygon /\ nth_error polygon i' = Some h)) s'.
Proof.
  intros I V. unfold SideModel.side_polygon. pose proof (sc_source _ _ _ _ _ _ _ _ _ _ _ _ _ SC p I) as LP. destruct (nth_error polygons p) as [polygon|] eqn:E; [|apply nth_error_None in E; lia]. cbn [bind].
  assert (G : forall n k s D, k + n <= length polygon -> inv D s ->
    exists s', fold_left (fun s i => let* s := s in side_step p polygon s i) (seq k n) (Some s) = Some s' /\ inv (fun p' i' => D p' i' \/ (p' = p /\ k <= i' < k + n)) s').
  { clear D s V. induction n as [|n IH]; intros k s D L V; cbn [seq fold_left].
    - exists s. split; [reflexivity|]. eapply inv_ext; [|exact V]. intros p' i'. split; [auto|intros [X|[_ X]]; [exact X|lia]].
    - cbn [bind]. destruct (step_inv D s p polygon k I E ltac:(lia) V) as (s1 & -> & V1). destruct (IH (S k) s1 _ ltac:(lia) V1) as (s2 & -> & V2). exists s2. split; [reflexivity|].
      eapply inv_ext; [|exact V2]. intros p' i'. cbn beta. split; [intros [[X|[-> ->]]|[-> X]]; [auto|right; split; [reflexivity|lia]|right; split; [reflexivity|lia]]|].
      intros [X|[-> X]]; [auto|]. destruct (Nat.eq_dec i' k) as [->|]; [auto|right; split; [reflexivity|lia]]. }
  destruct (G (length polygon) 0 s D ltac:(lia) V) as (s' & -> & V'). exists s'. split; [reflexivity|]. eapply inv_ext; [|exact V']. intros p' i'. cbn beta. split; (intros [X|[-> X]]; [auto|right; split; [reflexivity|]]).
  - destruct (nth_error polygon i') as [h|] eqn:Eh; [exists h, polygon; auto|apply nth_error_None in Eh; lia].
  - destruct X as (h & po & Y & Z). assert (po = polygon) by congruence. subst po. assert (i' < length polygon) by (apply nth_error_Some; congruence). lia.
Qed.

Lemma loop_inv : exists s, fold_left (fun s p => let* s := s in side_polygon s p) adjacent (Some ([], [])) = Some s /\
  inv (fun p i => In p adjacent /\ exists h polygon, nth_error polygons p = Some polygon /\ nth_error polygon i = Some h) s.
Proof.
  assert (G : forall l s D, incl l adjacent -> inv D s -> exists s', fold_left (fun s p => let* s := s in side_polygon s p) l (Some s) = Some s' /\
    inv (fun p i => D p i \/ (In p l /\ exists h polygon, nth_error polygons p = Some polygon /\ nth_error polygon i = Some h)) s').
  { induction l as [|p l IH]; intros s D IN V; cbn [fold_left].
    - exists s. split; [reflexivity|]. eapply inv_ext; [|exact V]. intros p' i'. cbn. tauto.
    - cbn [bind]. destruct (polygon_inv D s p (IN p (or_introl eq_refl)) V) as (s1 & -> & V1). destruct (IH s1 _ (fun x J => IN x (or_intror J)) V1) as (s2 & -> & V2). exists s2. split; [reflexivity|].
      eapply inv_ext; [|exact V2]. intros p' i'. cbn beta. cbn [In]. split; [intros [[X|[-> X]]|[X Y]]; auto|intros [X|[[<-|X] Y]]; auto]. }
  destruct (G adjacent ([], []) (fun _ _ => False)) as (s & E & V); [intros x; auto| |].
  - constructor; cbn; [constructor| | | |congruence]; [intros p; split; [intros []|intros (i & h & f & [] & _)]|intros q []|intros p i h f g q []].
  - exists s. split; [exact E|]. eapply inv_ext; [|exact V]. intros p i. cbn beta. tauto.
Qed.
End Sides.
