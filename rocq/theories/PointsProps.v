(** C73: the intersection points. *)
From Coq Require Import List Arith Bool Lia Permutation Sorting Reals Ascii.
From Verif Require Import CutModel CutProofs SplitModel SplitProofs PointsModel PointsSpec PointsProofs PointsRun.
Import ListNotations.
Open Scope nat_scope.

(** What is given: the edges around the faces and the faces beside the edges; the faces below sm_face_count are those of the source mesh, and the edges of the cut mesh start with a
    vertex of the cut mesh; a list of candidates for each face, all of the other mesh. *)
Record scene (around : nat -> list nat) (psf : nat -> option nat * option nat) (sm_face_count : nat) (cut_vertex : nat -> bool) (candidates : list (nat * list nat)) : Prop := {
  sc_around : forall g e, In e (around g) -> In g (faces psf e);
  sc_beside : forall e, NoDup (faces psf e);
  sc_mesh : forall e g, In g (faces psf e) -> cut_vertex e = Nat.leb sm_face_count g;
  sc_others : forall g o, In (g, o) candidates -> NoDup o /\ forall f, In f o -> Nat.leb sm_face_count f = negb (Nat.leb sm_face_count g) }.
(** Edge e is tested against face f: f is a candidate of a face with edge e, and the boxes of e and f overlap. *)
Definition tested (around : nat -> list nat) (overlap : nat -> nat -> bool) (candidates : list (nat * list nat)) (e f : nat) : Prop :=
  overlap e f = true /\ exists g o, In (g, o) candidates /\ In e (around g) /\ In f o.
(** The order of the elements of an unordered_map and a map. *)
Definition any_order {K} (shuffle : forall A, list (K * A) -> list (K * A)) : Prop := forall A (m : list (K * A)), Permutation (shuffle A m) m.
(** The ranges of parallel_for (C07): the workers' blocks and the rest. *)
Definition ranges {A} (blocks : list (list A)) (master all : list A) : Prop := concat blocks ++ master = all.

Section C73.
Variables (around : nat -> list nat) (psf : nat -> option nat * option nat) (sm_face_count : nat) (cut_vertex : nat -> bool) (candidates : list (nat * list nat)).
Variables (sort : list nat -> list nat) (overlap : nat -> nat -> bool) (tests : nat -> nat -> result) (cnt : nat).
Variable shuffle : forall A, list (nat * A) -> list (nat * A).
Variable shuffle2 : forall A, list ((nat * nat) * A) -> list ((nat * nat) * A).
Hypothesis SC : scene around psf sm_face_count cut_vertex candidates.
Hypothesis SO : sorts sort.
Hypothesis SH : any_order shuffle.
Hypothesis SH2 : any_order shuffle2.
Variables (cblocks : list (list (nat * list nat))) (cmaster : list (nat * list nat)).
Hypothesis CB : ranges cblocks cmaster candidates.
Notation pairs := (cull overlap (all_pairs around sort shuffle cblocks cmaster)).
Notation tested := (tested around overlap candidates).

Lemma pairs_spec : NoDup (map fst pairs) /\ (forall e l, In (e, l) pairs -> NoDup l) /\ forall e f, (exists l, In (e, l) pairs /\ In f l) <-> tested e f.
Proof.
  assert (PM : Permutation (cmaster ++ concat cblocks) candidates) by (rewrite <- CB; apply Permutation_app_comm).
  assert (ND : forall p, In p (cmaster ++ concat cblocks) -> NoDup (snd p)) by (intros [g o] I; apply (sc_others _ _ _ _ _ SC g o); eapply Permutation_in; [exact PM|exact I]).
  pose proof (all_pairs_spec around sort shuffle SO SH cblocks cmaster ND) as [N H]. set (m := all_pairs around sort shuffle cblocks cmaster) in *.
  assert (IC : forall e l, In (e, l) (cull overlap m) <-> exists l0, In (e, l0) m /\ l = filter (overlap e) l0).
  { intros e l. unfold cull. rewrite in_map_iff. split; [intros ([e0 l0] & [= <- <-] & I); eauto|intros (l0 & I & ->); exists (e, l0); auto]. }
  assert (IN : forall e l, In (e, l) m -> lookup m e = Some l) by (intros; apply In_lookup; assumption).
  split; [unfold cull; rewrite map_map; exact N|]. split.
  - intros e l I. apply IC in I. destruct I as (l0 & I & ->). apply NoDup_filter. specialize (H e). rewrite (IN _ _ I) in H. apply sorted_NoDup, H.
  - assert (D : forall e f, (exists o, In (e, o) (flat_map (edges_with around) (cmaster ++ concat cblocks)) /\ In f o) <-> exists g o, In (g, o) candidates /\ In e (around g) /\ In f o).
    { intros e f. split.
      - intros (o & I & J). apply in_flat_map in I. destruct I as ([g o'] & I & K). unfold edges_with in K. apply in_map_iff in K. destruct K as (e' & [= <- <-] & K). exists g, o'. split; [eapply Permutation_in; [exact PM|exact I]|]. auto.
      - intros (g & o & I & J & K). exists o. split; [|exact K]. apply in_flat_map. exists (g, o). split; [eapply Permutation_in; [apply Permutation_sym, PM|exact I]|]. apply in_map_iff. exists e. auto. }
    intros e f. unfold PointsProps.tested. rewrite <- D. split.
    + intros (l & I & J). apply IC in I. destruct I as (l0 & I & ->). apply filter_In in J. destruct J as [J O]. split; [exact O|]. specialize (H e). rewrite (IN _ _ I) in H. apply (proj2 (proj2 H)), J.
    + intros (O & o & I & J). specialize (H e). destruct (lookup m e) as [l0|] eqn:E; [|destruct (H o I)]. exists (filter (overlap e) l0). split; [apply IC; exists l0; split; [apply lookup_In, E|reflexivity]|]. apply filter_In. split; [|exact O]. apply (proj2 (proj2 H)). exists o. auto.
Qed.
Lemma tested_good e f : tested e f -> good psf (e, f).
Proof.
  intros (_ & g & o & I & J & K). unfold good. cbn [fst snd]. change (point_faces psf e f) with (f :: faces psf e). constructor; [|apply SC]. intros X. apply (sc_around _ _ _ _ _ SC) in J. pose proof (sc_mesh _ _ _ _ _ SC e g J) as A. pose proof (sc_mesh _ _ _ _ _ SC e f X) as B. destruct (sc_others _ _ _ _ _ SC g o I) as [_ C]. specialize (C f K). rewrite <- A, <- B in C. destruct (cut_vertex e); discriminate.
Qed.

(** ** One execution *)
Variables (blocks : list (list (nat * list nat))) (master : list (nat * list nat)).
Hypothesis BL : ranges blocks master (shuffle _ pairs).
Let all : list (list (nat * list nat)) := blocks ++ [master].
Notation execute := (execute psf sm_face_count cut_vertex tests cnt shuffle shuffle2 all).
Notation step := (step psf sm_face_count cut_vertex tests cnt shuffle shuffle2 all).
Notation hits := (hits tests).
Lemma nth_all i b : nth_error all i = Some b -> fine psf b /\ forall e fs, In (e, fs) b -> In (e, fs) pairs.
Proof.
  intros E. apply nth_error_In in E. assert (I : forall p, In p b -> In p pairs).
  { intros p I. eapply Permutation_in; [apply SH|]. rewrite <- BL. apply in_app_iff in E. apply in_app_iff. destruct E as [E|[<-|[]]]; [left; apply in_concat; exists b; auto|right; exact I]. }
  split; [|intros; apply I; assumption]. intros e fs f J K. apply tested_good, pairs_spec. exists fs. split; [apply I, J|exact K].
Qed.
Lemma in_hits x b : In x (hits b) -> In (fst x) (map fst b).
Proof. intros I. apply in_flat_map in I. destruct I as (p & I & J). apply in_map_iff in J. destruct J as (f & <- & _). cbn [fst]. apply (in_map fst b p I). Qed.
Lemma merged_spec k t : k <= length blocks -> merged_tables psf sm_face_count cut_vertex tests cnt shuffle shuffle2 all k = Some t ->
  violated tests (master ++ concat (firstn k blocks)) = false /\ T psf sm_face_count cut_vertex tests cnt (hits (master ++ concat (firstn k blocks))) t.
Proof.
  assert (LA : n all - 1 = length blocks) by (unfold n, all; rewrite app_length; cbn; lia).
  revert t. induction k as [|k IH]; intros t L E; cbn [merged_tables] in E.
  - cbn [firstn concat]. rewrite app_nil_r. rewrite LA in E. unfold pob in E. assert (NM : nth_error all (length blocks) = Some master) by (unfold all; rewrite nth_error_app2, Nat.sub_diag by lia; reflexivity). rewrite NM in E.
    pose proof (points_of_block_spec psf sm_face_count cut_vertex tests master (proj1 (nth_all _ _ NM))) as P. destruct (points_of_block _ _ _ _ master) as [t0|]; [|discriminate]. injection E as <-. destruct P as [P1 P2]. split; [exact P1|]. apply of_master_spec, P2.
  - destruct (merged_tables _ _ _ _ _ _ _ _ k) as [t1|]; [|discriminate]. destruct (IH t1 ltac:(lia) eq_refl) as [I1 I2]. assert (NB : exists b, nth_error blocks k = Some b) by (destruct (nth_error blocks k) eqn:X; [eauto|apply nth_error_None in X; lia]). destruct NB as (b & NB).
    assert (NA : nth_error all k = Some b) by (unfold all; rewrite nth_error_app1 by lia; exact NB). unfold pob in E. rewrite NA in E. pose proof (points_of_block_spec psf sm_face_count cut_vertex tests b (proj1 (nth_all _ _ NA))) as P. destruct (points_of_block _ _ _ _ b) as [t2|]; [|discriminate]. injection E as <-. destruct P as [P1 P2].
    assert (F : firstn (S k) blocks = firstn k blocks ++ [b]). { clear - NB. revert k NB. induction blocks as [|c l IH]; intros k NB; [destruct k; discriminate|]. destruct k as [|k]; [injection NB as ->; reflexivity|]. cbn [firstn app]. f_equal. apply IH, NB. }
    rewrite F, concat_app. cbn [concat]. rewrite app_nil_r, app_assoc. split; [unfold violated in *; rewrite existsb_app, I1, P1; reflexivity|]. unfold PointsRun.hits in *. rewrite flat_map_app'. apply merge_tables_spec; [exact SH|exact SH2|exact I2|exact P2|].
    (* the blocks have different edges *)
    intros x y X Y XY. fold (hits (master ++ concat (firstn k blocks))) in X. fold (hits b) in Y. apply in_hits in X, Y. rewrite XY in X.
    assert (ND : NoDup (map fst (master ++ concat blocks))) by (eapply Permutation_NoDup; [apply Permutation_map; etransitivity; [apply Permutation_sym, SH|rewrite <- BL; apply Permutation_app_comm]|apply pairs_spec]).
    assert (Q : concat blocks = concat (firstn k blocks) ++ b ++ concat (skipn (S k) blocks)). { rewrite <- (firstn_skipn (S k) blocks) at 1. rewrite concat_app, F, concat_app. cbn [concat]. rewrite app_nil_r, <- app_assoc. reflexivity. }
    rewrite Q, app_assoc, (map_app fst (master ++ concat (firstn k blocks))), (map_app fst b) in ND. revert ND X. generalize (map fst (master ++ concat (firstn k blocks))) as l0. intros l0 ND X. clear - ND X Y. induction l0 as [|z l IH]; [destruct X|]. cbn in ND. apply NoDup_cons_iff in ND. destruct ND as [N1 N2]. destruct X as [E|X]; [|exact (IH N2 X)]. apply N1. rewrite E, !in_app_iff. auto.
Qed.
Lemma all_in i b : nth_error all i = Some b -> forall p, In p b -> In p (master ++ concat blocks).
Proof. intros E p I. apply nth_error_In, in_app_iff in E. apply in_app_iff. destruct E as [E|[<-|[]]]; [right; apply in_concat; exists b; auto|left; exact I]. Qed.

(** The result of an execution of any number of threads in any order: either general position is violated by one of the tests, or the tables describe exactly the crossings found by the tests. *)
Theorem C73_points evs r o : execute evs = Some r -> PointsModel.outcome cnt r = Some o ->
  match o with
  | None => exists e f, tested e f /\ tests e f = Violation
  | Some t =>
    (forall e f, tested e f -> tests e f <> Violation) /\
    NoDup (registry t) /\ (forall e f, In (e, f) (registry t) <-> tested e f /\ exists p, tests e f = Hit p) /\
    map Hit (coordinates t) = map (fun x => tests (fst x) (snd x)) (registry t) /\
    found (faces psf) (fun e => cut_vertex e = true) (fun e => exists g, faces psf e = [g]) cnt (registry t)
      (find Nat.eqb (on_edges t)) (find Nat.eqb (on_faces t)) (find pair_eqb (between t)) (border t) (partial_cut t)
  end.
Proof.
  intros EX O. assert (NE : all <> []) by (unfold all; destruct blocks; discriminate). pose proof (execute_RI psf sm_face_count cut_vertex tests cnt shuffle shuffle2 all evs r EX) as RI0.
  pose proof (outcome_spec psf sm_face_count cut_vertex tests cnt shuffle shuffle2 all NE r o RI0 O) as S. destruct pairs_spec as (P1 & P2 & P3).
  assert (PM : Permutation (master ++ concat blocks) pairs) by (etransitivity; [apply Permutation_app_comm|]; rewrite BL; apply SH).
  destruct o as [t|].
  - destruct S as [_ S]. assert (LA : n all - 1 = length blocks) by (unfold n, all; rewrite app_length; cbn; lia). rewrite LA in S. destruct (merged_spec _ _ (le_n _) S) as [V TT]. rewrite firstn_all in V, TT. pose proof (t_registry _ _ _ _ _ _ _ TT) as R. set (hs := hits (master ++ concat blocks)) in *.
    assert (IH : forall e f, In (e, f) hs <-> tested e f /\ exists p, tests e f = Hit p).
    { intros e f. rewrite <- P3. unfold hs, PointsRun.hits. rewrite in_flat_map. split.
      - intros ([e' fs] & I & J). cbn [fst snd] in J. apply in_map_iff in J. destruct J as (f' & [= <- <-] & J). apply filter_In in J. destruct J as [J H]. split; [exists fs; split; [eapply Permutation_in; [exact PM|exact I]|exact J]|]. unfold is_hit in H. destruct (tests e' f') as [| |p]; try discriminate. eauto.
      - intros ((l & I & J) & p & H). exists (e, l). split; [eapply Permutation_in; [apply Permutation_sym, PM|exact I]|]. cbn [fst snd]. apply in_map_iff. exists f. split; [reflexivity|]. apply filter_In. split; [exact J|]. unfold is_hit. rewrite H. reflexivity. }
    assert (TB : forall e f, In (e, f) hs -> exists g, In g (faces psf e) /\ cut_vertex e = Nat.leb sm_face_count g).
    { intros e f I. apply IH in I. destruct I as [(_ & g & o & A & B & C) _]. exists g. apply (sc_around _ _ _ _ _ SC) in B. split; [exact B|exact (sc_mesh _ _ _ _ _ SC e g B)]. }
    assert (BC : forall e f, In (e, f) hs -> belongs_to_cm psf sm_face_count e = cut_vertex e). { intros e f I. destruct (TB e f I) as (g & G & _). unfold belongs_to_cm, edge_face. pose proof (sc_mesh _ _ _ _ _ SC e) as M. unfold faces in M, G. destruct (fst (psf e)) as [a|]; [symmetry; apply M; left; reflexivity|]. destruct (snd (psf e)) as [a|]; [symmetry; apply M; left; reflexivity|destruct G]. }
    assert (BO : forall e f, In (e, f) hs -> is_border_edge psf e = true <-> exists g, faces psf e = [g]).
    { intros e f I. destruct (TB e f I) as (g & G & _). unfold is_border_edge, faces in *. destruct (psf e) as [[a|] [b|]]; cbn in *; split; intros H; try discriminate; try reflexivity; try (eexists; reflexivity); try destruct G; destruct H as (? & H); discriminate. }
    rewrite R. split; [|split; [|split; [exact IH|split; [exact (t_coordinates _ _ _ _ _ _ _ TT)|constructor]]]].
    + intros e f TE H. apply P3 in TE. destruct TE as (l & I & J). unfold violated in V. apply not_true_iff_false in V. apply V, existsb_exists. exists (e, l). split; [eapply Permutation_in; [apply Permutation_sym, PM|exact I]|]. cbn. apply existsb_exists. exists f. split; [exact J|]. unfold is_violation. rewrite H. reflexivity.
    + assert (ND : NoDup (map fst (master ++ concat blocks))) by (eapply Permutation_NoDup; [apply Permutation_map, Permutation_sym, PM|exact P1]). assert (NL : forall e l, In (e, l) (master ++ concat blocks) -> NoDup l) by (intros e l I; apply (P2 e); eapply Permutation_in; [exact PM|exact I]).
      unfold hs. clear - ND NL. induction (master ++ concat blocks) as [|[e l] L IH]; [constructor|]. cbn [PointsRun.hits flat_map fst snd]. inversion_clear ND as [|? ? N1 N2]. specialize (IH N2 (fun e' l' I => NL e' l' (or_intror I))). pose proof (NL e l (or_introl eq_refl)) as NE. fold (hits L).
      assert (NF : NoDup (filter (is_hit tests e) l)) by (apply NoDup_filter, NE). assert (DJ : forall x, In x (hits L) -> fst x <> e) by (intros x I; apply in_hits in I; intros <-; exact (N1 I)). clear - IH NF DJ. induction (filter (is_hit tests e) l) as [|f fs IHf]; [exact IH|]. inversion_clear NF as [|? ? N1 N2]. cbn [map app]. constructor; [|exact (IHf N2)]. rewrite in_app_iff, in_map_iff. intros [(f' & [= <-] & I)|I]; [exact (N1 I)|]. exact (DJ _ I eq_refl).
    + apply (TI_lists Nat.eqb edge_key _ cnt hs _ (t_edges _ _ _ _ _ _ _ TT)). intros v e. unfold is_point, edge_key. split.
      * intros (f & L & E). split; [exact L|]. exists (e, f). split; [exact E|apply Nat.eqb_refl].
      * intros (L & [e' f] & E & Q). cbn in Q. apply Nat.eqb_eq in Q. subst e'. eauto.
    + apply (TI_lists Nat.eqb (face_key psf) _ cnt hs _ (t_faces _ _ _ _ _ _ _ TT)). intros v g. unfold lies_on, is_point, face_key. change (point_faces psf) with (fun e f => f :: faces psf e). split.
      * intros (e & f & (L & E) & Q). split; [exact L|]. exists (e, f). split; [exact E|]. cbn [fst snd]. apply existsb_exists. exists g. split; [cbn; destruct Q as [->|Q]; auto|apply Nat.eqb_refl].
      * intros (L & [e f] & E & Q). exists e, f. split; [auto|]. cbn [fst snd] in Q. apply existsb_exists in Q. destruct Q as (g' & Q & QQ). apply Nat.eqb_eq in QQ. subst g'. cbn in Q. destruct Q as [->|Q]; auto.
    + apply (TI_lists pair_eqb (pair_key psf sm_face_count) _ cnt hs _ (t_between _ _ _ _ _ _ _ TT)). intros v k. unfold lies_between, is_point, pair_key.
      assert (FP : forall e f, In (e, f) hs -> existsb (pair_eqb k) (face_pairs psf sm_face_count e f) = true <-> fst k <= snd k /\ (fst k = f /\ In (snd k) (faces psf e) \/ snd k = f /\ In (fst k) (faces psf e))).
      { intros e f I. assert (Q : forall a, In (make_pair f a) (face_pairs psf sm_face_count e f) <-> In a (faces psf e)).
        { intros a. assert (SY : make_pair f a = make_pair a f) by (unfold make_pair; destruct (Nat.ltb_spec f a), (Nat.ltb_spec a f); f_equal; lia). assert (IJ : forall a c, make_pair f a = make_pair f c <-> a = c) by (intros; split; [intros; eapply make_pair_inj; eauto|intros ->; reflexivity]).
          assert (SY' : forall c, make_pair c f = make_pair f c) by (intros c; unfold make_pair; destruct (Nat.ltb_spec f c), (Nat.ltb_spec c f); f_equal; lia).
          unfold face_pairs, edge_face, other_face, faces. destruct (belongs_to_cm psf sm_face_count e), (fst (psf e)) as [x|], (snd (psf e)) as [y|]; cbn [app In]; rewrite ?SY', ?IJ; tauto. }
        assert (SH' : forall q, In q (face_pairs psf sm_face_count e f) -> exists a, q = make_pair f a).
        { intros q J. assert (SY' : forall c, make_pair c f = make_pair f c) by (intros c; unfold make_pair; destruct (Nat.ltb_spec f c), (Nat.ltb_spec c f); f_equal; lia). unfold face_pairs, edge_face, other_face in J. destruct (belongs_to_cm psf sm_face_count e), (fst (psf e)) as [x|], (snd (psf e)) as [y|]; cbn [app In] in J; rewrite ?SY' in J; repeat (destruct J as [<-|J]; [eexists; reflexivity|]); destruct J. }
        rewrite existsb_exists. split.
        - intros (q & J & QQ). apply pair_eqb_eq in QQ. subst q. destruct (SH' k J) as (a & ->). apply Q in J. unfold make_pair. destruct (Nat.ltb_spec f a); cbn [fst snd]; (split; [lia|]); auto.
        - intros (LE & D). exists k. split; [|apply pair_eqb_eq; reflexivity]. destruct k as [k1 k2]. cbn [fst snd] in *. destruct D as [[-> D]|[-> D]].
          + apply Q in D. unfold make_pair in D. destruct (Nat.ltb_spec f k2); [exact D|]. replace k2 with f in * by lia. exact D.
          + apply Q in D. unfold make_pair in D. destruct (Nat.ltb_spec f k1); [lia|]. exact D. }
      split.
      * intros (LE & e & f & (L & E) & Q). split; [exact L|]. exists (e, f). split; [exact E|]. cbn [fst snd]. apply FP; [eapply nth_error_In, E|]. auto.
      * intros (L & [e f] & E & Q). cbn [fst snd] in Q. apply FP in Q; [|eapply nth_error_In, E]. destruct Q as [LE Q]. split; [exact LE|]. exists e, f. auto.
    + rewrite (t_border _ _ _ _ _ _ _ TT). split; [apply numbers_sorted|]. intros v. rewrite numbers_In. unfold is_point, border_key. split.
      * intros (L & [e f] & E & Q). cbn [fst snd] in Q. apply nth_error_In in E as I. apply andb_true_iff in Q. destruct Q as [Q1 Q2]. rewrite (BC e f I) in Q1. apply (BO e f I) in Q2. exists e, f. auto.
      * intros (e & f & (L & E) & Q1 & Q2). split; [exact L|]. exists (e, f). split; [exact E|]. cbn [fst snd]. apply nth_error_In in E as I. rewrite (BC e f I), Q1. apply (BO e f I), Q2.
    + rewrite (t_partial _ _ _ _ _ _ _ TT), existsb_exists. unfold is_point, partial_key. split.
      * intros ([e f] & I & Q). cbn [fst] in Q. apply andb_true_iff in Q. destruct Q as [Q1 Q2]. apply (BO e f I) in Q2. apply In_nth_error in I. destruct I as (i & I). exists (cnt + i), e, f. split; [split; [lia|]; rewrite <- I; f_equal; lia|]. auto.
      * intros (v & e & f & (L & E) & Q1 & Q2). apply nth_error_In in E. exists (e, f). split; [exact E|]. cbn [fst]. rewrite Q1. apply (BO e f E), Q2.
  - destruct S as (i & L & E). unfold pob in E. destruct (nth_error all i) as [b|] eqn:NB; [|apply nth_error_None in NB; unfold n in L; lia]. pose proof (points_of_block_spec psf sm_face_count cut_vertex tests b (proj1 (nth_all _ _ NB))) as P. rewrite E in P. unfold violated in P. apply existsb_exists in P. destruct P as ([e fs] & I & P). apply existsb_exists in P. destruct P as (f & J & P). cbn [fst snd] in *. exists e, f. split; [apply P3; exists fs; split; [exact (proj2 (nth_all _ _ NB) _ _ I)|exact J]|]. unfold is_violation in P. destruct (tests e f); try discriminate. reflexivity.
Qed.
(** Every execution comes to its end. *)
Theorem C73_ends evs r : execute evs = Some r -> length evs <= 3 * S (length blocks) /\ ((forall ev, step r ev = None) -> exists o, PointsModel.outcome cnt r = Some o).
Proof.
  intros EX. assert (NE : all <> []) by (unfold all; destruct blocks; discriminate). pose proof (execute_RI psf sm_face_count cut_vertex tests cnt shuffle shuffle2 all evs r EX) as RI0. split.
  - pose proof (execute_short psf sm_face_count cut_vertex tests cnt shuffle shuffle2 all NE evs r EX) as L. assert (n all = S (length blocks)) by (unfold n, all; rewrite app_length; cbn; lia). lia.
  - intros ST. pose proof (progress psf sm_face_count cut_vertex tests cnt shuffle shuffle2 all NE r RI0 ST). destruct (PointsModel.outcome cnt r) as [o|]; [eauto|congruence].
Qed.
End C73.

(** If the candidates are the faces of the other mesh with overlapping boxes (C01) and the box of a face covers those of its edges, every pair of an edge and a face of the other mesh with overlapping boxes is tested. *)
Theorem C73_complete around psf sm_face_count cut_vertex candidates overlap face_overlap : scene around psf sm_face_count cut_vertex candidates ->
  (forall g e, In g (faces psf e) -> In e (around g)) ->
  (forall g f, Nat.leb sm_face_count f = negb (Nat.leb sm_face_count g) -> face_overlap g f = true -> exists o, In (g, o) candidates /\ In f o) ->
  (forall e g f, In g (faces psf e) -> overlap e f = true -> face_overlap g f = true) ->
  forall e f, faces psf e <> [] -> (tested around overlap candidates e f <-> overlap e f = true /\ Nat.leb sm_face_count f = negb (cut_vertex e)).
Proof.
  intros SC AR FO CO e f NE. split.
  - intros (O & g & o & I & J & K). split; [exact O|]. apply (sc_around _ _ _ _ _ SC) in J. rewrite (sc_mesh _ _ _ _ _ SC e g J). apply (sc_others _ _ _ _ _ SC g o I), K.
  - intros (O & M). split; [exact O|]. destruct (faces psf e) as [|g gs] eqn:F; [congruence|]. assert (G : In g (faces psf e)) by (rewrite F; left; reflexivity). rewrite (sc_mesh _ _ _ _ _ SC e g G) in M. destruct (FO g f M (CO e g f G O)) as (o & I & J). exists g, o. split; [exact I|]. split; [apply AR, G|exact J].
Qed.
