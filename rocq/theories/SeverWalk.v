(** The invariant of the partitioning. *)
From Coq Require Import List Arith Bool Lia Permutation.
From Verif Require Import CutModel ClipModel PatchModel SeverModel SeverSpec SeverProofs.
From Verif Require PatchProofs PatchSeeds.
Import ListNotations.

Section Walk.
Variable polygons : list (list nat).
Variable sm_count c : nat.
Variable seg : nat -> nat * nat.
Variable registry : list (nat * nat).
Variable cnt : nat.
Variables (sm_vtx_cnt sm_face_count : nat).
Variable psf : nat -> option nat * option nat.
Variables (vertices edges : nat).
Variable incoming : list (nat * list nat).
Variable shuffle : list nat -> list nat.
Notation src := (src seg).
Notation tgt := (tgt seg).
Notation sources := (sources polygons sm_count).
Notation cross := (fun v => cnt <= v).
Notation cut := (fun h => h < 2 * c).
Hypothesis OK : sever_input src tgt cross cut vertices (2 * edges) sources (skipn sm_count polygons) (fun v => sm_vtx_cnt <= v) incoming.
Hypothesis SH : forall l h, In h (shuffle l) <-> In h l.
Notation side := (side sources).
Notation keys := (shuffle (flag_keys polygons seg cnt sm_vtx_cnt incoming)).
Notation next := (next polygons sm_count).
Notation prev := (prev polygons sm_count).
Notation start := (start seg cnt vertices edges).
Notation n0 := (length (fst (copied_edges seg cnt edges))).
Notation ihalfedge := (ihalfedge seg cnt).

Lemma ivtx_iff v : ivtx cnt v = true <-> cnt <= v.
Proof. apply Nat.leb_le. Qed.
Lemma ivtx_not v : ivtx cnt v = false <-> ~ cnt <= v.
Proof. rewrite <- ivtx_iff. destruct (ivtx cnt v); intuition congruence. Qed.
Lemma src_opp h : src (opp h) = tgt h.
Proof. reflexivity. Qed.
Lemma tgt_opp h : tgt (opp h) = src h.
Proof. unfold ClipModel.tgt. rewrite sopp_opp. reflexivity. Qed.
Lemma cut_opp h : cut (opp h) <-> cut h.
Proof. pose proof (si_both _ _ _ _ _ _ _ _ _ _ OK h) as B. rewrite reverse_opp in B. exact B. Qed.
Lemma uncut_opp h : ~ cut h -> ~ cut (opp h).
Proof. intros N K. apply N. rewrite <- cut_opp. exact K. Qed.

Definition linked (a b : nat) : Prop := exists p, In p sources /\ follows p a b.
Lemma linked_sides a b : linked a b -> side a /\ side b.
Proof. intros (p & I & F). apply follows_In in F. destruct F. split; exists p; auto. Qed.
Lemma linked_ends a b : linked a b -> tgt a = src b.
Proof. intros (p & I & F). exact (si_loops _ _ _ _ _ _ _ _ _ _ OK p a b I F). Qed.
Lemma linked_turn a b : linked a b -> cnt <= tgt a -> cut a \/ cut b.
Proof. intros (p & I & F). exact (si_turn _ _ _ _ _ _ _ _ _ _ OK p a b I F). Qed.
Lemma polygon_unique p q h : In p sources -> In q sources -> In h p -> In h q -> p = q.
Proof.
  intros P Q Ip Iq. pose proof (si_once _ _ _ _ _ _ _ _ _ _ OK) as N. apply concat_unique in N. destruct N as [_ U].
  apply In_nth_error in P. destruct P as [i P]. apply In_nth_error in Q. destruct Q as [j Q]. assert (i = j) by (eapply U; eauto). subst j. congruence.
Qed.
Lemma linked_fun a b b' : linked a b -> linked a b' -> b = b'.
Proof.
  intros (p & I & F) (q & J & G). destruct (follows_In _ _ _ F) as [Fa Fb], (follows_In _ _ _ G) as [Ga Gb]. assert (p = q) by eauto using polygon_unique. subst q.
  pose proof (si_once _ _ _ _ _ _ _ _ _ _ OK) as N. apply concat_unique in N. destruct N as [N _]. specialize (N p I).
  destruct F as (k & A & B), G as (l & A' & B'). rewrite NoDup_nth_error in N. assert (k = l). { apply N; [apply nth_error_Some; congruence|congruence]. } subst l. congruence.
Qed.
Lemma linked_inj a a' b : linked a b -> linked a' b -> a = a'.
Proof.
  intros (p & I & F) (q & J & G). destruct (follows_In _ _ _ F) as [Fa Fb], (follows_In _ _ _ G) as [Ga Gb]. assert (p = q) by eauto using polygon_unique. subst q.
  pose proof (si_once _ _ _ _ _ _ _ _ _ _ OK) as N. apply concat_unique in N. destruct N as [N _]. specialize (N p I).
  destruct F as (k & A & B), G as (l & A' & B'). rewrite NoDup_nth_error in N.
  assert (K : k < length p) by (apply nth_error_Some; congruence). assert (L : l < length p) by (apply nth_error_Some; congruence).
  assert (E : S k mod length p = S l mod length p). { apply N; [apply Nat.mod_upper_bound; lia|congruence]. }
  apply succ_mod_inj in E; [subst l; congruence|assumption..].
Qed.
Lemma links_In a b : In (a, b) (links polygons sm_count) <-> linked a b.
Proof.
  unfold links, linked. rewrite <- in_rev, in_flat_map. split.
  - intros (p & I & J). exists p. rewrite <- In_combine_follows. auto.
  - intros (p & I & J). exists p. rewrite In_combine_follows. auto.
Qed.
Lemma next_linked a b : next a = Some b -> linked a b.
Proof. intros E. apply lookup_some_In in E. apply links_In, E. Qed.
Lemma prev_linked a b : prev b = Some a -> linked a b.
Proof. intros E. apply lookup_some_In in E. apply in_map_iff in E. destruct E as ([x y] & E & I). cbn in E. injection E as -> ->. apply links_In, I. Qed.

Definition get (s : state) (h : nat) : option nat := lookup (ihe s) h.
Definition place (s : state) (h a b : nat) : Prop :=
  nth_error (copies s) a = Some (src h) /\ nth_error (copies s) b = Some (tgt h) /\ (~ cross (src h) -> a = src h) /\ (~ cross (tgt h) -> b = tgt h).
Record inv (s : state) (exc : option nat) : Prop := {
  i_copy : forall v, v < vertices -> nth_error (copies s) v = Some v;
  i_he : forall h m, get s h = Some m -> side h /\ ihalfedge h = true /\ edge m < length (medges s) /\ n0 <= edge m /\ place s h (msrc s m) (mtgt s m);
  i_first : firstn n0 (medges s) = fst (copied_edges seg cnt edges);
  i_done : forall h, In h (done s) -> get s h <> None;
  i_pre : forall h, get s h <> None -> ~ In h (done s) -> ~ cut h /\ In (opp h) (done s);
  i_pair : forall h m, get s h = Some m -> ~ cut h -> side (opp h) -> get s (opp h) = Some (opp m);
  i_edge : forall h m h' m', get s h = Some m -> get s h' = Some m' -> edge m = edge m' -> h' = h \/ (h' = opp h /\ ~ cut h);
  i_join : forall a b m n, get s a = Some m -> get s b = Some n -> linked a b -> mtgt s m = msrc s n;
  i_fwd : forall a b, In a (done s) -> linked a b -> cross (tgt a) -> In b (done s) \/ exc = Some a;
  i_back : forall a b, In b (done s) -> cut b -> linked a b -> In a (done s);
  i_exc : forall a, exc = Some a -> In a (done s) }.

(** vertices added *)
Record extends (s s' : state) : Prop := { e_ihe : ihe s' = ihe s; e_edges : medges s' = medges s; e_done : done s' = done s; e_copies : exists l, copies s' = copies s ++ l }.
Lemma extends_refl s : extends s s.
Proof. constructor; auto. exists []. rewrite app_nil_r. reflexivity. Qed.
Lemma extends_trans s t u : extends s t -> extends t u -> extends s u.
Proof. intros [A B C [l D]] [A' B' C' [l' D']]. constructor; try congruence. exists (l ++ l'). rewrite D', D, app_assoc. reflexivity. Qed.
Lemma nth_error_grow {A} (l l' : list A) k x : nth_error l k = Some x -> nth_error (l ++ l') k = Some x.
Proof. intros E. rewrite nth_error_app1; [exact E|apply nth_error_Some; congruence]. Qed.
Lemma extends_inv s s' e : extends s s' -> inv s e -> inv s' e.
Proof.
  intros [A B C [l D]] I. destruct s as [c1 e1 m1 d1], s' as [c2 e2 m2 d2]. cbn in A, B, C, D. subst.
  destruct I as [I1 I2 I3 I4 I5 I6 I7 I8 I9 I10 I11]. constructor; auto.
  - intros v L. apply nth_error_grow. auto.
  - intros h m E. destruct (I2 h m E) as (S & H & L & L' & P1 & P2 & P3 & P4). repeat split; auto; apply nth_error_grow; assumption.
Qed.
Lemma add_copy_extends s v : extends s (snd (add_copy s v)).
Proof. constructor; auto. eexists. reflexivity. Qed.
Lemma add_copy_place s v x : nth_error (copies s) v = Some x -> nth_error (copies (snd (add_copy s v))) (fst (add_copy s v)) = Some x.
Proof. intros E. cbn. rewrite nth_error_app2, Nat.sub_diag by lia. cbn. f_equal. apply nth_error_nth. exact E. Qed.

Ltac step1 H := match type of H with (bind ?e _ = Some _) => let E := fresh "E" in destruct e eqn:E; cbn [bind] in H; [|discriminate H] end.

Lemma erase_In h l l' : erase h l = Some l' -> forall x, In x l' -> In x l.
Proof. revert l'. induction l as [|y l IH]; cbn; intros l' E; [discriminate|]. destruct (Nat.eqb h y); [injection E as <-; right; assumption|]. destruct (erase h l); cbn in E; [|discriminate]. injection E as <-. intros x [->|I]; [left; reflexivity|right; eauto]. Qed.

Notation resolve := (resolve polygons sm_count (2 * c) seg registry cnt sm_vtx_cnt sm_face_count psf incoming shuffle).
Lemma resolve_spec s e h x v s' ox : inv s e -> x < vertices -> tgt h = x -> resolve s h x x ox = Some (v, s') -> extends s s' /\ nth_error (copies s') v = Some x.
Proof.
  intros I X T H. unfold SeverModel.resolve in H. step1 H. rename l into hs. step1 H. rename l into others.
  assert (OT : forall y, In y others -> tgt y = x).
  { intros y J. assert (J' : In y hs). { clear -E0 J. revert others E0 J. induction hs as [|h hs IH]; cbn [across]; intros l H; [injection H as <-; intros []|]. step1 H. step1 H. injection H as <-. destruct b; cbn [In]; [intros [->|J]; eauto|intros J; right; eauto]. }
    eapply (si_arriving _ _ _ _ _ _ _ _ _ _ OK); [apply lookup_some_In, E|exact J']. }
  assert (TG : forall y m t, extends s t -> get s y = Some m -> tgt y = x -> nth_error (copies t) (mtgt t m) = Some x).
  { intros y m t X' G TY. pose proof (i_he _ _ (extends_inv s t e X' I) y m) as P. unfold get in *. rewrite (e_ihe _ _ X') in P. destruct (P G) as (_ & _ & _ & _ & _ & P2 & _). rewrite TY in P2. exact P2. }
  destruct others as [|front others'] eqn:EO.
  { injection H as <- <-. split; [apply extends_refl|]. apply (i_copy _ _ I). exact X. }
  rewrite <- EO in *. step1 H. destruct p as [[same rest] t].
  assert (G : extends s t /\ (forall y, same = Some y -> tgt y = x) /\ (forall y, In y rest -> tgt y = x)).
  { clear H. destruct ox.
    - destruct (traced polygons (opp h)); [|injection E1 as <- <- <-; repeat split; [apply extends_refl|discriminate|exact OT]].
      step1 E1. rename n into p. step1 E1. destruct b.
      + step1 E1. injection E1 as <- <- <-. repeat split; [apply extends_refl| |].
        * intros y EE. injection EE as <-. apply prev_linked in E2. apply linked_ends in E2. rewrite E2. exact T.
        * intros y J. apply OT. eapply erase_In; eauto.
      + injection E1 as <- <- <-. repeat split; [apply extends_refl|discriminate|exact OT].
    - destruct (negb (traced polygons h)).
      + step1 E1. injection E1 as <- <- <-. repeat split; [apply add_copy_extends|discriminate|exact OT].
      + step1 E1. rename n into nx. step1 E1. destruct (b && _).
        * step1 E1. injection E1 as <- <- <-. repeat split; [apply extends_refl| |].
          -- intros y EE. injection EE as <-. rewrite tgt_opp. apply next_linked in E2. apply linked_ends in E2. congruence.
          -- intros y J. apply OT. eapply erase_In; eauto.
        * injection E1 as <- <- <-. repeat split; [apply extends_refl|discriminate|exact OT]. }
  destruct G as (X' & GS & GR). destruct same as [y|].
  - step1 H. injection H as <- <-. split; [exact X'|]. apply (TG y); auto. unfold get. rewrite <- (e_ihe _ _ X'). exact E2.
  - step1 H. rename n into y. step1 H. rename n into m. injection H as <- <-. destruct rest as [|y' rest']; [discriminate|]. cbn in E2. injection E2 as ->. split.
    + apply extends_trans with t; [exact X'|constructor; auto; eexists; reflexivity].
    + change (nth_error (copies (snd (add_copy t (mtgt t m)))) (fst (add_copy t (mtgt t m))) = Some x). apply add_copy_place. apply (TG y); auto; [unfold get; rewrite <- (e_ihe _ _ X'); exact E3|apply GR; left; reflexivity].
Qed.

(** ** A new edge *)
Lemma sources_In p : In p sources -> In p polygons.
Proof. unfold SeverModel.sources. intros I. rewrite <- (firstn_skipn sm_count polygons). apply in_or_app. left. exact I. Qed.
Lemma traced_iff h : traced polygons h = true <-> exists p, In p polygons /\ In h p.
Proof.
  unfold traced. split.
  - destruct (h_to_ply polygons h) as [|p l] eqn:E; [discriminate|]. intros _. assert (I : In p (h_to_ply polygons h)) by (rewrite E; left; reflexivity).
    apply PatchProofs.h_to_ply_side in I. destruct I as (q & I & J). exists q. split; [eapply nth_error_In, I|exact J].
  - intros (p & I & J). apply In_nth_error in I. destruct I as [i I]. assert (K : In i (h_to_ply polygons h)) by (apply PatchProofs.h_to_ply_side; exists p; auto).
    destruct (h_to_ply polygons h); [destruct K|reflexivity].
Qed.
Lemma side_traced h : side h -> traced polygons h = true.
Proof. intros (p & I & J). apply traced_iff. exists p. split; [apply sources_In, I|exact J]. Qed.
Lemma traced_cases h : traced polygons h = true -> side h \/ exists p, In p (skipn sm_count polygons) /\ In h p.
Proof. intros T. apply traced_iff in T. destruct T as (p & I & J). rewrite <- (firstn_skipn sm_count polygons) in I. apply in_app_or in I. destruct I as [I|I]; [left|right]; exists p; auto. Qed.
Lemma traced_opp h : side h -> ~ cut h -> traced polygons (opp h) = true -> side (opp h).
Proof.
  intros S U T. apply traced_cases in T. destruct T as [T|(p & I & J)]; [exact T|]. exfalso. apply U. eapply (si_shared _ _ _ _ _ _ _ _ _ _ OK); eauto. rewrite reverse_opp. exact J.
Qed.
Lemma boundary_iff h : is_boundary_halfedge (2 * c) h = true <-> ~ cut h.
Proof. unfold is_boundary_halfedge. rewrite Nat.leb_le. cbv beta. lia. Qed.
Lemma cut_dec h : cut h \/ ~ cut h.
Proof. cbv beta. lia. Qed.

Notation edge_of := (edge_of polygons (2 * c)).
Section Add.
Variables (s : state) (exc : option nat) (cur a b : nat).
Hypothesis I : inv s exc.
Hypothesis SC : side cur.
Hypothesis IH : ihalfedge cur = true.
Hypothesis NG : get s cur = None.
Hypothesis PL : place s cur a b.
Hypothesis NX : forall n m, linked cur n -> cross (tgt cur) -> get s n = Some m -> b = msrc s m.
Hypothesis PR : forall p m, linked p cur -> cross (src cur) -> get s p = Some m -> a = mtgt s m.
Hypothesis PD : forall p, cut cur -> linked p cur -> In p (done s).
Hypothesis EX : forall p, exc = Some p -> linked p cur.

Let len := length (medges s).
Let t := mark (edge_of s cur a b) cur.
Lemma opp_free : ~ cut cur -> get s (opp cur) = None.
Proof.
  intros U. destruct (get s (opp cur)) as [m|] eqn:E; [|reflexivity]. exfalso.
  pose proof (i_pair _ _ I _ _ E (uncut_opp _ U)) as P. rewrite sopp_opp in P. rewrite NG in P. discriminate (P SC).
Qed.
Lemma t_fields : copies t = copies s /\ medges t = medges s ++ [(a, b)] /\ done t = cur :: done s.
Proof.
  unfold t, SeverModel.edge_of. unfold get in NG. rewrite mem_lookup, NG. cbn [negb]. rewrite orb_true_r. cbn [add_edge].
  destruct (_ && _); cbn; auto.
Qed.
Lemma get_t h : get t h = if Nat.eqb h cur then Some (2 * len) else if Nat.eqb h (opp cur) && (is_boundary_halfedge (2 * c) cur && traced polygons (opp cur)) then Some (2 * len + 1) else get s h.
Proof.
  pose proof opp_free as OF. unfold t, SeverModel.edge_of, get in *. rewrite mem_lookup, NG. cbn [negb]. rewrite orb_true_r. cbn [add_edge].
  destruct (is_boundary_halfedge (2 * c) cur && traced polygons (opp cur)) eqn:E.
  - apply andb_true_iff in E. destruct E as [E _]. apply boundary_iff in E. specialize (OF E).
    unfold emplace, mark. cbn [ihe copies medges done]. rewrite (mem_lookup (ihe s) cur), NG. rewrite (mem_lookup ((cur, _) :: ihe s) (opp cur)). cbn [lookup].
    destruct (Nat.eqb_spec (opp cur) cur) as [Q|_]; [destruct (opp_ne cur Q)|]. rewrite OF. cbn [lookup]. rewrite opp_double, andb_true_r.
    destruct (Nat.eqb_spec h cur) as [->|N]; [|destruct (Nat.eqb h (opp cur)); reflexivity].
    destruct (Nat.eqb_spec cur (opp cur)) as [Q|_]; [destruct (opp_ne cur (eq_sym Q))|reflexivity].
  - unfold emplace, mark. cbn [ihe copies medges done]. rewrite (mem_lookup (ihe s) cur), NG. cbn [lookup]. rewrite andb_false_r. reflexivity.
Qed.
Lemma get_cur : get t cur = Some (2 * len).
Proof. rewrite get_t, Nat.eqb_refl. reflexivity. Qed.
Lemma get_old h m : get s h = Some m -> get t h = Some m.
Proof.
  intros G. rewrite get_t. destruct (Nat.eqb_spec h cur) as [->|_]; [congruence|]. destruct (Nat.eqb_spec h (opp cur)) as [->|_]; [|exact G].
  destruct (is_boundary_halfedge (2 * c) cur) eqn:E; [|exact G]. apply boundary_iff in E. rewrite (opp_free E) in G. discriminate.
Qed.
Lemma get_cases h m : get t h = Some m -> (h = cur /\ m = 2 * len) \/ (h = opp cur /\ ~ cut cur /\ side (opp cur) /\ m = 2 * len + 1) \/ get s h = Some m.
Proof.
  rewrite get_t. destruct (Nat.eqb_spec h cur) as [->|_]; [intros E; injection E as <-; left; auto|]. destruct (Nat.eqb_spec h (opp cur)) as [->|_]; [|auto].
  destruct (is_boundary_halfedge (2 * c) cur) eqn:E; [|auto]. apply boundary_iff in E. destruct (traced polygons (opp cur)) eqn:T; [|auto]. cbn.
  intros Q. injection Q as <-. right. left. repeat split; auto. apply traced_opp; auto.
Qed.
Lemma old_range h m : get s h = Some m -> edge m < len.
Proof. intros G. apply (i_he _ _ I _ _ G). Qed.
Lemma mseg_old m : edge m < len -> mseg t (edge m) = mseg s (edge m).
Proof. intros L. unfold mseg. destruct t_fields as (_ & -> & _). apply app_nth1. exact L. Qed.
Lemma ends_old m : edge m < len -> msrc t m = msrc s m /\ mtgt t m = mtgt s m.
Proof. intros L. unfold msrc, mtgt, ClipModel.tgt, ClipModel.src. rewrite edge_opp, (mseg_old m L). auto. Qed.
Lemma mseg_new : mseg t len = (a, b).
Proof. unfold mseg. destruct t_fields as (_ & -> & _). rewrite app_nth2, Nat.sub_diag by (unfold len; lia). reflexivity. Qed.
Lemma ends_new : msrc t (2 * len) = a /\ mtgt t (2 * len) = b /\ msrc t (2 * len + 1) = b /\ mtgt t (2 * len + 1) = a.
Proof.
  rewrite <- opp_double. unfold mtgt, msrc, ClipModel.tgt. rewrite sopp_opp. unfold ClipModel.src. rewrite even_opp, edge_opp, edge_double, even_double, mseg_new. auto.
Qed.
Lemma edge_new : edge (2 * len) = len /\ edge (2 * len + 1) = len.
Proof. split; [apply edge_double|]. rewrite <- opp_double, edge_opp. apply edge_double. Qed.
Lemma place_t h m : get t h = Some m -> place t h (msrc t m) (mtgt t m).
Proof.
  intros G. destruct t_fields as (C & _). unfold place. rewrite C. destruct ends_new as (E1 & E2 & E3 & E4). apply get_cases in G. destruct G as [(-> & ->)|[(-> & _ & _ & ->)|G]].
  - rewrite E1, E2. exact PL.
  - rewrite E3, E4, src_opp, tgt_opp. destruct PL as (P1 & P2 & P3 & P4). auto.
  - destruct (ends_old m (old_range _ _ G)) as [-> ->]. apply (i_he _ _ I _ _ G).
Qed.
Lemma old_done h m : get s h = Some m -> cut h -> In h (done s).
Proof. intros G K. destruct (in_dec Nat.eq_dec h (done s)) as [D|D]; [exact D|]. destruct (i_pre _ _ I h) as [U _]; [congruence|exact D|]. destruct (U K). Qed.
Lemma join_t x y m n : get t x = Some m -> get t y = Some n -> linked x y -> mtgt t m = msrc t n.
Proof.
  intros Gx Gy L. destruct (le_lt_dec cnt (tgt x)) as [X|X].
  2:{ destruct (place_t _ _ Gx) as (_ & _ & _ & P). destruct (place_t _ _ Gy) as (_ & _ & Q & _). rewrite P by lia. rewrite Q; [apply linked_ends, L|]. rewrite <- (linked_ends _ _ L). lia. }
  pose proof (linked_turn _ _ L X) as T. destruct ends_new as (E1 & E2 & E3 & E4). pose proof (get_cases _ _ Gx) as Cx. pose proof (get_cases _ _ Gy) as Cy.
  pose proof (fun U : ~ cut cur => uncut_opp _ U) as UO.
  destruct Cx as [(-> & ->)|[(-> & U & SO & ->)|Cx]], Cy as [(-> & ->)|[(-> & V & SO' & ->)|Cy]].
  - exfalso. destruct T as [T|T]; apply (i_done _ _ I cur); auto.
  - exfalso. destruct T as [T|T]; [apply (V T)|exact (UO V T)].
  - rewrite E2. destruct (ends_old n (old_range _ _ Cy)) as [-> _]. eapply NX; eauto.
  - exfalso. destruct T as [T|T]; [exact (UO U T)|apply (U T)].
  - exfalso. destruct T as [T|T]; exact (UO U T).
  - exfalso. destruct T as [T|T]; [exact (UO U T)|]. pose proof (old_done _ _ Cy T) as D. apply (i_done _ _ I (opp cur)); [exact (i_back _ _ I _ _ D T L)|apply opp_free, U].
  - destruct (ends_old m (old_range _ _ Cx)) as [_ ->]. rewrite E1. symmetry. eapply PR; eauto. rewrite <- (linked_ends _ _ L). exact X.
  - exfalso. destruct T as [T|T]; [|exact (UO V T)]. pose proof (old_done _ _ Cx T) as D. destruct (i_fwd _ _ I _ _ D L X) as [D'|E].
    + apply (i_done _ _ I (opp cur)); [exact D'|apply opp_free, V].
    + apply EX in E. apply (opp_ne cur). exact (linked_fun _ _ _ L E).
  - destruct (ends_old m (old_range _ _ Cx)) as [_ ->]. destruct (ends_old n (old_range _ _ Cy)) as [-> _]. eapply (i_join _ _ I); eauto.
Qed.
Lemma add_inv : inv t (Some cur).
Proof.
  destruct t_fields as (C & M & D). destruct edge_new as [N1 N2]. constructor.
  - rewrite C. apply (i_copy _ _ I).
  - intros h m G. pose proof (place_t _ _ G) as P. assert (LN : n0 <= len). { pose proof (f_equal (@length _) (i_first _ _ I)) as F. rewrite firstn_length in F. unfold len. lia. }
    assert (LT : length (medges t) = S len) by (rewrite M, app_length; cbn; unfold len; lia). rewrite LT.
    apply get_cases in G. destruct G as [(-> & ->)|[(-> & U & SO & ->)|G]].
    + rewrite N1 in *. repeat split; auto; try lia; apply P.
    + rewrite N2. repeat split; auto; try lia; try apply P. unfold SeverModel.ihalfedge in *. rewrite src_opp, tgt_opp, orb_comm. exact IH.
    + destruct (i_he _ _ I _ _ G) as (S' & H & L & L' & _). repeat split; auto; try lia; apply P.
  - rewrite M. rewrite firstn_app. pose proof (i_first _ _ I) as F. pose proof (f_equal (@length _) F) as FL. rewrite firstn_length in FL. replace (n0 - length (medges s)) with 0 by lia. cbn [firstn]. rewrite app_nil_r. exact F.
  - rewrite D. intros h [<-|J]; [rewrite get_cur; discriminate|]. destruct (get s h) as [m|] eqn:G; [rewrite (get_old _ _ G); discriminate|destruct (i_done _ _ I _ J G)].
  - rewrite D. intros h G J. destruct (get t h) as [m|] eqn:E; [|congruence]. apply get_cases in E. destruct E as [(-> & ->)|[(-> & U & SO & ->)|E]].
    + destruct J. left. reflexivity.
    + split; [apply uncut_opp, U|]. rewrite sopp_opp. left. reflexivity.
    + destruct (i_pre _ _ I h) as [U O]; [congruence|intros K; apply J; right; exact K|]. split; [exact U|right; exact O].
  - intros h m G U SO. apply get_cases in G. destruct G as [(-> & ->)|[(-> & U' & SO' & ->)|G]].
    + rewrite get_t. destruct (Nat.eqb_spec (opp cur) cur) as [Q|_]; [destruct (opp_ne _ Q)|]. rewrite Nat.eqb_refl, (side_traced _ SO). rewrite (proj2 (boundary_iff cur) U). cbn [andb]. rewrite opp_double. reflexivity.
    + rewrite sopp_opp, get_cur. rewrite <- opp_double, sopp_opp. reflexivity.
    + apply get_old. exact (i_pair _ _ I _ _ G U SO).
  - intros h m h' m' G G' E. pose proof (get_cases _ _ G) as Q. pose proof (get_cases _ _ G') as Q'.
    destruct Q as [(-> & ->)|[(-> & U & SO & ->)|Q]], Q' as [(-> & ->)|[(-> & U' & SO' & ->)|Q']]; rewrite ?N1, ?N2 in E.
    + left. reflexivity.
    + right. auto.
    + pose proof (old_range _ _ Q'). lia.
    + right. rewrite sopp_opp. split; [reflexivity|apply uncut_opp, U].
    + left. reflexivity.
    + pose proof (old_range _ _ Q'). lia.
    + pose proof (old_range _ _ Q). lia.
    + pose proof (old_range _ _ Q). lia.
    + exact (i_edge _ _ I _ _ _ _ Q Q' E).
  - intros x y m n. apply join_t.
  - rewrite D. intros x y [<-|J] L X; [right; reflexivity|]. destruct (i_fwd _ _ I _ _ J L X) as [K|K]; [left; right; exact K|]. left. left. apply EX in K. exact (linked_fun _ _ _ K L).
  - rewrite D. intros x y [<-|J] K L; [right; exact (PD _ K L)|right; exact (i_back _ _ I _ _ J K L)].
  - rewrite D. intros x E. injection E as <-. left. reflexivity.
Qed.
End Add.

(** a halfedge that is there already *)
Lemma mark_inv s exc cur : inv s exc -> get s cur <> None -> ~ cut cur -> (forall p, exc = Some p -> linked p cur) -> inv (mark s cur) (Some cur).
Proof.
  intros I G U EX. destruct s as [c1 e1 m1 d1]. destruct I as [I1 I2 I3 I4 I5 I6 I7 I8 I9 I10 I11]. unfold mark. constructor; auto; cbn [done] in *.
  - intros h [<-|J]; auto. exact (I4 h J).
  - intros h GH J. destruct (I5 h GH) as [A B]; [intros K; apply J; right; exact K|]. split; [exact A|right; exact B].
  - intros x y [<-|J] L X; [right; reflexivity|]. destruct (I9 _ _ J L X) as [K|K]; [left; right; exact K|]. left. left. apply EX in K. exact (linked_fun _ _ _ K L).
  - intros x y [<-|J] K L; [destruct (U K)|right; exact (I10 _ _ J K L)].
  - intros x E. injection E as <-. left. reflexivity.
Qed.

(** ** One halfedge *)
Lemma extends_ends s t : extends s t -> forall m, msrc t m = msrc s m /\ mtgt t m = mtgt s m.
Proof. intros X m. unfold msrc, mtgt, ClipModel.tgt, ClipModel.src, mseg. rewrite (e_edges _ _ X). auto. Qed.
Lemma extends_get s t : extends s t -> forall h, get t h = get s h.
Proof. intros X h. unfold get. rewrite (e_ihe _ _ X). reflexivity. Qed.
Lemma extends_nth s t v x : extends s t -> nth_error (copies s) v = Some x -> nth_error (copies t) v = Some x.
Proof. intros X E. destruct (e_copies _ _ X) as [l ->]. apply nth_error_grow, E. Qed.

Notation target_of := (target_of polygons sm_count (2 * c) seg registry cnt sm_vtx_cnt sm_face_count psf incoming shuffle).
Notation source_of := (source_of polygons sm_count (2 * c) seg registry cnt sm_vtx_cnt sm_face_count psf incoming shuffle).
Notation pushed := (pushed polygons seg cnt sm_vtx_cnt incoming shuffle).
Notation step := (step polygons sm_count (2 * c) seg registry cnt sm_vtx_cnt sm_face_count psf incoming shuffle).
Notation walk := (walk polygons sm_count (2 * c) seg registry cnt sm_vtx_cnt sm_face_count psf incoming shuffle).
Notation flag := (flag polygons seg cnt sm_vtx_cnt incoming shuffle).

Lemma target_spec s e cur nxt b t : inv s e -> side cur -> linked cur nxt -> target_of s cur nxt = Some (b, t) ->
  extends s t /\ nth_error (copies t) b = Some (tgt cur) /\ (~ cross (tgt cur) -> b = tgt cur) /\ (forall m, get s nxt = Some m -> cross (tgt cur) -> b = msrc s m).
Proof.
  intros I S L H. destruct (si_range _ _ _ _ _ _ _ _ _ _ OK _ S) as (R1 & R2 & _). unfold SeverModel.target_of in H. destruct (ivtx cnt (tgt cur)) eqn:X.
  - apply ivtx_iff in X. destruct (lookup (ihe s) nxt) as [m|] eqn:E.
    + injection H as <- <-. split; [apply extends_refl|]. split; [|split; [intros N; destruct (N X)|]].
      * destruct (i_he _ _ I _ _ E) as (_ & _ & _ & _ & P & _). rewrite (linked_ends _ _ L). exact P.
      * intros n G _. unfold get in G. congruence.
    + destruct (resolve_spec s e cur (tgt cur) b t _ I R2 eq_refl H) as [X' P]. split; [exact X'|]. split; [exact P|]. split; [intros N; destruct (N X)|]. intros m G. unfold get in G. congruence.
  - apply ivtx_not in X. injection H as <- <-. split; [apply extends_refl|]. split; [apply (i_copy _ _ I), R2|]. split; [auto|]. intros m _ K. destruct (X K).
Qed.
Lemma source_spec s e init cur a t : inv s e -> side cur -> source_of s init cur = Some (a, t) ->
  extends s t /\ nth_error (copies t) a = Some (src cur) /\ (~ cross (src cur) -> a = src cur) /\ (forall p m, cur <> init -> linked p cur -> cross (src cur) -> get s p = Some m -> a = mtgt s m).
Proof.
  intros I S H. destruct (si_range _ _ _ _ _ _ _ _ _ _ OK _ S) as (R1 & R2 & _). unfold SeverModel.source_of in H. destruct (ivtx cnt (src cur)) eqn:X.
  - apply ivtx_iff in X. destruct (Nat.eqb_spec cur init) as [->|N].
    + destruct (resolve_spec s e (opp init) (src init) a t _ I R1 (tgt_opp _) H) as [X' P]. split; [exact X'|]. split; [exact P|]. split; [intros K; destruct (K X)|]. intros p m K. destruct (K eq_refl).
    + step1 H. rename n into p. step1 H. rename n into m. injection H as <- <-. apply prev_linked in E. split; [apply extends_refl|]. split; [|split; [intros K; destruct (K X)|]].
      * destruct (i_he _ _ I _ _ E0) as (_ & _ & _ & _ & _ & P & _). rewrite <- (linked_ends _ _ E). exact P.
      * intros q n _ L _ G. rewrite <- (linked_inj _ _ _ E L) in G. unfold get in G. congruence.
  - apply ivtx_not in X. injection H as <- <-. split; [apply extends_refl|]. split; [apply (i_copy _ _ I), R1|]. split; [auto|]. intros p m _ _ K. destruct (X K).
Qed.
Definition good (h : nat) : Prop := side h /\ ihalfedge h = true /\ ~ cut h.
Definition mode (s : state) (exc : option nat) (init cur : nat) : Prop :=
  (exc = None /\ init = cur /\ ~ cut cur) \/ (exists p, exc = Some p /\ linked p cur /\ ~ In cur (done s) /\ In init (done s)).
Lemma done_edge_of s cur a b : done (edge_of s cur a b) = done s.
Proof. unfold SeverModel.edge_of. cbn [add_edge]. destruct (_ || _); [|reflexivity]. destruct (_ && _); reflexivity. Qed.
Lemma step_inv s exc init cur nxt t l : inv s exc -> side cur -> ihalfedge cur = true -> linked cur nxt -> mode s exc init cur -> step s init cur nxt = Some (t, l) ->
  inv t (Some cur) /\ done t = cur :: done s /\ (forall h, In h l -> good h).
Proof.
  intros I S H L M E. unfold SeverModel.step in E. step1 E. destruct p as [b s1]. step1 E. destruct p as [a s2]. step1 E. injection E as <- <-. change (c + (c + 0)) with (2 * c) in *.
  destruct (target_spec _ _ _ _ _ _ I S L E0) as (X1 & T1 & T2 & T3). pose proof (extends_inv _ _ _ X1 I) as I1.
  destruct (source_spec _ _ _ _ _ _ I1 S E1) as (X2 & A1 & A2 & A3). pose proof (extends_inv _ _ _ X2 I1) as I2.
  pose proof (extends_trans _ _ _ X1 X2) as X. assert (EX : forall p, exc = Some p -> linked p cur). { destruct M as [(-> & _)|(p & -> & L' & _)]; intros q Q; [discriminate|injection Q as <-; exact L']. }
  split; [|split].
  - destruct (get s2 cur) as [m|] eqn:G.
    + assert (U : ~ cut cur). { destruct M as [(_ & _ & U)|(p & _ & _ & N & _)]; [exact U|]. apply (i_pre _ _ I2 cur); [congruence|]. rewrite (e_done _ _ X). exact N. }
      assert (EE : edge_of s2 cur a b = s2). { unfold SeverModel.edge_of. rewrite (proj2 (boundary_iff cur) U), mem_lookup. unfold get in G. rewrite G. reflexivity. }
      rewrite EE. apply mark_inv with exc; auto. congruence.
    + apply add_inv with exc; auto.
      * repeat split; auto. exact (extends_nth _ _ _ _ X2 T1).
      * intros n m Ln K Gn. rewrite (proj1 (extends_ends _ _ X m)). rewrite (extends_get _ _ X) in Gn. rewrite <- (linked_fun _ _ _ L Ln) in Gn. auto.
      * intros p m Lp K Gp. rewrite (proj2 (extends_ends _ _ X2 m)). rewrite (extends_get _ _ X2) in Gp. destruct M as [(-> & -> & U)|(q & -> & Lq & N & D)].
        -- exfalso. assert (K' : cross (tgt p)) by (rewrite (linked_ends _ _ Lp); exact K). destruct (linked_turn _ _ Lp K') as [T|T]; [|destruct (U T)].
           rewrite <- (extends_get _ _ X2) in Gp. pose proof (old_done s2 None I2 _ _ Gp T) as D. destruct (i_fwd _ _ I2 _ _ D Lp K') as [D'|D']; [|discriminate]. exact (i_done _ _ I2 _ D' G).
        -- apply (A3 p); auto. intros ->. exact (N D).
      * intros p K Lp. destruct M as [(_ & _ & U)|(q & -> & Lq & _)]; [destruct (U K)|]. rewrite <- (linked_inj _ _ _ Lq Lp). apply (i_exc _ _ I2). reflexivity.
  - cbn [mark done]. rewrite done_edge_of, (e_done _ _ X). reflexivity.
  - intros h J. unfold SeverModel.pushed in E2. destruct (ivtx cnt (src cur) && negb (ivtx cnt (tgt cur)) && traced polygons (opp cur)) eqn:B; [|injection E2 as <-; destruct J].
    apply andb_true_iff in B. destruct B as [B T]. apply andb_true_iff in B. destruct B as [B1 B2]. apply negb_true_iff, ivtx_not in B2.
    assert (U : ~ cut cur). { intros K. apply B2. apply (si_curve _ _ _ _ _ _ _ _ _ _ OK _ S K). }
    step1 E2. injection E2 as <-. destruct (_ && _); [|destruct J]. destruct J as [<-|[]]. repeat split; [apply traced_opp; auto| |apply uncut_opp, U].
    unfold SeverModel.ihalfedge in *. rewrite src_opp, tgt_opp, orb_comm. exact H.
Qed.
Lemma flag_spec s h b : flag s h = Some b -> In h keys /\ (b = true <-> In h (done s)).
Proof. unfold SeverModel.flag. destruct (existsb (Nat.eqb h) keys) eqn:K; [|discriminate]. intros E. injection E as <-. split; [apply existsb_In, K|apply existsb_In]. Qed.
Lemma inv_close s cur nxt : inv s (Some cur) -> linked cur nxt -> (cross (tgt cur) -> In nxt (done s)) -> inv s None.
Proof.
  intros I L D. destruct I as [I1 I2 I3 I4 I5 I6 I7 I8 I9 I10 I11]. constructor; auto; [|discriminate].
  intros a b J L' X. destruct (I9 _ _ J L' X) as [K|K]; [left; exact K|]. injection K as <-. rewrite (linked_fun _ _ _ L' L). left. auto.
Qed.
Lemma walk_inv fuel : forall s exc stack init cur t stack', inv s exc -> side cur -> ihalfedge cur = true -> mode s exc init cur -> Forall good stack -> walk fuel s stack init cur = Some (t, stack') -> inv t None /\ Forall good stack'.
Proof.
  induction fuel as [|fuel IHf]; intros s exc stack init cur t stack' I S H M F E; [discriminate|]. cbn [SeverModel.walk] in E.
  step1 E. rename n into nxt. step1 E. destruct p as [s1 l]. step1 E. rename b into again. apply next_linked in E0.
  destruct (step_inv _ _ _ _ _ _ _ I S H E0 M E1) as (I1 & D1 & G1).
  assert (F' : Forall good (l ++ stack)). { apply Forall_app. split; [apply Forall_forall; exact G1|exact F]. }
  destruct again.
  - destruct (ihalfedge nxt) eqn:HN; [|discriminate]. destruct (flag s1 nxt) as [b|] eqn:FL; [|discriminate]. apply flag_spec in FL. destruct FL as [_ FL]. cbn in E2. injection E2 as E2. apply negb_true_iff in E2. subst b.
    eapply IHf; [exact I1| | | |exact F'|exact E]; [apply (linked_sides _ _ E0)|exact HN|]. right. exists cur. repeat split; auto; [intros J; apply FL in J; discriminate|]. rewrite D1.
    destruct M as [(_ & -> & _)|(p & _ & _ & _ & D)]; [left; reflexivity|right; exact D].
  - injection E as <- <-. split; [|exact F']. apply inv_close with cur nxt; auto. intros X. assert (HN : ihalfedge nxt = true). { unfold SeverModel.ihalfedge. rewrite <- (linked_ends _ _ E0). apply orb_true_iff. left. apply ivtx_iff, X. }
    rewrite HN in E2. destruct (flag s1 nxt) as [b|] eqn:FL; [|discriminate]. apply flag_spec in FL. destruct FL as [_ FL]. cbn in E2. injection E2 as E2. apply negb_false_iff in E2. apply FL, E2.
Qed.
Notation sequences := (sequences polygons sm_count (2 * c) seg registry cnt sm_vtx_cnt sm_face_count psf incoming shuffle).
Lemma sequences_inv fuel : forall s stack t, inv s None -> Forall good stack -> sequences fuel s stack = Some t -> inv t None.
Proof.
  induction fuel as [|fuel IHf]; intros s stack t I F E; [discriminate|]. cbn [SeverModel.sequences] in E. destruct stack as [|init stack]; [discriminate|]. inversion F as [|? ? (G1 & G2 & G3) F2]. subst.
  step1 E. destruct p as [s1 stack1]. assert (W : inv s1 None /\ Forall good stack1) by (eapply walk_inv; [exact I|exact G1|exact G2|left; auto|exact F2|exact E0]). destruct W as [I1 F1]. destruct stack1; [injection E as <-; exact I1|]. eapply IHf; eauto.
Qed.
Lemma find_start_spec test l h : find_start test l = Some (Some h) -> In h l /\ test h = Some true.
Proof. induction l as [|x l IH]; cbn; [discriminate|]. destruct (test x) as [[|]|] eqn:T; cbn; [intros E; injection E as ->; auto|intros E; destruct (IH E); auto|discriminate]. Qed.

(** the keys *)
Lemma flag_edge_keys ks h k : In k (flag_edge polygons seg cnt sm_vtx_cnt ks h) -> In k ks \/ (~ cross (src k) -> cross (tgt k) -> src k < sm_vtx_cnt).
Proof.
  unfold flag_edge. set (e := edge h). assert (T : tgt (2 * e) = src (2 * e + 1)) by (rewrite <- opp_double; reflexivity). assert (T' : tgt (2 * e + 1) = src (2 * e)) by (rewrite <- opp_double; apply tgt_opp).
  destruct (negb (ivtx cnt (tgt (2 * e))) && negb (ivtx cnt (src (2 * e)))) eqn:B1; [auto|].
  destruct (ivtx cnt (tgt (2 * e)) && negb (ivtx cnt (src (2 * e))) && Nat.leb sm_vtx_cnt (src (2 * e))) eqn:B2; [auto|].
  destruct (negb (ivtx cnt (tgt (2 * e))) && ivtx cnt (src (2 * e)) && Nat.leb sm_vtx_cnt (tgt (2 * e))) eqn:B3; [auto|].
  assert (G : k = 2 * e \/ k = 2 * e + 1 -> ~ cross (src k) -> cross (tgt k) -> src k < sm_vtx_cnt).
  { intros [-> | ->] N X.
    - apply ivtx_not in N. apply ivtx_iff in X. rewrite N, X in B2. cbn in B2. apply Nat.leb_gt in B2. exact B2.
    - rewrite T' in X. rewrite <- T in *. apply ivtx_not in N. apply ivtx_iff in X. rewrite N, X in B3. cbn in B3. apply Nat.leb_gt in B3. exact B3. }
  assert (AD : forall ks x, In k (if traced polygons x && negb (existsb (Nat.eqb x) ks) then ks ++ [x] else ks) -> In k ks \/ k = x).
  { intros l x. destruct (traced polygons x && negb (existsb (Nat.eqb x) l)); [|auto]. intros J. apply in_app_or in J. destruct J as [J|[J|[]]]; auto. }
  intros J. apply AD in J. destruct J as [J|J]; [apply AD in J; destruct J as [J|J]; [auto|right; apply G; auto]|right; apply G; auto].
Qed.
Lemma keys_original k : In k keys -> ~ cross (src k) -> cross (tgt k) -> src k < sm_vtx_cnt.
Proof.
  rewrite (SH (flag_keys polygons seg cnt sm_vtx_cnt incoming) k). unfold flag_keys.
  assert (G1 : forall hs ks, In k (fold_left (flag_edge polygons seg cnt sm_vtx_cnt) hs ks) -> In k ks \/ (~ cross (src k) -> cross (tgt k) -> src k < sm_vtx_cnt)).
  { induction hs as [|h hs IH]; cbn; intros ks J; [auto|]. apply IH in J. destruct J as [J|J]; [apply flag_edge_keys in J; exact J|auto]. }
  assert (G2 : forall ps ks, In k (fold_left (fun keys (p : nat * list nat) => fold_left (flag_edge polygons seg cnt sm_vtx_cnt) (snd p) keys) ps ks) -> In k ks \/ (~ cross (src k) -> cross (tgt k) -> src k < sm_vtx_cnt)).
  { induction ps as [|p ps IH]; cbn; intros ks J; [auto|]. apply IH in J. destruct J as [J|J]; [apply G1 in J; exact J|auto]. }
  intros J. apply G2 in J. destruct J as [[]|J]. exact J.
Qed.
Lemma class1_good s h : In h keys -> class1_start polygons seg cnt s h = Some true -> good h.
Proof.
  intros K E. unfold class1_start in E. destruct (ivtx cnt (src h)) eqn:X; [discriminate|]. destruct (existsb (Nat.eqb h) (done s)); [discriminate|]. destruct (ivtx cnt (tgt h)) eqn:Y; [|discriminate]. cbn in E.
  apply ivtx_not in X. apply ivtx_iff in Y. assert (T : traced polygons h = true). { unfold traced. destruct (h_to_ply polygons h); [discriminate|reflexivity]. }
  assert (S : side h). { apply traced_cases in T. destruct T as [T|(p & P & J)]; [exact T|]. exfalso. pose proof (keys_original h K X Y). pose proof (si_cutmesh _ _ _ _ _ _ _ _ _ _ OK h p P J X). cbv beta in *. lia. }
  repeat split; auto.
  - unfold SeverModel.ihalfedge. apply orb_true_iff. right. apply ivtx_iff, Y.
  - intros C. apply X. apply (si_curve _ _ _ _ _ _ _ _ _ _ OK _ S C).
Qed.
Lemma class3_good s h : class3_start polygons sm_count (2 * c) seg cnt s h = Some true -> good h.
Proof.
  intros E. unfold class3_start in E. destruct (existsb (Nat.eqb h) (done s)); [discriminate|]. destruct (ivtx cnt (src h)) eqn:X; [|discriminate]. destruct (ivtx cnt (tgt h)) eqn:Y; [|discriminate]. cbn [orb andb negb] in E.
  destruct (is_boundary_halfedge (2 * c) h) eqn:B; [|discriminate]. apply boundary_iff in B. step1 E. injection E as E. apply Nat.ltb_lt in E.
  repeat split; auto; [|unfold SeverModel.ihalfedge; rewrite X; reflexivity].
  assert (J : In n (h_to_ply polygons h)) by (destruct (h_to_ply polygons h); [discriminate|injection E0 as ->; left; reflexivity]). apply PatchProofs.h_to_ply_side in J. destruct J as (p & N & J). exists p. split; [|exact J].
  unfold SeverModel.sources. apply nth_error_In with n. rewrite <- N. rewrite <- (firstn_skipn sm_count polygons) at 2. rewrite nth_error_app1; [reflexivity|]. assert (n < length polygons) by (apply nth_error_Some; congruence). rewrite firstn_length. lia.
Qed.
Notation partition_from := (partition_from polygons sm_count (2 * c) seg registry cnt sm_vtx_cnt sm_face_count psf incoming shuffle).
Lemma partition_from_inv fuel : forall s h t, inv s None -> good h -> partition_from fuel s h = Some t -> inv t None.
Proof.
  induction fuel as [|fuel IHf]; intros s h t I G E; [discriminate|]. cbn [SeverModel.partition_from] in E. step1 E. rename s0 into s1. apply sequences_inv in E0; auto.
  step1 E. rename o into r. step1 E. destruct o as [h'|]; [|injection E as <-; exact E0]. eapply IHf; [exact E0| |exact E].
  destruct r as [h''|]; [injection E2 as ->; apply find_start_spec in E1; eapply class1_good; apply E1|]. apply find_start_spec in E2. eapply class3_good. apply E2.
Qed.
Lemma start_inv : inv start None.
Proof.
  assert (N : forall h, get start h = None) by reflexivity.
  constructor; try (intros; rewrite N in *; congruence); try (cbn; intros; tauto).
  - intros v L. cbn [copies SeverModel.start]. assert (G : forall n a k, k < n -> nth_error (seq a n) k = Some (a + k)). { induction n as [|n IH]; intros a k K; [lia|]. destruct k; cbn; [f_equal; lia|]. rewrite IH by lia. f_equal. lia. }
    rewrite G by exact L. reflexivity.
  - apply firstn_all.
  - discriminate.
Qed.
Lemma partition_inv fuel t : partition polygons sm_count (2 * c) seg registry cnt sm_vtx_cnt sm_face_count psf vertices edges incoming shuffle fuel = Some t -> inv t None.
Proof.
  unfold partition. intros E. step1 E. destruct o as [h|]; [|discriminate]. cbn [bind] in E. eapply partition_from_inv; [apply start_inv| |exact E]. apply find_start_spec in E0. eapply class1_good; apply E0.
Qed.

(** ** Which corners have the same vertex *)
Notation cut_edge_at := (SeverSpec.cut_edge_at registry cnt sm_face_count psf).
Hypothesis PT : sever_points src tgt cross cut sources (fun v => sm_vtx_cnt <= v) incoming cut_edge_at.
Hypothesis PO : sever_mouths src tgt cross cut sources.

(** the vertex of the corner after side a *)
Definition at_ (s : state) (a v : nat) : Prop := cross (tgt a) /\ ((exists m, get s a = Some m /\ v = mtgt s m) \/ (exists b n, linked a b /\ get s b = Some n /\ v = msrc s n)).
Definition joined (a a' : nat) : Prop := (exists b, linked a b /\ a' = opp b /\ ~ cut b) \/ (exists b, linked a' b /\ a = opp b /\ ~ cut b).
Lemma joined_sym a a' : joined a a' -> joined a' a.
Proof. intros [H|H]; [right|left]; exact H. Qed.
Record sep (s : state) (exc hole : option nat) : Prop := {
  s_fwd : forall a b, In a (done s) -> linked a b -> ihalfedge b = true -> In b (done s) \/ exc = Some a;
  s_back : forall a b, In b (done s) -> cross (src b) -> linked a b -> In a (done s) \/ hole = Some b;
  s_same : forall a a' v, at_ s a v -> at_ s a' v -> a = a' \/ joined a a' }.
Lemma pred_exists b : side b -> exists a, linked a b.
Proof.
  intros (p & I & J). apply In_nth_error in J. destruct J as [k J]. assert (K : k < length p) by (apply nth_error_Some; congruence).
  set (j := match k with O => length p - 1 | S k => k end). assert (JL : j < length p) by (unfold j; destruct k; lia). destruct (nth_error p j) as [a|] eqn:E; [|apply nth_error_None in E; lia].
  exists a, p. split; [exact I|]. exists j. split; [exact E|]. replace (S j mod length p) with k; [exact J|]. unfold j. destruct k.
  - replace (S (length p - 1)) with (length p) by lia. rewrite Nat.mod_same; lia.
  - rewrite Nat.mod_small; lia.
Qed.
Lemma at_origin s e a v : inv s e -> at_ s a v -> nth_error (copies s) v = Some (tgt a).
Proof.
  intros I (X & [(m & G & ->)|(b & n & L & G & ->)]); destruct (i_he _ _ I _ _ G) as (_ & _ & _ & _ & P1 & P2 & _); [exact P2|]. rewrite (linked_ends _ _ L). exact P1.
Qed.
Lemma at_extends s t a v : extends s t -> at_ s a v <-> at_ t a v.
Proof.
  intros X. unfold at_. split; (intros (C & [(m & G & ->)|(b & n & L & G & ->)]); split; [exact C| |exact C|]).
  - left. exists m. rewrite (extends_get _ _ X), (proj2 (extends_ends _ _ X m)). auto.
  - right. exists b, n. rewrite (extends_get _ _ X), (proj1 (extends_ends _ _ X n)). auto.
  - left. exists m. rewrite (extends_get _ _ X) in G. rewrite (proj2 (extends_ends _ _ X m)). auto.
  - right. exists b, n. rewrite (extends_get _ _ X) in G. rewrite (proj1 (extends_ends _ _ X n)). auto.
Qed.
Lemma sep_extends s t e h : extends s t -> sep s e h -> sep t e h.
Proof.
  intros X [F B V]. constructor; [rewrite (e_done _ _ X); exact F|rewrite (e_done _ _ X); exact B|]. intros a a' v A A'. apply (at_extends _ _ _ _ X) in A. apply (at_extends _ _ _ _ X) in A'. eauto.
Qed.
(** a corner that has a vertex: a side arrives that is done, but at the start of the sequence *)
Lemma at_done s e hole a v : inv s e -> sep s e hole -> at_ s a v -> (exists d, In d (done s) /\ side d /\ tgt d = tgt a) \/ (exists h, hole = Some h /\ src h = tgt a).
Proof.
  intros I S (X & H). assert (SD : forall d, In d (done s) -> side d). { intros d D. destruct (get s d) as [m|] eqn:G; [apply (i_he _ _ I _ _ G)|destruct (i_done _ _ I _ D G)]. }
  assert (OUT : forall b, In b (done s) -> src b = tgt a -> (exists d, In d (done s) /\ side d /\ tgt d = tgt a) \/ (exists h, hole = Some h /\ src h = tgt a)).
  { intros b D E. destruct (pred_exists b (SD _ D)) as (p & L). destruct (s_back _ _ _ S p b D) as [K|K]; auto; [rewrite E; exact X| |].
    - left. exists p. repeat split; auto. rewrite (linked_ends _ _ L). exact E.
    - right. exists b. auto. }
  destruct H as [(m & G & _)|(b & n & L & G & _)].
  - destruct (in_dec Nat.eq_dec a (done s)) as [D|D]; [left; exists a; auto|]. destruct (i_pre _ _ I a) as [U O]; [congruence|exact D|]. apply (OUT (opp a)); auto.
  - destruct (in_dec Nat.eq_dec b (done s)) as [D|D]; [apply (OUT b); auto; symmetry; apply linked_ends, L|]. destruct (i_pre _ _ I b) as [U O]; [congruence|exact D|]. left. exists (opp b). repeat split; auto. rewrite tgt_opp. symmetry. apply linked_ends, L.
Qed.

Lemma stays_done s d : side d -> In d (done s) -> stays polygons (2 * c) seg registry cnt sm_vtx_cnt sm_face_count psf incoming shuffle s d <> Some false.
Proof.
  intros S D. unfold stays. destruct (strictly_cs (2 * c) seg registry cnt sm_vtx_cnt sm_face_count psf d) as [b|] eqn:E; [|discriminate]. cbn [bind]. assert (b = false).
  { unfold strictly_cs in E. destruct (sp_source _ _ _ _ _ _ _ _ PT _ S) as [S1 S2]. cbv beta in S1, S2.
    destruct (ivtx cnt (src d)) eqn:X; destruct (ivtx cnt (tgt d)) eqn:Y; cbn [negb andb orb] in E.
    - destruct (is_boundary_halfedge (2 * c) d) eqn:B; [|congruence]. apply boundary_iff in B. apply ivtx_iff in X. apply ivtx_iff in Y. step1 E. destruct p as [e f]. step1 E. injection E as <-.
      apply Nat.leb_gt. destruct (le_lt_dec sm_face_count n) as [K|K]; [|exact K]. exfalso. apply (sp_edge _ _ _ _ _ _ _ _ PT _ S B X Y). exists e, f. split; [exact E0|]. exists n. split; [exact E1|exact K].
    - apply ivtx_not in Y. destruct (Nat.leb_spec sm_vtx_cnt (tgt d)) as [K|K]; [destruct (S2 Y K)|]. cbn in E. congruence.
    - apply ivtx_not in X. destruct (Nat.leb_spec sm_vtx_cnt (src d)) as [K|K]; [destruct (S1 X K)|]. cbn in E. congruence.
    - apply ivtx_not in X. apply ivtx_not in Y. destruct (Nat.leb_spec sm_vtx_cnt (src d)) as [K|K]; [destruct (S1 X K)|]. destruct (Nat.leb_spec sm_vtx_cnt (tgt d)) as [K'|K']; [destruct (S2 Y K')|]. cbn in E. congruence. }
  subst b. rewrite (side_traced _ S). cbn [negb]. destruct (flag s d) as [b|] eqn:F; [|discriminate]. apply flag_spec in F. destruct F as [_ F]. apply F in D. congruence.
Qed.
Lemma nobody s hs : SeverModel.across polygons (2 * c) seg registry cnt sm_vtx_cnt sm_face_count psf incoming shuffle s hs = Some [] -> forall d, In d hs -> side d -> ~ In d (done s).
Proof.
  induction hs as [|h hs IH]; cbn [SeverModel.across]; intros E d; [intros []|]. step1 E. step1 E. destruct b; [discriminate|]. assert (l = []) by congruence. subst l. intros [->|J] S D; [exact (stays_done s d S D E0)|exact (IH eq_refl d J S D)].
Qed.
Lemma lookup_nodup {A} (m : list (nat * A)) k a : NoDup (map fst m) -> In (k, a) m -> lookup m k = Some a.
Proof.
  induction m as [|[k' a'] m IH]; cbn; [intros _ []|]. intros N. inversion_clear N as [|? ? N1 N2]. intros [E|I]; [injection E as -> ->; rewrite Nat.eqb_refl; reflexivity|].
  destruct (Nat.eqb_spec k k') as [->|D]; [exfalso; apply N1; change k' with (fst (k', a)); apply in_map, I|apply IH; assumption].
Qed.
(** the vertex found is not used yet *)
Lemma resolve_new s e hole h x v t ox : inv s e -> sep s e hole -> tgt h = x -> cross x -> x < vertices -> resolve s h x x ox = Some (v, t) ->
  (ox = true -> forall p, linked p (opp h) -> ~ In p (done s)) -> (ox = false -> forall n, linked h n -> ~ cut n -> ~ In (opp n) (done s)) ->
  (forall d, hole = Some d -> src d <> x) -> forall a, ~ at_ s a v.
Proof.
  intros I S T X XV H N1 N2 NH a A. pose proof (at_origin _ _ _ _ I A) as OA. unfold SeverModel.resolve in H. step1 H. rename l into hs. step1 H. rename l into others.
  destruct others as [|front others'] eqn:EO.
  { injection H as <- <-. assert (TA : tgt a = x). { rewrite (i_copy _ _ I _ XV) in OA. congruence. }
    destruct (at_done _ _ _ _ _ I S A) as [(d & D & SD & TD)|(d & D & SD)].
    - rewrite TA in TD. assert (XD : cross (tgt d)) by (rewrite TD; exact X). destruct (sp_known _ _ _ _ _ _ _ _ PT d SD XD) as (hs' & K & J). rewrite TD in K. apply (lookup_nodup _ _ _ (sp_keys _ _ _ _ _ _ _ _ PT)) in K. rewrite K in E. injection E as ->. exact (nobody _ _ E0 _ J SD D).
    - apply (NH d D). congruence. }
  rewrite <- EO in *. step1 H. destruct p as [[same rest] u]. assert (G : extends s u /\ same = None).
  { clear H. destruct ox.
    - destruct (traced polygons (opp h)); [|injection E1 as <- <- <-; split; [apply extends_refl|reflexivity]].
      step1 E1. rename n into p. step1 E1. destruct b.
      + exfalso. apply flag_spec in E3. apply (N1 eq_refl p); [apply prev_linked, E2|apply E3; reflexivity].
      + injection E1 as <- <- <-. split; [apply extends_refl|reflexivity].
    - destruct (negb (traced polygons h)).
      + step1 E1. injection E1 as <- <- <-. split; [apply add_copy_extends|reflexivity].
      + step1 E1. rename n into nx. step1 E1. apply next_linked in E2. destruct (b && _) eqn:B; [|injection E1 as <- <- <-; split; [apply extends_refl|reflexivity]].
        exfalso. apply andb_true_iff in B. destruct B as [-> B]. destruct (traced polygons (opp nx)); [|discriminate]. apply flag_spec in E3. destruct E3 as [_ E3].
        apply (N2 eq_refl nx E2); [|apply E3; reflexivity]. rewrite (proj2 (ivtx_iff x) X) in B. cbn [andb] in B. destruct (ivtx cnt (tgt nx)) eqn:Y; [apply boundary_iff, B|]. apply ivtx_not in Y. intros K. apply Y. apply (si_curve _ _ _ _ _ _ _ _ _ _ OK nx); [apply (linked_sides _ _ E2)|exact K]. }
  destruct G as [XU ->]. step1 H. rename n into y. step1 H. rename n into m. injection H as <- <-. destruct (e_copies _ _ XU) as [l EC]. assert (K : length (copies u) < length (copies s)) by (apply nth_error_Some; congruence). rewrite EC, app_length in K. lia.
Qed.

Section AddSep.
Variables (s : state) (exc hole hole' : option nat) (cur a b : nat).
Hypothesis I : inv s exc.
Hypothesis S : sep s exc hole.
Hypothesis SC : side cur.
Hypothesis NG : get s cur = None.
Hypothesis PL : place s cur a b.
Hypothesis EX : forall p, exc = Some p -> linked p cur.
Hypothesis HO : forall d, hole = Some d -> hole' = Some d.
Hypothesis BK : forall p, cross (src cur) -> linked p cur -> In p (done s) \/ hole' = Some cur.
Hypothesis TB : cross (tgt cur) -> forall x, at_ s x b -> x = cur \/ joined cur x.
Hypothesis SA : cross (src cur) -> forall p x, linked p cur -> at_ s x a -> x = p \/ joined p x.
Let t := mark (edge_of s cur a b) cur.
Let len := length (medges s).
Definition twin : Prop := ~ cut cur /\ side (opp cur).
(** the corners that get a vertex, at the source and at the target *)
Definition at_source (x : nat) : Prop := cross (src cur) /\ (linked x cur \/ (twin /\ x = opp cur)).
Definition at_target (x : nat) : Prop := cross (tgt cur) /\ (x = cur \/ (twin /\ linked x (opp cur))).
Lemma at_cases x v : at_ t x v -> (at_source x /\ v = a) \/ (at_target x /\ v = b) \/ at_ s x v.
Proof.
  destruct (ends_new s cur a b NG) as (E1 & E2 & E3 & E4). fold t in E1, E2, E3, E4. fold len in E1, E2, E3, E4. intros (X & [(m & G & ->)|(y & n & L & G & ->)]).
  - pose proof (get_cases s exc cur a b I SC NG _ _ G) as C. fold len in C. destruct C as [(-> & ->)|[(-> & U & SO & ->)|C]].
    + right. left. rewrite E2. split; [split; [exact X|left; reflexivity]|reflexivity].
    + left. rewrite E4. rewrite tgt_opp in X. split; [split; [exact X|right; split; [split; auto|reflexivity]]|reflexivity].
    + right. right. split; [exact X|]. left. exists m. split; [exact C|]. apply (ends_old s cur a b NG). apply (old_range s exc I _ _ C).
  - pose proof (get_cases s exc cur a b I SC NG _ _ G) as C. fold len in C. pose proof (linked_ends _ _ L) as LE. destruct C as [(-> & ->)|[(-> & U & SO & ->)|C]].
    + left. rewrite E1. split; [split; [rewrite <- LE; exact X|left; exact L]|reflexivity].
    + right. left. rewrite E3. rewrite src_opp in LE. split; [split; [rewrite <- LE; exact X|right; split; [split; auto|exact L]]|reflexivity].
    + right. right. split; [exact X|]. right. exists y, n. split; [exact L|]. split; [exact C|]. apply (ends_old s cur a b NG). apply (old_range s exc I _ _ C).
Qed.
Lemma source_source x y : at_source x -> at_source y -> x = y \/ joined x y.
Proof.
  intros (_ & [L|(T & ->)]) (_ & [L'|(T' & ->)]).
  - left. exact (linked_inj _ _ _ L L').
  - right. left. exists cur. repeat split; auto. apply T'.
  - right. right. exists cur. repeat split; auto. apply T.
  - left. reflexivity.
Qed.
Lemma target_target x y : at_target x -> at_target y -> x = y \/ joined x y.
Proof.
  intros (_ & [->|(T & L)]) (_ & [->|(T' & L')]).
  - left. reflexivity.
  - right. right. exists (opp cur). rewrite sopp_opp. repeat split; auto. apply uncut_opp, T'.
  - right. left. exists (opp cur). rewrite sopp_opp. repeat split; auto. apply uncut_opp, T.
  - left. exact (linked_inj _ _ _ L L').
Qed.
Lemma source_old x y : at_source x -> at_ s y a -> x = y \/ joined x y.
Proof.
  intros (X & H) A. destruct (pred_exists _ SC) as (p & L). assert (XP : cross (tgt p)) by (rewrite (linked_ends _ _ L); exact X). destruct (SA X p y L A) as [->|J].
  - apply source_source; split; auto.
  - destruct H as [L'|(T & ->)]; [rewrite (linked_inj _ _ _ L' L); right; exact J|]. destruct J as [(d & L' & -> & U)|(d & L' & E & U)].
    + left. rewrite (linked_fun _ _ _ L' L). reflexivity.
    + exfalso. destruct (linked_turn _ _ L XP) as [K|K]; [|exact (proj1 T K)]. subst p. exact (uncut_opp _ U K).
Qed.
Lemma target_old x y : at_target x -> at_ s y b -> x = y \/ joined x y.
Proof.
  intros (X & H) A. destruct (TB X y A) as [->|J].
  - apply target_target; split; auto.
  - destruct H as [->|(T & L)]; [right; exact J|]. destruct J as [(d & L' & -> & U)|(d & L' & E & U)].
    + exfalso. destruct (linked_turn _ _ L' X) as [K|K]; [exact (proj1 T K)|exact (U K)].
    + left. assert (E' : opp cur = d) by (rewrite E, sopp_opp; reflexivity). rewrite E' in L. exact (linked_inj _ _ _ L L').
Qed.
Lemma source_target : a <> b.
Proof. intros E. destruct PL as (P1 & P2 & _). rewrite E in P1. apply (sp_ends _ _ _ _ _ _ _ _ PT _ SC). congruence. Qed.
Lemma add_sep : sep t (Some cur) hole'.
Proof.
  destruct (t_fields s cur a b NG) as (_ & _ & D). fold t in D. constructor.
  - rewrite D. intros x y [<-|J] L X; [right; reflexivity|]. destruct (s_fwd _ _ _ S _ _ J L X) as [K|K]; [left; right; exact K|]. left. left. apply EX in K. exact (linked_fun _ _ _ K L).
  - rewrite D. intros x y [<-|J] K L; [destruct (BK _ K L) as [Q|Q]; [left; right; exact Q|right; exact Q]|]. destruct (s_back _ _ _ S _ _ J K L) as [Q|Q]; [left; right; exact Q|right; apply HO, Q].
  - pose proof source_target as ST. intros x y v A B. apply at_cases in A. apply at_cases in B.
    destruct A as [(A & ->)|[(A & ->)|A]], B as [(B & E)|[(B & E)|B]]; try congruence.
    + apply source_source; auto.
    + apply source_old; auto.
    + apply target_target; auto.
    + apply target_old; auto.
    + subst v. destruct (source_old _ _ B A) as [->|J]; [left; reflexivity|right; apply joined_sym, J].
    + subst v. destruct (target_old _ _ B A) as [->|J]; [left; reflexivity|right; apply joined_sym, J].
    + exact (s_same _ _ _ S _ _ _ A B).
Qed.
End AddSep.
Lemma mark_sep s exc hole hole' cur : sep s exc hole -> (forall p, exc = Some p -> linked p cur) -> (forall d, hole = Some d -> hole' = Some d) -> (forall p, cross (src cur) -> linked p cur -> In p (done s) \/ hole' = Some cur) -> sep (mark s cur) (Some cur) hole'.
Proof.
  intros S EX HO BK. constructor; cbn [mark done].
  - intros x y [<-|J] L X; [right; reflexivity|]. destruct (s_fwd _ _ _ S _ _ J L X) as [K|K]; [left; right; exact K|]. left. left. apply EX in K. exact (linked_fun _ _ _ K L).
  - intros x y [<-|J] K L; [destruct (BK _ K L) as [Q|Q]; [left; right; exact Q|right; exact Q]|]. destruct (s_back _ _ _ S _ _ J K L) as [Q|Q]; [left; right; exact Q|right; apply HO, Q].
  - exact (s_same _ _ _ S).
Qed.

Definition hole_of (init : nat) : option nat := if ivtx cnt (src init) then Some init else None.
(** the walk stays in a polygon; one that starts at an intersection point is in a polygon with an intersection point at each side *)
Definition startable (h : nat) : Prop := good h /\ (cross (src h) -> cross (tgt h) /\ exists p, In p sources /\ In h p /\ forall k, In k p -> ihalfedge k = true).
Definition mode2 (s : state) (exc hole : option nat) (init cur : nat) : Prop :=
  startable init /\ ((exc = None /\ hole = None /\ init = cur) \/
    (exists q p, exc = Some q /\ hole = hole_of init /\ linked q cur /\ ~ In cur (done s) /\ In init (done s) /\ In p sources /\ In cur p /\ In init p)).
Lemma mode2_mode s exc hole init cur : mode2 s exc hole init cur -> mode s exc init cur.
Proof. intros ((G & _) & [(-> & _ & ->)|(q & p & -> & _ & L & N & D & _)]); [left; repeat split; apply G|right; exists q; auto]. Qed.
Lemma hole_far s exc hole init cur nxt : inv s exc -> linked cur nxt -> get s nxt = None -> mode2 s exc hole init cur -> forall d, hole = Some d -> src d <> tgt cur.
Proof.
  intros I L N ((G & G') & [(_ & -> & _)|(q & p & _ & -> & Lq & _ & D & P & C & J)]) d E X; [discriminate|]. unfold hole_of in E. destruct (ivtx cnt (src init)) eqn:Y; [|discriminate]. injection E as <-. apply ivtx_iff in Y.
  destruct (G' Y) as (Z & p' & P' & J' & H). assert (p' = p) by (eapply polygon_unique; eauto). subst p'. destruct (pred_exists init (proj1 G)) as (b & p' & P'' & F). destruct (follows_In _ _ _ F) as [Fb Fi]. assert (p' = p) by (eapply polygon_unique; eauto). subst p'.
  assert (cur = b). { eapply (PO p init cur b); eauto; [|apply G]. intros k K. specialize (H k K). unfold SeverModel.ihalfedge in H. apply orb_true_iff in H. rewrite !ivtx_iff in H. exact H. }
  subst b. assert (nxt = init). { apply (linked_fun cur); [exact L|exists p; auto]. } subst nxt. exact (i_done _ _ I _ D N).
Qed.
Lemma target_new s exc hole init cur nxt b t : inv s exc -> sep s exc hole -> side cur -> get s cur = None -> linked cur nxt -> mode2 s exc hole init cur -> target_of s cur nxt = Some (b, t) -> cross (tgt cur) -> forall x, at_ s x b -> x = cur \/ joined cur x.
Proof.
  intros I S SC NG L M H X x A. unfold SeverModel.target_of in H. rewrite (proj2 (ivtx_iff _) X) in H. destruct (lookup (ihe s) nxt) as [m|] eqn:E.
  - injection H as <- <-. assert (B : at_ s cur (msrc s m)). { split; [exact X|]. right. exists nxt, m. auto. } destruct (s_same _ _ _ S _ _ _ B A) as [Q|Q]; auto.
  - exfalso. revert A. apply (resolve_new s exc hole cur (tgt cur) b t _ I S eq_refl X) with (1 := proj1 (proj2 (si_range _ _ _ _ _ _ _ _ _ _ OK _ SC))) (2 := H).
    + intros Ox p Lp D. apply andb_true_iff in Ox. destruct Ox as [Ox _]. apply negb_true_iff, ivtx_not in Ox. assert (U : ~ cut cur). { intros K. apply Ox. apply (si_curve _ _ _ _ _ _ _ _ _ _ OK _ SC K). }
      assert (XP : cross (tgt p)). { rewrite (linked_ends _ _ Lp). exact X. } destruct (i_fwd _ _ I _ _ D Lp XP) as [K|K].
      * exact (i_done _ _ I _ K (opp_free s exc cur I SC NG U)).
      * destruct (mode2_mode _ _ _ _ _ M) as [(-> & _)|(q & -> & Lq & _)]; [discriminate|]. injection K as ->. exact (opp_ne cur (linked_fun _ _ _ Lp Lq)).
    + intros _ n Ln U D. rewrite <- (linked_fun _ _ _ L Ln) in U, D. destruct (linked_sides _ _ L) as [_ Sn]. destruct (get s (opp nxt)) as [m|] eqn:G; [|exact (i_done _ _ I _ D G)].
      pose proof (i_pair _ _ I _ _ G (uncut_opp _ U)) as Q. rewrite sopp_opp in Q. specialize (Q Sn). unfold get in Q. congruence.
    + exact (hole_far _ _ _ _ _ _ I L E M).
Qed.
Lemma source_new s exc hole init cur a t : inv s exc -> sep s exc hole -> side cur -> get s cur = None -> mode2 s exc hole init cur -> source_of s init cur = Some (a, t) -> cross (src cur) -> forall p x, linked p cur -> at_ s x a -> x = p \/ joined p x.
Proof.
  intros I S SC NG M H X p x Lp A. unfold SeverModel.source_of in H. rewrite (proj2 (ivtx_iff _) X) in H. destruct (Nat.eqb_spec cur init) as [->|N].
  - exfalso. destruct M as ((G & G') & M). revert A. apply (resolve_new s exc hole (opp init) (src init) a t _ I S (tgt_opp _) X) with (1 := proj1 (si_range _ _ _ _ _ _ _ _ _ _ OK _ SC)) (2 := H).
    + intros Ox. discriminate Ox.
    + intros _ n Ln U _. assert (XO : cross (tgt (opp init))) by (rewrite tgt_opp; exact X). destruct (linked_turn _ _ Ln XO) as [K|K]; [|exact (U K)]. exact (uncut_opp _ (proj2 (proj2 G)) K).
    + destruct M as [(_ & -> & _)|(q & p' & _ & _ & _ & N & D & _)]; [discriminate|destruct (N D)].
  - step1 H. rename n into q. step1 H. rename n into m. injection H as <- <-. apply prev_linked in E. rewrite <- (linked_inj _ _ _ E Lp). assert (B : at_ s q (mtgt s m)). { split; [rewrite (linked_ends _ _ E); exact X|]. left. exists m. auto. }
    destruct (s_same _ _ _ S _ _ _ B A) as [Q|Q]; auto.
Qed.
Lemma mode2_extends s t exc hole init cur : extends s t -> mode2 s exc hole init cur -> mode2 t exc hole init cur.
Proof. intros X (G & M). split; [exact G|]. rewrite (e_done _ _ X). exact M. Qed.
Lemma step_sep s exc hole init cur nxt t l : inv s exc -> sep s exc hole -> side cur -> ihalfedge cur = true -> linked cur nxt -> mode2 s exc hole init cur -> step s init cur nxt = Some (t, l) ->
  sep t (Some cur) (hole_of init) /\ (forall h, In h l -> ~ cross (src h)).
Proof.
  intros I S SC H L M E. unfold SeverModel.step in E. step1 E. destruct p as [b s1]. step1 E. destruct p as [a s2]. step1 E. injection E as <- <-. change (c + (c + 0)) with (2 * c) in *.
  destruct (target_spec _ _ _ _ _ _ I SC L E0) as (X1 & T1 & T2 & T3). pose proof (extends_inv _ _ _ X1 I) as I1. pose proof (sep_extends _ _ _ _ X1 S) as S1.
  destruct (source_spec _ _ _ _ _ _ I1 SC E1) as (X2 & A1 & A2 & A3). pose proof (extends_inv _ _ _ X2 I1) as I2. pose proof (sep_extends _ _ _ _ X2 S1) as S2.
  pose proof (extends_trans _ _ _ X1 X2) as X. assert (EX : forall p, exc = Some p -> linked p cur). { destruct (mode2_mode _ _ _ _ _ M) as [(-> & _)|(p & -> & L' & _)]; intros q Q; [discriminate|injection Q as <-; exact L']. }
  assert (HO : forall d, hole = Some d -> hole_of init = Some d). { destruct M as (_ & [(_ & -> & _)|(q & p & _ & -> & _)]); [discriminate|auto]. }
  assert (BK : forall p, cross (src cur) -> linked p cur -> In p (done s2) \/ hole_of init = Some cur).
  { intros p K Lp. destruct M as (_ & [(_ & _ & ->)|(q & p' & -> & _ & Lq & _)]); [right; unfold hole_of; rewrite (proj2 (ivtx_iff _) K); reflexivity|]. left. rewrite <- (linked_inj _ _ _ Lq Lp). apply (i_exc _ _ I2). reflexivity. }
  split.
  - destruct (get s2 cur) as [m|] eqn:G.
    + assert (U : ~ cut cur). { destruct (mode2_mode _ _ _ _ _ M) as [(_ & _ & U)|(p & _ & _ & N & _)]; [exact U|]. apply (i_pre _ _ I2 cur); [congruence|]. rewrite (e_done _ _ X). exact N. }
      assert (EE : edge_of s2 cur a b = s2). { unfold SeverModel.edge_of. rewrite (proj2 (boundary_iff cur) U), mem_lookup. unfold get in G. rewrite G. reflexivity. }
      rewrite EE. apply mark_sep with exc hole; auto.
    + assert (G0 : get s cur = None) by (rewrite <- (extends_get _ _ X); exact G). assert (G1 : get s1 cur = None) by (rewrite <- (extends_get _ _ X2); exact G). apply add_sep with exc hole; auto.
      * repeat split; auto. exact (extends_nth _ _ _ _ X2 T1).
      * intros K x A. apply (at_extends _ _ _ _ X) in A. exact (target_new _ _ _ _ _ _ _ _ I S SC G0 L M E0 K x A).
      * intros K p x Lp A. apply (at_extends _ _ _ _ X2) in A. exact (source_new _ _ _ _ _ _ _ I1 S1 SC G1 (mode2_extends _ _ _ _ _ _ X1 M) E1 K p x Lp A).
  - intros h J. unfold SeverModel.pushed in E2. destruct (ivtx cnt (src cur) && negb (ivtx cnt (tgt cur)) && traced polygons (opp cur)) eqn:B; [|injection E2 as <-; destruct J].
    apply andb_true_iff in B. destruct B as [B _]. apply andb_true_iff in B. destruct B as [_ B]. apply negb_true_iff, ivtx_not in B. step1 E2. injection E2 as <-. destruct (_ && _); [|destruct J]. destruct J as [<-|[]]. exact B.
Qed.
Lemma cycle (p : list nat) (Q : nat -> Prop) : (forall a b, follows p a b -> Q a -> Q b) -> forall x y, In x p -> Q x -> In y p -> Q y.
Proof.
  intros F x y X Qx Y. apply In_nth_error in X. destruct X as [k X]. apply In_nth_error in Y. destruct Y as [l Y]. assert (K : k < length p) by (apply nth_error_Some; congruence). assert (Ll : l < length p) by (apply nth_error_Some; congruence).
  assert (G : forall j, exists z, nth_error p ((k + j) mod length p) = Some z /\ Q z).
  { induction j as [|j (z & Z & Qz)]; [rewrite Nat.add_0_r, Nat.mod_small by lia; exists x; auto|].
    set (i := (k + j) mod length p) in *. assert (E : (k + S j) mod length p = S i mod length p). { unfold i. rewrite <- Nat.add_succ_comm. cbn [Nat.add]. rewrite <- (Nat.add_1_l (k + j)), <- (Nat.add_1_l ((k + j) mod length p)), Nat.add_mod_idemp_r by lia. reflexivity. }
    assert (IL : S i mod length p < length p) by (apply Nat.mod_upper_bound; lia). destruct (nth_error p (S i mod length p)) as [w|] eqn:W; [|apply nth_error_None in W; lia].
    exists w. split; [rewrite E; exact W|]. apply (F z w); [|exact Qz]. exists i. auto. }
  destruct (G (l + (length p - k))) as (z & Z & Qz). replace ((k + (l + (length p - k))) mod length p) with l in Z; [congruence|]. replace (k + (l + (length p - k))) with (l + 1 * length p) by lia. rewrite Nat.mod_add by lia. rewrite Nat.mod_small; lia.
Qed.
Lemma linked_polygon p a b : In p sources -> In a p -> linked a b -> In b p.
Proof. intros P A (q & Q & F). destruct (follows_In _ _ _ F) as [Fa Fb]. rewrite (polygon_unique p q a P Q A Fa). exact Fb. Qed.
Lemma walk_sep fuel : forall s exc hole stack init cur t stack', inv s exc -> sep s exc hole -> side cur -> ihalfedge cur = true -> mode2 s exc hole init cur -> Forall startable stack -> walk fuel s stack init cur = Some (t, stack') ->
  sep t None None /\ Forall startable stack'.
Proof.
  induction fuel as [|fuel IHf]; intros s exc hole stack init cur t stack' I S SC H M F E; [discriminate|]. cbn [SeverModel.walk] in E.
  step1 E. rename n into nxt. step1 E. destruct p as [s1 l]. step1 E. rename b into again. apply next_linked in E0.
  destruct (step_inv _ _ _ _ _ _ _ I SC H E0 (mode2_mode _ _ _ _ _ M) E1) as (I1 & D1 & G1). destruct (step_sep _ _ _ _ _ _ _ _ I S SC H E0 M E1) as (S1 & P1).
  assert (F' : Forall startable (l ++ stack)). { apply Forall_app. split; [|exact F]. apply Forall_forall. intros h J. split; [apply G1, J|]. intros K. destruct (P1 h J K). }
  assert (MP : exists p, In p sources /\ In cur p /\ In init p). { destruct M as (_ & [(_ & _ & ->)|(q & p & _ & _ & _ & _ & _ & P & C & J)]); [destruct SC as (p & P & C); exists p; auto|exists p; auto]. }
  destruct MP as (p & P & PC & PI). assert (PN : In nxt p) by (exact (linked_polygon _ _ _ P PC E0)).
  assert (DI : In init (done s1)). { rewrite D1. destruct M as (_ & [(_ & _ & ->)|(q & p' & _ & _ & _ & _ & D & _)]); [left; reflexivity|right; exact D]. }
  destruct again.
  - destruct (ihalfedge nxt) eqn:HN; [|discriminate]. destruct (flag s1 nxt) as [b|] eqn:FL; [|discriminate]. apply flag_spec in FL. destruct FL as [_ FL]. cbn in E2. injection E2 as E2. apply negb_true_iff in E2. subst b.
    eapply IHf; [exact I1|exact S1| |exact HN| |exact F'|exact E]; [apply (linked_sides _ _ E0)|]. split; [apply M|]. right. exists cur, p. repeat split; auto. intros J. apply FL in J. discriminate.
  - injection E as <- <-. split; [|exact F'].
    assert (FW : forall x y, In x (done s1) -> linked x y -> ihalfedge y = true -> In y (done s1)).
    { intros x y X L Y. destruct (s_fwd _ _ _ S1 _ _ X L Y) as [K|K]; [exact K|]. injection K as <-. rewrite (linked_fun _ _ _ L E0) in *. rewrite Y in E2. destruct (flag s1 nxt) as [b|] eqn:FL; [|discriminate]. apply flag_spec in FL. destruct FL as [_ FL]. cbn in E2. injection E2 as E2. apply negb_false_iff in E2. apply FL, E2. }
    constructor; [intros x y X L Y; left; eauto| |apply (s_same _ _ _ S1)].
    intros x y Y K L. destruct (s_back _ _ _ S1 _ _ Y K L) as [Q|Q]; [left; exact Q|]. unfold hole_of in Q. destruct (ivtx cnt (src init)) eqn:XI; [|discriminate]. injection Q as <-. left.
    destruct (proj2 (proj1 M) K) as (_ & p' & P' & J' & A'). assert (p' = p) by (eapply polygon_unique; eauto). subst p'.
    assert (XP : In x p). { destruct L as (q & Q & Fq). destruct (follows_In _ _ _ Fq) as [Fa Fb]. rewrite (polygon_unique p q init P Q PI Fb). exact Fa. }
    apply (cycle p (fun z => In z (done s1))) with init; auto. intros z w Fz Dz. apply (FW z w Dz); [exists p; auto|]. apply A'. eapply follows_In; eauto.
Qed.
Lemma sequences_sep fuel : forall s stack t, inv s None -> sep s None None -> Forall startable stack -> sequences fuel s stack = Some t -> sep t None None.
Proof.
  induction fuel as [|fuel IHf]; intros s stack t I S F E; [discriminate|]. cbn [SeverModel.sequences] in E. destruct stack as [|init stack]; [discriminate|]. inversion F as [|? ? G F2]. subst. pose proof G as ((G1 & G2 & G3) & _).
  step1 E. destruct p as [s1 stack1]. assert (FG : Forall good stack) by (eapply Forall_impl; [|exact F2]; intros x Q; apply Q).
  assert (W : inv s1 None /\ Forall good stack1) by (eapply walk_inv; [exact I|exact G1|exact G2|left; auto|exact FG|exact E0]). destruct W as [I1 _].
  assert (W : sep s1 None None /\ Forall startable stack1) by (eapply walk_sep; [exact I|exact S|exact G1|exact G2|split; [exact G|left; auto]|exact F2|exact E0]). destruct W as [S1 F1].
  destruct stack1; [injection E as <-; exact S1|]. eapply IHf; eauto.
Qed.

(** ** A sequence that starts at an intersection point *)
Lemma find_start_none test l : find_start test l = Some None -> forall h, In h l -> test h = Some false.
Proof. induction l as [|x l IH]; cbn; [intros _ h []|]. destruct (test x) as [[|]|] eqn:T; cbn; [discriminate|intros E h [<-|J]; auto|discriminate]. Qed.
Lemma flag_edge_mono ks h k : In k ks -> In k (flag_edge polygons seg cnt sm_vtx_cnt ks h).
Proof.
  intros J. unfold flag_edge. destruct (_ && _); [exact J|]. destruct (_ && _ && _); [exact J|]. destruct (_ && _ && _); [exact J|].
  assert (AD : forall l x, In k l -> In k (if traced polygons x && negb (existsb (Nat.eqb x) l) then l ++ [x] else l)) by (intros l x K; destruct (_ && _); [apply in_or_app; left|]; exact K). apply AD, AD, J.
Qed.
Lemma flag_edge_adds ks k : traced polygons k = true -> ~ cross (src k) -> cross (tgt k) -> src k < sm_vtx_cnt -> In k (flag_edge polygons seg cnt sm_vtx_cnt ks k).
Proof.
  intros T X Y V. unfold flag_edge. set (e := edge k). assert (K : k = 2 * e \/ k = 2 * e + 1). { unfold e, edge. pose proof (div2_form k). destruct (Nat.even k); lia. }
  assert (T1 : tgt (2 * e) = src (2 * e + 1)) by (rewrite <- opp_double; reflexivity). assert (T2 : tgt (2 * e + 1) = src (2 * e)) by (rewrite <- opp_double; apply tgt_opp).
  apply ivtx_not in X. apply ivtx_iff in Y. assert (V' : Nat.leb sm_vtx_cnt (src k) = false) by (apply Nat.leb_gt, V).
  assert (AD : forall l x, In k l \/ k = x -> In k (if traced polygons x && negb (existsb (Nat.eqb x) l) then l ++ [x] else l)).
  { intros l x [J|<-]; [destruct (_ && _); [apply in_or_app; left|]; exact J|]. rewrite T. cbn [andb]. destruct (existsb (Nat.eqb k) l) eqn:Q; cbn [negb]; [apply existsb_In, Q|apply in_or_app; right; left; reflexivity]. }
  destruct K as [K|K].
  - rewrite <- K. rewrite X, Y, V'. cbn [negb andb]. apply AD. left. apply AD. right. reflexivity.
  - rewrite T1. rewrite <- K. rewrite <- T2, <- K. rewrite X, Y, V'. cbn [negb andb]. apply AD. right. reflexivity.
Qed.
Lemma keys_complete k : side k -> ~ cross (src k) -> cross (tgt k) -> In k keys.
Proof.
  intros S X Y. rewrite (SH (flag_keys polygons seg cnt sm_vtx_cnt incoming) k). destruct (sp_known _ _ _ _ _ _ _ _ PT k S Y) as (hs & J & K). assert (V : src k < sm_vtx_cnt). { destruct (sp_source _ _ _ _ _ _ _ _ PT _ S) as [Q _]. specialize (Q X). cbv beta in Q. lia. }
  pose proof (side_traced _ S) as T. unfold flag_keys. assert (M1 : forall hs ks, In k ks -> In k (fold_left (flag_edge polygons seg cnt sm_vtx_cnt) hs ks)) by (induction hs0 as [|h hs0 IH]; cbn; intros ks Q; [exact Q|apply IH, flag_edge_mono, Q]).
  assert (M2 : forall hs ks, In k hs -> In k (fold_left (flag_edge polygons seg cnt sm_vtx_cnt) hs ks)) by (induction hs0 as [|h hs0 IH]; cbn; [intros ks []|intros ks [<-|Q]; [apply M1, flag_edge_adds; auto|apply IH, Q]]).
  assert (N1 : forall ps ks, In k ks -> In k (fold_left (fun keys (p : nat * list nat) => fold_left (flag_edge polygons seg cnt sm_vtx_cnt) (snd p) keys) ps ks)) by (induction ps as [|p ps IH]; cbn; intros ks Q; [exact Q|apply IH, M1, Q]).
  assert (N2 : forall ps ks, In (tgt k, hs) ps -> In k (fold_left (fun keys (p : nat * list nat) => fold_left (flag_edge polygons seg cnt sm_vtx_cnt) (snd p) keys) ps ks)) by (induction ps as [|p ps IH]; cbn; [intros ks []|intros ks [->|Q]; [apply N1, M2, K|apply IH, Q]]).
  apply N2, J.
Qed.
Lemma plain_before s a b : linked a b -> ihalfedge a = false -> ihalfedge b = true -> ~ In b (done s) -> class1_start polygons seg cnt s b = Some true.
Proof.
  intros L A B D. destruct (linked_sides _ _ L) as [_ Sb]. unfold SeverModel.ihalfedge in A, B. apply orb_false_iff in A. destruct A as [A1 A2]. pose proof (linked_ends _ _ L) as LE. assert (X : ivtx cnt (src b) = false) by (rewrite <- LE; exact A2). rewrite X in B. cbn in B.
  assert (DN : existsb (Nat.eqb b) (done s) = false). { destruct (existsb (Nat.eqb b) (done s)) eqn:Q; [apply existsb_In in Q; destruct (D Q)|reflexivity]. }
  unfold class1_start. rewrite X, DN, B. cbn [negb orb]. pose proof (side_traced _ Sb) as T. unfold traced in T. destruct (h_to_ply polygons b) as [|i l] eqn:HP; [discriminate|].
  assert (J : In i (h_to_ply polygons b)) by (rewrite HP; left; reflexivity). apply PatchProofs.h_to_ply_side in J. destruct J as (p & N & J). rewrite N. cbn [bind].
  assert (P : In p sources). { pose proof (nth_error_In _ _ N) as Q. rewrite <- (firstn_skipn sm_count polygons) in Q. apply in_app_or in Q. destruct Q as [Q|Q]; [exact Q|]. exfalso. apply ivtx_not in X. apply (proj1 (sp_source _ _ _ _ _ _ _ _ PT _ Sb) X). exact (si_cutmesh _ _ _ _ _ _ _ _ _ _ OK b p Q J X). }
  destruct (PatchSeeds.index_of_spec b p J) as (k & K & NK). rewrite K. cbn [bind]. destruct L as (q & Q & F). destruct (follows_In _ _ _ F) as [Fa Fb]. assert (q = p) by (eapply polygon_unique; eauto). subst q. destruct F as (j & Ja & Jb).
  pose proof (si_once _ _ _ _ _ _ _ _ _ _ OK) as ND. apply concat_unique in ND. destruct ND as [ND _]. specialize (ND p P). rewrite NoDup_nth_error in ND. assert (JL : j < length p) by (apply nth_error_Some; congruence).
  assert (E : S j mod length p = k). { apply ND; [apply Nat.mod_upper_bound; lia|congruence]. }
  assert (E' : match k with O => length p - 1 | S i => i end = j). { destruct (Nat.eq_dec (S j) (length p)) as [Z|Z]; [rewrite Z, Nat.mod_same in E by lia; subst k; lia|rewrite Nat.mod_small in E by lia; subst k; reflexivity]. }
  rewrite E', Ja. cbn [bind]. rewrite A1, A2. reflexivity.
Qed.
Lemma plainless s h p : inv s None -> sep s None None -> (forall k, In k keys -> class1_start polygons seg cnt s k = Some false) -> In p sources -> In h p -> ihalfedge h = true -> ~ In h (done s) -> forall k, In k p -> ihalfedge k = true.
Proof.
  intros I S C P J H D k K. destruct (ihalfedge k) eqn:E; [reflexivity|]. exfalso.
  assert (G : In h (done s) \/ ihalfedge h = false).
  { apply (cycle p (fun z => In z (done s) \/ ihalfedge z = false)) with k; auto. intros a b F Q. assert (L : linked a b) by (exists p; auto). destruct (ihalfedge b) eqn:B; [left|right; reflexivity].
    destruct Q as [Q|Q]; [destruct (s_fwd _ _ _ S _ _ Q L B) as [R|R]; [exact R|discriminate]|]. destruct (in_dec Nat.eq_dec b (done s)) as [R|R]; [exact R|]. exfalso. pose proof (plain_before s a b L Q B R) as W. rewrite (C b) in W; [discriminate|].
    unfold SeverModel.ihalfedge in Q, B. apply orb_false_iff in Q. destruct Q as [_ Q]. rewrite (linked_ends _ _ L) in Q. rewrite Q in B. cbn in B. apply keys_complete; [apply (linked_sides _ _ L)|apply ivtx_not, Q|apply ivtx_iff, B]. }
  destruct G as [G|G]; [exact (D G)|congruence].
Qed.
Lemma partition_from_sep fuel : forall s h t, inv s None -> sep s None None -> startable h -> partition_from fuel s h = Some t -> sep t None None.
Proof.
  induction fuel as [|fuel IHf]; intros s h t I S G E; [discriminate|]. cbn [SeverModel.partition_from] in E. step1 E. rename s0 into s1. pose proof E0 as E0'. apply sequences_inv in E0; [|exact I|constructor; [apply G|constructor]]. apply sequences_sep in E0'; [|exact I|exact S|constructor; [exact G|constructor]].
  step1 E. rename o into r. step1 E. destruct o as [h'|]; [|injection E as <-; exact E0']. eapply IHf; [exact E0|exact E0'| |exact E].
  destruct r as [h''|].
  - injection E2 as ->. apply find_start_spec in E1. split; [eapply class1_good; apply E1|]. intros X. exfalso. destruct E1 as [_ E1]. unfold class1_start in E1. rewrite (proj2 (ivtx_iff _) X) in E1. discriminate.
  - apply find_start_spec in E2. destruct E2 as [_ E2]. pose proof (class3_good _ _ E2) as G'. split; [exact G'|]. intros X. assert (Y : cross (tgt h') /\ ~ In h' (done s1)).
    { unfold class3_start in E2. destruct (existsb (Nat.eqb h') (done s1)) eqn:Q; [discriminate|]. destruct (ivtx cnt (src h')); [|discriminate]. destruct (ivtx cnt (tgt h')) eqn:Z; [|discriminate]. split; [apply ivtx_iff, Z|]. intros R. apply existsb_In in R. congruence. }
    split; [apply Y|]. destruct G' as ((p & P & J) & H & _). exists p. repeat split; auto. exact (plainless s1 h' p E0 E0' (find_start_none _ _ E1) P J H (proj2 Y)).
Qed.
Lemma start_sep : sep start None None.
Proof. constructor; [intros a b []|intros a b []|]. intros a a' v (X & [(m & G & _)|(b & n & _ & G & _)]); discriminate. Qed.
Lemma partition_sep fuel t : partition polygons sm_count (2 * c) seg registry cnt sm_vtx_cnt sm_face_count psf vertices edges incoming shuffle fuel = Some t -> sep t None None.
Proof.
  unfold partition. intros E. step1 E. destruct o as [h|]; [|discriminate]. cbn [bind] in E. eapply partition_from_sep; [apply start_inv|apply start_sep| |exact E]. apply find_start_spec in E0. split; [eapply class1_good; apply E0|].
  intros X. exfalso. destruct E0 as [_ E0]. unfold class1_start in E0. rewrite (proj2 (ivtx_iff _) X) in E0. discriminate.
Qed.
End Walk.
