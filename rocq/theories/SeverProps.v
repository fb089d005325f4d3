(** C83: partitioning the source mesh along the intersection curves. *)
From Coq Require Import List Arith Bool Lia.
From Verif Require Import CutModel ClipModel PatchModel SeverModel SeverSpec SeverProofs SeverWalk SeverEnd.
Import ListNotations.

(** The polygons of the source mesh after clipping are [firstn sm_count polygons], the others are of the cut mesh; the sides on the intersection curves are the halfedges below 2c, the intersection points the vertices from
    [cnt] on, the vertices of the cut mesh those from [sm_vtx_cnt] on. *)
Theorem C83_sides (polygons : list (list nat)) sm_count c seg registry cnt sm_vtx_cnt sm_face_count psf vertices edges incoming shuffle fuel s results :
  sever_input (src seg) (tgt seg) (fun v => cnt <= v) (fun h => h < 2 * c) vertices (2 * edges) (firstn sm_count polygons) (skipn sm_count polygons) (fun v => sm_vtx_cnt <= v) incoming ->
  (forall l h, In h (shuffle l) <-> In h l) ->
  severed polygons sm_count (2 * c) seg registry cnt sm_vtx_cnt sm_face_count psf vertices edges incoming shuffle fuel = Some (s, results) ->
  sever_output (src seg) (tgt seg) (fun v => cnt <= v) (fun h => h < 2 * c) (firstn sm_count polygons) (nth_error (copies s)) (msrc s) (mtgt s) results.
Proof. intros OK SH. apply severed_output; assumption. Qed.

(** Full statement: without [sever_mouths], which C83_slit_refuted shows to be false. *)
Theorem C83_apart_partial (polygons : list (list nat)) sm_count c seg registry cnt sm_vtx_cnt sm_face_count psf vertices edges incoming shuffle fuel s results :
  sever_input (src seg) (tgt seg) (fun v => cnt <= v) (fun h => h < 2 * c) vertices (2 * edges) (firstn sm_count polygons) (skipn sm_count polygons) (fun v => sm_vtx_cnt <= v) incoming ->
  sever_points (src seg) (tgt seg) (fun v => cnt <= v) (fun h => h < 2 * c) (firstn sm_count polygons) (fun v => sm_vtx_cnt <= v) incoming (cut_edge_at registry cnt sm_face_count psf) ->
  sever_mouths (src seg) (tgt seg) (fun v => cnt <= v) (fun h => h < 2 * c) (firstn sm_count polygons) ->
  (forall l h, In h (shuffle l) <-> In h l) ->
  severed polygons sm_count (2 * c) seg registry cnt sm_vtx_cnt sm_face_count psf vertices edges incoming shuffle fuel = Some (s, results) ->
  sever_apart (tgt seg) (fun v => cnt <= v) (fun h => h < 2 * c) (firstn sm_count polygons) (mtgt s) results.
Proof. intros OK PT PO SH. apply severed_apart; assumption. Qed.

(** ** Checking the hypotheses on an example *)
Definition pairsof (ps : list (list nat)) : list (nat * nat) := flat_map (fun p => combine p (tl p ++ firstn 1 p)) ps.
Lemma side_in ps h : side ps h -> In h (concat ps).
Proof. intros (p & P & J). apply in_concat. exists p. auto. Qed.
Lemma pair_in ps p a b : In p ps -> follows p a b -> In (a, b) (pairsof ps).
Proof. intros P F. apply in_flat_map. exists p. split; [exact P|]. apply In_combine_follows, F. Qed.
Fixpoint distinct (l : list nat) : bool := match l with [] => true | x :: l => negb (existsb (Nat.eqb x) l) && distinct l end.
Lemma distinct_NoDup l : distinct l = true -> NoDup l.
Proof. induction l as [|x l IH]; cbn; intros H; constructor; apply andb_true_iff in H; destruct H as [A B]; [|auto]. intros J. apply negb_true_iff in A. assert (existsb (Nat.eqb x) l = true); [|congruence]. apply existsb_exists. exists x. rewrite Nat.eqb_refl. auto. Qed.
Section Check.
Variable sources others : list (list nat).
Variable seg : nat -> nat * nat.
Variables (cnt c vertices edges smv : nat).
Variable incoming : list (nat * list nat).
Notation src := (src seg).
Notation tgt := (tgt seg).
Notation cross v := (cnt <=? v).
Notation cut h := (h <? 2 * c).
Definition check_input : bool :=
  distinct (concat sources) &&
  forallb (fun q => Nat.eqb (tgt (fst q)) (src (snd q)) && implb (cross (tgt (fst q))) (cut (fst q) || cut (snd q))) (pairsof sources) &&
  forallb (fun h => (src h <? vertices) && (tgt h <? vertices) && (h <? 2 * edges) && implb (cut h) (cross (src h) && cross (tgt h)) && forallb (fun p => implb (existsb (Nat.eqb (reverse h)) p) (cut h)) others) (concat sources) &&
  forallb (fun h => cross (src h) || (smv <=? src h)) (concat others) &&
  forallb (fun q => forallb (fun h => Nat.eqb (tgt h) (fst q)) (snd q)) incoming.
Lemma check_input_sound : check_input = true -> sever_input src tgt (fun v => cnt <= v) (fun h => h < 2 * c) vertices (2 * edges) sources others (fun v => smv <= v) incoming.
Proof.
  unfold check_input. intros H. rewrite !andb_true_iff in H. destruct H as ((((H1 & H2) & H3) & H4) & H5). rewrite forallb_forall in H2, H3, H4, H5.
  assert (B : forall h, side sources h -> (src h < vertices /\ tgt h < vertices /\ h < 2 * edges) /\ (h < 2 * c -> cnt <= src h /\ cnt <= tgt h) /\ forall p, In p others -> In (reverse h) p -> h < 2 * c).
  { intros h S. specialize (H3 h (side_in _ _ S)). rewrite !andb_true_iff, !Nat.ltb_lt, forallb_forall, implb_true_iff, Nat.ltb_lt, andb_true_iff, !Nat.leb_le in H3. destruct H3 as ((((A & B) & C) & D) & E). repeat split; auto; try apply D; auto.
    intros p P J. specialize (E p P). rewrite implb_true_iff, Nat.ltb_lt in E. apply E. apply existsb_exists. exists (reverse h). rewrite Nat.eqb_refl. auto. }
  assert (F : forall p a b, In p sources -> follows p a b -> tgt a = src b /\ (cnt <= tgt a -> a < 2 * c \/ b < 2 * c)).
  { intros p a b P Fo. specialize (H2 _ (pair_in _ _ _ _ P Fo)). cbn [fst snd] in H2. rewrite andb_true_iff, implb_true_iff, orb_true_iff, Nat.eqb_eq, Nat.leb_le, !Nat.ltb_lt in H2. exact H2. }
  constructor.
  - apply distinct_NoDup, H1.
  - intros p a b P Fo. apply (F p a b P Fo).
  - intros h S. apply (B h S).
  - intros h S. apply (B h S).
  - intros h. unfold reverse. destruct (Nat.even h) eqn:E; [apply Nat.even_spec in E|assert (O : Nat.odd h = true) by (unfold Nat.odd; rewrite E; reflexivity); apply Nat.odd_spec in O; clear E; rename O into E]; destruct E as [k ->]; lia.
  - intros p a b P Fo. apply (F p a b P Fo).
  - intros h p S P J. exact (proj2 (proj2 (B h S)) p P J).
  - intros h p P J N. assert (C : In h (concat others)) by (apply in_concat; exists p; auto). specialize (H4 h C). rewrite orb_true_iff, !Nat.leb_le in H4. tauto.
  - intros x hs h P J. specialize (H5 _ P). rewrite forallb_forall in H5. specialize (H5 h J). apply Nat.eqb_eq in H5. exact H5.
Qed.
Definition check_mouths : bool :=
  forallb (fun p => implb (forallb (fun k => cross (src k) || cross (tgt k)) p)
    (forallb (fun q => cut (snd q) || negb (cross (src (snd q)) && cross (tgt (snd q))) || forallb (fun a => implb (Nat.eqb (tgt a) (src (snd q))) (Nat.eqb a (fst q))) p) (pairsof [p]))) sources.
Lemma check_mouths_sound : check_mouths = true -> sever_mouths src tgt (fun v => cnt <= v) (fun h => h < 2 * c) sources.
Proof.
  unfold check_mouths. rewrite forallb_forall. intros H p h a b P K J U X Y F A E. specialize (H p P). rewrite implb_true_iff, !forallb_forall in H.
  assert (Q : In (b, h) (pairsof [p])) by (apply (pair_in [p] p); [left; reflexivity|exact F]). specialize (fun G => H G _ Q). cbn [fst snd] in H. assert (G : forall k, In k p -> (cnt <=? src k) || (cnt <=? tgt k) = true) by (intros k Ik; rewrite orb_true_iff, !Nat.leb_le; auto).
  specialize (H G). rewrite !orb_true_iff, negb_true_iff, forallb_forall, Nat.ltb_lt in H. destruct H as [[H|H]|H]; [destruct (U H)| |].
  - apply andb_false_iff in H. rewrite !Nat.leb_gt in H. lia.
  - specialize (H a A). rewrite implb_true_iff, !Nat.eqb_eq in H. auto.
Qed.
Variable registry : list (nat * nat).
Variable fc : nat.
Variable psf : nat -> option nat * option nat.
Definition check_points : bool :=
  distinct (map fst incoming) &&
  forallb (fun h => implb (cross (tgt h)) (existsb (fun q => Nat.eqb (fst q) (tgt h) && existsb (Nat.eqb h) (snd q)) incoming) && negb (Nat.eqb (src h) (tgt h)) &&
    (cross (src h) || (src h <? smv)) && (cross (tgt h) || (tgt h <? smv)) &&
    (cut h || negb (cross (src h) && cross (tgt h)) ||
     match nth_error registry (src h - cnt) with Some (e, _) => match (match fst (psf e) with Some f => Some f | None => snd (psf e) end) with Some g => g <? fc | None => true end | None => true end)) (concat sources).
Lemma check_points_sound : check_points = true -> sever_points src tgt (fun v => cnt <= v) (fun h => h < 2 * c) sources (fun v => smv <= v) incoming (cut_edge_at registry cnt fc psf).
Proof.
  unfold check_points. intros H. rewrite !andb_true_iff in H. destruct H as [H1 H2]. rewrite forallb_forall in H2.
  assert (B := fun h S => H2 h (side_in sources h S)). clear H2. setoid_rewrite andb_true_iff in B. setoid_rewrite andb_true_iff in B. setoid_rewrite andb_true_iff in B. setoid_rewrite andb_true_iff in B. constructor.
  - intros h S X. destruct (B h S) as ((((A & _) & _) & _) & _). rewrite implb_true_iff, Nat.leb_le in A. specialize (A X). apply existsb_exists in A. destruct A as ([x hs] & J & E). cbn [fst snd] in E. apply andb_true_iff in E. destruct E as [E K]. apply Nat.eqb_eq in E. subst x. apply existsb_exists in K. destruct K as (y & K & E). apply Nat.eqb_eq in E. subst y. exists hs. auto.
  - apply distinct_NoDup, H1.
  - intros h S. destruct (B h S) as ((((_ & A) & _) & _) & _). apply negb_true_iff, Nat.eqb_neq in A. exact A.
  - intros h S. destruct (B h S) as ((((_ & _) & A) & A') & _). rewrite orb_true_iff, Nat.leb_le, Nat.ltb_lt in A, A'. lia.
  - intros h S U X Y (e & f & N & g & G & L). destruct (B h S) as (_ & A). rewrite !orb_true_iff, negb_true_iff, Nat.ltb_lt in A. destruct A as [[A|A]|A]; [exact (U A)| |].
    + apply andb_false_iff in A. rewrite !Nat.leb_gt in A. lia.
    + rewrite N, G in A. apply Nat.ltb_lt in A. lia.
Qed.
End Check.

(** *** Two squares side by side, one cut across both *)
(** vertices 0-5 of the source mesh, 6-9 of the cut mesh, intersection points 10, 11, 12; the square 0 1 2 3 and the square 1 4 5 2, cut from 10 on 0-3 over 11 on 1-2 to 12 on 4-5; the face 6 7 8 9 of the cut mesh *)
Definition seg1 (e : nat) : nat * nat := nth e [(10, 11); (11, 12); (0, 1); (1, 11); (10, 0); (11, 2); (2, 3); (3, 10); (1, 4); (4, 12); (12, 5); (5, 2); (6, 7); (7, 8); (8, 9); (9, 6)] (0, 0).
Definition polygons1 : list (list nat) := [[4; 6; 1; 8]; [0; 10; 12; 14]; [16; 18; 3; 7]; [2; 20; 22; 11]; [24; 26; 28; 30]].
Definition registry1 : list (nat * nat) := [(0, 2); (1, 2); (2, 2)].
Definition psf1 (e : nat) : option nat * option nat := nth e [(Some 0, None); (Some 0, Some 1); (Some 1, None)] (None, None).
Definition incoming1 : list (nat * list nat) := [(10, [1; 9; 14]); (11, [0; 3; 6; 11]); (12, [2; 18; 21])].
Definition run1 := severed polygons1 4 4 seg1 registry1 10 6 2 psf1 13 16 incoming1 (fun l => l) 20.
(** *** A square cut twice across, with a cut that ends inside between *)
(** vertices 0-3 of the source mesh; the cut mesh is a folded strip with vertices 4-15, two on each fold, front and back.  16 and 19 are the ends of the first cut, 17 and 18 those of the second, 20 on the edge 0-1 is where
    the third starts and 21, on the edge of the strip, where it ends. *)
Definition seg2 (e : nat) : nat * nat :=
  nth e [(16, 19); (17, 18); (20, 21); (0, 16); (19, 3); (3, 0); (17, 1); (1, 2); (2, 18); (16, 20); (20, 17); (18, 19);
         (4, 6); (6, 7); (7, 5); (5, 4); (6, 8); (8, 9); (9, 7); (8, 10); (10, 11); (11, 21); (21, 9); (10, 12); (12, 13); (13, 11); (12, 14); (14, 15); (15, 13)] (0, 0).
Definition polygons2 : list (list nat) :=
  [[6; 0; 8; 10]; [12; 14; 16; 3]; [18; 4; 5; 20; 2; 22; 1];
   [24; 26; 28; 30]; [32; 34; 36; 27]; [38; 40; 42; 5; 4; 44; 35]; [46; 48; 50; 41]; [52; 54; 56; 49]].
(** edge 0 of the common mesh of the two is 0-1, edge 1 is 2-3, edge 2 the edge of the strip *)
Definition registry2 : list (nat * nat) := [(0, 1); (0, 5); (1, 5); (1, 1); (0, 3); (2, 0)].
Definition psf2 (e : nat) : option nat * option nat := nth e [(Some 0, None); (Some 0, None); (Some 3, None)] (None, None).
Definition incoming2 : list (nat * list nat) := [(16, [1; 6; 19]); (17, [3; 13; 20]); (18, [2; 16; 23]); (19, [0; 9; 22]); (20, [5; 18; 21]); (21, [4; 42; 45])].
Definition run2 order := severed polygons2 3 6 seg2 registry2 16 4 1 psf2 22 29 incoming2 order 30.
(** the halfedge 20 before the others *)
Definition first20 (l : list nat) : list nat := filter (Nat.eqb 20) l ++ filter (fun h => negb (Nat.eqb 20 h)) l.
Lemma first20_same l h : In h (first20 l) <-> In h l.
Proof. unfold first20. rewrite in_app_iff, !filter_In, negb_true_iff. destruct (Nat.eqb 20 h); intuition congruence. Qed.

(** the hypotheses of both theorems hold; the two lower pieces share an edge, as do the two upper ones, and the lower ones have new vertices (13, 14, 15) along the cut *)
Theorem C83_case :
  sever_input (src seg1) (tgt seg1) (fun v => 10 <= v) (fun h => h < 2 * 2) 13 (2 * 16) (firstn 4 polygons1) (skipn 4 polygons1) (fun v => 6 <= v) incoming1 /\
  sever_points (src seg1) (tgt seg1) (fun v => 10 <= v) (fun h => h < 2 * 2) (firstn 4 polygons1) (fun v => 6 <= v) incoming1 (cut_edge_at registry1 10 2 psf1) /\
  sever_mouths (src seg1) (tgt seg1) (fun v => 10 <= v) (fun h => h < 2 * 2) (firstn 4 polygons1) /\
  exists s ps, run1 = Some (s, ps) /\ map (map (fun m => (msrc s m, mtgt s m))) ps = [[(0, 1); (1, 13); (13, 14); (14, 0)]; [(10, 11); (11, 2); (2, 3); (3, 10)]; [(1, 4); (4, 15); (15, 13); (13, 1)]; [(11, 12); (12, 5); (5, 2); (2, 11)]].
Proof.
  split; [apply (check_input_sound (firstn 4 polygons1) (skipn 4 polygons1) seg1 10 2 13 16 6 incoming1); vm_compute; reflexivity|]. split; [apply (check_points_sound (firstn 4 polygons1) seg1 10 2 6 incoming1 registry1 2 psf1); vm_compute; reflexivity|]. split; [apply (check_mouths_sound (firstn 4 polygons1) seg1 10 2); vm_compute; reflexivity|].
  destruct run1 as [[s ps]|] eqn:E; vm_compute in E; [|discriminate]. exists s, ps. split; [reflexivity|]. injection E as <- <-. reflexivity.
Qed.
(** Without [sever_mouths] it depends on the order in which a hash table is iterated: in one order the third cut is open at 20 (vertices 20 and 24), in another the corners on both its sides keep the same vertex. *)
Theorem C83_slit_refuted :
  sever_input (src seg2) (tgt seg2) (fun v => 16 <= v) (fun h => h < 2 * 3) 22 (2 * 29) (firstn 3 polygons2) (skipn 3 polygons2) (fun v => 4 <= v) incoming2 /\
  sever_points (src seg2) (tgt seg2) (fun v => 16 <= v) (fun h => h < 2 * 3) (firstn 3 polygons2) (fun v => 4 <= v) incoming2 (cut_edge_at registry2 16 1 psf2) /\
  (exists s ps, run2 (fun l => l) = Some (s, ps) /\ map (map (fun m => (msrc s m, mtgt s m))) ps =
     [[(0, 16); (16, 19); (19, 3); (3, 0)]; [(17, 1); (1, 2); (2, 18); (18, 17)]; [(23, 20); (20, 21); (21, 24); (24, 25); (25, 26); (26, 27); (27, 23)]]) /\
  (forall l h, In h (first20 l) <-> In h l) /\
  exists s ps, run2 first20 = Some (s, ps) /\ ~ sever_apart (tgt seg2) (fun v => 16 <= v) (fun h => h < 2 * 3) (firstn 3 polygons2) (mtgt s) ps.
Proof.
  split; [apply (check_input_sound (firstn 3 polygons2) (skipn 3 polygons2) seg2 16 3 22 29 4 incoming2); vm_compute; reflexivity|]. split; [apply (check_points_sound (firstn 3 polygons2) seg2 16 3 4 incoming2 registry2 1 psf2); vm_compute; reflexivity|]. split; [|split; [exact first20_same|]].
  - destruct (run2 (fun l => l)) as [[s ps]|] eqn:E; vm_compute in E; [|discriminate]. exists s, ps. split; [reflexivity|]. injection E as <- <-. reflexivity.
  - destruct (run2 first20) as [[s ps]|] eqn:E; vm_compute in E; [|discriminate]. exists s, ps. split; [reflexivity|]. injection E as <- <-. intros A.
    match type of A with context [mtgt ?s] => set (st := s) in A end. match type of A with context [sever_apart _ _ _ _ _ ?q] => set (ps := q) in A end.
    assert (B : exists m m', becomes (firstn 3 polygons2) ps 2 0 18 m /\ becomes (firstn 3 polygons2) ps 2 2 5 m' /\ mtgt st m' = mtgt st m).
    { eexists. eexists. split; [|split]; [eexists; eexists; repeat split; reflexivity|eexists; eexists; repeat split; reflexivity|vm_compute; reflexivity]. }
    destruct B as (m & m' & B & B' & Q). assert (X : 16 <= tgt seg2 18) by (vm_compute; lia). apply (A _ _ _ _ _ _ _ _ B B' X) in Q. destruct Q as [Q|[Q|Q]]; [discriminate| |].
    + destruct Q as (p & b & P & F & R & U). apply (pair_in _ _ _ _ P) in F. vm_compute in F. repeat (destruct F as [F|F]; [try discriminate F; injection F as F; subst b; first [discriminate R|apply U; cbn; lia]|]). destruct F.
    + destruct Q as (p & b & P & F & R & U). apply (pair_in _ _ _ _ P) in F. vm_compute in F. repeat (destruct F as [F|F]; [try discriminate F; injection F as F; subst b; first [discriminate R|apply U; cbn; lia]|]). destruct F.
Qed.
