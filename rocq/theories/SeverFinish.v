(** C83: the walk along the cuts comes to its end. *)
From Coq Require Import List Arith Bool Lia.
From Verif Require Import CutModel ClipModel PatchModel SeverModel SeverSpec SeverReach SeverProofs SeverTotal SeverProps.
Import ListNotations.

(** [None] is access to what is not there, or a loop that does not end.  Full statement: without [sever_reached], which C83_unreached_refuted shows to be false. *)
Theorem C83_finishes_partial (polygons : list (list nat)) sm_count c seg registry cnt sm_vtx_cnt sm_face_count psf vertices edges incoming shuffle :
  sever_input (src seg) (tgt seg) (fun v => cnt <= v) (fun h => h < 2 * c) vertices (2 * edges) (firstn sm_count polygons) (skipn sm_count polygons) (fun v => sm_vtx_cnt <= v) incoming ->
  sever_points (src seg) (tgt seg) (fun v => cnt <= v) (fun h => h < 2 * c) (firstn sm_count polygons) (fun v => sm_vtx_cnt <= v) incoming (cut_edge_at registry cnt sm_face_count psf) ->
  sever_known (src seg) (fun v => cnt <= v) (firstn sm_count polygons) incoming (face_known registry cnt psf) ->
  sever_reached (src seg) (tgt seg) (fun v => cnt <= v) (fun h => h < 2 * c) (firstn sm_count polygons) ->
  (forall l h, In h (shuffle l) <-> In h l) ->
  exists enough, forall fuel, enough <= fuel -> exists s results, severed polygons sm_count (2 * c) seg registry cnt sm_vtx_cnt sm_face_count psf vertices edges incoming shuffle fuel = Some (s, results).
Proof.
  intros OK PT KN RE SH. exists (S (length (shuffle (flag_keys polygons seg cnt sm_vtx_cnt incoming)))). intros fuel L.
  destruct (severed_total polygons sm_count c seg registry cnt sm_vtx_cnt sm_face_count psf vertices edges incoming shuffle OK SH PT KN RE fuel L) as [[s ps] E]. eauto.
Qed.

(** All together *)
Theorem C83_opened_partial (polygons : list (list nat)) sm_count c seg registry cnt sm_vtx_cnt sm_face_count psf vertices edges incoming shuffle :
  sever_input (src seg) (tgt seg) (fun v => cnt <= v) (fun h => h < 2 * c) vertices (2 * edges) (firstn sm_count polygons) (skipn sm_count polygons) (fun v => sm_vtx_cnt <= v) incoming ->
  sever_points (src seg) (tgt seg) (fun v => cnt <= v) (fun h => h < 2 * c) (firstn sm_count polygons) (fun v => sm_vtx_cnt <= v) incoming (cut_edge_at registry cnt sm_face_count psf) ->
  sever_known (src seg) (fun v => cnt <= v) (firstn sm_count polygons) incoming (face_known registry cnt psf) ->
  sever_reached (src seg) (tgt seg) (fun v => cnt <= v) (fun h => h < 2 * c) (firstn sm_count polygons) ->
  sever_mouths (src seg) (tgt seg) (fun v => cnt <= v) (fun h => h < 2 * c) (firstn sm_count polygons) ->
  (forall l h, In h (shuffle l) <-> In h l) ->
  exists enough, forall fuel, enough <= fuel -> exists s results, severed polygons sm_count (2 * c) seg registry cnt sm_vtx_cnt sm_face_count psf vertices edges incoming shuffle fuel = Some (s, results) /\
    sever_output (src seg) (tgt seg) (fun v => cnt <= v) (fun h => h < 2 * c) (firstn sm_count polygons) (nth_error (copies s)) (msrc s) (mtgt s) results /\
    sever_apart (tgt seg) (fun v => cnt <= v) (fun h => h < 2 * c) (firstn sm_count polygons) (mtgt s) results.
Proof.
  intros OK PT KN RE MO SH. destruct (C83_finishes_partial polygons sm_count c seg registry cnt sm_vtx_cnt sm_face_count psf vertices edges incoming shuffle OK PT KN RE SH) as [n E]. exists n. intros fuel L. destruct (E fuel L) as (s & ps & Q). exists s, ps. split; [exact Q|].
  split; [eapply C83_sides; eassumption|eapply C83_apart_partial; eassumption].
Qed.

(** ** Checking the hypotheses on an example *)
Section Check.
Variable sources : list (list nat).
Variable seg : nat -> nat * nat.
Variables (cnt c : nat).
Variable incoming : list (nat * list nat).
Variable registry : list (nat * nat).
Variable psf : nat -> option nat * option nat.
Notation src := (src seg).
Notation tgt := (tgt seg).
Notation cross v := (cnt <=? v).
Notation cut h := (h <? 2 * c).
Definition known_face (x : nat) : bool :=
  match nth_error registry (x - cnt) with Some (e, _) => match fst (psf e), snd (psf e) with None, None => false | _, _ => true end | None => false end.
Definition check_known : bool :=
  forallb (fun h => implb (cross (src h)) (existsb (fun q => Nat.eqb (fst q) (src h) && existsb (Nat.eqb (reverse h)) (snd q)) incoming)) (concat sources) &&
  forallb (fun q => cross (fst q) && forallb (fun h => implb (cross (src h)) (known_face (src h))) (snd q)) incoming.
Lemma check_known_sound : check_known = true -> sever_known src (fun v => cnt <= v) sources incoming (face_known registry cnt psf).
Proof.
  unfold check_known. rewrite andb_true_iff, !forallb_forall. intros [H1 H2]. constructor.
  - intros h S X. specialize (H1 h (side_in _ _ S)). apply Nat.leb_le in X. rewrite X in H1. cbn [implb] in H1. apply existsb_exists in H1. destruct H1 as ((x & hs) & J & E). cbn [fst snd] in E. apply andb_true_iff in E. destruct E as [E K]. apply Nat.eqb_eq in E. subst x.
    exists hs. split; [exact J|]. apply existsb_exists in K. destruct K as (y & K & Q). apply Nat.eqb_eq in Q. subst y. exact K.
  - intros x hs J. specialize (H2 _ J). apply andb_true_iff in H2. destruct H2 as [H2 _]. apply Nat.leb_le, H2.
  - intros x hs h J K X. specialize (H2 _ J). apply andb_true_iff in H2. destruct H2 as [_ H2]. cbn [snd] in H2. rewrite forallb_forall in H2. specialize (H2 h K). apply Nat.leb_le in X. rewrite X in H2. cbn [implb] in H2. unfold known_face in H2. unfold face_known.
    destruct (nth_error registry (src h - cnt)) as [[e f]|]; [|discriminate]. exists e, f. split; [reflexivity|]. destruct (psf e) as [[g|] [g'|]]; cbn in *; try discriminate; eauto.
Qed.
Definition touching h := cross (src h) || cross (tgt h).
Definition single p := existsb (fun h => negb (cross (tgt h)) && forallb (fun k => cross (tgt k) || Nat.eqb k h) p) p.
Definition base p := existsb (fun h => negb (touching h)) p || single p || existsb (fun h => negb (cut h) && cross (src h) && cross (tgt h)) p.
Definition after (q : list nat) h : option nat := option_map snd (find (fun e => Nat.eqb (fst e) h) (combine q (tl q ++ firstn 1 q))).
Definition next_to ps p := existsb (fun h => cross (tgt h) && negb (cross (src h)) && existsb (fun q => match after q (reverse h) with Some b => negb (cross (tgt b)) | None => false end) ps) p.
Definition grow ps := filter (fun p => base p || next_to ps p) sources.
Definition check_reached : bool :=
  forallb (fun p => implb (existsb touching p) (base p || next_to (grow (grow [])) p)) sources &&
  existsb (fun p => existsb touching p && (existsb (fun h => negb (touching h)) p || single p)) sources.
Lemma touching_iff h : touching h = true <-> touches src tgt (fun v => cnt <= v) h.
Proof. unfold touching, touches. rewrite orb_true_iff, !Nat.leb_le. reflexivity. Qed.
Lemma untouched p : existsb (fun h => negb (touching h)) p = true -> exists h, In h p /\ ~ touches src tgt (fun v => cnt <= v) h.
Proof. intros E. apply existsb_exists in E. destruct E as (h & J & E). exists h. split; [exact J|]. rewrite <- touching_iff. destruct (touching h); [discriminate|congruence]. Qed.
Lemma single_sound p : single p = true -> exists h, In h p /\ ~ cnt <= tgt h /\ forall k, In k p -> ~ cnt <= tgt k -> k = h.
Proof.
  intros E. apply existsb_exists in E. destruct E as (h & J & E). apply andb_true_iff in E. destruct E as [E A]. exists h. split; [exact J|]. split; [apply negb_true_iff, Nat.leb_gt in E; lia|]. rewrite forallb_forall in A. intros k K N. specialize (A k K). apply orb_true_iff in A. destruct A as [A|A]; [apply Nat.leb_le in A; destruct (N A)|apply Nat.eqb_eq, A].
Qed.
Notation reached := (reached src tgt (fun v => cnt <= v) (fun h => h < 2 * c) sources).
Lemma grow_sound ps p : Forall reached ps -> In p sources -> base p || next_to ps p = true -> reached p.
Proof.
  intros R P E. apply orb_true_iff in E. destruct E as [E|E]; [unfold base in E; apply orb_true_iff in E; destruct E as [E|E]; [apply orb_true_iff in E; destruct E as [E|E]|]|].
  - apply r_plain; [exact P|exact (untouched _ E)].
  - apply r_single; [exact P|exact (single_sound _ E)].
  - apply existsb_exists in E. destruct E as (k & K & Q). rewrite !andb_true_iff, negb_true_iff, Nat.ltb_ge, !Nat.leb_le in Q. destruct Q as ((Q1 & Q2) & Q3). apply (r_between _ _ _ _ _ p k); auto. lia.
  - apply existsb_exists in E. destruct E as (h & J & Q). rewrite !andb_true_iff, negb_true_iff, Nat.leb_le, Nat.leb_gt in Q. destruct Q as ((Q1 & Q2) & Q3). apply existsb_exists in Q3. destruct Q3 as (q & Jq & Q3). unfold after in Q3. destruct (find _ _) as [[x b]|] eqn:F; [|discriminate]. cbn in Q3. apply find_some in F. destruct F as [F E]. cbn in E. apply Nat.eqb_eq in E. subst x.
    apply In_combine_follows in F. apply negb_true_iff, Nat.leb_gt in Q3. rewrite Forall_forall in R. apply (r_beside _ _ _ _ _ p h q b); [exact P|exact J|apply R, Jq|exact (proj1 (follows_In _ _ _ F))|exact Q1|lia|exact F|lia].
Qed.
Lemma check_reached_sound : check_reached = true -> sever_reached src tgt (fun v => cnt <= v) (fun h => h < 2 * c) sources.
Proof.
  unfold check_reached. rewrite andb_true_iff, forallb_forall. intros [H1 H2]. constructor.
  - intros p P (h & J & T). specialize (H1 p P). apply touching_iff in T. assert (E : existsb touching p = true) by (apply existsb_exists; eauto). rewrite E in H1. cbn [implb] in H1. apply (grow_sound (grow (grow []))); auto.
    apply Forall_forall. intros q Q. apply filter_In in Q. destruct Q as [Q1 Q2]. apply (grow_sound (grow [])); auto. apply Forall_forall. intros r R. apply filter_In in R. destruct R as [R1 R2]. apply (grow_sound []); auto.
  - apply existsb_exists in H2. destruct H2 as (p & P & Q). apply andb_true_iff in Q. destruct Q as [Q R]. apply existsb_exists in Q. destruct Q as (h & J & T). exists p. split; [exact P|]. split; [exists h; split; [exact J|apply touching_iff, T]|]. apply orb_true_iff in R. destruct R as [R|R]; [left; exact (untouched _ R)|right; exact (single_sound _ R)].
Qed.
End Check.

(** The hypotheses hold in both examples of SeverProps: in the second one the polygon between two cuts has no side away from the cuts and no vertex that is not an intersection point. *)
Theorem C83_finishes_case :
  sever_known (src seg1) (fun v => 10 <= v) (firstn 4 polygons1) incoming1 (face_known registry1 10 psf1) /\ sever_reached (src seg1) (tgt seg1) (fun v => 10 <= v) (fun h => h < 2 * 2) (firstn 4 polygons1) /\
  sever_known (src seg2) (fun v => 16 <= v) (firstn 3 polygons2) incoming2 (face_known registry2 16 psf2) /\ sever_reached (src seg2) (tgt seg2) (fun v => 16 <= v) (fun h => h < 2 * 3) (firstn 3 polygons2).
Proof.
  split; [apply (check_known_sound (firstn 4 polygons1) seg1 10 incoming1 registry1 psf1); vm_compute; reflexivity|]. split; [apply (check_reached_sound (firstn 4 polygons1) seg1 10 2); vm_compute; reflexivity|].
  split; [apply (check_known_sound (firstn 3 polygons2) seg2 16 incoming2 registry2 psf2); vm_compute; reflexivity|apply (check_reached_sound (firstn 3 polygons2) seg2 16 3); vm_compute; reflexivity].
Qed.

(** *** A square with two opposite corners cut off, beside another *)
(** the square 0 1 2 3 and the square 1 0 4 5; the cut mesh is a bent strip with vertices 6-13, whose first face cuts off corner 1 of both from 18 on 5-1 over 14 on 0-1 to 15 on 1-2 and whose third face cuts off corner
    3 from 16 on 2-3 to 17 on 3-0 *)
Definition seg4 (e : nat) : nat * nat :=
  nth e [(14, 15); (16, 17); (18, 14); (0, 14); (14, 1); (1, 15); (15, 2); (2, 16); (16, 3); (3, 17); (17, 0); (0, 4); (4, 5); (5, 18); (18, 1);
         (6, 8); (8, 9); (9, 7); (7, 6); (8, 10); (10, 11); (11, 9); (10, 12); (12, 13); (13, 11)] (0, 0).
Definition polygons4 : list (list nat) :=
  [[6; 0; 12; 14; 2; 20]; [8; 10; 1]; [16; 18; 3]; [7; 22; 24; 26; 4]; [9; 5; 28]; [30; 32; 34; 36]; [33; 38; 40; 42]; [41; 44; 46; 48]].
Definition registry4 : list (nat * nat) := [(0, 2); (1, 2); (2, 4); (3, 4); (4, 2)].
Definition psf4 (e : nat) : option nat * option nat := nth e [(Some 0, Some 1); (Some 0, None); (Some 0, None); (Some 0, None); (Some 1, None)] (None, None).
Definition incoming4 : list (nat * list nat) := [(14, [1; 4; 6; 9]); (15, [0; 10; 13]); (16, [3; 14; 17]); (17, [2; 18; 21]); (18, [5; 26; 29])].
(** All hypotheses hold; the piece in the middle of the first square is reached from beside. *)
Theorem C83_beside_case :
  sever_input (src seg4) (tgt seg4) (fun v => 14 <= v) (fun h => h < 2 * 3) 19 (2 * 25) (firstn 5 polygons4) (skipn 5 polygons4) (fun v => 6 <= v) incoming4 /\
  sever_points (src seg4) (tgt seg4) (fun v => 14 <= v) (fun h => h < 2 * 3) (firstn 5 polygons4) (fun v => 6 <= v) incoming4 (cut_edge_at registry4 14 2 psf4) /\
  sever_mouths (src seg4) (tgt seg4) (fun v => 14 <= v) (fun h => h < 2 * 3) (firstn 5 polygons4) /\
  sever_known (src seg4) (fun v => 14 <= v) (firstn 5 polygons4) incoming4 (face_known registry4 14 psf4) /\ sever_reached (src seg4) (tgt seg4) (fun v => 14 <= v) (fun h => h < 2 * 3) (firstn 5 polygons4) /\
  exists s ps, severed polygons4 5 6 seg4 registry4 14 6 2 psf4 19 25 incoming4 (fun l => l) 30 = Some (s, ps) /\ map (map (fun m => (msrc s m, mtgt s m))) ps =
    [[(0, 20); (20, 21); (21, 2); (2, 22); (22, 23); (23, 0)]; [(14, 1); (1, 15); (15, 14)]; [(16, 3); (3, 17); (17, 16)]; [(20, 0); (0, 4); (4, 5); (5, 19); (19, 20)]; [(1, 14); (14, 18); (18, 1)]].
Proof.
  split; [apply (check_input_sound (firstn 5 polygons4) (skipn 5 polygons4) seg4 14 3 19 25 6 incoming4); vm_compute; reflexivity|]. split; [apply (check_points_sound (firstn 5 polygons4) seg4 14 3 6 incoming4 registry4 2 psf4); vm_compute; reflexivity|].
  split; [apply (check_mouths_sound (firstn 5 polygons4) seg4 14 3); vm_compute; reflexivity|]. split; [apply (check_known_sound (firstn 5 polygons4) seg4 14 incoming4 registry4 psf4); vm_compute; reflexivity|]. split; [apply (check_reached_sound (firstn 5 polygons4) seg4 14 3); vm_compute; reflexivity|].
  destruct (severed polygons4 5 6 seg4 registry4 14 6 2 psf4 19 25 incoming4 (fun l => l) 30) as [[s ps]|] eqn:E; vm_compute in E; [|discriminate]. exists s, ps. split; [reflexivity|]. injection E as <- <-. reflexivity.
Qed.

(** *** A square with two opposite corners cut off *)
(** vertices 0-3 of the source mesh; the cut mesh is a bent strip with vertices 4-11, whose first face cuts off corner 1 from 12 on 0-1 to 13 on 1-2 and whose third face cuts off corner 3 from 14 on 2-3 to 15 on 3-0 *)
Definition seg3 (e : nat) : nat * nat :=
  nth e [(12, 13); (14, 15); (0, 12); (12, 1); (1, 13); (13, 2); (2, 14); (14, 3); (3, 15); (15, 0);
         (4, 6); (6, 7); (7, 5); (5, 4); (6, 8); (8, 9); (9, 7); (8, 10); (10, 11); (11, 9)] (0, 0).
Definition polygons3 : list (list nat) :=
  [[4; 0; 10; 12; 2; 18]; [6; 8; 1]; [14; 16; 3]; [20; 22; 24; 26]; [23; 28; 30; 32]; [31; 34; 36; 38]].
Definition registry3 : list (nat * nat) := [(0, 1); (1, 1); (2, 3); (3, 3)].
Definition psf3 (e : nat) : option nat * option nat := nth e [(Some 0, None); (Some 0, None); (Some 0, None); (Some 0, None)] (None, None).
Definition incoming3 : list (nat * list nat) := [(12, [1; 4; 7]); (13, [0; 8; 11]); (14, [3; 12; 15]); (15, [2; 16; 19])].
Definition run3 order := severed polygons3 3 4 seg3 registry3 12 4 1 psf3 16 20 incoming3 order.
(** Without [sever_reached] the walk ends too early: in the square with two opposite corners cut off no side of the piece in the middle gets a halfedge, and its polygon cannot be made. *)
Theorem C83_unreached_refuted :
  sever_input (src seg3) (tgt seg3) (fun v => 12 <= v) (fun h => h < 2 * 2) 16 (2 * 20) (firstn 3 polygons3) (skipn 3 polygons3) (fun v => 4 <= v) incoming3 /\
  sever_points (src seg3) (tgt seg3) (fun v => 12 <= v) (fun h => h < 2 * 2) (firstn 3 polygons3) (fun v => 4 <= v) incoming3 (cut_edge_at registry3 12 1 psf3) /\
  sever_mouths (src seg3) (tgt seg3) (fun v => 12 <= v) (fun h => h < 2 * 2) (firstn 3 polygons3) /\
  sever_known (src seg3) (fun v => 12 <= v) (firstn 3 polygons3) incoming3 (face_known registry3 12 psf3) /\
  (exists s, partition polygons3 3 4 seg3 registry3 12 4 1 psf3 16 20 incoming3 (fun l => l) 20 = Some s /\ forall h, In h [4; 0; 10; 12; 2; 18] -> mapped seg3 12 20 s h = None) /\
  forall fuel, run3 (fun l => l) fuel = None.
Proof.
  split; [apply (check_input_sound (firstn 3 polygons3) (skipn 3 polygons3) seg3 12 2 16 20 4 incoming3); vm_compute; reflexivity|]. split; [apply (check_points_sound (firstn 3 polygons3) seg3 12 2 4 incoming3 registry3 1 psf3); vm_compute; reflexivity|].
  split; [apply (check_mouths_sound (firstn 3 polygons3) seg3 12 2); vm_compute; reflexivity|]. split; [apply (check_known_sound (firstn 3 polygons3) seg3 12 incoming3 registry3 psf3); vm_compute; reflexivity|]. split.
  - destruct (partition polygons3 3 4 seg3 registry3 12 4 1 psf3 16 20 incoming3 (fun l => l) 20) as [s|] eqn:E; vm_compute in E; [|discriminate]. exists s. split; [reflexivity|]. injection E as <-.
    intros h [<-|[<-|[<-|[<-|[<-|[<-|[]]]]]]]; vm_compute; reflexivity.
  - intros fuel. do 12 (destruct fuel as [|fuel]; [vm_compute; reflexivity|]). vm_compute. reflexivity.
Qed.
