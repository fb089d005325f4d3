(** C82: a scene that meets the hypotheses, and one where a fragment is lost. *)
From Coq Require Import List Arith ZArith Bool Reals Lia Lra Permutation Sorted Relations.
From Verif Require Import CutModel ClipModel SplitModel PatchModel TriModel PatchSpec PatchProofs SideModel SideSpec SideProofs SideProps.
From Verif Require Import Vec VecLemmas HmeshModel HmeshSpec HmeshProps InputSpec ExtractModel ExtractSpec ExtractProofs ExtractProps.
Import ListNotations.
Open Scope nat_scope.

(** ** A rectangle (vertices 0-3, height 2), cut by a sheet at height 1 whose normal points up.  The edges 1 (right) and 3 (left) of the source mesh cross the face 1 of the cut mesh in the points 8 and 9. *)
Definition c_seg (e : nat) : nat * nat := nth e [(8, 9); (3, 9); (9, 0); (1, 8); (8, 2); (0, 1); (2, 3)] (0, 0).
Definition c_polygons : list (list nat) := [[2; 1; 8; 12]; [4; 10; 6; 0]].
Definition c_registry : list (nat * nat) := [(1, 1); (3, 1)].
Definition c_position (v : nat) : vec := nth v [(0, 0, 0); (1, 0, 0); (1, 2, 0); (0, 2, 0); (0, 0, 0); (0, 0, 0); (0, 0, 0); (0, 0, 0); (1, 1, 0); (0, 1, 0)]%R (0, 0, 0)%R.
Definition up (f : nat) : vec := (0, 1, 0)%R.
Definition pv0 (e : nat) : nat := e.
Definition pf (e : nat) : option nat * option nat := (Some 0, None).
Notation c_scene := (scene c_polygons 2 ClipModel.opp (fun h => h < 2) (ClipModel.src c_seg) (ClipModel.tgt c_seg) c_position 8 c_registry up [0; 1] (fun e => pv0 e < 4) (fun f => 1 <= f)).
Notation c_arrives := (arrives c_polygons (fun h => h < 2) (ClipModel.src c_seg) (ClipModel.tgt c_seg) c_position 8 c_registry up).

(** the sides of a polygon *)
Ltac sides H := repeat match type of H with
  | nth_error (_ :: _) ?p = Some _ => is_var p; destruct p as [|p]; [cbn in H; injection H as H; subst|cbn [nth_error] in H]
  | nth_error [] ?p = Some _ => destruct p; discriminate H
  end.

Lemma c_arr p i h f : c_arrives p i h f -> p = 0 /\ i = 0 /\ h = 2 /\ f = 1.
Proof.
  intros (po & e & A & B & C & [D1 D2] & F). unfold c_polygons in A. sides A; sides B; unfold ClipModel.tgt, ClipModel.src, c_seg in D1; cbn in D1; try lia; try (exfalso; apply C; cbn; lia);
    unfold ClipModel.tgt, ClipModel.src, c_seg, c_registry in D2; cbn in D2; injection D2 as <- <-.
  - auto.
  - exfalso. unfold in_front in F. cbn in F. lra.
Qed.
Lemma c_arrives_0 : c_arrives 0 0 2 1.
Proof. exists [2; 1; 8; 12], 3. repeat split; try reflexivity; cbn; try lia. unfold in_front. cbn. lra. Qed.

Lemma c_scene_ok : c_scene.
Proof.
  constructor.
  - intros p [<-|[<-|[]]]; cbn; lia.
  - intros p h _ (po & A & B) L. unfold c_polygons in A. sides A; (cbn in B; repeat destruct B as [<-|B]; [..|destruct B]); cbn in L; try (exfalso; clear - L; lia); do 2 eexists; (split; [cbn; lia|reflexivity]).
  - intros p h _ (po & A & B) L. unfold c_polygons in A. sides A; (cbn in B; repeat destruct B as [<-|B]; [..|destruct B]); cbn in L |- *; lia.
  - intros p h e f _ (po & A & B) L [D1 D2]. unfold c_polygons in A. sides A; (cbn in B; repeat destruct B as [<-|B]; [..|destruct B]); cbn in D1, D2; try lia; injection D2 as <- <-; unfold pv0; lia.
  - intros p i h f g _ AR (po & A & B). destruct (c_arr _ _ _ _ AR) as (-> & -> & -> & ->). injection A as <-. injection B as <-. exists 1. split; [lia|]. exists [4; 10; 6; 0]. split; [reflexivity|cbn; tauto].
  - intros p i h f g q q' _ AR (po & A & B) Q Q' S S'. destruct (c_arr _ _ _ _ AR) as (-> & -> & -> & ->). injection A as <-. injection B as <-.
    assert (U : forall q, side c_polygons q (ClipModel.opp 1) -> q = 1). { intros x (po & A & B). unfold c_polygons in A. sides A; [|reflexivity]. cbn in B. lia. }
    rewrite (U q S), (U q' S'). reflexivity.
Qed.

Notation c_above := (above c_polygons (fun h => h < 2) (ClipModel.src c_seg) (ClipModel.tgt c_seg) c_position 8 c_registry up [0; 1]).
Notation c_below := (below c_polygons 2 ClipModel.opp (fun h => h < 2) (ClipModel.src c_seg) (ClipModel.tgt c_seg) c_position 8 c_registry up [0; 1]).
Lemma c_above_iff p : c_above p <-> p = 0.
Proof. split; [intros (_ & i & h & f & A); apply (c_arr _ _ _ _ A)|intros ->; split; [left; reflexivity|exists 0, 2, 1; exact c_arrives_0]]. Qed.
Lemma c_below_iff q : c_below q <-> q = 1.
Proof.
  split.
  - intros (p & _ & i & h & f & g & A & (po & B & C) & _ & (po' & D & E)). destruct (c_arr _ _ _ _ A) as (-> & -> & -> & ->). injection B as <-. injection C as <-. unfold c_polygons in D. sides D; [|reflexivity]. cbn in E. lia.
  - intros ->. exists 0. split; [left; reflexivity|]. exists 0, 2, 1, 1. split; [exact c_arrives_0|]. split; [exists [2; 1; 8; 12]; split; reflexivity|]. split; [lia|]. exists [4; 10; 6; 0]. split; [reflexivity|cbn; tauto].
Qed.

Lemma x_proper_nil b : proper (with_lists (x_params b) [] []) x_mesh x_polys x_vss.
Proof. destruct (x_proper b) as [H1 H2 H3 H4 H5 H6 H7 H8 H9 H10 H11 H12 H13]. constructor; try assumption; [constructor|constructor|]. intros X. destruct (X eq_refl). Qed.
Lemma x_together i : (0 <= i < zlen x_vss)%Z -> ExtractSpec.together x_mesh x_vss i i.
Proof.
  intros Hi. change (zlen x_vss) with 2%Z in Hi. assert (Q : i = 0%Z \/ i = 1%Z) by lia. destruct Q as [-> | ->].
  - exists [1; 2; 0]%Z, [1; 2; 0]%Z, 1%Z, 1%Z. repeat split; try (left; reflexivity). apply rst_refl.
  - exists [4; 5; 3]%Z, [4; 5; 3]%Z, 4%Z, 4%Z. repeat split; try (left; reflexivity). apply rst_refl.
Qed.

(** The hypotheses of C82_lists, C82_exact_partial and C82_reported_partial hold for the rectangle and two fragments, and the upper polygon is listed as above, the lower one as below; C82_other_side applies with the lower part of the left edge. *)
Theorem C82_case : c_scene /\ one_sided c_polygons 2 ClipModel.opp (fun h => h < 2) (ClipModel.src c_seg) (ClipModel.tgt c_seg) c_position 8 c_registry up [0; 1] /\ (exists p, c_above p) /\
  proper (with_lists (x_params true) [] []) x_mesh x_polys x_vss /\ schedulable (Some 3%Z) (zlen x_vss) /\ (forall i, (0 <= i < zlen x_vss)%Z -> has x_mesh x_vss c_above i \/ has x_mesh x_vss c_below i) /\
  above_below c_polygons 2 2 c_seg c_registry 8 4 1 pv0 pf up c_position (fun x => x) [0; 1] = Some ([0], [1]) /\
  at_back up 1 (c_position (ClipModel.tgt c_seg 4)) (c_position (ClipModel.src c_seg 4)).
Proof.
  split; [exact c_scene_ok|]. split; [intros p A B; apply c_above_iff in A; apply c_below_iff in B; congruence|]. split; [exists 0; apply c_above_iff; reflexivity|]. split; [apply x_proper_nil|]. split; [cbn; lia|]. split; [|split].
  - intros i Hi. pose proof (x_together i Hi) as T. change (zlen x_vss) with 2%Z in Hi. assert (Q : i = 0%Z \/ i = 1%Z) by lia. destruct Q as [-> | ->]; [left; exists 0|right; exists 1]; (split; [exact T|]); [apply c_above_iff; reflexivity|apply c_below_iff; reflexivity].
  - unfold above_below, side_polygon, side_step, negative. cbn. repeat (destruct (Rlt_dec _ _); try (exfalso; lra)); cbn; repeat (destruct (Rlt_dec _ _); try (exfalso; lra)); reflexivity.
  - apply (C82_other_side c_polygons 2 c_seg c_registry 8 up c_position 0 1 0 2 1 1 3 4 1).
    + exact c_arrives_0.
    + exists [2; 1; 8; 12]. split; reflexivity.
    + exists [4; 10; 6; 0]. split; reflexivity.
    + exists [4; 10; 6; 0]. split; reflexivity.
    + reflexivity.
    + lra.
    + cbn. f_equal; [f_equal|]; ring.
Qed.

(** ** A rectangle of height 3, cut by two sheets at the heights 1 (face 1) and 2 (face 2) whose normals point up.  It is traced into the polygons 0 (top), 1 (between the sheets) and 2 (bottom). *)
Definition d_seg (e : nat) : nat * nat := nth e [(12, 15); (13, 14); (3, 14); (14, 15); (15, 0); (1, 12); (12, 13); (13, 2); (0, 1); (2, 3)] (0, 0).
Definition d_polygons : list (list nat) := [[4; 3; 14; 18]; [6; 1; 12; 2]; [8; 16; 10; 0]].
Definition d_registry : list (nat * nat) := [(1, 1); (1, 2); (3, 2); (3, 1)].
Definition d_position (v : nat) : vec := nth v [(0, 0, 0); (1, 0, 0); (1, 3, 0); (0, 3, 0); (0, 0, 0); (0, 0, 0); (0, 0, 0); (0, 0, 0); (0, 0, 0); (0, 0, 0); (0, 0, 0); (0, 0, 0); (1, 1, 0); (1, 2, 0); (0, 2, 0); (0, 1, 0)]%R (0, 0, 0)%R.
Notation d_scene := (scene d_polygons 3 ClipModel.opp (fun h => h < 4) (ClipModel.src d_seg) (ClipModel.tgt d_seg) d_position 12 d_registry up [0; 1; 2] (fun e => pv0 e < 4) (fun f => 1 <= f)).
Notation d_arrives := (arrives d_polygons (fun h => h < 4) (ClipModel.src d_seg) (ClipModel.tgt d_seg) d_position 12 d_registry up).
Notation d_behind := (behind d_polygons 3 ClipModel.opp (fun h => h < 4) (ClipModel.src d_seg) (ClipModel.tgt d_seg) d_position 12 d_registry up [0; 1; 2]).
(** the rectangle in ps: its halfedges 0, 2, 4, 6 run around the face 0 *)
Definition d_psrc (h : nat) : nat := nth h [0; 1; 1; 2; 2; 3; 3; 0] 0.
Definition d_pface (h : nat) : option nat := if Nat.even h then Some 0 else None.
Definition d_ps_halfedge (s t : nat) : option nat := find (fun h => Nat.eqb (d_psrc h) s && Nat.eqb (d_psrc (ClipModel.opp h)) t) (seq 0 8).
Definition stable_partition (f : nat -> bool) (l : list nat) : list nat := filter f l ++ filter (fun x => negb (f x)) l.

Lemma d_traced : clip d_seg d_psrc d_pface d_ps_halfedge d_registry 12 [(3, [2; 3; 4]); (1, [5; 6; 7])] stable_partition 0 [0; 1; 2; 3; 4; 5; 6; 7; 8; 9] = Some d_polygons.
Proof. vm_compute. reflexivity. Qed.

Lemma d_arr p i h f : d_arrives p i h f -> (p = 0 /\ i = 0 /\ h = 4 /\ f = 2) \/ (p = 1 /\ i = 0 /\ h = 6 /\ f = 1).
Proof.
  intros (po & e & A & B & C & [D1 D2] & F). unfold d_polygons in A. sides A; sides B; unfold ClipModel.tgt, ClipModel.src, d_seg in D1; cbn in D1; try lia; try (exfalso; apply C; cbn; lia);
    unfold ClipModel.tgt, ClipModel.src, d_seg, d_registry in D2; cbn in D2; injection D2 as <- <-; auto; exfalso; unfold in_front in F; cbn in F; lra.
Qed.
Lemma d_scene_ok : d_scene.
Proof.
  constructor.
  - intros p I. cbn in I |- *. lia.
  - intros p h _ (po & A & B) L. unfold d_polygons in A. sides A; (cbn in B; repeat destruct B as [<-|B]; [..|destruct B]); cbn in L; try (exfalso; clear - L; lia); do 2 eexists; (split; [cbn; lia|reflexivity]).
  - intros p h _ (po & A & B) L. unfold d_polygons in A. sides A; (cbn in B; repeat destruct B as [<-|B]; [..|destruct B]); cbn in L |- *; lia.
  - intros p h e f _ (po & A & B) L [D1 D2]. unfold d_polygons in A. sides A; (cbn in B; repeat destruct B as [<-|B]; [..|destruct B]); cbn in D1, D2; try lia; injection D2 as <- <-; unfold pv0; lia.
  - intros p i h f g _ AR (po & A & B). destruct (d_arr _ _ _ _ AR) as [(-> & -> & -> & ->)|(-> & -> & -> & ->)]; injection A as <-; injection B as <-.
    + exists 1. split; [lia|]. exists [6; 1; 12; 2]. split; [reflexivity|cbn; tauto].
    + exists 2. split; [lia|]. exists [8; 16; 10; 0]. split; [reflexivity|cbn; tauto].
  - intros p i h f g q q' _ AR (po & A & B) Q Q' S S'.
    assert (U : forall h a b, ((h = 2 /\ a = 1 /\ b = 1) \/ (h = 0 /\ a = 2 /\ b = 2)) -> side d_polygons q h -> side d_polygons q' h -> q = a /\ q' = b).
    { intros k a b K (x & X1 & X2) (y & Y1 & Y2). unfold d_polygons in X1, Y1. destruct K as [(-> & -> & ->)|(-> & -> & ->)]; sides X1; cbn in X2; try lia; sides Y1; cbn in Y2; try lia; auto. }
    destruct (d_arr _ _ _ _ AR) as [(-> & -> & -> & ->)|(-> & -> & -> & ->)]; injection A as <-; injection B as <-.
    + destruct (U 2 1 1) as [-> ->]; auto.
    + destruct (U 0 2 2) as [-> ->]; auto.
Qed.

(** The fragments: three separate rectangles (polygons 0, 1, 2), nothing else asked for. *)
Definition d_ops : list op := map (fun i => OVertex (i, 0, 0)%Z) (zrange 12) ++ [OEdge 0 1; OEdge 1 2; OEdge 2 3; OEdge 3 0; OEdge 4 5; OEdge 5 6; OEdge 6 7; OEdge 7 4; OEdge 8 9; OEdge 9 10; OEdge 10 11; OEdge 11 8]%Z.
Definition d_mesh : hmesh := match run_ok hempty d_ops with Some m => m | None => hempty end.
Definition d_params : params := Params 0 [] [] [] [] [] [] [] [] [] [] [] [] 12 1 false false true true true.
Definition d_halfedges : list (list Z) := [[0; 2; 4; 6]; [8; 10; 12; 14]; [16; 18; 20; 22]]%Z.

(** C82 is violated: the rectangle is traced as shown, its polygons are listed as above and below, and the bottom, which lies behind the lower sheet, is on neither list.  The extraction of the fragments then ends with an exception.
    With the bottom on the list it would have been reported as below. *)
Theorem C82_lost_refuted : clip d_seg d_psrc d_pface d_ps_halfedge d_registry 12 [(3, [2; 3; 4]); (1, [5; 6; 7])] stable_partition 0 [0; 1; 2; 3; 4; 5; 6; 7; 8; 9] = Some d_polygons /\
  d_scene /\ d_behind 1 2 /\
  above_below d_polygons 3 4 d_seg d_registry 12 4 1 pv0 pf up d_position (fun x => x) [0; 1; 2] = Some ([0; 1], [1]) /\
  extract 1000 None (with_lists d_params [1] [0; 1]) (fun _ => None) d_mesh d_halfedges = None /\
  option_map (map (fun e => (fst e, i_location (snd (snd e))))) (extract 1000 None (with_lists d_params [1; 2] [0; 1]) (fun _ => None) d_mesh d_halfedges) = Some [(0, Above); (1, Undefined); (2, Below)]%Z.
Proof.
  split; [exact d_traced|]. split; [exact d_scene_ok|]. split; [|split; [|split; vm_compute; reflexivity]].
  - split; [right; left; reflexivity|]. exists 0, 6, 1, 1. split; [|split; [exists [6; 1; 12; 2]; split; reflexivity|split; [lia|exists [8; 16; 10; 0]; split; [reflexivity|cbn; tauto]]]].
    exists [6; 1; 12; 2], 3. repeat split; try reflexivity; cbn; try lia. unfold in_front. cbn. lra.
  - unfold above_below, side_polygon, side_step, negative. cbn. repeat (destruct (Rlt_dec _ _); try (exfalso; lra)); cbn; repeat (destruct (Rlt_dec _ _); try (exfalso; lra)); reflexivity.
Qed.
Print Assumptions C82_lost_refuted.
