(** Theorems about polygon partitioning and the maps to the user's elements: C40, C59, C60. *)
From Coq Require Import List ZArith Lia Bool Permutation.
From Verif Require Import Vec VecLemmas HmeshModel HmeshSpec HmeshCore InputModel InputSpec InputProofs ParModel DataModel DataSpec DataProofs DataProps PartModel PartSpec PartProofs PartRun.
Import ListNotations.
Open Scope Z_scope.
Ltac Zify.zify_post_hook ::= idtac.

(** ** C59: cutting a face in two *)

(** Cutting a face of a mesh as the conversion and earlier cuts leave it, along a line between two of its edges,
    is always possible and does just that; the result is again such a mesh. *)
Theorem C59_partition : forall m f g, plain m -> live_face m f -> two_edges m f g ->
  exists p, partition_face m f g = Some p /\ plain (p_mesh p) /\
    cut_in_two m f (g_p0 g) (g_p1 g) (p_mesh p) (p_v0 p) (p_v1 p) (p_c0 p) (p_c1 p).
Proof. exact partition_plain. Qed.

(** The meshes handed to the kernel are always like that, whatever violations and floating polygons there have been. *)
Theorem C59_meshes : forall nvs fss nvc fsc d, reached nvs fss nvc fsc d ->
  plain (im (d_src d)) /\ plain (im (d_cut d)).
Proof. intros nvs fss nvc fsc d R. destruct (reached_dinv _ _ _ _ _ R) as [[T1 T2 _ _ _] _]. split; [apply T1|apply T2]. Qed.

(** Every floating polygon leaves both meshes as they are, or cuts one face of one mesh in two: the face it
    was found on if that is a face of the user, otherwise one that is part of the same user's face. *)
Theorem C59_resolve : forall nvs fss nvc fsc d0 l d raw o d', reached nvs fss nvc fsc d0 ->
  legal_all d0 l -> resolve_all d0 l = Some d -> legal d (raw, o) -> resolve_fp d (raw, o) = Some d' ->
  (im (d_src d') = im (d_src d) /\ im (d_cut d') = im (d_cut d)) \/
  exists cut f0 f p,
    cut = negb (raw <? number_of_faces (im (d_src d0))) /\ f0 = raw - (if cut then number_of_faces (im (d_src d0)) else 0) /\
    (let side x := if cut then im (d_cut x) else im (d_src x) in
     let other x := if cut then im (d_src x) else im (d_cut x) in
     let nf := if cut then zlen fsc else zlen fss in
     other d' = other d /\ cut_in_two (side d) f (g_p0 (o_geom o)) (g_p1 (o_geom o)) (side d') (p_v0 p) (p_v1 p) (p_c0 p) (p_c1 p) /\
     exists b, vget (face_origin cut nf d) f = Some b /\ vget (face_origin cut nf d) f0 = Some b).
Proof.
  intros nvs fss nvc fsc d0 l d raw o d' R La Er L E. destruct (reached_dinv _ _ _ _ _ R) as [I0 Hp]. destruct (resolve_all_dinv _ _ _ _ l d0 d I0 La Er) as [[I1 I2 I3 I4 I5] Hp'].
  rewrite Hp in Hp'. unfold resolve_fp in E. unfold legal in L. cbn [fst snd] in L. rewrite Hp' in *. 
  assert (Or : forall nv nf og s f0 f p b s', tracked nv nf og s -> legal_fp s f0 o -> resolve_one s f0 o = Some (s', Some (f, p)) -> vget og f = Some b -> vget og f0 = Some b).
  { intros nv nf og s f0 f p b s' T (Lf & Vs & _) Eo Eb. unfold resolve_one in Eo.
    assert (Rf : 0 <= f0 < zlen og). { apply (live_rf _ f0 (pl_rf _ (tr_plain _ _ _ _ T))) in Lf. rewrite (tr_len _ _ _ _ T) in Lf. exact Lf. }
    destruct (vget_range_Some og f0 Rf) as [b0 Eb0].
    destruct (assoc (im_birth s) f0) as [b1|] eqn:Ea.
    - destruct (o_verdict o) as [i|i]; [destruct (visit s _); cbn [obind] in Eo; discriminate|]. destruct (visit s _); cbn [obind] in Eo; [|discriminate].
      destruct (nth_error (o_visit o) i) as [f'|] eqn:En; cbn [obind] in Eo; [|discriminate]. destruct (do_partition _ _ _ _) as [[s2 q]|]; cbn [obind fst snd] in Eo; [|discriminate]. injection Eo as <- <- <-.
      assert (Ac : assoc (im_birth s) f' = Some b1). { apply children_spec; [apply T|]. apply (Permutation_in f' (Vs b1 eq_refl)). eapply nth_error_In; exact En. }
      destruct (tr_birth _ _ _ _ T f0 b0 Eb0) as [Q|[_ Q]]; [|congruence]. destruct (tr_birth _ _ _ _ T f' b Eb) as [Q'|[_ Q']]; congruence.
    - destruct (do_partition _ _ _ _) as [[s2 q]|]; cbn [obind fst snd] in Eo; [|discriminate]. injection Eo as <- <- <-. exact Eb. }
  destruct (raw <? number_of_faces (im (d_src d0))) eqn:Lt.
  - destruct (resolve_one (d_src d) raw o) as [(s', r)|] eqn:Eo; cbn [obind fst snd] in E; [|discriminate]. injection E as <-. cbn [d_src d_cut].
    destruct (resolve_one_tracked _ _ _ _ _ _ _ _ I1 L Eo) as [(-> & ->)|(f & p & b & -> & Eb & T & C & _)]; [auto|]. right.
    exists false, raw, f, p. split; [reflexivity|]. split; [lia|]. cbn [d_src d_cut]. split; [reflexivity|]. split; [exact C|]. exists b. split; [exact Eb|]. exact (Or _ _ _ _ _ _ _ _ _ I1 L Eo Eb).
  - destruct (resolve_one (d_cut d) _ o) as [(s', r)|] eqn:Eo; cbn [obind fst snd] in E; [|discriminate]. injection E as <-. cbn [d_src d_cut].
    destruct (resolve_one_tracked _ _ _ _ _ _ _ _ I2 L Eo) as [(-> & ->)|(f & p & b & -> & Eb & T & C & _)]; [auto|]. right.
    exists true, (raw - number_of_faces (im (d_src d0))), f, p. split; [reflexivity|]. split; [reflexivity|]. cbn [d_src d_cut]. split; [reflexivity|]. split; [exact C|]. exists b. split; [exact Eb|]. exact (Or _ _ _ _ _ _ _ _ _ I2 L Eo Eb).
Qed.

(** ** C40: what the maps say *)

(** The maps of a component, read with the two-call pattern after any other queries, say of each element where it
    comes from in the user's arrays, after every sequence of violations and floating polygons. *)
Theorem C40_maps : forall nvs fss nvc fsc d mesh vmap fmap c e, reached nvs fss nvc fsc d ->
  zlen fss + zlen fsc < 2 ^ 32 -> nvs + nvc < 2 ^ 32 ->
  (forall i, In i fmap -> 0 <= i < all_faces d) ->
  (forall i, In i vmap -> i = UINT32_MAX \/ 0 <= i < number_of_vertices (im (d_src d)) + number_of_vertices (im (d_cut d))) ->
  fresh (component d nvs (zlen fss) mesh vmap fmap) -> queried (component d nvs (zlen fss) mesh vmap fmap) c -> pool_ok e ->
  (fmap <> [] -> zlen fmap < 2 ^ 31 -> exists told, agrees (q_face_map e c) 4 told /\ Forall2 (fun i x => face_told (zlen fss) (zlen fsc) d i = Some x) fmap told) /\
  (vmap <> [] -> zlen vmap < 2 ^ 31 -> exists told, agrees (q_vertex_map e c) 4 told /\ Forall2 (fun i x => vertex_told nvs nvc d i = Some x) vmap told).
Proof.
  intros nvs fss nvc fsc d mesh vmap fmap c e R Bf Bv Hf Hv F Q P. destruct (C36_maps _ c e F Q P) as [M1 M2]. cbn [component c_vmap c_fmap] in M1, M2.
  assert (G : forall (f : Z -> Z) (told : Z -> option Z) l, (forall i, In i l -> told i = Some (f i)) -> Forall2 (fun i x => told i = Some x) l (map f l)).
  { intros f told l. induction l as [|x l IH]; intros H; cbn [map]; constructor; [apply H; left; reflexivity|]. apply IH. intros i K. apply H. right. exact K. }
  split; intros N S.
  - eexists. split; [exact (M2 N S)|]. apply G. intros i K. apply (face_answer nvs fss nvc fsc); auto.
  - eexists. split; [exact (M1 N S)|]. apply G. intros i K. apply (vertex_answer nvs fss nvc fsc); auto.
Qed.

(** Each entry by itself. *)
Theorem C40_entry : forall nvs fss nvc fsc d mesh vmap fmap, reached nvs fss nvc fsc d ->
  zlen fss + zlen fsc < 2 ^ 32 -> nvs + nvc < 2 ^ 32 ->
  (forall i, 0 <= i < all_faces d -> face_told (zlen fss) (zlen fsc) d i = Some (user_face (component d nvs (zlen fss) mesh vmap fmap) i)) /\
  (forall i, i = UINT32_MAX \/ 0 <= i < number_of_vertices (im (d_src d)) + number_of_vertices (im (d_cut d)) ->
     vertex_told nvs nvc d i = Some (user_vertex (component d nvs (zlen fss) mesh vmap fmap) i)).
Proof. intros nvs fss nvc fsc d mesh vmap fmap R B1 B2. split; intros i H; [apply (face_answer nvs fss nvc fsc); assumption|apply (vertex_answer nvs fss nvc fsc); assumption]. Qed.

(** The values are indices of the user's arrays: no face is without origin, and only points that are not the user's are undefined. *)
Theorem C40_range : forall nvs fss nvc fsc d, reached nvs fss nvc fsc d ->
  (forall i, 0 <= i < all_faces d -> exists x, face_told (zlen fss) (zlen fsc) d i = Some x /\
     if i <? number_of_faces (im (d_src d)) then 0 <= x < zlen fss else zlen fss <= x < zlen fss + zlen fsc) /\
  (forall i x, vertex_told nvs nvc d i = Some x -> x = UINT32_MAX \/ (if i <? number_of_vertices (im (d_src d)) then 0 <= x < nvs else nvs <= x < nvs + nvc)).
Proof.
  intros nvs fss nvc fsc d R. destruct (reached_dinv _ _ _ _ _ R) as [[T1 T2 _ _ _] _]. split.
  - intros i Hi. unfold all_faces in Hi. rewrite (tr_len _ _ _ _ T1), (tr_len _ _ _ _ T2) in Hi. rewrite (tr_len _ _ _ _ T1). unfold face_told.
    destruct (Z.ltb_spec i (zlen (face_origin false (zlen fss) d))) as [Hl|Hl].
    + rewrite TriProps.vget_front by exact Hl. destruct (vget_range_Some (face_origin false (zlen fss) d) i) as [b Eb]; [lia|]. exists b. split; [exact Eb|]. apply (tr_o _ _ _ _ T1 i b Eb).
    + rewrite TriProps.vget_back by exact Hl. destruct (vget_range_Some (face_origin true (zlen fsc) d) (i - zlen (face_origin false (zlen fss) d))) as [b Eb]; [lia|]. exists (zlen fss + b).
      split; [|pose proof (tr_o _ _ _ _ T2 _ b Eb); lia]. unfold vget in *. destruct (_ <? 0); [discriminate|]. rewrite nth_error_map, Eb. reflexivity.
  - intros i x. unfold vertex_told. pose proof (tr_nv _ _ _ _ T1). destruct (i =? UINT32_MAX); [intros [= <-]; auto|].
    destruct (Z.ltb_spec i 0); [discriminate|]. destruct (Z.ltb_spec i nvs).
    + intros [= <-]. right. destruct (Z.ltb_spec i (number_of_vertices (im (d_src d)))); lia.
    + destruct (Z.ltb_spec i (number_of_vertices (im (d_src d)))); [intros [= <-]; auto|]. destruct (Z.ltb_spec i (number_of_vertices (im (d_src d)) + nvc)); [|destruct (_ <? _); [intros [= <-]; auto|discriminate]].
      intros [= <-]. right. lia.
Qed.

(** ** C60: violations after partitions *)

(** As long as no violation follows the cutting of a face of the cut mesh, handling floating polygons
    has no undefined behaviour, and all candidates name faces that exist.  Missing: the other runs, where both are false. *)
Theorem C60_defined_partial : forall nvs fss nvc fsc d, reached nvs fss nvc fsc d -> no_stale (d_log d) ->
  (forall t, legal_turn nvc fsc d t -> exists d', do_turn d t = Some d') /\
  (forall x, In x (d_cand d) -> 0 <= x < all_faces d).
Proof.
  intros nvs fss nvc fsc d R N. split; [|exact (reached_cand _ _ _ _ _ R N)].
  intros [m|l cand] L; cbn [do_turn legal_turn] in *; [eauto|]. destruct (reached_dinv _ _ _ _ _ R) as [I _].
  destruct (resolve_all_defined _ _ _ _ l d I N (proj1 L)) as (d1 & -> & _). cbn [obind]. eauto.
Qed.

(** ** A run: two triangles; a floating polygon on the cut triangle, and one on the source triangle; then a violation *)
Definition tri_faces : list (list Z) := [[0; 1; 2]].
Definition tri_points : list point := [(0, 0, 0); (4, 0, 0); (0, 4, 0)].
Definition tri_mesh : hmesh := Eval vm_compute in match seq_convert tri_points None [0; 1; 2] 1 with CAccept m => m | _ => hempty end.
Lemma tri_converted : converted 3 tri_faces tri_mesh.
Proof.
  exists tri_points, None, [0; 1; 2]. split; [reflexivity|]. split.
  - split; [exists []; reflexivity|]. intros f [<-|[]]. reflexivity.
  - split; [|split; [cbn; lia|vm_compute; reflexivity]]. intros x [<-|[<-|[<-|[]]]]; lia.
Qed.

Definition fp_geom : geom := Geom 0 (2, 0, 0) 1 (2, 2, 0) false.
Definition fp_simple : fporacle := FPO [] (Inside 0) fp_geom.
Definition fp_run0 : driver := Eval vm_compute in first_turn tri_mesh tri_mesh [0; 1].
(** the cut triangle is number 1 for the kernel *)
Definition fp_turn1 : turn := TFloating [(1, fp_simple); (0, fp_simple)] [0; 1; 2; 3].
Definition fp_run1 : driver := Eval vm_compute in match do_turn fp_run0 fp_turn1 with Some d => d | None => fp_run0 end.
Definition fp_run2 : driver := Eval vm_compute in match do_turn fp_run1 (TViolation tri_mesh) with Some d => d | None => fp_run0 end.

Lemma fp_run0_reached : reached 3 tri_faces 3 tri_faces fp_run0.
Proof. apply (re_first 3 tri_faces 3 tri_faces tri_mesh tri_mesh [0; 1] tri_converted tri_converted). intros x [<-|[<-|[]]]; cbn; lia. Qed.

Lemma fp_mesh_edges : two_edges tri_mesh 0 fp_geom.
Proof. eexists. split; [vm_compute; reflexivity|]. cbn. lia. Qed.
Lemma fp_mesh_face : live_face tri_mesh 0.
Proof. split; [cbn; lia|intros []]. Qed.
Lemma fp_fresh_legal : legal_fp (IM tri_mesh [] []) 0 fp_simple.
Proof.
  split; [exact fp_mesh_face|]. split; [discriminate|]. split; [|intros K; elim K; reflexivity]. cbn. intros f' ->. exact fp_mesh_edges.
Qed.

Lemma fp_run1_reached : reached 3 tri_faces 3 tri_faces fp_run1.
Proof.
  apply (re_turn 3 tri_faces 3 tri_faces fp_run0 fp_turn1 fp_run1 fp_run0_reached); [|vm_compute; reflexivity]. split.
  - apply la_cons; [exact fp_fresh_legal|]. intros d' E. apply la_cons; [|intros d2 _; apply la_nil].
    vm_compute in E. injection E as <-. exact fp_fresh_legal.
  - intros d' E x Hx. vm_compute in E. injection E as <-. change (all_faces _) with 4. cbn in Hx. lia.
Qed.
Lemma fp_run2_reached : reached 3 tri_faces 3 tri_faces fp_run2.
Proof. apply (re_turn 3 tri_faces 3 tri_faces fp_run1 (TViolation tri_mesh) fp_run2 fp_run1_reached); [exact tri_converted|vm_compute; reflexivity]. Qed.

(** The full statement of C60 is false.  After a violation the table of the cut mesh still names the faces made by
    earlier cuts, although the mesh has been rebuilt without them: the next floating polygon on that
    face makes the library read a face that does not exist. *)
Theorem C60_stale_table_refuted : exists nvs fss nvc fsc d t, reached nvs fss nvc fsc d /\ legal_turn nvc fsc d t /\ do_turn d t = None.
Proof.
  exists 3, tri_faces, 3, tri_faces, fp_run2, (TFloating [(2, FPO [1; 0] (Crossed 1) fp_geom)] []). split; [exact fp_run2_reached|]. split; [|vm_compute; reflexivity]. split.
  - apply la_cons; [|intros d' E; vm_compute in E; discriminate]. split; [exact fp_mesh_face|]. split; [|split].
    + vm_compute. intros b [= <-]. apply Permutation_refl.
    + vm_compute. intros f' (i & E & _). discriminate.
    + intros _. cbn. lia.
  - intros d' E. vm_compute in E. discriminate.
Qed.
(** ... and the kernel is called with candidate pairs that name faces that do not exist. *)
Theorem C60_stale_candidates_refuted : exists nvs fss nvc fsc d x, reached nvs fss nvc fsc d /\ In x (d_cand d) /\ all_faces d <= x.
Proof. exists 3, tri_faces, 3, tri_faces, fp_run2, 3. split; [exact fp_run2_reached|]. split; [vm_compute; auto|vm_compute; discriminate]. Qed.

(** ** Concrete cases *)
Example C59_instance : plain tri_mesh /\ live_face tri_mesh 0 /\ two_edges tri_mesh 0 fp_geom /\
  get_vertices_around_face (im (d_src fp_run1)) 0 = Some [2; 0; 3; 4] /\ get_vertices_around_face (im (d_src fp_run1)) 1 = Some [1; 4; 3].
Proof. split; [apply (converted_plain 3 tri_faces), tri_converted|]. split; [exact fp_mesh_face|]. split; [exact fp_mesh_edges|]. split; vm_compute; reflexivity. Qed.

Example C40_instance : reached 3 tri_faces 3 tri_faces fp_run1 /\ zlen tri_faces + zlen tri_faces < 2 ^ 32 /\
  map (user_face (component fp_run1 3 1 tri_mesh [0; 3; 4; 5; 8] [0; 1; 2; 3])) [0; 1; 2; 3] = [0; 0; 1; 1] /\
  map (user_vertex (component fp_run1 3 1 tri_mesh [0; 3; 4; 5; 8] [0; 1; 2; 3])) [0; 3; 4; 5; 8] = [0; UINT32_MAX; UINT32_MAX; 3; UINT32_MAX] /\
  fresh (component fp_run1 3 1 tri_mesh [0; 3; 4; 5; 8] [0; 1; 2; 3]).
Proof.
  split; [exact fp_run1_reached|]. split; [cbn; lia|]. split; [vm_compute; reflexivity|]. split; [vm_compute; reflexivity|]. split; [|split; reflexivity].
  destruct (converted_plain 3 tri_faces tri_mesh tri_converted) as [P _]. constructor; [apply P|reflexivity|reflexivity|split; discriminate|cbn; lia].
Qed.

Example C60_instance : reached 3 tri_faces 3 tri_faces fp_run1 /\ no_stale (d_log fp_run1) /\ legal_turn 3 tri_faces fp_run1 (TViolation tri_mesh).
Proof.
  split; [exact fp_run1_reached|]. split; [|exact tri_converted]. intros a b f p E K.
  assert (In HRebuilt (d_log fp_run1)) as H by (rewrite E; apply in_or_app; right; right; exact K). vm_compute in H. destruct H as [H|[H|[]]]; discriminate.
Qed.
