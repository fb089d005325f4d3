(** Property theorems C20 (splitting the traced polygons into connected components). *)
From Coq Require Import List ZArith Lia Bool Permutation Sorted Relations.
From Verif Require Import Vec VecLemmas HmeshModel HmeshSpec HmeshIter HmeshProps ParModel ParProofs InputSpec InputProofs
  CompModel CompSpec CompProofs CompProps ExtractModel ExtractSpec ExtractProofs.
Import ListNotations.
Open Scope Z_scope.

(** Number of helper threads, and what the scheduling of the parallel loops needs (C07, C08): at least one polygon, less than
    2^32 - 1023 of them. *)
Definition schedulable (pool : option Z) (n : Z) : Prop :=
  match pool with None => True | Some t => 0 <= t < 2 ^ 32 - 1 /\ 1 <= n /\ n + 1023 < 2 ^ 32 end.

Lemma extract_none fuel pool P last inm polys : extract fuel pool P last inm polys =
  do porder <- polygon_order pool (zlen polys);
  do mesh <- ofold (insert_polygon pool inm polys) porder inm;
  do r <- find_connected_components fuel mesh;
  do fs <- iterate (zlen (faces mesh)) (rf mesh);
  do cs <- ofold (map_face_vertices P mesh (face_component r)) fs (repeat None (Z.to_nat (n_components r)));
  do forder <- face_order pool mesh;
  do cs' <- ofold (insert_face P mesh (face_component r)) forder cs;
  save_all P last 0 cs'.
Proof. reflexivity. Qed.

Lemma extract_first P inm polys vss pool : proper P inm polys vss -> schedulable pool (zlen vss) ->
  exists bound, forall fuel, (bound <= fuel)%nat -> exists cs' out,
    (forall last, extract fuel pool P last inm polys = save_all P last 0 cs') /\
    save_all P (fun _ => None) 0 cs' = Some out /\ partitions P inm vss (map snd out).
Proof.
  intros H Hs.
  assert (Po : exists porder, polygon_order pool (zlen polys) = Some porder).
  { rewrite (len_polys _ _ _ _ H). unfold polygon_order. destruct pool as [t|]; [|eauto]. destruct Hs as (H1 & H2 & H3).
    assert (P1 : 1 <= 1024) by lia. assert (P2 : zlen vss + 1024 - 1 < 2 ^ 32) by lia. destruct (plan_ok t (zlen vss) 1024 H2 H1 P1 P2) as (w & ms & Ep & _). rewrite Ep. eauto. }
  destruct Po as [porder Po]. destruct (mesh_built P inm polys vss H pool porder Po Hs) as (m & Em & B).
  destruct (C19_components_correct m (b_hist _ _ _ B) (mesh_dense inm vss m B)) as [bound Hb]. exists bound. intros fuel Hf. destruct (Hb fuel Hf) as (reps & r & Er & R).
  assert (Fo : exists forder, face_order pool m = Some forder /\ Permutation forder (zrange (zlen vss))).
  { unfold face_order. destruct pool as [t|].
    - destruct Hs as (H1 & H2 & H3). rewrite (mesh_nf inm vss m B).
      assert (P1 : 1 <= 1024) by lia. assert (P2 : zlen vss + 1024 - 1 < 2 ^ 32) by lia. destruct (plan_ok t (zlen vss) 1024 H2 H1 P1 P2) as (w & ms & Ep & _ & Ec & _). rewrite Ep.
      eexists. split; [reflexivity|]. rewrite <- Ec, map_app, concat_app. cbn [map concat]. rewrite app_nil_r. apply Permutation_app_comm.
    - exists (zrange (zlen vss)). split; [apply (mesh_faces_iter inm vss m B)|apply Permutation_refl]. }
  destruct Fo as (forder & Ef & Pm).
  destruct (loops_spec P inm polys vss H m B reps r R forder Pm) as (cs & cs' & out & E1 & E2 & E3 & E4).
  exists cs', out. split; [|split; [exact E3|exact E4]]. intros last. rewrite extract_none, Po. cbn [obind]. rewrite Em. cbn [obind]. rewrite Er. cbn [obind].
  rewrite (mesh_faces_iter inm vss m B). cbn [obind]. rewrite E1. cbn [obind]. rewrite Ef. cbn [obind]. rewrite E2. reflexivity.
Qed.

(** C20.  For all arguments as the kernel passes them, with or without helper threads (any number of them): the call ends without an
    invalid access, and what it saves is a partition of the wanted polygons into connected
    components, each with the coordinates and cyclic vertex sequences of its polygons, its
    location, its seam vertices and the maps to the input meshes. *)
Theorem C20_components_partition_polygons : forall P inm polys vss pool, proper P inm polys vss -> schedulable pool (zlen vss) ->
  exists bound, forall fuel, (bound <= fuel)%nat -> exists out,
    extract fuel pool P (fun _ => None) inm polys = Some out /\ partitions P inm vss (map snd out).
Proof.
  intros P inm polys vss pool H Hs. destruct (extract_first P inm polys vss pool H Hs) as [bound Hb]. exists bound. intros fuel Hf.
  destruct (Hb fuel Hf) as (cs' & out & E & Es & Pt). exists out. split; [rewrite E; exact Es|exact Pt].
Qed.
Print Assumptions C20_components_partition_polygons.

(** C20, calls after the first (stitching phase): saved are exactly those components of the
    partition whose number of faces differs from that of the copy saved last under the same number. *)
Theorem C20_later_calls : forall P inm polys vss pool, proper P inm polys vss -> schedulable pool (zlen vss) ->
  exists bound, forall fuel, (bound <= fuel)%nat -> exists out,
    partitions P inm vss (map snd out) /\
    forall last, extract fuel pool P last inm polys =
      Some (filter (fun e => match last (fst e) with None => true | Some n => negb (n =? number_of_faces (fst (snd e))) end) out).
Proof.
  intros P inm polys vss pool H Hs. destruct (extract_first P inm polys vss pool H Hs) as [bound Hb]. exists bound. intros fuel Hf.
  destruct (Hb fuel Hf) as (cs' & out & E & Es & Pt). exists out. split; [exact Pt|]. intros last. rewrite E. clear - Es.
  revert Es. generalize 0 as k. revert out. induction cs' as [|oc cs IH]; intros out k Es; cbn [save_all] in *; [injection Es as <-; reflexivity|].
  destruct oc as [c|].
  - destruct (keep_flag P c).
    + destruct (save P None c) as [x|] eqn:Ex; [|discriminate]. cbn [obind] in Es. destruct (save_all P (fun _ => None) (k + 1) cs) as [rest|] eqn:Er; [|discriminate]. cbn [obind] in Es.
      rewrite (IH rest (k + 1) Er). injection Es as <-.
      assert (Mesh : exists e, x = Some e /\ fst e = c_mesh c).
      { unfold save in Ex. destruct (if negb (zlen (below_list P) =? 0) && _ then _ else _); [|discriminate]. cbn [obind] in Ex.
        destruct (if want_vmaps P then _ else _); [|discriminate]. cbn [obind] in Ex. destruct (if want_fmaps P then _ else _); [|discriminate]. cbn [obind] in Ex. injection Ex as <-. eexists. split; reflexivity. }
      destruct Mesh as (e & -> & Em). unfold save in *. cbn [filter fst snd]. rewrite Em. destruct (last k) as [n|]; [destruct (negb (n =? number_of_faces (c_mesh c)))|]; [rewrite Ex; reflexivity|reflexivity|rewrite Ex; reflexivity].
    + cbn [obind] in *. destruct (save_all P (fun _ => None) (k + 1) cs) as [rest|] eqn:Er; [|discriminate]. cbn [obind] in Es. rewrite (IH rest (k + 1) Er). injection Es as <-. reflexivity.
  - cbn [obind] in *. destruct (save_all P (fun _ => None) (k + 1) cs) as [rest|] eqn:Er; [|discriminate]. cbn [obind] in Es. rewrite (IH rest (k + 1) Er). injection Es as <-. reflexivity.
Qed.
Print Assumptions C20_later_calls.

(** ** A concrete instance: two separate triangles, the first below, the second above the
    cut-mesh; only the fragment above is wanted.  Vertices 0-3 are the source-mesh, 4 is one of the
    cut-mesh (its number 0), 5 is an intersection point. *)
Definition x_ops : list op := map (fun i => OVertex (i, 0, 0)) (zrange 6) ++ [OEdge 0 1; OEdge 1 2; OEdge 2 0; OEdge 3 4; OEdge 4 5; OEdge 5 3].
Definition x_mesh : hmesh := match run_ok hempty x_ops with Some m => m | None => hempty end.
Lemma x_history : history x_mesh.
Proof. apply (run_ok_history x_ops hempty); [constructor|]. vm_compute. reflexivity. Qed.
Definition x_polys : list (list Z) := [[0; 2; 4]; [6; 8; 10]].
Definition x_vss : list (list Z) := [[1; 2; 0]; [4; 5; 3]].
Definition x_params (keep_b : bool) : params :=
  Params 0 [0] [1] [false; false; false; false; false; true] [] [] [] [0; 1; 2; 3; 4] [(0, 0); (1, 1)] [0; 1; 2; 3] [0] [9; 9; 9; 9; 0] [9; 0] 4 1 true true keep_b true true.
Lemma x_proper b : proper (x_params b) x_mesh x_polys x_vss.
Proof.
  constructor; try (vm_compute; reflexivity).
  - exact x_history.
  - assert (Lh : forall h, live_halfedge x_mesh h -> In h (zrange 12)) by (intros h [L _]; apply In_zrange; exact L).
    intros h h' a b' L1 L2 S1 T1 S2 T2. apply Lh in L1, L2.
    assert (X : forallb (fun h => forallb (fun h' => if (h =? h')%Z then true else
       match source x_mesh h, target x_mesh h, source x_mesh h', target x_mesh h' with Some a, Some b, Some c, Some d => negb ((a =? c) && (b =? d)) | _, _, _, _ => true end) (zrange 12)) (zrange 12) = true) by (vm_compute; reflexivity).
    rewrite forallb_forall in X. specialize (X h L1). rewrite forallb_forall in X. specialize (X h' L2). destruct (Z.eqb_spec h h') as [E|N]; [exact E|]. rewrite S1, T1, S2, T2, !Z.eqb_refl in X. discriminate.
  - intros p h Hp Hh. assert (X : forallb (forallb (fun h => (0 <=? h) && (h <? 12))) x_polys = true) by reflexivity. rewrite forallb_forall in X. specialize (X p Hp). rewrite forallb_forall in X. specialize (X h Hh).
    split; [|vm_compute; tauto]. apply andb_prop in X. destruct X as [X1 X2]. apply Z.leb_le in X1. apply Z.ltb_lt in X2. change (zlen (hes x_mesh)) with 12. lia.
  - apply well_formed_iff. split.
    + intros f [<-|[<-|[]]]; (constructor; [cbn; lia|repeat constructor; cbn; intuition discriminate|]); intros v Hv; change (number_of_vertices x_mesh) with 6; cbn in Hv; lia.
    + vm_compute. repeat constructor; cbn; intuition discriminate.
  - repeat constructor.
  - repeat constructor.
  - intros _ _ i Hi. change (zlen x_vss) with 2 in Hi. assert (Q : i = 0 \/ i = 1) by lia.
    destruct Q as [->| ->]; [left; exists 0|right; exists 1]; (split; [|left; reflexivity]).
    + exists [1; 2; 0], [1; 2; 0], 1, 1. repeat split; try (left; reflexivity). apply rst_refl.
    + exists [4; 5; 3], [4; 5; 3], 4, 4. repeat split; try (left; reflexivity). apply rst_refl.
  - intros _ p v Hp Hv.
    assert (Q : v = 5 \/ v = 4 \/ v = 0 \/ v = 1 \/ v = 2 \/ v = 3) by (destruct Hp as [<-|[<-|[]]]; cbn in Hv; lia).
    assert (M : forall w, 0 <= w -> m0_vertex (x_params b) w w) by (intros w Hw; right; right; split; [reflexivity|]; right; split; [exact Hw|left; reflexivity]).
    destruct Q as [->|[->|Q]].
    + exists null, 5. split; [lia|]. split; [apply M; lia|]. left. split; [vm_compute; discriminate|reflexivity].
    + exists 4, 4. split; [lia|]. split; [apply M; lia|]. right. exists 4. split; [reflexivity|]. right. split; [vm_compute; discriminate|]. exists 0. split; reflexivity.
    + exists v, v. split; [lia|]. split; [apply M; lia|]. right. exists v. assert (Rv : 0 <= v < 4) by lia. split; [destruct Q as [->|[->|[->| ->]]]; reflexivity|]. left. split; [cbn; lia|destruct Q as [->|[->|[->| ->]]]; reflexivity].
  - intros _ i Hi. change (zlen x_vss) with 2 in Hi. assert (Q : i = 0 \/ i = 1) by lia. destruct Q as [->| ->].
    + exists 0, 0, 0. split; [left; split; reflexivity|]. split; [reflexivity|]. left. split; [cbn; lia|reflexivity].
    + exists 1, 1, 1. split; [left; split; reflexivity|]. split; [reflexivity|]. right. split; [cbn; lia|]. exists 0. split; reflexivity.
Qed.
Example C20_instance : proper (x_params false) x_mesh x_polys x_vss /\ schedulable (Some 3) (zlen x_vss) /\
  option_map (map (fun e => (fst e, snd (snd e), get_vertices_around_face (fst (snd e)) 0, map vpt (verts (fst (snd e)))))) (extract 100 (Some 3) (x_params false) (fun _ => None) x_mesh x_polys)
    = Some [(1, Info Above [0] [null; 3; 4] [1], Some [1; 2; 0], [(5, 0, 0); (3, 0, 0); (4, 0, 0)])].
Proof. split; [apply x_proper|]. split; [cbn; lia|]. vm_compute. reflexivity. Qed.
