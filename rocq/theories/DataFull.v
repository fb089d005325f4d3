(** The queries with a null buffer and with a buffer of the reported size. *)
From Coq Require Import List ZArith Lia Bool Permutation.
From Verif Require Import Vec VecLemmas HmeshModel HmeshSpec ParModel ParProofs ParSumModel ParSumSpec ParSumProofs DataModel DataSpec DataProofs.
Import ListNotations.
Open Scope Z_scope.


Definition flat3 (vs : list point) : list Z := concat (map (fun p : point => let '(x, y, z) := p in [x; y; z]) vs).

Lemma zlen_cons {A} (x : A) l : zlen (x :: l) = 1 + zlen l.
Proof. unfold zlen. cbn [length]. lia. Qed.
Lemma zlen_nil {A} : zlen (@nil A) = 0. Proof. reflexivity. Qed.
Lemma zlen_map {A B} (f : A -> B) l : zlen (map f l) = zlen l.
Proof. unfold zlen. rewrite map_length. reflexivity. Qed.

Lemma flat3_app a b : flat3 (a ++ b) = flat3 a ++ flat3 b.
Proof. unfold flat3. rewrite map_app, concat_app. reflexivity. Qed.
Lemma flat3_len vs : zlen (flat3 vs) = 3 * zlen vs.
Proof.
  induction vs as [|[[x y] z] r IH]; [reflexivity|]. change (flat3 ((x, y, z) :: r)) with ([x; y; z] ++ flat3 r).
  rewrite zlen_app, IH, !zlen_cons, zlen_nil. lia.
Qed.
Lemma coords_flat m : coords m = flat3 (map vpt (verts m)).
Proof. unfold coords, flat3. rewrite map_map. reflexivity. Qed.

Lemma copy_verts_double_full n vs : forall a, 0 <= a -> a + zlen vs <= n ->
  copy_verts_double n (a * 3) vs = store_all (3 * a) (flat3 vs).
Proof.
  induction vs as [|[[x y] z] r IH]; intros a Ha Hn; [reflexivity|]. rewrite zlen_cons in Hn. pose proof (zlen_nonneg r).
  cbn [copy_verts_double]. rewrite Z.div_mul by lia. destruct (Z.eqb_spec a n); [lia|].
  change (flat3 ((x, y, z) :: r)) with ([x; y; z] ++ flat3 r). rewrite store_all_app. cbn [store_all app].
  replace (a * 3 + 3) with ((a + 1) * 3) by lia. rewrite IH by lia.
  rewrite !zlen_cons, zlen_nil. repeat (f_equal; try lia).
Qed.
Lemma copy_verts_float_full cvt n vs : forall a, 0 <= a -> a + zlen vs <= n ->
  copy_verts_float cvt n (a * 3) vs = store_all (3 * a) (map cvt (flat3 vs)).
Proof.
  induction vs as [|[[x y] z] r IH]; intros a Ha Hn; [reflexivity|]. rewrite zlen_cons in Hn. pose proof (zlen_nonneg r).
  cbn [copy_verts_float]. replace ((a * 3 + 1) / 3) with a by (Z.to_euclidean_division_equations; lia).
  destruct (Z.eqb_spec a n); [lia|].
  change (flat3 ((x, y, z) :: r)) with ([x; y; z] ++ flat3 r). rewrite map_app, store_all_app. cbn [store_all app map].
  replace (a * 3 + 3) with ((a + 1) * 3) by lia. rewrite IH by lia.
  rewrite !zlen_cons, zlen_nil. repeat (f_equal; try lia).
Qed.

Lemma no_removed_vertices m : component_mesh m -> number_of_vertices m = zlen (verts m).
Proof. intros C. unfold number_of_vertices. rewrite (cm_rv _ C), zlen_nil. lia. Qed.
Lemma no_removed_faces m : component_mesh m -> number_of_faces m = zlen (faces m).
Proof. intros C. unfold number_of_faces. rewrite (cm_rf _ C), zlen_nil. lia. Qed.
Lemma zlen_pos {A} (l : list A) : l <> [] -> 1 <= zlen l.
Proof. intros H. destruct l; [congruence|]. rewrite zlen_cons. pose proof (zlen_nonneg l). lia. Qed.

Lemma q_vertex_double_full e c : component_mesh (c_mesh c) -> pool_ok e ->
  agrees (q_vertex_double e c) 8 (coords (c_mesh c)).
Proof.
  intros C P. pose proof (zlen_pos _ (proj1 (cm_nonempty _ C))) as Hv. pose proof (proj1 (cm_small _ C)) as Hs.
  rewrite coords_flat. unfold agrees, q_vertex_double. rewrite no_removed_vertices by exact C.
  rewrite flat3_len, zlen_map. set (nv := zlen (verts (c_mesh c))) in *.
  split; [f_equal; lia|].
  replace (nv * 8 * 3 <? 8 * (3 * nv)) with false by (symmetry; apply Z.ltb_ge; lia).
  replace (8 * (3 * nv)) with (nv * 3 * 8) by lia. rewrite Z.div_mul by lia. rewrite Z.mod_mul by lia. cbn [negb Z.eqb].
  rewrite Z.div_mul by lia.
  assert (L : zlen (map vpt (verts (c_mesh c))) = nv) by apply zlen_map.
  apply (par_stores_concat _ _ _ _ _ (fun a vs => store_all (3 * a) (flat3 vs))); rewrite ?L; try lia; try exact P.
  - reflexivity.
  - intros a x y. rewrite flat3_app, store_all_app, flat3_len. do 2 f_equal. lia.
  - intros b B1 B2 B3. apply copy_verts_double_full; [exact B1|]. rewrite sub_len by lia. lia.
  - reflexivity.
Qed.

Lemma q_vertex_float_full e c : component_mesh (c_mesh c) -> pool_ok e ->
  agrees (q_vertex_float e c) 4 (map (e_float e) (coords (c_mesh c))).
Proof.
  intros C P. pose proof (zlen_pos _ (proj1 (cm_nonempty _ C))) as Hv. pose proof (proj1 (cm_small _ C)) as Hs.
  rewrite coords_flat. unfold agrees, q_vertex_float. rewrite no_removed_vertices by exact C.
  rewrite zlen_map, flat3_len, zlen_map. set (nv := zlen (verts (c_mesh c))) in *.
  split; [f_equal; lia|].
  replace (nv * 4 * 3 <? 4 * (3 * nv)) with false by (symmetry; apply Z.ltb_ge; lia).
  replace (4 * (3 * nv)) with (nv * 3 * 4) by lia. rewrite Z.div_mul by lia. rewrite Z.mod_mul by lia. cbn [negb Z.eqb].
  rewrite Z.div_mul by lia.
  assert (L : zlen (map vpt (verts (c_mesh c))) = nv) by apply zlen_map.
  apply (par_stores_concat _ _ _ _ _ (fun a vs => store_all (3 * a) (map (e_float e) (flat3 vs)))); rewrite ?L; try lia; try exact P.
  - reflexivity.
  - intros a x y. rewrite flat3_app, map_app, store_all_app, zlen_map, flat3_len. do 2 f_equal. lia.
  - intros b B1 B2 B3. apply copy_verts_float_full; [exact B1|]. rewrite sub_len by lia. lia.
  - reflexivity.
Qed.

Lemma q_perturbation_full c : agrees (q_perturbation c) 8 (let '(x, y, z) := c_perturbation c in [x; y; z]).
Proof.
  unfold agrees, q_perturbation. destruct (c_perturbation c) as [[x y] z]. split; [reflexivity|].
  change (8 * zlen [x; y; z]) with 24. cbn [Z.ltb Z.compare Z.mul Pos.mul Pos.compare Pos.compare_cont Z.modulo Z.div_eucl].
  apply fills_concat. reflexivity.
Qed.

Lemma q_scalar_full v : agrees (q_scalar v) 4 [v].
Proof. split; [reflexivity|]. apply fills_concat. reflexivity. Qed.

(** ** Seam vertices and maps *)

Lemma copy_seam_full n l : forall off, 0 <= off -> off + zlen l <= n -> copy_seam n off l = store_all off l.
Proof.
  induction l as [|x r IH]; intros off Ho Hn; [reflexivity|]. rewrite zlen_cons in Hn. pose proof (zlen_nonneg r). cbn [copy_seam store_all].
  destruct (Z.eqb_spec (off + 1) n).
  - assert (zlen r = 0) as Z0 by lia. destruct r; [reflexivity|]. rewrite zlen_cons in Z0. pose proof (zlen_nonneg r). lia.
  - rewrite IH by lia. reflexivity.
Qed.

Lemma q_seam_full e c : c_type c <> TYPE_INPUT -> c_seam c <> [] -> zlen (c_seam c) < 2 ^ 31 -> pool_ok e ->
  agrees (q_seam_vertex e c) 4 (c_seam c).
Proof.
  intros T Ne Hs P. apply zlen_pos in Ne. unfold agrees, q_seam_vertex.
  destruct (Z.eqb_spec (c_type c) TYPE_INPUT) as [K|_]; [contradiction|].
  assert (W : wrap32 (zlen (c_seam c)) = zlen (c_seam c)) by (apply Z.mod_small; lia). rewrite W.
  set (n := zlen (c_seam c)) in *. split; [f_equal; lia|].
  replace (4 * n) with (n * 4) by lia. rewrite Z.ltb_irrefl, Z.mod_mul by lia. cbn [negb Z.eqb]. rewrite Z.div_mul by lia. rewrite W.
  apply (par_stores_concat _ _ _ _ _ (fun a l => store_all a l)); fold n; try lia; try exact P; try reflexivity.
  - intros; apply store_all_app.
  - intros b B1 B2 B3. apply copy_seam_full; [lia|]. rewrite sub_len by lia. lia.
Qed.

Lemma copy_map_full tr n l : forall off, off + zlen l <= n -> copy_map tr n off l = store_all off (map tr l).
Proof.
  induction l as [|x r IH]; intros off Hn; [reflexivity|]. rewrite zlen_cons in Hn. pose proof (zlen_nonneg r). cbn [copy_map store_all map].
  destruct (Z.leb_spec n off); [lia|]. rewrite IH by lia. reflexivity.
Qed.

Lemma q_map_full tr pool l : l <> [] -> zlen l < 2 ^ 31 -> 0 <= pool < 2 ^ 32 - 1 -> agrees (q_map tr pool l) 4 (map tr l).
Proof.
  intros Ne Hs P. apply zlen_pos in Ne. unfold agrees, q_map. rewrite zlen_map.
  assert (W : wrap32 (zlen l) = zlen l) by (apply Z.mod_small; lia). rewrite W. set (n := zlen l) in *.
  destruct (Z.eqb_spec n 0); [lia|]. split; [f_equal; lia|].
  replace (4 * n) with (n * 4) by lia. rewrite Z.ltb_irrefl, Z.mod_mul by lia. cbn [negb Z.eqb]. rewrite Z.div_mul by lia. rewrite W.
  apply (par_stores_concat _ _ _ _ _ (fun a l => store_all a (map tr l))); fold n; try lia; try exact P; try reflexivity.
  - intros. rewrite map_app, store_all_app, zlen_map. reflexivity.
  - intros b B1 B2 B3. apply copy_map_full. rewrite sub_len by lia. lia.
Qed.
