(** Queries with a buffer smaller than the data. *)
From Coq Require Import List ZArith Lia Bool Permutation.
From Verif Require Import Vec VecLemmas HmeshModel HmeshSpec HmeshCore ParModel ParProofs ParSumModel ParSumSpec ParSumProofs DataModel DataSpec DataProofs DataFull DataRows DataEdges.
Import ListNotations.
Open Scope Z_scope.
Ltac Zify.zify_post_hook ::= idtac.

Lemma par_stores_ok {A} pool grain esz (l : list A) f :
  1 <= zlen l -> 0 <= pool < 2 ^ 32 - 1 -> 1 <= grain -> zlen l + grain - 1 < 2 ^ 32 ->
  exists bs, par_stores pool grain esz l f = Stores esz (map (fun b => f (bfirst b) (sub l b)) bs) /\
    par_blocks pool (zlen l) grain = Some bs /\ (forall b, In b bs -> 0 <= bfirst b < blast b /\ blast b <= zlen l).
Proof.
  intros Hl Hp Hg Ho. unfold par_stores. destruct (par_blocks_ok pool (zlen l) grain Hl Hp Hg Ho) as (bs & n & b & E & C & P & _). rewrite E.
  exists bs. split; [reflexivity|]. split; [reflexivity|]. intros x Hx. specialize (P x Hx).
  assert (G : forall bl a, chain a bl (zlen l) -> 0 <= a -> In x bl -> 0 <= bfirst x /\ blast x <= zlen l).
  { clear. induction bl as [|y r IH]; intros a C Ha H; [destruct H|]. cbn in C. destruct C as (E & L & C). destruct H as [->|H].
    - split; [lia|]. apply chain_le in C. exact C.
    - apply (IH (blast y)); [exact C|lia|exact H]. }
  destruct (G bs 0 C) as [G1 G2]; [lia|exact Hx|]. lia.
Qed.

(** ** Inside *)

Lemma In_copy_map tr n l : forall off o v, In (o, v) (copy_map tr n off l) -> off <= o < n.
Proof.
  induction l as [|x r IH]; intros off o v H; cbn [copy_map] in H; [destruct H|].
  destruct (Z.leb_spec n off); [destruct H|]. destruct H as [E|H].
  - injection E as <- <-. lia.
  - apply IH in H. lia.
Qed.

Lemma q_map_inside tr pool l bytes : zlen l < 2 ^ 31 -> 0 <= pool < 2 ^ 32 - 1 -> 0 <= bytes ->
  inside (q_map tr pool l (Buffer bytes)) bytes.
Proof.
  intros Hs P Hb. unfold q_map. pose proof (zlen_nonneg l).
  assert (W : wrap32 (zlen l) = zlen l) by (apply Z.mod_small; lia). rewrite W.
  destruct (Z.eqb_spec (zlen l) 0); [exact I|]. destruct (Z.ltb_spec (zlen l * 4) bytes); [exact I|].
  destruct (Z.eqb_spec (bytes mod 4) 0) as [M|]; cbn [negb]; [|exact I].
  assert (D : 0 <= bytes / 4 <= zlen l) by (Z.to_euclidean_division_equations; lia).
  assert (D4 : bytes = 4 * (bytes / 4)) by (Z.to_euclidean_division_equations; lia).
  assert (W' : wrap32 (bytes / 4) = bytes / 4) by (apply Z.mod_small; lia). rewrite W'.
  destruct (par_stores_ok pool 1024 4 l (fun base l => copy_map tr (bytes / 4) base l)) as (bs & E & _ & B); try lia; try exact P.
  rewrite E. cbn [inside]. intros o v K. apply in_concat in K. destruct K as (x & Hx & K). apply in_map_iff in Hx. destruct Hx as (b & <- & Ib).
  apply In_copy_map in K. specialize (B b Ib). lia.
Qed.

Lemma q_scalar_inside x bytes : 0 <= bytes -> inside (q_scalar x (Buffer bytes)) bytes.
Proof.
  intros Hb. unfold q_scalar. destruct (Z.ltb_spec 4 bytes); [exact I|]. destruct (Z.eqb_spec (bytes mod 4) 0) as [M|]; cbn [negb]; [|exact I].
  cbn [inside]. intros o v K. assert (C : bytes = 0 \/ bytes = 4) by (Z.to_euclidean_division_equations; lia).
  destruct C as [->| ->]; cbn in K; [destruct K|]. destruct K as [E|[]]. injection E as <- <-. lia.
Qed.


Lemma one_block_blocks e len : pool_ok e -> 1 <= len < 2 ^ 31 -> one_block e len -> par_blocks (e_pool e) len 1024 = Some [Blk 0 len].
Proof.
  intros P Hl O. destruct (par_blocks_ok (e_pool e) len 1024) as (bs & n & b & E & C & _ & _ & Ln & _ & _ & _ & Q & K); try lia; try exact P.
  assert (N1 : n = 1).
  { unfold pool_ok in P. rewrite Q. destruct O as [O|O].
    - replace ((len + 1024 - 1) / 1024) with 1; [lia|]. Z.to_euclidean_division_equations; lia.
    - rewrite O. rewrite Z.min_l; [reflexivity|]. apply Z.div_le_lower_bound; lia. }
  rewrite E. destruct bs as [|x [|y r]]; rewrite ?zlen_cons, ?zlen_nil in Ln; [lia| |pose proof (zlen_nonneg r); lia].
  cbn in C. destruct C as (E1 & E2 & E3). rewrite (blk_eta x), E1, E3. reflexivity.
Qed.

Lemma In_copy_verts_double n vs : forall a o v, 0 <= a <= n -> In (o, v) (copy_verts_double n (a * 3) vs) -> 0 <= o < 3 * n.
Proof.
  induction vs as [|[[x y] z] r IH]; intros a o v Ha H; cbn [copy_verts_double] in H; [destruct H|].
  rewrite Z.div_mul in H by lia. destruct (Z.eqb_spec a n); [destruct H|].
  destruct H as [E|[E|[E|H]]]; [injection E as <- <-; lia..|]. replace (a * 3 + 3) with ((a + 1) * 3) in H by lia. apply IH in H; lia.
Qed.
Lemma In_copy_verts_float cvt n vs : forall a o v, 0 <= a <= n -> In (o, v) (copy_verts_float cvt n (a * 3) vs) -> 0 <= o < 3 * n.
Proof.
  induction vs as [|[[x y] z] r IH]; intros a o v Ha H; cbn [copy_verts_float] in H; [destruct H|].
  replace ((a * 3 + 1) / 3) with a in H by (Z.to_euclidean_division_equations; lia). destruct (Z.eqb_spec a n); [destruct H|].
  destruct H as [E|[E|[E|H]]]; [injection E as <- <-; lia..|]. replace (a * 3 + 3) with ((a + 1) * 3) in H by lia. apply IH in H; lia.
Qed.

Lemma q_vertex_double_inside e c bytes : component_mesh (c_mesh c) -> pool_ok e -> one_block e (zlen (verts (c_mesh c))) -> 0 <= bytes ->
  inside (q_vertex_double e c (Buffer bytes)) bytes.
Proof.
  intros C P O Hb. pose proof (zlen_pos _ (proj1 (cm_nonempty _ C))) as Hv. pose proof (proj1 (cm_small _ C)) as Hs.
  unfold q_vertex_double. destruct (_ <? bytes); [exact I|]. destruct (Z.eqb_spec ((bytes / 8) mod 3) 0) as [M|]; cbn [negb]; [|exact I].
  unfold par_stores. rewrite zlen_map, one_block_blocks by (assumption || lia). cbn [map concat inside bfirst]. intros o v K. rewrite app_nil_r in K.
  apply (In_copy_verts_double _ _ 0) in K; [|split; [lia|apply Z.div_pos; [apply Z.div_pos|]; lia]]. Z.to_euclidean_division_equations; lia.
Qed.
Lemma q_vertex_float_inside e c bytes : component_mesh (c_mesh c) -> pool_ok e -> one_block e (zlen (verts (c_mesh c))) -> 0 <= bytes ->
  inside (q_vertex_float e c (Buffer bytes)) bytes.
Proof.
  intros C P O Hb. pose proof (zlen_pos _ (proj1 (cm_nonempty _ C))) as Hv. pose proof (proj1 (cm_small _ C)) as Hs.
  unfold q_vertex_float. destruct (_ <? bytes); [exact I|]. destruct (Z.eqb_spec ((bytes / 4) mod 3) 0) as [M|]; cbn [negb]; [|exact I].
  unfold par_stores. rewrite zlen_map, one_block_blocks by (assumption || lia). cbn [map concat inside bfirst]. intros o v K. rewrite app_nil_r in K.
  apply (In_copy_verts_float _ _ _ 0) in K; [|split; [lia|apply Z.div_pos; [apply Z.div_pos|]; lia]]. Z.to_euclidean_division_equations; lia.
Qed.

Lemma In_copy_seam n l : forall off o v, 0 <= off < n -> In (o, v) (copy_seam n off l) -> 0 <= o < n.
Proof.
  induction l as [|x r IH]; intros off o v Ho H; cbn [copy_seam] in H; [destruct H|].
  destruct (Z.eqb_spec (off + 1) n).
  - destruct H as [E|[]]. injection E as <- <-. lia.
  - destruct H as [E|H]; [injection E as <- <-; lia|]. apply IH in H; lia.
Qed.

Lemma q_seam_inside e c bytes : c_seam c <> [] -> zlen (c_seam c) < 2 ^ 31 -> pool_ok e -> one_block e (zlen (c_seam c)) -> 0 < bytes ->
  inside (q_seam_vertex e c (Buffer bytes)) bytes.
Proof.
  intros Ne Hs P O Hb. apply zlen_pos in Ne. unfold q_seam_vertex. destruct (_ =? TYPE_INPUT); [exact I|].
  assert (W : wrap32 (zlen (c_seam c)) = zlen (c_seam c)) by (apply Z.mod_small; lia). rewrite W.
  destruct (Z.ltb_spec (zlen (c_seam c) * 4) bytes); [exact I|]. destruct (Z.eqb_spec (bytes mod 4) 0) as [M|]; cbn [negb]; [|exact I].
  assert (D : 0 < bytes / 4 <= zlen (c_seam c)) by (Z.to_euclidean_division_equations; lia).
  assert (D4 : bytes = 4 * (bytes / 4)) by (Z.to_euclidean_division_equations; lia).
  assert (W' : wrap32 (bytes / 4) = bytes / 4) by (apply Z.mod_small; lia). rewrite W'.
  unfold par_stores. rewrite one_block_blocks by (assumption || lia). cbn [map concat inside bfirst]. intros o v K. rewrite app_nil_r in K.
  apply In_copy_seam in K; lia.
Qed.

(** ** Overruns *)

Lemma store_all_over esz ts content bytes : concat ts = store_all 0 content -> bytes < esz * zlen content -> 0 <= bytes -> 0 < esz ->
  overruns (Stores esz ts) bytes.
Proof.
  intros E Hb H0 He. assert (P : 1 <= zlen content) by nia.
  destruct (vget_range_Some content (zlen content - 1)) as [x V]; [lia|].
  exists esz, ts, (zlen content - 1), x. split; [reflexivity|]. split; [|lia]. rewrite E. apply In_store_all. exists (zlen content - 1). split; [exact V|lia].
Qed.

Lemma q_sizes_over pool rows cache bytes : 1 <= zlen rows < 2 ^ 31 -> 0 <= pool < 2 ^ 32 - 1 ->
  (forall l, cache = Some l -> l = map zlen rows) -> 0 <= bytes < 4 * zlen rows -> bytes mod 4 = 0 ->
  overruns (fst (q_sizes pool (zlen rows) cache rows (Buffer bytes))) bytes.
Proof.
  intros Hl Hp Hc Hb Hm. unfold q_sizes. destruct (Z.ltb_spec (zlen rows * 4) bytes); [lia|]. rewrite Hm. cbn [negb Z.eqb].
  rewrite fill_sizes_ok by assumption. cbn [fst]. apply (store_all_over _ _ (map zlen rows)); rewrite ?zlen_map; try lia.
  cbn [concat]. rewrite app_nil_r. f_equal. rewrite firstn_all2; [reflexivity|]. rewrite map_length. unfold zlen. lia.
Qed.

Lemma fills_over r esz content bytes : fills r esz content -> 0 <= bytes < esz * zlen content -> 0 < esz -> overruns r bytes.
Proof.
  intros (ts & -> & H) Hb He. assert (P : 1 <= zlen content) by nia.
  destruct (vget_range_Some content (zlen content - 1)) as [x V]; [lia|].
  assert (I : interleaving ts (concat ts)) by apply interleaving_seq.
  pose proof (H _ (fun _ => x + 1) (zlen content - 1) I) as R. rewrite V in R.
  destruct (in_dec Z.eq_dec (zlen content - 1) (map fst (concat ts))) as [K|K].
  - apply in_map_iff in K. destruct K as ([o v] & E & K). cbn in E. exists esz, ts, o, v. split; [reflexivity|]. split; [exact K|]. subst o. lia.
  - rewrite run_other in R by exact K. lia.
Qed.

Lemma q_perturbation_over c : overruns (q_perturbation c (Buffer 0)) 0.
Proof.
  unfold q_perturbation. cbn [Z.ltb Z.compare Z.mul Pos.mul Z.modulo Z.div_eucl negb Z.eqb]. destruct (c_perturbation c) as [[x y] z].
  exists 8, [[(0, x); (1, y); (2, z)]], 0, x. split; [reflexivity|]. split; [cbn; auto|lia].
Qed.

(** the last block of a loop split between threads starts in the second half *)
Lemma last_block pool len : 1024 < len < 2 ^ 31 -> 1 <= pool < 2 ^ 32 - 1 ->
  exists bs b, par_blocks pool len 1024 = Some bs /\ In b bs /\ len <= 4 * bfirst b /\ bfirst b < blast b /\ blast b <= len.
Proof.
  intros Hl Hp. destruct (par_blocks_ok pool len 1024) as (bs & n & b & E & C & Pb & Es & Ln & Hn & Hb & Hnb & Q & K); try lia.
  assert (N2 : 2 <= n). { rewrite Q. apply Z.min_glb; [lia|]. apply Z.div_le_lower_bound; lia. }
  assert (N3 : n <= (len + 1023) / 1024) by (rewrite Q; replace (len + 1024 - 1) with (len + 1023) by lia; lia).
  destruct (vget_range_Some bs (n - 1)) as [x V]; [lia|]. exists bs, x. split; [exact E|]. assert (Ix : In x bs) by (eapply vget_In; exact V). split; [exact Ix|].
  rewrite (K _ _ V). pose proof (sched_block _ _ _ _ _ Es) as B.
  assert (Lt : len < n * (b + 1)). { rewrite B. pose proof (Z.mul_succ_div_gt len n ltac:(lia)). lia. }
  split; [|split].
  - assert (1024 * n <= len + 1023) by (apply Z.mul_le_mono_nonneg_l with (p := 1024) in N3; [|lia]; pose proof (Z.mul_div_le (len + 1023) 1024 ltac:(lia)); lia). nia.
  - rewrite <- (K _ _ V). apply Pb. exact Ix.
  - clear - C Ix. revert C Ix. generalize 0. induction bs as [|y r IH]; intros a C H; [destruct H|]. cbn in C. destruct C as (E & L & C). destruct H as [->|H].
    + apply chain_le in C. exact C.
    + eapply IH; eassumption.
Qed.

Lemma sub_cons {A} (l : list A) b : 0 <= bfirst b < blast b -> blast b <= zlen l -> exists x r, sub l b = x :: r.
Proof.
  intros H1 H2. assert (L : zlen (sub l b) = blast b - bfirst b) by (apply sub_len; lia).
  destruct (sub l b) as [|x r]; [rewrite zlen_nil in L; lia|eauto].
Qed.

Lemma q_vertex_double_over e c n : component_mesh (c_mesh c) -> pool_ok e -> 1 <= e_pool e -> 1024 < zlen (verts (c_mesh c)) ->
  0 <= n -> 4 * n < zlen (verts (c_mesh c)) -> overruns (q_vertex_double e c (Buffer (24 * n))) (24 * n).
Proof.
  intros C P Hp Hv H0 Hn. pose proof (proj1 (cm_small _ C)) as Hs. unfold q_vertex_double. rewrite no_removed_vertices by exact C.
  destruct (Z.ltb_spec (zlen (verts (c_mesh c)) * 8 * 3) (24 * n)); [lia|]. replace (24 * n) with (n * 3 * 8) by lia. rewrite Z.div_mul, Z.mod_mul by lia.
  cbn [negb Z.eqb]. rewrite Z.div_mul by lia. set (l := map vpt (verts (c_mesh c))). assert (Ll : zlen l = zlen (verts (c_mesh c))) by apply zlen_map.
  destruct (last_block (e_pool e) (zlen l)) as (bs & b & E & Ib & B1 & B2 & B3); [lia|unfold pool_ok in P; lia|]. unfold par_stores. rewrite E.
  destruct (sub_cons l b) as ([[x y] z] & r & Es); [lia|lia|].
  exists 8, (map (fun b => copy_verts_double n (bfirst b * 3) (sub l b)) bs), (bfirst b * 3), x. split; [reflexivity|]. split; [|lia].
  apply in_concat. eexists. split; [apply in_map_iff; exists b; split; [reflexivity|exact Ib]|]. rewrite Es. cbn [copy_verts_double].
  rewrite Z.div_mul by lia. destruct (Z.eqb_spec (bfirst b) n); [lia|]. left. reflexivity.
Qed.
Lemma q_vertex_float_over e c n : component_mesh (c_mesh c) -> pool_ok e -> 1 <= e_pool e -> 1024 < zlen (verts (c_mesh c)) ->
  0 <= n -> 4 * n < zlen (verts (c_mesh c)) -> overruns (q_vertex_float e c (Buffer (12 * n))) (12 * n).
Proof.
  intros C P Hp Hv H0 Hn. pose proof (proj1 (cm_small _ C)) as Hs. unfold q_vertex_float. rewrite no_removed_vertices by exact C.
  destruct (Z.ltb_spec (zlen (verts (c_mesh c)) * 4 * 3) (12 * n)); [lia|]. replace (12 * n) with (n * 3 * 4) by lia. rewrite Z.div_mul, Z.mod_mul by lia.
  cbn [negb Z.eqb]. rewrite Z.div_mul by lia. set (l := map vpt (verts (c_mesh c))). assert (Ll : zlen l = zlen (verts (c_mesh c))) by apply zlen_map.
  destruct (last_block (e_pool e) (zlen l)) as (bs & b & E & Ib & B1 & B2 & B3); [lia|unfold pool_ok in P; lia|]. unfold par_stores. rewrite E.
  destruct (sub_cons l b) as ([[x y] z] & r & Es); [lia|lia|].
  exists 4, (map (fun b => copy_verts_float (e_float e) n (bfirst b * 3) (sub l b)) bs), (bfirst b * 3), (e_float e x). split; [reflexivity|]. split; [|lia].
  apply in_concat. eexists. split; [apply in_map_iff; exists b; split; [reflexivity|exact Ib]|]. rewrite Es. cbn [copy_verts_float].
  replace ((bfirst b * 3 + 1) / 3) with (bfirst b) by (Z.to_euclidean_division_equations; lia). destruct (Z.eqb_spec (bfirst b) n); [lia|]. left. reflexivity.
Qed.

Lemma q_seam_over e c n : c_type c <> TYPE_INPUT -> pool_ok e -> 1 <= e_pool e -> 1024 < zlen (c_seam c) < 2 ^ 31 ->
  0 <= n -> 4 * n < zlen (c_seam c) -> overruns (q_seam_vertex e c (Buffer (4 * n))) (4 * n).
Proof.
  intros T P Hp Hv H0 Hn. unfold q_seam_vertex. destruct (Z.eqb_spec (c_type c) TYPE_INPUT) as [K|_]; [contradiction|].
  set (l := c_seam c) in *. assert (W : wrap32 (zlen l) = zlen l) by (apply Z.mod_small; lia). rewrite W.
  destruct (Z.ltb_spec (zlen l * 4) (4 * n)); [lia|]. replace (4 * n) with (n * 4) by lia. rewrite Z.mod_mul by lia. cbn [negb Z.eqb]. rewrite Z.div_mul by lia.
  assert (W' : wrap32 n = n) by (apply Z.mod_small; lia). rewrite W'.
  destruct (last_block (e_pool e) (zlen l)) as (bs & b & E & Ib & B1 & B2 & B3); [lia|unfold pool_ok in P; lia|]. unfold par_stores. rewrite E.
  destruct (sub_cons l b) as (x & r & Es); [lia|lia|].
  exists 4, (map (fun b => copy_seam n (bfirst b) (sub l b)) bs), (bfirst b), x. split; [reflexivity|]. split; [|lia].
  apply in_concat. eexists. split; [apply in_map_iff; exists b; split; [reflexivity|exact Ib]|]. rewrite Es. cbn [copy_seam].
  destruct (_ =? n); left; reflexivity.
Qed.

(** zero bytes *)
Lemma copy_seam_zero l : forall off, 0 <= off -> copy_seam 0 off l = store_all off l.
Proof.
  induction l as [|x r IH]; intros off H; [reflexivity|]. cbn [copy_seam store_all]. destruct (Z.eqb_spec (off + 1) 0); [lia|]. rewrite IH by lia. reflexivity.
Qed.
Lemma q_seam_over_zero e c : c_type c <> TYPE_INPUT -> pool_ok e -> c_seam c <> [] -> zlen (c_seam c) < 2 ^ 31 ->
  overruns (q_seam_vertex e c (Buffer 0)) 0.
Proof.
  intros T P Ne Hs. apply zlen_pos in Ne. unfold q_seam_vertex. destruct (Z.eqb_spec (c_type c) TYPE_INPUT) as [K|_]; [contradiction|].
  set (l := c_seam c) in *. assert (W : wrap32 (zlen l) = zlen l) by (apply Z.mod_small; lia). rewrite W.
  destruct (Z.ltb_spec (zlen l * 4) 0); [lia|]. change (0 mod 4) with 0. change (wrap32 (0 / 4)) with 0. cbn [negb Z.eqb].
  destruct (par_stores_ok (e_pool e) 1024 4 l (fun base l => copy_seam 0 base l)) as (bs & E & Eb & B); try lia; try exact P.
  apply (fills_over _ 4 l); [|lia|lia].
  apply (par_stores_concat _ _ _ _ _ (fun a l => store_all a l)); try lia; try exact P; try reflexivity.
  - intros; apply store_all_app.
  - intros b B1 B2 B3. apply copy_seam_zero; lia.
Qed.
