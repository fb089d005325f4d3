(** Components of any size: a fan of triangles around a vertex. *)
From Coq Require Import List ZArith Lia Bool.
From Verif Require Import Vec VecLemmas HmeshModel HmeshSpec HmeshCore HmeshProps InputModel InputSpec InputProofs ParModel DataModel DataSpec DataProofs DataFull DataRows.
Import ListNotations.
Open Scope Z_scope.
Ltac Zify.zify_post_hook ::= idtac.

Lemma hupd_edges m h g m' : hupd m h g = Some m' -> edges m' = edges m.
Proof.
  unfold hupd. destruct (vget _ _); [|discriminate]. cbn [obind]. destruct (vset _ _ _); [|discriminate]. cbn [obind]. intros E. injection E as <-. reflexivity.
Qed.
Lemma vupd_edges m h g m' : vupd m h g = Some m' -> edges m' = edges m.
Proof.
  unfold vupd. destruct (vget _ _); [|discriminate]. cbn [obind]. destruct (vset _ _ _); [|discriminate]. cbn [obind]. intros E. injection E as <-. reflexivity.
Qed.

Lemma add_edge_slots m a b h m' : add_edge m a b = Some (h, m') -> zlen (edges m') <= zlen (edges m) + 1.
Proof.
  unfold add_edge. intros E.
  assert (A1 : forall m, edges (snd (alloc_he m)) = edges m) by (intros x; unfold alloc_he; destruct (rh x); reflexivity).
  pose proof (A1 m) as K1. destruct (alloc_he m) as [h0 m1]. cbn [snd] in K1.
  pose proof (A1 m1) as K2. destruct (alloc_he m1) as [h1 m2]. cbn [snd] in K2.
  assert (K3 : zlen (edges (snd (alloc_edge m2))) <= zlen (edges m2) + 1).
  { unfold alloc_edge. destruct (re m2); cbn [snd set_edges set_re edges]; [rewrite zlen_app; unfold zlen; cbn [length]; lia|lia]. }
  destruct (alloc_edge m2) as [e m3]. cbn [snd] in K3. destruct (vset (edges m3) e h0) as [es|] eqn:Es; [|discriminate]. cbn [obind] in E.
  destruct (hupd _ _ _) as [m5|] eqn:E5 in E; [|discriminate]. cbn [obind] in E. apply hupd_edges in E5.
  destruct (hupd _ _ _) as [m6|] eqn:E6 in E; [|discriminate]. cbn [obind] in E. apply hupd_edges in E6.
  destruct (vupd _ _ _) as [m7|] eqn:E7 in E; [|discriminate]. cbn [obind] in E. apply vupd_edges in E7.
  destruct (vupd _ _ _) as [m8|] eqn:E8 in E; [|discriminate]. cbn [obind] in E. apply vupd_edges in E8. injection E as <- <-.
  rewrite E8, E7, E6, E5. cbn [set_edges edges]. rewrite (vset_len _ _ _ _ Es). rewrite K2, K1 in K3. exact K3.
Qed.

Lemma loop_slots f reuse ps : forall m acc m' acc', add_face_loop m f reuse acc ps = LOk m' acc' -> zlen (edges m') <= zlen (edges m) + zlen ps.
Proof.
  induction ps as [|[a b] ps IH]; intros m acc m' acc' E; cbn [add_face_loop] in E.
  - injection E as <- _. unfold zlen. cbn [length]. lia.
  - rewrite zlen_cons.
    destruct (do h <- halfedge_st m a b true; if negb (h =? null) then Some (h, m) else add_edge m a b) as [[h m1]|] eqn:E1; [|discriminate].
    assert (K1 : zlen (edges m1) <= zlen (edges m) + 1).
    { destruct (halfedge_st m a b true) as [h'|]; [|discriminate]. cbn [obind] in E1. destruct (negb _).
      - injection E1 as <- <-. lia.
      - eapply add_edge_slots. exact E1. }
    destruct (face m1 h) as [fc|]; [|discriminate]. destruct (negb (fc =? null)).
    + destruct (if reuse && (fc =? f) then Some [] else get_vertices_around_face m1 fc); discriminate.
    + destruct (hupd m1 h _) as [m2|] eqn:E2; [|discriminate]. apply hupd_edges in E2. apply IH in E. rewrite E2 in E. lia.
Qed.

Lemma link_next_edges hs m m' : link_next m hs = Some m' -> edges m' = edges m.
Proof.
  unfold link_next. generalize (cyc_pairs hs). intros l. revert m. induction l as [|[a b] l IH]; intros m E; cbn [ofold] in E; [injection E as <-; reflexivity|].
  cbn [fst snd] in E. destruct (set_next m a b) as [m1|] eqn:E1; [|discriminate]. cbn [obind] in E. apply IH in E. rewrite E. unfold set_next in E1.
  destruct (hupd m a _) as [m2|] eqn:E2; [|discriminate]. cbn [obind] in E1. apply hupd_edges in E1, E2. congruence.
Qed.

Lemma add_face_slots m vi f m' : add_face m vi = Added f m' -> zlen (edges m') <= zlen (edges m) + zlen vi.
Proof.
  unfold add_face. intros E.
  assert (Lc : zlen (cyc_pairs vi) <= zlen vi).
  { unfold cyc_pairs, zlen. destruct vi as [|a r]; [cbn; lia|]. rewrite combine_length. lia. }
  set (z := match rf m with f :: r => (f, true, set_rf m r) | [] => (number_of_faces m, false, m) end) in E.
  assert (Z : edges (snd z) = edges m) by (unfold z; destruct (rf m); reflexivity). destruct z as [[f0 reuse] m0]. cbn [snd] in Z.
  destruct (add_face_loop m0 f0 reuse [] (cyc_pairs vi)) as [m1 acc|m1 acc|] eqn:El; try discriminate.
  2:{ destruct reuse; [destruct (vset (faces m1) f0 acc)|]; discriminate. }
  apply loop_slots in El. destruct (if reuse then vset (faces m1) f0 acc else Some (faces m1 ++ [acc])) as [fs|]; [|discriminate]. cbn [obind] in E.
  destruct (link_next _ _) as [m2|] eqn:E2; [|discriminate]. injection E as _ <-. apply link_next_edges in E2. rewrite E2. cbn [set_faces edges]. rewrite Z in El. lia.
Qed.

Lemma insert_all_slots gs : forall m m', insert_all m gs = CAccept m' -> zlen (edges m') <= zlen (edges m) + zlen (concat gs).
Proof.
  induction gs as [|g gs IH]; intros m m' E; cbn [insert_all] in E.
  - injection E as <-. unfold zlen at 3. cbn. lia.
  - destruct (add_face m g) as [i m1|m1|] eqn:Ea; try discriminate. apply add_face_slots in Ea. apply IH in E. cbn [concat]. rewrite zlen_app. lia.
Qed.

Lemma add_vertices_edges coords m : add_vertices coords = Some m -> edges m = [].
Proof.
  assert (G : forall cs m0, edges m0 = [] -> ofold (fun m p => do r <- add_vertex m p; Some (snd r)) cs m0 = Some m -> edges m = []).
  { induction cs as [|p cs IH]; intros m0 E0 E; cbn [ofold] in E; [injection E as <-; exact E0|].
    destruct (add_vertex m0 p) as [[v m1]|] eqn:Ev; [|discriminate]. cbn [obind snd] in E. apply (IH m1); [|exact E].
    unfold add_vertex in Ev. destruct (rv m0).
    - destruct (vupd _ _ _) as [m2|] eqn:E2; [|discriminate]. cbn [obind] in Ev. injection Ev as <- <-. apply vupd_edges in E2. rewrite E2. exact E0.
    - destruct (vupd _ _ _) as [m2|] eqn:E2; [|discriminate]. cbn [obind] in Ev. injection Ev as <- <-. apply vupd_edges in E2. rewrite E2. exact E0. }
  apply G. reflexivity.
Qed.

(** [n] triangles 0, i+1, i+2 *)
Definition fan (n : nat) : list (list Z) := map (fun k => [0; Z.of_nat k + 1; Z.of_nat k + 2]) (seq 0 n).
Definition fan_points (n : nat) : list point := repeat (0, 0, 0) (n + 2).

Lemma fan_edges n : NoDup (all_edges (fan n)).
Proof.
  assert (G : forall k l, NoDup (all_edges (map (fun k => [0; Z.of_nat k + 1; Z.of_nat k + 2]) (seq k l))) /\
     forall s t, In (s, t) (all_edges (map (fun k => [0; Z.of_nat k + 1; Z.of_nat k + 2]) (seq k l))) ->
       exists j, (k <= j < k + l)%nat /\ ((s = 0 /\ t = Z.of_nat j + 1) \/ (s = Z.of_nat j + 1 /\ t = Z.of_nat j + 2) \/ (s = Z.of_nat j + 2 /\ t = 0))).
  { intros k l. revert k. induction l as [|l IH]; intros k.
    - split; [constructor|]. intros s t [].
    - cbn [seq map]. unfold all_edges. cbn [map concat]. fold (all_edges (map (fun k => [0; Z.of_nat k + 1; Z.of_nat k + 2]) (seq (S k) l))).
      destruct (IH (S k)) as [N H]. set (rest := all_edges _) in *.
      change (directed_edges [0; Z.of_nat k + 1; Z.of_nat k + 2]) with [(0, Z.of_nat k + 1); (Z.of_nat k + 1, Z.of_nat k + 2); (Z.of_nat k + 2, 0)]. cbn [app].
      split.
      + repeat constructor; try exact N; cbn [In]; intros K;
        repeat match goal with K : _ \/ _ |- _ => destruct K as [K|K] end; try (injection K; intros; lia);
        try (apply H in K; destruct K as (j & Hj & K); lia).
      + intros s t K. cbn [In] in K. destruct K as [K|[K|[K|K]]]; try (injection K as <- <-; exists k; split; [lia|auto]; fail).
        apply H in K. destruct K as (j & Hj & K). exists j. split; [lia|exact K]. }
  exact (proj1 (G 0%nat n)).
Qed.

Lemma fan_good n f : In f (fan n) -> good_face (zlen (fan_points n)) f.
Proof.
  intros H. apply in_map_iff in H. destruct H as (k & <- & K). apply in_seq in K. constructor.
  - cbn. lia.
  - repeat constructor; cbn [In]; lia.
  - intros v Hv. unfold fan_points, zlen. rewrite repeat_length. cbn [In] in Hv. lia.
Qed.

Definition fan_built (n : nat) (m : hmesh) : Prop := exists m0, add_vertices (fan_points n) = Some m0 /\ insert_all m0 (fan n) = CAccept m.
Lemma fan_mesh_built n : (1 <= n)%nat -> Z.of_nat n < 2 ^ 20 -> exists m, fan_built n m /\ component_mesh m /\ zlen (faces m) = Z.of_nat n /\ zlen (verts m) = Z.of_nat n + 2 /\
  forall i, 0 <= i < Z.of_nat n -> get_vertices_around_face m i = Some [i + 1; i + 2; 0].
Proof.
  intros H1 H2. destruct (built_vertices (fan_points n)) as (m0 & E0 & B0).
  pose proof (insert_all_spec (fan_points n) (fan n) [] m0 B0 (NoDup_nil _) (fan_good n)) as S. cbn [app] in S.
  destruct (insert_all m0 (fan n)) as [m| |] eqn:E; [|exfalso; apply S, fan_edges|destruct S]. destruct S as [_ B].
  pose proof (insert_all_slots _ _ _ E) as Sl. rewrite (add_vertices_edges _ _ E0) in Sl.
  assert (Lf : zlen (fan n) = Z.of_nat n) by (unfold fan, zlen; rewrite map_length, seq_length; reflexivity).
  assert (Lc : forall k l, zlen (concat (map (fun k => [0; Z.of_nat k + 1; Z.of_nat k + 2]) (seq k l))) = 3 * Z.of_nat l).
  { intros k l. revert k. induction l as [|l IH]; intros k; [reflexivity|]. cbn [seq map concat]. rewrite zlen_app, IH, !zlen_cons. unfold zlen at 1. cbn [length]. lia. }
  unfold fan in Sl. rewrite Lc in Sl. unfold zlen in Sl at 2. cbn [length] in Sl.
  assert (Lp : zlen (fan_points n) = Z.of_nat n + 2) by (unfold fan_points, zlen; rewrite repeat_length; lia).
  pose proof (b_vl _ _ _ B) as Bv. pose proof (b_fl _ _ _ B) as Bf. rewrite Lp in Bv. rewrite Lf in Bf.
  exists m. split; [exists m0; auto|]. split; [|split; [exact Bf|split; [exact Bv|]]].
  - constructor.
    + exact (b_hist _ _ _ B).
    + exact (b_rv _ _ _ B).
    + exact (b_rf _ _ _ B).
    + split; intros K; rewrite K in *; unfold zlen in Bv, Bf; cbn [length] in *; lia.
    + lia.
  - intros i Hi. rewrite (b_face _ _ _ B i [0; i + 1; i + 2]); [reflexivity|]. unfold vget, fan. destruct (Z.ltb_spec i 0); [lia|].
    rewrite nth_error_map. rewrite (nth_error_nth' _ O) by (rewrite seq_length; lia). rewrite seq_nth by lia. cbn [option_map].
    replace (Z.of_nat (0 + Z.to_nat i)) with i by lia. reflexivity.
Qed.

Lemma fan_mesh n : (1 <= n)%nat -> Z.of_nat n < 2 ^ 20 -> exists m, component_mesh m /\ zlen (faces m) = Z.of_nat n /\ zlen (verts m) = Z.of_nat n + 2 /\
  forall i, 0 <= i < Z.of_nat n -> get_vertices_around_face m i = Some [i + 1; i + 2; 0].
Proof. intros H1 H2. destruct (fan_mesh_built n H1 H2) as (m & _ & H). exists m. exact H. Qed.

(** the fan of five triangles, computed *)
Definition fan5 : hmesh := Eval vm_compute in
  match add_vertices (fan_points 5) with Some m0 => match insert_all m0 (fan 5) with CAccept m => m | _ => hempty end | None => hempty end.
Lemma fan5_mesh : component_mesh fan5.
Proof.
  destruct (fan_mesh_built 5) as (m & (m0 & E0 & E1) & C & _); [lia|lia|]. replace fan5 with m; [exact C|].
  assert (K : match add_vertices (fan_points 5) with Some m0 => match insert_all m0 (fan 5) with CAccept m => m | _ => hempty end | None => hempty end = fan5) by (vm_compute; reflexivity).
  rewrite E0, E1 in K. exact K.
Qed.
