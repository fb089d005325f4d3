(** The face-index query with a buffer of any size, and with more faces than one block. *)
From Coq Require Import List ZArith Lia Bool Permutation.
From Verif Require Import Vec VecLemmas HmeshModel HmeshSpec HmeshCore ParModel ParProofs ParSumModel ParSumSpec ParSumProofs DataModel DataSpec DataProofs DataFull DataRows DataOver.
Import ListNotations.
Open Scope Z_scope.
Ltac Zify.zify_post_hook ::= idtac.

Lemma copy_face_stop n vs : forall off, 0 <= off < n -> n <= off + zlen vs -> n < 2 ^ 32 ->
  exists l, copy_face n off vs = (l, n) /\ forall o v, In (o, v) l -> 0 <= o < n.
Proof.
  induction vs as [|x r IH]; intros off Ho Hn Hw; [rewrite zlen_nil in Hn; lia|]. rewrite zlen_cons in Hn. cbn [copy_face].
  assert (W : wrap32 (off + 1) = off + 1) by (apply Z.mod_small; lia). rewrite W.
  destruct (Z.eqb_spec (off + 1) n) as [E|N].
  - exists [(off, x)]. split; [f_equal; exact E|]. intros o v [K|[]]. injection K as <- <-. lia.
  - destruct (IH (off + 1)) as (l & El & Hl); [lia|lia|exact Hw|]. rewrite El. exists ((off, x) :: l). split; [reflexivity|].
    intros o v [K|K]; [injection K as <- <-; lia|]. exact (Hl o v K).
Qed.

Lemma oriented_row (flip : bool) (r : list Z) : zlen (if flip then rev r else r) = zlen r.
Proof. unfold zlen. destruct flip; rewrite ?rev_length; reflexivity. Qed.

Lemma copy_faces_first flip n off r rows : r <> [] -> exists v l, copy_faces flip n off (r :: rows) = (off, v) :: l.
Proof.
  intros Ne. cbn [copy_faces]. set (r' := if flip then rev r else r). assert (L : zlen r' = zlen r) by apply oriented_row. apply zlen_pos in Ne.
  destruct r' as [|x s]; [rewrite zlen_nil in L; lia|]. cbn [copy_face]. destruct (wrap32 (off + 1) =? n).
  - cbn [app]. eauto.
  - destruct (copy_face n (wrap32 (off + 1)) s). cbn [app]. eauto.
Qed.

Lemma copy_faces_over flip n last pre : (forall r, In r (pre ++ [last]) -> r <> []) -> n < 2 ^ 32 ->
  forall off, 0 <= off -> n - off <= total pre -> exists o v, In (o, v) (copy_faces flip n off (pre ++ [last])) /\ n <= o.
Proof.
  induction pre as [|r pre IH]; intros Ne Hw off Ho Hn.
  - change (total []) with 0 in Hn. destruct (copy_faces_first flip n off last []) as (v & l & E); [apply Ne; left; reflexivity|].
    cbn [app]. rewrite E. exists off, v. split; [left; reflexivity|lia].
  - rewrite total_cons in Hn. cbn [app]. destruct (Z_le_gt_dec n off) as [Hle|Hgt].
    + destruct (copy_faces_first flip n off r (pre ++ [last])) as (v & l & E); [apply Ne; left; reflexivity|]. rewrite E. exists off, v. split; [left; reflexivity|lia].
    + cbn [copy_faces]. set (r' := if flip then rev r else r). assert (L : zlen r' = zlen r) by apply oriented_row.
      assert (Ne' : forall x, In x (pre ++ [last]) -> x <> []) by (intros x Hx; apply Ne; right; exact Hx).
      destruct (Z_le_gt_dec n (off + zlen r)) as [Hs|Hs].
      * destruct (copy_face_stop n r' off) as (l & El & _); [lia|lia|exact Hw|]. rewrite El.
        destruct (IH Ne' Hw n) as (o & v & K & Kn); [lia|pose proof (total_nonneg pre); lia|]. exists o, v. split; [apply in_app_iff; right; exact K|exact Kn].
      * rewrite copy_face_full by (pose proof (zlen_nonneg r); lia). rewrite L.
        destruct (IH Ne' Hw (off + zlen r)) as (o & v & K & Kn); [pose proof (zlen_nonneg r); lia|lia|]. exists o, v. split; [apply in_app_iff; right; exact K|exact Kn].
Qed.

Lemma copy_faces_inside flip n last pre : n < 2 ^ 32 ->
  forall off, 0 <= off -> off + total pre < n -> forall o v, In (o, v) (copy_faces flip n off (pre ++ [last])) -> 0 <= o < n.
Proof.
  intros Hw. induction pre as [|r pre IH]; intros off Ho Hn o v K.
  - change (total []) with 0 in Hn. cbn [app copy_faces] in K. set (r' := if flip then rev last else last) in K.
    destruct (Z_le_gt_dec n (off + zlen r')) as [Hs|Hs].
    + destruct (copy_face_stop n r' off) as (l & El & Hl); [lia|lia|exact Hw|]. rewrite El in K. rewrite app_nil_r in K. exact (Hl o v K).
    + rewrite copy_face_full in K by lia. rewrite app_nil_r in K. apply In_store_all in K. destruct K as (i & V & ->). apply vget_Some_range in V. lia.
  - rewrite total_cons in Hn. pose proof (zlen_nonneg r). pose proof (total_nonneg pre). cbn [app copy_faces] in K.
    assert (L : zlen (if flip then rev r else r) = zlen r) by apply oriented_row. set (r' := if flip then rev r else r) in *.
    rewrite copy_face_full in K by lia. apply in_app_iff in K. destruct K as [K|K].
    + apply In_store_all in K. destruct K as (i & V & ->). apply vget_Some_range in V. lia.
    + apply IH in K; lia.
Qed.

Lemma row_nonempty m rows f r : component_mesh m -> f = get_vertices_around_face m -> rows_of f (zlen (faces m)) rows -> In r rows -> (3 <= length r)%nat.
Proof.
  intros C -> [L H] Hr. apply In_vget in Hr. destruct Hr as [i V]. pose proof (vget_Some_range _ _ _ V) as R. rewrite L in R.
  specialize (H i R). rewrite V in H. pose proof (HmeshProps.HInv_consistent m (HmeshProps.history_inv m (cm_history m C))) as K.
  destruct (k_face m K i (live_faces m i C R)) as (hs & E & L3 & _). unfold get_vertices_around_face in H. rewrite E in H. cbn [obind] in H.
  destruct (InputProofs.omap_nth _ _ _ H) as [L' _]. lia.
Qed.

(** one block: up to 2^14 faces *)
Lemma q_face_one_block e c seen rows bytes : component_mesh (c_mesh c) -> coherent c -> pool_ok e ->
  face_rows (c_mesh c) = Some rows -> rows_of (get_vertices_around_face (c_mesh c)) (zlen (faces (c_mesh c))) rows ->
  total rows < 2 ^ 32 -> zlen rows <= 2 ^ 14 -> reads_ok (e_pool e) (2 ^ 14) (map zlen rows) seen ->
  bytes mod 4 = 0 -> 0 <= bytes < 2 ^ 34 ->
  fst (q_face e c seen (Buffer bytes)) = Stores 4 [copy_faces (e_flip e) (bytes / 4) 0 rows].
Proof.
  intros C Co P E Hr Ht Sm Rd M Hb. pose proof (rows_len _ _ _ C Hr) as Hl. unfold q_face. rewrite E, M. cbn [negb Z.eqb].
  assert (W : wrap32 (bytes / 4) = bytes / 4) by (apply Z.mod_small; Z.to_euclidean_division_equations; lia). rewrite W.
  rewrite fill_sizes_ok; [|exact Hl|exact P|].
  2:{ intros l Hc. destruct (proj1 Co l Hc) as (rows' & E' & ->). assert (rows' = rows) by congruence. subst. reflexivity. }
  cbn [fst]. unfold par_rows.
  destruct (par_blocks_ok (e_pool e) (zlen rows) (2 ^ 14)) as (bs & n & b & Eb & Ch & Pb & Es & Ln & Hn & Hb' & Hnb & Q & K); try lia; try exact P.
  assert (N1 : n = 1).
  { unfold pool_ok in P. rewrite Q. replace ((zlen rows + 2 ^ 14 - 1) / 2 ^ 14) with 1; [lia|]. Z.to_euclidean_division_equations; lia. }
  assert (bs = [Blk 0 (zlen rows)]) as ->.
  { destruct bs as [|x [|y r]]; rewrite ?zlen_cons, ?zlen_nil in Ln; [lia| |pose proof (zlen_nonneg r); lia].
    cbn in Ch. destruct Ch as (E1 & E2 & E3). rewrite (blk_eta x), E1, E3. reflexivity. }
  rewrite Eb. rewrite (omap_combine _ (fun b => copy_faces (e_flip e) (bytes / 4) 0 (sub rows b))).
  - cbn [map]. rewrite sub_all. reflexivity.
  - intros k x Hx. pose proof (vget_Some_range _ _ _ Hx) as R. unfold zlen in R; cbn [length] in R. assert (k = 0) by lia. subst k.
    cbn in Hx. injection Hx as <-. cbn [fst snd bfirst].
    assert (Eb' : par_blocks (e_pool e) (zlen (map zlen rows)) (2 ^ 14) = Some [Blk 0 (zlen rows)]) by (rewrite zlen_map; exact Eb).
    pose proof (Rd _ 0 (Blk 0 (zlen rows)) Eb' eq_refl) as Sn. cbn [bfirst] in Sn.
    apply seen_zero in Sn; [|rewrite zlen_map; lia|exact P|apply sizes_u32; exact Ht].
    destruct (vget_range_Some (map zlen rows) 0) as [s Vs]; [rewrite zlen_map; lia|]. rewrite Vs. cbn [obind]. rewrite Sn. f_equal. f_equal.
    change 1 with (0 + 1). rewrite (sum_first_S _ _ _ Vs). change (sum_first (map zlen rows) 0) with 0.
    unfold wrap32. rewrite Zminus_mod_idemp_l. replace (0 + s - s) with 0 by lia. reflexivity.
Qed.
