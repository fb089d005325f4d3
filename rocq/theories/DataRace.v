(** The face-index query with more than 2^14 faces: the copying threads do not wait for all the
    threads of the partial sum. *)
From Coq Require Import List ZArith Lia Bool Permutation.
From Verif Require Import Vec VecLemmas HmeshModel HmeshSpec ParModel ParProofs ParSumModel ParSumSpec ParSumProofs DataModel DataSpec DataProofs DataFull DataRows DataOver DataFace.
Import ListNotations.
Open Scope Z_scope.
Ltac Zify.zify_post_hook ::= idtac.

Section Drive.
Variables (c : cfg) (v : list Z).
Hypothesis (G : good_cfg c) (HL : c_len c = zlen v) (HU : all_u32 v).

Definition ready (s : sstate) (i : Z) : Prop := i = 0 \/ prom s (i - 1) <> None.

Lemma step_prom s i s' : sstep c s i = Some s' -> forall j, j <> i -> prom s' j = prom s j.
Proof.
  intros E j N. unfold sstep in E.
  destruct (spc s i) as [|k sum| |a|oa|k a|];
  repeat match type of E with
  | context [if ?b then _ else _] => destruct b
  | context [vget ?m ?k] => destruct (vget m k); cbn [obind] in E; [|discriminate]
  | context [vset ?m ?k ?x] => destruct (vset m k x); cbn [obind] in E; [|discriminate]
  | context [prom s ?k] => destruct (prom s k); cbn [obind] in E; try discriminate
  end; try discriminate; injection E as <-; cbn [prom]; try reflexivity; apply zupd_other; exact N.
Qed.

(** run thread [i] until it stops or satisfies [P] *)
Lemma drive_one s i : sreach c v s -> 0 <= i < c_n c -> ready s i -> spc s i <> Fin ->
  exists s', sreach c v s' /\ sstep c s i = Some s' /\ (forall j, j <> i -> spc s' j = spc s j) /\ ready s' i /\
    mu c i (spc s' i) < mu c i (spc s i) /\ forall j, j <> i -> prom s' j = prom s j.
Proof.
  intros R Hi Rd NF. pose proof (sreach_inv c v G HL HU s R) as I.
  destruct (sstep_ok c v G HL HU s i I Hi NF) as (s' & E & _).
  - intros Ew. destruct Rd as [->|Rd]; [|exact Rd]. pose proof (si_blk _ _ _ I 0 Hi) as B. rewrite Ew in B. cbn in B. lia.
  - exists s'. split; [eapply sr_step; eassumption|]. split; [exact E|]. destruct (sstep_mu c v G HL s i s' I Hi E) as [M O]. split; [exact O|].
    pose proof (step_prom s i s' E) as Pr. split; [|split; [exact M|exact Pr]]. destruct Rd as [->|Rd]; [left; reflexivity|right]. rewrite Pr by lia. exact Rd.
Qed.

Lemma drive_fin n : forall s i, mu c i (spc s i) < Z.of_nat n -> sreach c v s -> 0 <= i < c_n c -> ready s i ->
  exists s', sreach c v s' /\ spc s' i = Fin /\ (forall j, j <> i -> spc s' j = spc s j /\ prom s' j = prom s j).
Proof.
  induction n as [|n IH]; intros s i M R Hi Rd.
  - pose proof (mu_nonneg c v G HL s i (sreach_inv c v G HL HU s R) Hi). lia.
  - destruct (fin_dec (spc s i)) as [E|NF]; [exists s; repeat split; auto|].
    destruct (drive_one s i R Hi Rd NF) as (s1 & R1 & _ & O1 & Rd1 & M1 & P1).
    destruct (IH s1 i ltac:(lia) R1 Hi Rd1) as (s2 & R2 & F2 & O2). exists s2. split; [exact R2|]. split; [exact F2|].
    intros j N. destruct (O2 j N) as [A B]. rewrite A, B. split; [apply O1|apply P1]; exact N.
Qed.

(** the program points before the addition of the carry to the elements *)
Definition early (i : Z) (p : phase) : Prop :=
  match p with
  | Start | Scan _ _ | WaitPrev | AddLast _ => True
  | SetEnd (Some _) => True
  | AddItems k _ => k = blk_first c i
  | _ => False
  end.

Lemma early_step s i s' : 0 < i < c_n c - 1 -> early i (spc s i) -> (forall k a, spc s i <> AddItems k a) -> sstep c s i = Some s' -> early i (spc s' i).
Proof.
  intros Hi Ea Na E. unfold sstep in E.
  destruct (spc s i) as [|k sum| |a|[a|]|k a|] eqn:Ep; cbn in Ea; try contradiction;
  repeat match type of E with
  | context [if ?b then _ else _] => let H := fresh in destruct b eqn:H
  | context [vget ?m ?k] => destruct (vget m k); cbn [obind] in E; [|discriminate]
  | context [vset ?m ?k ?x] => destruct (vset m k x); cbn [obind] in E; [|discriminate]
  | context [prom s ?k] => destruct (prom s k); cbn [obind] in E; try discriminate
  end; try discriminate; try (injection E as <-; cbn [spc]; rewrite zupd_same; cbn; auto; fail);
  try (exfalso; apply Z.ltb_ge in H0; lia); try (exfalso; eapply Na; reflexivity).
Qed.

Lemma drive_early n : forall s i, mu c i (spc s i) < Z.of_nat n -> sreach c v s -> 0 < i < c_n c - 1 -> ready s i -> early i (spc s i) ->
  exists s' a, sreach c v s' /\ spc s' i = AddItems (blk_first c i) a /\ (forall j, j <> i -> spc s' j = spc s j /\ prom s' j = prom s j).
Proof.
  induction n as [|n IH]; intros s i M R Hi Rd Ea.
  - pose proof (mu_nonneg c v G HL s i (sreach_inv c v G HL HU s R) ltac:(lia)). lia.
  - assert (D : (exists k a, spc s i = AddItems k a) \/ forall k a, spc s i <> AddItems k a).
    { destruct (spc s i); try (right; intros; discriminate). left; eauto. }
    destruct D as [(k & a & Ek)|Na].
    + exists s, a. split; [exact R|]. split; [|auto]. rewrite Ek in *. cbn in Ea. congruence.
    + assert (NF : spc s i <> Fin) by (intros K; rewrite K in Ea; exact Ea).
      destruct (drive_one s i R ltac:(lia) Rd NF) as (s1 & R1 & E1 & O1 & Rd1 & M1 & P1).
      pose proof (early_step s i s1 Hi Ea Na E1) as Ea1.
      destruct (IH s1 i ltac:(lia) R1 Hi Rd1 Ea1) as (s2 & a & R2 & F2 & O2). exists s2, a. split; [exact R2|]. split; [exact F2|].
      intros j N. destruct (O2 j N) as [A B]. rewrite A, B. split; [apply O1|apply P1]; exact N.
Qed.

Lemma fin_prom s i : sreach c v s -> 0 <= i < c_n c - 1 -> spc s i = Fin -> prom s i <> None.
Proof.
  intros R Hi F. pose proof (si_blk _ _ _ (sreach_inv c v G HL HU s R) i ltac:(lia)) as B. rewrite F in B. cbn in B. apply B. lia.
Qed.

(** threads lo .. hi-1 to the end, in order *)
Lemma drive_range n : forall s lo, sreach c v s -> 0 <= lo -> lo + Z.of_nat n <= c_n c -> (n <> O -> ready s lo) ->
  exists s', sreach c v s' /\ (forall j, lo <= j < lo + Z.of_nat n -> spc s' j = Fin) /\
    (forall j, ~ (lo <= j < lo + Z.of_nat n) -> spc s' j = spc s j /\ prom s' j = prom s j).
Proof.
  induction n as [|n IH]; intros s lo R H0 Hn Rd.
  - exists s. split; [exact R|]. split; [intros; lia|auto].
  - destruct (drive_fin (S (Z.to_nat (mu c lo (spc s lo)))) s lo) as (s1 & R1 & F1 & O1); try assumption; try lia.
    { apply Rd. discriminate. }
    destruct (IH s1 (lo + 1)) as (s2 & R2 & F2 & O2); try lia; [exact R1| |].
    { intros Nn. right. replace (lo + 1 - 1) with lo by lia. apply fin_prom; [exact R1|lia|exact F1]. }
    exists s2. split; [exact R2|]. split.
    + intros j Hj. destruct (Z.eq_dec j lo) as [->|N]; [|apply F2; lia]. destruct (O2 lo) as [A _]; [lia|]. congruence.
    + intros j Hj. destruct (O2 j) as [A B]; [lia|]. destruct (O1 j) as [A' B']; [lia|]. split; congruence.
Qed.

(** all threads but one are finished, that one has passed on its sum but not yet updated its
    own elements *)
Lemma stale_state i : 0 < i < c_n c - 1 -> exists s a, sreach c v s /\ spc s i = AddItems (blk_first c i) a /\
  forall j, 0 <= j < c_n c -> j <> i -> spc s j = Fin.
Proof.
  intros Hi. destruct (drive_range (Z.to_nat i) (sinit v) 0) as (s1 & R1 & F1 & O1); try lia; [apply sr_init|intros _; left; reflexivity|].
  assert (Rd1 : ready s1 i) by (right; apply fin_prom; [exact R1|lia|apply F1; lia]).
  assert (E1 : spc s1 i = Start) by (destruct (O1 i) as [A _]; [lia|]; rewrite A; reflexivity).
  destruct (drive_early (S (Z.to_nat (mu c i (spc s1 i)))) s1 i) as (s2 & a & R2 & F2 & O2); try assumption; try lia.
  { rewrite E1. exact I. }
  assert (P2 : prom s2 i <> None).
  { pose proof (si_blk _ _ _ (sreach_inv c v G HL HU s2 R2) i ltac:(lia)) as B. rewrite F2 in B. cbn in B. apply B. lia. }
  destruct (drive_range (Z.to_nat (c_n c - 1 - i)) s2 (i + 1)) as (s3 & R3 & F3 & O3); try lia; [exact R2| |].
  { intros _. right. replace (i + 1 - 1) with i by lia. exact P2. }
  exists s3, a. split; [exact R3|]. split; [destruct (O3 i) as [A _]; [lia|]; congruence|].
  intros j Hj N. destruct (Z_lt_le_dec i j) as [L|L]; [apply F3; lia|]. destruct (O3 j) as [A _]; [lia|]. rewrite A.
  destruct (O2 j N) as [A2 _]. rewrite A2. apply F1. lia.
Qed.
End Drive.

(** Two copying blocks, the second of which starts inside (and not at the end of) a chunk of a
    worker thread other than the one that runs it. *)
Lemma race e c rows i cf : component_mesh (c_mesh c) -> coherent c -> pool_ok e ->
  face_rows (c_mesh c) = Some rows -> rows_of (get_vertices_around_face (c_mesh c)) (zlen (faces (c_mesh c))) rows ->
  total rows < 2 ^ 32 -> 2 ^ 14 < zlen rows <= 2 ^ 15 -> 1 <= e_pool e ->
  sum_cfg (e_pool e) (zlen rows) = Some cf -> 0 < i < ParSumModel.c_n cf - 1 ->
  blk_first cf i <= zlen rows / 2 < blk_last cf i ->
  exists seen, reads_ok (e_pool e) (2 ^ 14) (map zlen rows) seen /\
    forall content, zlen content = total rows -> ~ fills (fst (q_face e c seen (Buffer (4 * total rows)))) 4 content.
Proof.
  intros C Co P E Hr Ht Hl Hp Ec Hi Hbase. set (v := map zlen rows). assert (Lv : zlen v = zlen rows) by apply zlen_map. pose proof P as P'. unfold pool_ok in P'.
  destruct (sum_cfg_good (e_pool e) (zlen rows)) as (c' & Ec' & G & HL & _); try lia. assert (c' = cf) by congruence. subst c'.
  pose proof (sizes_u32 rows Ht) as HU. fold v in HU. rewrite <- Lv in HL.
  destruct (stale_state cf v G HL HU i Hi) as (s & a & R & F & O). pose proof (sreach_inv cf v G HL HU s R) as I.
  pose proof (si_blk _ _ _ I i ltac:(lia)) as B. rewrite F in B. cbn [blk_inv] in B. destruct B as (_ & _ & _ & _ & Loc & _).
  set (base := zlen rows / 2) in *. assert (Bv : at_local cf v (smem s) i base) by (apply Loc; lia). unfold at_local in Bv.
  destruct (vget_range_Some v 0) as [s0 V0]; [lia|].
  assert (Z0 : vget (smem s) 0 = Some s0).
  { pose proof (si_blk _ _ _ I 0 ltac:(lia)) as B0. rewrite (O 0) in B0 by lia. cbn [blk_inv] in B0. destruct B0 as [B0 _].
    assert (T : at_total v (smem s) 0). { apply B0. pose proof (blk_bounds cf v G HL 0 ltac:(lia)). unfold blk_first in *. lia. }
    unfold at_total in T. rewrite T. f_equal. rewrite (sum_first_S _ _ _ V0). change (sum_first v 0) with 0. apply Z.mod_small. apply HU. eapply vget_In. exact V0. }
  set (local := wrap32 (sum_first v (base + 1) - sum_first v (blk_first cf i))) in *.
  exists (fun k => if k =? 0 then s0 else local).
  destruct (par_blocks_ok (e_pool e) (zlen rows) (2 ^ 14)) as (bs & n & b & Eb & Ch & Pb & Es & Ln & Hn & Hb & Hnb & Q & K); try lia.
  assert (N2 : n = 2). { rewrite Q. replace ((zlen rows + 2 ^ 14 - 1) / 2 ^ 14) with 2; [lia|]. Z.to_euclidean_division_equations; lia. }
  assert (Bb : b = base) by (rewrite (sched_block _ _ _ _ _ Es), N2; reflexivity).
  assert (Ebs : bs = [Blk 0 base; Blk base (zlen rows)]).
  { destruct bs as [|x [|y [|z r]]]; rewrite ?zlen_cons, ?zlen_nil in Ln; try lia; [|pose proof (zlen_nonneg r); lia].
    cbn in Ch. destruct Ch as (E1 & _ & E2 & _ & E3). pose proof (K 1 y eq_refl) as K1. rewrite (blk_eta x), (blk_eta y), E1, <- E2, K1, E3, Bb. repeat f_equal; lia. }
  assert (Bpos : 0 < base < zlen rows) by (unfold base; Z.to_euclidean_division_equations; lia).
  split.
  - intros bs' k x Eb' Vx. fold v in Eb'. rewrite Lv, Eb in Eb'. assert (bs' = bs) by congruence. subst bs'.
    exists cf, s. fold v. rewrite Lv. split; [exact Ec|]. split; [exact R|]. split; [apply O; lia|]. rewrite Ln, N2.
    pose proof (vget_Some_range _ _ _ Vx) as Rk. rewrite Ln, N2 in Rk. split; [intros K1 K2; apply O; lia|]. subst bs.
    destruct (Z.eqb_spec k 0) as [->|Nk].
    + cbn in Vx. injection Vx as <-. exact Z0.
    + assert (k = 1) by lia. subst k. cbn in Vx. injection Vx as <-. exact Bv.
  - intros content Lc Fi. unfold q_face in Fi. rewrite E in Fi. replace (4 * total rows) with (total rows * 4) in Fi by lia.
    rewrite Z.mod_mul in Fi by lia. cbn [negb Z.eqb] in Fi. rewrite Z.div_mul in Fi by lia. pose proof (total_nonneg rows).
    assert (W : wrap32 (total rows) = total rows) by (apply Z.mod_small; lia). rewrite W in Fi.
    rewrite fill_sizes_ok in Fi; [|lia|exact P|].
    2:{ intros l Hc. destruct (proj1 Co l Hc) as (rows' & E' & ->). assert (rows' = rows) by congruence. subst. reflexivity. }
    cbn [fst] in Fi. unfold par_rows in Fi. rewrite Eb in Fi. subst bs. change (zlen [Blk 0 base; Blk base (zlen rows)]) with 2 in Fi.
    change (zrange 2) with [0; 1] in Fi. cbn [combine omap obind fst snd bfirst Z.eqb] in Fi. fold v in Fi. rewrite V0 in Fi.
    destruct (vget_range_Some v base) as [sb Vb]; [lia|]. rewrite Vb in Fi. cbn [obind] in Fi.
    assert (O0 : wrap32 (s0 - s0) = 0) by (replace (s0 - s0) with 0 by lia; reflexivity). rewrite O0 in Fi.
    (* totals *)
    assert (S0 : sum_first v base = total (sub rows (Blk 0 base))) by apply sum_first_total.
    assert (T1 : total (sub rows (Blk 0 base)) + total (sub rows (Blk base (zlen rows))) = total rows).
    { rewrite <- total_app, <- sub_split by lia. rewrite sub_all. reflexivity. }
    assert (Fpos : 0 < blk_first cf i). { unfold blk_first. destruct G as (_ & G2 & _). nia. }
    assert (SF : sum_first v (blk_first cf i) = total (sub rows (Blk 0 (blk_first cf i)))) by apply sum_first_total.
    assert (T2 : total (sub rows (Blk 0 (blk_first cf i))) + total (sub rows (Blk (blk_first cf i) base)) = total (sub rows (Blk 0 base))).
    { rewrite <- total_app, <- sub_split by lia. reflexivity. }
    assert (Pos : forall b, 0 <= bfirst b < blast b -> blast b <= zlen rows -> 3 <= total (sub rows b)).
    { intros x X1 X2. destruct (sub_cons rows x X1 X2) as (r & l & Er). rewrite Er, total_cons.
      assert (In r rows). { assert (K0 : In r (sub rows x)) by (rewrite Er; left; reflexivity). unfold sub in K0.
        rewrite <- (firstn_skipn (Z.to_nat (bfirst x)) rows). apply in_app_iff. right.
        rewrite <- (firstn_skipn (Z.to_nat (blast x - bfirst x)) (skipn (Z.to_nat (bfirst x)) rows)). apply in_app_iff. left. exact K0. }
      pose proof (row_nonempty _ rows _ r C eq_refl Hr H0). pose proof (total_nonneg l). unfold zlen. lia. }
    pose proof (Pos (Blk 0 (blk_first cf i)) ltac:(cbn; lia) ltac:(cbn; lia)) as Q1.
    pose proof (Pos (Blk base (zlen rows)) ltac:(cbn; lia) ltac:(cbn; lia)) as Q2.
    pose proof (total_nonneg (sub rows (Blk (blk_first cf i) base))) as Q3.
    assert (O1 : wrap32 (local - sb) = total (sub rows (Blk (blk_first cf i) base))).
    { unfold local. rewrite (sum_first_S _ _ _ Vb). unfold wrap32. rewrite Zminus_mod_idemp_l.
      replace (sum_first v base + sb - sum_first v (blk_first cf i) - sb) with (total (sub rows (Blk (blk_first cf i) base))) by lia. apply Z.mod_small. lia. }
    rewrite O1 in Fi. rewrite !copy_faces_full in Fi by lia.
    destruct Fi as (ts & Ets & Hf). injection Ets as <-.
    match type of Hf with forall order m o, interleaving ?t order -> _ => set (ts := t) in Hf; assert (Il : interleaving ts (concat ts)) by apply interleaving_seq end.
    destruct (vget_range_Some content (total rows - 1)) as [x Vx]; [lia|].
    specialize (Hf (concat ts) (fun _ => x + 1) (total rows - 1) Il). rewrite Vx in Hf. rewrite run_other in Hf; [lia|].
    intros Hin. apply in_map_iff in Hin. destruct Hin as ([o y] & Eo & Hin). cbn in Eo. subst o. unfold ts in Hin. cbn [concat] in Hin. rewrite app_nil_r in Hin.
    apply in_app_iff in Hin. destruct Hin as [Hin|Hin]; apply In_store_all in Hin; destruct Hin as (j & Vj & Ej); apply vget_Some_range in Vj;
      fold (total (oriented (e_flip e) (sub rows (Blk 0 base)))) in Vj; fold (total (oriented (e_flip e) (sub rows (Blk base (zlen rows))))) in Vj;
      rewrite ?oriented_total in Vj; lia.
Qed.
