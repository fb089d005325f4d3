From Coq Require Import List ZArith Lia Bool.
From Verif Require Import Vec VecLemmas ParModel ParProofs ParSumModel ParSumSpec.
Import ListNotations.
Open Scope Z_scope.

Lemma zupd_same {A} (f : Z -> A) k x : zupd f k x k = x.
Proof. unfold zupd. rewrite Z.eqb_refl. reflexivity. Qed.
Lemma zupd_other {A} (f : Z -> A) k x i : i <> k -> zupd f k x i = f i.
Proof. intros H. unfold zupd. destruct (Z.eqb_spec i k); [contradiction|reflexivity]. Qed.

Lemma sum_first_S v k x : vget v k = Some x -> sum_first v (k + 1) = sum_first v k + x.
Proof.
  intros H. pose proof (vget_Some_range _ _ _ H) as R. unfold sum_first.
  replace (Z.to_nat (k + 1)) with (S (Z.to_nat k)) by lia.
  unfold vget in H. destruct (Z.ltb_spec k 0); [lia|]. clear R.
  revert v H. induction (Z.to_nat k) as [|n IH]; intros [|y r] H; cbn in *; try discriminate.
  - injection H as ->. lia.
  - rewrite IH by exact H. lia.
Qed.

Lemma wrap_add_l a b : wrap32 (wrap32 a + b) = wrap32 (a + b).
Proof. unfold wrap32. apply Zplus_mod_idemp_l. Qed.
Lemma wrap_add_r a b : wrap32 (a + wrap32 b) = wrap32 (a + b).
Proof. unfold wrap32. apply Zplus_mod_idemp_r. Qed.
Lemma wrap_wrap a : wrap32 (wrap32 a) = wrap32 a.
Proof. unfold wrap32. apply Zmod_mod. Qed.

Definition good_cfg (c : cfg) : Prop :=
  1 <= c_n c /\ 1 <= c_bs c /\ c_n c * c_bs c <= c_len c.

Lemma sum_cfg_good pool len :
  1 <= len -> 0 <= pool < 2 ^ 32 - 1 -> len + 1023 < 2 ^ 32 ->
  exists c, sum_cfg pool len = Some c /\ good_cfg c /\ c_len c = len /\ c_n c <= pool + 1.
Proof.
  intros Hl Hp Ho. unfold sum_cfg.
  assert (W1 : wrap32 len = len) by (unfold wrap32; apply Z.mod_small; lia).
  assert (W2 : wrap32 (pool + 1) = pool + 1) by (unfold wrap32; apply Z.mod_small; lia).
  rewrite W1, W2.
  destruct (sched_ok len (pool + 1) 1024) as (n & b & E & Hn & Hb & Hnb & _); [lia|lia|lia|lia|]. rewrite E.
  eexists. split; [reflexivity|]. unfold good_cfg. cbn. lia.
Qed.

Section Inv.
Variables (c : cfg) (v : list Z).
Hypothesis (G : good_cfg c) (HL : c_len c = zlen v) (HU : all_u32 v).

Notation F := (blk_first c). Notation L := (blk_last c).

Lemma blk_bounds i : 0 <= i < c_n c -> 0 <= F i <= L i /\ L i < zlen v.
Proof.
  intros Hi. destruct G as (G1 & G2 & G3). unfold blk_first, blk_last. rewrite <- HL.
  destruct (Z.eqb_spec i (c_n c - 1)); nia.
Qed.
Lemma blk_next i : 0 <= i < c_n c - 1 -> F (i + 1) = L i + 1.
Proof. intros Hi. unfold blk_first, blk_last. destruct (Z.eqb_spec i (c_n c - 1)); lia. Qed.
Lemma blk_disjoint i j k : 0 <= i < c_n c -> 0 <= j < c_n c -> i <> j -> F i <= k <= L i -> ~ (F j <= k <= L j).
Proof.
  intros Hi Hj N. destruct G as (G1 & G2 & G3). unfold blk_first, blk_last.
  destruct (Z.eqb_spec i (c_n c - 1)); destruct (Z.eqb_spec j (c_n c - 1)); try lia; intros; nia.
Qed.
Lemma blk_cover k : 0 <= k < zlen v -> exists i, 0 <= i < c_n c /\ F i <= k <= L i.
Proof.
  intros Hk. destruct G as (G1 & G2 & G3). rewrite <- HL in Hk.
  destruct (Z_lt_le_dec k ((c_n c - 1) * c_bs c)) as [K|K].
  - exists (k / c_bs c). pose proof (Z.div_mod k (c_bs c) ltac:(lia)). pose proof (Z.mod_pos_bound k (c_bs c) ltac:(lia)).
    assert (k / c_bs c < c_n c - 1) by (apply Z.div_lt_upper_bound; lia).
    pose proof (Z.div_pos k (c_bs c) ltac:(lia) ltac:(lia)).
    split; [lia|]. unfold blk_first, blk_last. destruct (Z.eqb_spec (k / c_bs c) (c_n c - 1)); nia.
  - exists (c_n c - 1). split; [lia|]. unfold blk_first, blk_last. rewrite Z.eqb_refl. lia.
Qed.

Definition at_init (m : list Z) j := vget m j = vget v j.
Definition at_local (m : list Z) i j := vget m j = Some (wrap32 (sum_first v (j + 1) - sum_first v (F i))).
Definition at_total (m : list Z) j := vget m j = Some (wrap32 (sum_first v (j + 1))).

Definition blk_inv (i : Z) (m : list Z) (pr : option Z) (p : phase) : Prop :=
  match p with
  | Start => (forall j, F i <= j <= L i -> at_init m j) /\ pr = None
  | Scan k sum =>
      F i < k <= L i + 1 /\ sum = wrap32 (sum_first v k - sum_first v (F i)) /\
      (forall j, F i <= j < k -> at_local m i j) /\ (forall j, k <= j <= L i -> at_init m j) /\ pr = None
  | WaitPrev => 0 < i /\ (forall j, F i <= j <= L i -> at_local m i j) /\ pr = None
  | AddLast a => 0 < i /\ a = wrap32 (sum_first v (F i)) /\ (forall j, F i <= j <= L i -> at_local m i j) /\ pr = None
  | SetEnd oa =>
      i < c_n c - 1 /\ at_total m (L i) /\ (forall j, F i <= j < L i -> at_local m i j) /\ pr = None /\
      match oa with Some a => 0 < i /\ a = wrap32 (sum_first v (F i)) | None => i = 0 end
  | AddItems k a =>
      a = wrap32 (sum_first v (F i)) /\ F i <= k <= L i /\ at_total m (L i) /\
      (forall j, F i <= j < k -> at_total m j) /\ (forall j, k <= j < L i -> at_local m i j) /\
      (i < c_n c - 1 -> pr <> None)
  | Fin => (forall j, F i <= j <= L i -> at_total m j) /\ (i < c_n c - 1 -> pr <> None)
  end.

Record SInv (s : sstate) : Prop := {
  si_len : zlen (smem s) = zlen v;
  si_blk : forall i, 0 <= i < c_n c -> blk_inv i (smem s) (prom s i) (spc s i);
  si_prom : forall i a, 0 <= i < c_n c -> prom s i = Some a -> a = wrap32 (sum_first v (L i + 1)) }.

Lemma blk_inv_frame i m m' pr p :
  (forall j, F i <= j <= L i -> vget m' j = vget m j) -> 0 <= i < c_n c ->
  blk_inv i m pr p -> blk_inv i m' pr p.
Proof.
  intros E Hi. pose proof (blk_bounds i Hi) as B.
  assert (A1 : forall j, F i <= j <= L i -> at_init m j -> at_init m' j) by (intros; unfold at_init in *; rewrite E; auto).
  assert (A2 : forall j, F i <= j <= L i -> at_local m i j -> at_local m' i j) by (intros; unfold at_local in *; rewrite E; auto).
  assert (A3 : forall j, F i <= j <= L i -> at_total m j -> at_total m' j) by (intros; unfold at_total in *; rewrite E; auto).
  destruct p; cbn.
  - intros (H & K); split; auto.
  - intros (H1 & H2 & H3 & H4 & H5). repeat split; auto; try lia; intros; [apply A2 | apply A1]; auto; lia.
  - intros (H1 & H2 & H3). repeat split; auto.
  - intros (H1 & H2 & H3 & H4). repeat split; auto.
  - intros (H1 & H2 & H3 & H4 & H5). repeat split; auto; try (apply A3; auto; lia). intros; apply A2; auto; lia.
  - intros (H1 & H2 & H3 & H4 & H5 & H6). repeat split; auto; try lia; intros; [apply A3|apply A3|apply A2]; auto; lia.
  - intros (H1 & H2). split; auto.
Qed.

Lemma local_first i m x : 0 <= i < c_n c -> vget v (F i) = Some x -> vget m (F i) = Some x -> at_local m i (F i).
Proof.
  intros Hi Hv Hm. unfold at_local. rewrite (sum_first_S _ _ _ Hv), Hm. f_equal.
  replace (sum_first v (F i) + x - sum_first v (F i)) with x by lia.
  unfold wrap32. symmetry. apply Z.mod_small. apply HU. eapply vget_In; exact Hv.
Qed.

Lemma local_first0 m j : at_local m 0 j -> at_total m j.
Proof.
  unfold at_local, at_total. intros ->. f_equal. f_equal.
  assert (E : sum_first v (F 0) = 0) by reflexivity. rewrite E. lia.
Qed.

(** a step of thread [i] writing one cell of its own block *)
Lemma SInv_write s i k x m p :
  SInv s -> 0 <= i < c_n c -> F i <= k <= L i -> vset (smem s) k x = Some m ->
  blk_inv i m (prom s i) p ->
  SInv (SSt m (prom s) (zupd (spc s) i p)).
Proof.
  intros I Hi Hk E B. constructor; cbn.
  - rewrite (vset_len _ _ _ _ E). apply I.
  - intros j Hj. destruct (Z.eq_dec j i) as [->|N]; [rewrite zupd_same; exact B|].
    rewrite zupd_other by exact N. apply blk_inv_frame with (m := smem s); [|exact Hj|apply (si_blk _ I); exact Hj].
    intros q Hq. apply (vget_vset_neq _ _ _ _ _ E). intros ->. exact (blk_disjoint j i q Hj Hi N Hq Hk).
  - apply I.
Qed.

Lemma SInv_keep s i p :
  SInv s -> 0 <= i < c_n c -> blk_inv i (smem s) (prom s i) p ->
  SInv (SSt (smem s) (prom s) (zupd (spc s) i p)).
Proof.
  intros I Hi B. constructor; cbn.
  - apply I.
  - intros j Hj. destruct (Z.eq_dec j i) as [->|N]; [rewrite zupd_same; exact B|].
    rewrite zupd_other by exact N. apply (si_blk _ I); exact Hj.
  - apply I.
Qed.

Lemma cell s k : SInv s -> 0 <= k < zlen v -> exists x, vget (smem s) k = Some x.
Proof. intros I Hk. apply vget_range_Some. rewrite (si_len _ I). exact Hk. Qed.

(** every thread that is not finished and not waiting for a missing value can move, and
    the invariant is kept *)
Lemma sstep_ok s i : SInv s -> 0 <= i < c_n c -> spc s i <> Fin ->
  (spc s i = WaitPrev -> prom s (i - 1) <> None) ->
  exists s', sstep c s i = Some s' /\ SInv s'.
Proof.
  intros I Hi NF NW. pose proof (blk_bounds i Hi) as [Bd1 Bd2]. pose proof (si_blk _ I i Hi) as B.
  unfold sstep. destruct (spc s i) as [|k sum| |a|oa|k a|] eqn:Ep; cbn in B.
  - (* Start *)
    destruct (cell s (F i) I) as [x Ex]; [lia|]. rewrite Ex. cbn [obind].
    rewrite vset_Some by (rewrite (si_len _ I); lia). cbn [obind]. eexists. split; [reflexivity|].
    destruct B as [B1 B2].
    assert (Hv : vget v (F i) = Some x) by (pose proof (B1 (F i) ltac:(lia)) as X; unfold at_init in X; congruence).
    assert (Es : vset (smem s) (F i) x = Some (lset (smem s) (Z.to_nat (F i)) x)) by (apply vset_Some; rewrite (si_len _ I); lia).
    eapply SInv_write; [exact I | exact Hi | | exact Es |]; [lia|].
    pose proof (vget_vset_eq _ _ _ _ Es) as V1. pose proof (fun j N => vget_vset_neq _ _ _ j _ Es N) as V2.
    cbn. split; [lia|]. split; [|split; [|split]].
    + rewrite (sum_first_S _ _ _ Hv). replace (sum_first v (F i) + x - sum_first v (F i)) with x by lia.
      unfold wrap32. symmetry. apply Z.mod_small, HU. eapply vget_In; exact Hv.
    + intros j Hj. replace j with (F i) by lia. eapply local_first; eauto.
    + intros j Hj. unfold at_init. rewrite V2 by lia. apply B1. lia.
    + exact B2.
  - (* Scan *)
    destruct B as (B1 & B2 & B3 & B4 & B5).
    destruct (Z.leb_spec k (L i)) as [K|K].
    + destruct (cell s k I) as [x Ex]; [lia|]. rewrite Ex. cbn [obind].
      assert (Es : vset (smem s) k (wrap32 (sum + x)) = Some (lset (smem s) (Z.to_nat k) (wrap32 (sum + x))))
        by (apply vset_Some; rewrite (si_len _ I); lia).
      rewrite Es. cbn [obind]. eexists. split; [reflexivity|].
      eapply SInv_write; [exact I | exact Hi | | exact Es |]; [lia|].
      pose proof (vget_vset_eq _ _ _ _ Es) as V1. pose proof (fun j N => vget_vset_neq _ _ _ j _ Es N) as V2.
      assert (Hv : vget v k = Some x) by (pose proof (B4 k ltac:(lia)) as X; unfold at_init in X; congruence).
      assert (W : wrap32 (sum + x) = wrap32 (sum_first v (k + 1) - sum_first v (F i))).
      { rewrite B2, wrap_add_l, (sum_first_S _ _ _ Hv). f_equal. lia. }
      cbn. split; [lia|]. split; [exact W|]. split; [|split; [|exact B5]].
      * intros j Hj. destruct (Z.eq_dec j k) as [->|N]; [unfold at_local; rewrite V1, W; reflexivity|].
        unfold at_local. rewrite V2 by lia. apply B3. lia.
      * intros j Hj. unfold at_init. rewrite V2 by lia. apply B4. lia.
    + eexists. split; [reflexivity|]. apply SInv_keep; [exact I|exact Hi|].
      assert (B3' : forall j, F i <= j <= L i -> at_local (smem s) i j) by (intros; apply B3; lia).
      destruct (Z.ltb_spec 0 i); [cbn; auto|]. assert (i = 0) by lia. subst i.
      destruct (Z.ltb_spec 0 (c_n c - 1)); cbn [blk_inv].
      * split; [lia|]. split; [apply local_first0, B3'; lia|]. split; [intros; apply B3'; lia|]. auto.
      * split; [intros; apply local_first0, B3'; lia|]. lia.
  - (* WaitPrev *)
    destruct B as (B1 & B2 & B3).
    destruct (prom s (i - 1)) as [a|] eqn:Ea; [|exfalso; apply NW; reflexivity]. cbn [obind].
    eexists. split; [reflexivity|]. apply SInv_keep; [exact I|exact Hi|]. cbn.
    assert (Hi' : 0 <= i - 1 < c_n c) by lia.
    pose proof (si_prom _ I (i - 1) a Hi' Ea) as Ha.
    rewrite <- blk_next in Ha by lia. replace (i - 1 + 1) with i in Ha by lia. auto.
  - (* AddLast *)
    destruct B as (B1 & B2 & B3 & B4).
    destruct (cell s (L i) I) as [x Ex]; [lia|]. rewrite Ex. cbn [obind].
    assert (Es : vset (smem s) (L i) (wrap32 (x + a)) = Some (lset (smem s) (Z.to_nat (L i)) (wrap32 (x + a))))
      by (apply vset_Some; rewrite (si_len _ I); lia).
    rewrite Es. cbn [obind]. eexists. split; [reflexivity|].
    eapply SInv_write; [exact I | exact Hi | | exact Es |]; [lia|].
    pose proof (vget_vset_eq _ _ _ _ Es) as V1. pose proof (fun j N => vget_vset_neq _ _ _ j _ Es N) as V2.
    assert (T : at_total (lset (smem s) (Z.to_nat (L i)) (wrap32 (x + a))) (L i)).
    { unfold at_total. rewrite V1. f_equal. pose proof (B3 (L i) ltac:(lia)) as X. unfold at_local in X. rewrite Ex in X.
      injection X as ->. rewrite B2, wrap_add_l, wrap_add_r. f_equal. lia. }
    destruct (Z.ltb_spec i (c_n c - 1)); cbn.
    + split; [lia|]. split; [exact T|]. split; [|auto]. intros j Hj. unfold at_local. rewrite V2 by lia. apply B3. lia.
    + split; [exact B2|]. split; [lia|]. split; [exact T|]. split; [intros; lia|]. split; [|lia].
      intros j Hj. unfold at_local. rewrite V2 by lia. apply B3. lia.
  - (* SetEnd *)
    destruct B as (B1 & B2 & B3 & B4 & B5). unfold at_total in B2. rewrite B2. cbn [obind]. rewrite B4.
    eexists. split; [reflexivity|]. constructor; cbn.
    + apply I.
    + intros j Hj. destruct (Z.eq_dec j i) as [->|N]; [rewrite !zupd_same | rewrite !zupd_other by exact N; apply (si_blk _ I); exact Hj].
      destruct oa as [a|]; cbn.
      * destruct B5 as [B5 B6]. split; [exact B6|]. split; [lia|]. split; [exact B2|]. split; [intros; lia|].
        split; [intros; apply B3; lia|]. discriminate.
      * subst i. split; [|discriminate]. intros j Hj'. destruct (Z.eq_dec j (L 0)) as [->|N]; [exact B2|].
        apply local_first0, B3. lia.
    + intros j b Hj. destruct (Z.eq_dec j i) as [->|N]; [rewrite zupd_same; intros X; injection X as <-; reflexivity|].
      rewrite zupd_other by exact N. apply (si_prom _ I). exact Hj.
  - (* AddItems *)
    destruct B as (B1 & B2 & B3 & B4 & B5 & B6).
    destruct (Z.ltb_spec k (L i)) as [K|K].
    + destruct (cell s k I) as [x Ex]; [lia|]. rewrite Ex. cbn [obind].
      assert (Es : vset (smem s) k (wrap32 (x + a)) = Some (lset (smem s) (Z.to_nat k) (wrap32 (x + a))))
        by (apply vset_Some; rewrite (si_len _ I); lia).
      rewrite Es. cbn [obind]. eexists. split; [reflexivity|].
      eapply SInv_write; [exact I | exact Hi | | exact Es |]; [lia|].
      pose proof (vget_vset_eq _ _ _ _ Es) as V1. pose proof (fun j N => vget_vset_neq _ _ _ j _ Es N) as V2.
      cbn. split; [exact B1|]. split; [lia|]. split; [unfold at_total; rewrite V2 by lia; exact B3|]. split; [|split; [|exact B6]].
      * intros j Hj. destruct (Z.eq_dec j k) as [->|N].
        -- unfold at_total. rewrite V1. f_equal. pose proof (B5 k ltac:(lia)) as X. unfold at_local in X. rewrite Ex in X.
           injection X as ->. rewrite B1, wrap_add_l, wrap_add_r. f_equal. lia.
        -- unfold at_total. rewrite V2 by lia. apply B4. lia.
      * intros j Hj. unfold at_local. rewrite V2 by lia. apply B5. lia.
    + eexists. split; [reflexivity|]. apply SInv_keep; [exact I|exact Hi|]. cbn. split; [|exact B6].
      intros j Hj. destruct (Z.eq_dec j (L i)) as [->|N]; [exact B3|]. apply B4. lia.
  - contradiction.
Qed.

Lemma sinit_inv : SInv (sinit v).
Proof.
  constructor; cbn; try reflexivity; try discriminate. intros i Hi. split; [|reflexivity]. intros j Hj. reflexivity.
Qed.

Lemma sreach_inv s : sreach c v s -> SInv s.
Proof.
  induction 1 as [|s i s' R IH Hi E]; [apply sinit_inv|].
  assert (NF : spc s i <> Fin) by (intros K; unfold sstep in E; rewrite K in E; discriminate).
  assert (NW : spc s i = WaitPrev -> prom s (i - 1) <> None).
  { intros K K'. unfold sstep in E. rewrite K, K' in E. discriminate. }
  destruct (sstep_ok s i IH Hi NF NW) as (s'' & E' & I'). rewrite E in E'. injection E' as <-. exact I'.
Qed.

Lemma fin_dec (p : phase) : {p = Fin} + {p <> Fin}.
Proof. destruct p; (left; reflexivity) || (right; discriminate). Qed.

Lemma min_unfinished s n : (forall i, 0 <= i < Z.of_nat n -> spc s i = Fin) \/
  exists i, 0 <= i < Z.of_nat n /\ spc s i <> Fin /\ forall j, 0 <= j < i -> spc s j = Fin.
Proof.
  induction n as [|n [IH|IH]]; [left; lia| |].
  - destruct (fin_dec (spc s (Z.of_nat n))) as [E|E].
    + left. intros i Hi. destruct (Z.eq_dec i (Z.of_nat n)) as [->|]; [exact E|]. apply IH. lia.
    + right. exists (Z.of_nat n). split; [lia|]. split; [exact E|]. exact IH.
  - right. destruct IH as (i & Hi & A). exists i. split; [lia|exact A].
Qed.

Lemma sprogress s : sreach c v s -> all_finished c s \/ exists i s', 0 <= i < c_n c /\ sstep c s i = Some s'.
Proof.
  intros R. pose proof (sreach_inv s R) as I. destruct (min_unfinished s (Z.to_nat (c_n c))) as [A|(i & Hi & NF & Min)].
  - left. intros i Hi. apply A. lia.
  - right. assert (Hi' : 0 <= i < c_n c) by lia.
    destruct (sstep_ok s i I Hi' NF) as (s' & E & _); [|eauto].
    intros Ew. pose proof (si_blk _ I i Hi') as B. rewrite Ew in B. cbn in B. destruct B as (B & _).
    assert (Hp : 0 <= i - 1 < c_n c) by lia.
    pose proof (si_blk _ I (i - 1) Hp) as B'. rewrite Min in B' by lia. cbn in B'. apply B'. lia.
Qed.

Lemma sfinal s : sreach c v s -> all_finished c s -> prefix_sums v (smem s).
Proof.
  intros R A. pose proof (sreach_inv s R) as I. split; [apply I|]. intros k Hk.
  destruct (blk_cover k Hk) as (i & Hi & Bk). pose proof (si_blk _ I i Hi) as B. rewrite (A i Hi) in B. cbn in B.
  apply B. exact Bk.
Qed.
(** termination: a measure that every step decreases *)
Definition mu (i : Z) (p : phase) : Z :=
  let w := L i - F i in
  match p with
  | Start => 2 * w + 9
  | Scan k _ => (L i + 1 - k) + w + 7
  | WaitPrev => w + 6
  | AddLast _ => w + 5
  | SetEnd _ => w + 4
  | AddItems k _ => (L i - k) + 2
  | Fin => 0
  end.

Lemma mu_nonneg s i : SInv s -> 0 <= i < c_n c -> 0 <= mu i (spc s i).
Proof.
  intros I Hi. pose proof (blk_bounds i Hi) as [B1 B2]. pose proof (si_blk _ I i Hi) as B.
  unfold mu. destruct (spc s i); cbn in B; lia.
Qed.

Lemma sstep_mu s i s' : SInv s -> 0 <= i < c_n c -> sstep c s i = Some s' ->
  mu i (spc s' i) < mu i (spc s i) /\ forall j, j <> i -> spc s' j = spc s j.
Proof.
  intros I Hi E. pose proof (blk_bounds i Hi) as [Bd1 Bd2]. pose proof (si_blk _ I i Hi) as B.
  unfold sstep in E. destruct (spc s i) as [|k sum| |a|oa|k a|] eqn:Ep; cbn in B;
  repeat match type of E with
  | context [if ?b then _ else _] => let H := fresh in destruct b eqn:H
  | context [vget ?m ?k] => let H := fresh in destruct (vget m k) eqn:H; cbn [obind] in E; [|discriminate]
  | context [vset ?m ?k ?x] => let H := fresh in destruct (vset m k x) eqn:H; cbn [obind] in E; [|discriminate]
  | context [prom s ?k] => let H := fresh in destruct (prom s k) eqn:H; cbn [obind] in E; try discriminate
  end; try discriminate; injection E as <-; cbn [spc]; rewrite zupd_same; (split; [|intros j N; apply zupd_other; exact N]);
  unfold mu; try destruct oa; lia.
Qed.

Definition Mu (s : sstate) : Z := fold_right Z.add 0 (map (fun i => mu i (spc s i)) (zrange (c_n c))).

Lemma sum_decr (f g : Z -> Z) (l : list Z) i : NoDup l -> In i l -> f i < g i -> (forall j, j <> i -> f j = g j) ->
  fold_right Z.add 0 (map f l) < fold_right Z.add 0 (map g l).
Proof.
  intros Nd Hin Lt Eq. induction l as [|x r IH]; [destruct Hin|]. inversion Nd as [|? ? N1 N2]; subst. cbn.
  destruct Hin as [->|Hin].
  - assert (map f r = map g r) as ->. { apply map_ext_in. intros j Hj. apply Eq. intros ->. contradiction. } lia.
  - rewrite (Eq x) by (intros ->; contradiction). specialize (IH N2 Hin). lia.
Qed.

Lemma Mu_nonneg s : SInv s -> 0 <= Mu s.
Proof.
  intros I. unfold Mu. assert (A : forall j, In j (zrange (c_n c)) -> 0 <= mu j (spc s j))
    by (intros j Hj; apply mu_nonneg; [exact I|apply In_zrange; exact Hj]).
  induction (zrange (c_n c)) as [|x r IH]; cbn; [lia|].
  assert (0 <= fold_right Z.add 0 (map (fun i => mu i (spc s i)) r)) by (apply IH; intros; apply A; right; assumption).
  specialize (A x (or_introl eq_refl)). lia.
Qed.

Lemma srun_bounded sched : forall s s', sreach c v s -> (forall i, In i sched -> 0 <= i < c_n c) ->
  srun c sched s = Some s' -> Z.of_nat (length sched) <= Mu s.
Proof.
  induction sched as [|i r IH]; intros s s' R Hs E.
  - cbn. apply Mu_nonneg, sreach_inv, R.
  - cbn in E. destruct (sstep c s i) as [s1|] eqn:E1; [|discriminate]. cbn in E.
    assert (Hi : 0 <= i < c_n c) by (apply Hs; left; reflexivity).
    destruct (sstep_mu s i s1 (sreach_inv s R) Hi E1) as [D1 D2].
    assert (R1 : sreach c v s1) by (eapply sr_step; eassumption).
    specialize (IH s1 s' R1 (fun j Hj => Hs j (or_intror Hj)) E).
    assert (Mu s1 < Mu s).
    { unfold Mu. apply sum_decr with (i := i); [apply NoDup_zrange | apply In_zrange; exact Hi | exact D1 |].
      intros j N. rewrite D2 by exact N. reflexivity. }
    cbn [length]. lia.
Qed.
End Inv.

Lemma srun_reach c v sched s s' : (forall i, In i sched -> 0 <= i < c_n c) ->
  sreach c v s -> srun c sched s = Some s' -> sreach c v s'.
Proof.
  revert s. induction sched as [|i r IH]; intros s Hs R E; cbn in E; [injection E as <-; exact R|].
  destruct (sstep c s i) as [s1|] eqn:E1; [|discriminate]. cbn in E.
  apply (IH s1); [intros j Hj; apply Hs; right; exact Hj| |exact E].
  eapply sr_step; [exact R | apply Hs; left; reflexivity | exact E1].
Qed.
