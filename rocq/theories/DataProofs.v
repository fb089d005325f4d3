From Coq Require Import List ZArith Lia Bool Permutation.
From Verif Require Import Vec VecLemmas HmeshModel HmeshSpec ParModel ParProofs ParSumModel ParSumSpec ParSumProofs DataModel DataSpec.
Import ListNotations.
Open Scope Z_scope.

(** ** Effect of stores *)

Lemma In_store_all l : forall off o v, In (o, v) (store_all off l) <-> exists i, vget l i = Some v /\ o = off + i.
Proof.
  induction l as [|x r IH]; intros off o v; cbn [store_all].
  - split; [intros []|]. intros (i & H & _). apply vget_Some_range in H. unfold zlen in H. cbn in H. lia.
  - cbn [In]. rewrite IH. split.
    + intros [E|(i & H & ->)].
      * injection E as <- <-. exists 0. split; [reflexivity|lia].
      * exists (i + 1). pose proof (vget_Some_range _ _ _ H). split; [|lia]. unfold vget in *.
        destruct (Z.ltb_spec i 0); [lia|]. destruct (Z.ltb_spec (i + 1) 0); [lia|].
        replace (Z.to_nat (i + 1)) with (S (Z.to_nat i)) by lia. exact H.
    + intros (i & H & ->). pose proof (vget_Some_range _ _ _ H) as R. destruct (Z.eq_dec i 0) as [->|N].
      * left. cbn in H. injection H as ->. f_equal. lia.
      * right. exists (i - 1). split; [|lia]. unfold vget in *.
        destruct (Z.ltb_spec i 0); [lia|]. destruct (Z.ltb_spec (i - 1) 0); [lia|].
        replace (Z.to_nat i) with (S (Z.to_nat (i - 1))) in H by lia. exact H.
Qed.

Lemma store_all_app a : forall off b, store_all off (a ++ b) = store_all off a ++ store_all (off + zlen a) b.
Proof.
  induction a as [|x a IH]; intros off b; cbn [app store_all].
  - f_equal. unfold zlen. cbn. lia.
  - rewrite IH. cbn [app]. do 3 f_equal. unfold zlen. cbn [length]. lia.
Qed.

Lemma fst_store_all l : forall off, map fst (store_all off l) = map (fun k => off + Z.of_nat k) (seq 0 (length l)).
Proof.
  induction l as [|x r IH]; intros off; [reflexivity|]. cbn [store_all map length seq fst]. f_equal; [lia|].
  rewrite IH, <- seq_shift, map_map. apply map_ext. intros k. lia.
Qed.
Lemma NoDup_fst_store_all off l : NoDup (map fst (store_all off l)).
Proof.
  rewrite fst_store_all. apply FinFun.Injective_map_NoDup; [intros x y; lia|apply seq_NoDup].
Qed.

(** stores at distinct offsets *)
Lemma run_other l : forall m o, ~ In o (map fst l) -> run m l o = m o.
Proof.
  induction l as [|[a x] r IH]; intros m o H; [reflexivity|]. cbn [map fst In] in H.
  change (run (store m (a, x)) r o = m o). rewrite IH by tauto.
  unfold store. cbn. destruct (Z.eqb_spec o a); [subst; tauto|reflexivity].
Qed.
Lemma run_in l : forall m o v, NoDup (map fst l) -> In (o, v) l -> run m l o = v.
Proof.
  induction l as [|[a x] r IH]; intros m o v N H; [destruct H|]. cbn in N. inversion N as [|? ? Na Nr]. subst.
  destruct H as [E|H].
  - injection E as -> ->. change (run (store m (o, v)) r o = v). rewrite run_other by exact Na. unfold store. cbn. rewrite Z.eqb_refl. reflexivity.
  - change (run (store m (a, x)) r o = v). apply IH; assumption.
Qed.

Lemma fills_concat esz ts content : concat ts = store_all 0 content -> fills (Stores esz ts) esz content.
Proof.
  intros E. exists ts. split; [reflexivity|]. intros order m o I. apply interleaving_perm in I. rewrite E in I.
  assert (N : NoDup (map fst order)).
  { apply (Permutation_NoDup (l := map fst (store_all 0 content))); [apply Permutation_map; exact I|apply NoDup_fst_store_all]. }
  destruct (vget content o) as [x|] eqn:V.
  - apply run_in; [exact N|]. apply (Permutation_in _ I). apply In_store_all. exists o. split; [exact V|lia].
  - apply run_other. intros H. apply (Permutation_in _ (Permutation_map fst (Permutation_sym I))) in H.
    apply in_map_iff in H. destruct H as ([o' v] & E' & H). cbn in E'. subst o'. apply In_store_all in H.
    destruct H as (i & H & Ei). replace i with o in H by lia. congruence.
Qed.

(** ** Blocks *)

Fixpoint chain (a : Z) (bs : list block) (z : Z) : Prop :=
  match bs with
  | [] => a = z
  | b :: r => bfirst b = a /\ a <= blast b /\ chain (blast b) r z
  end.

Lemma chain_le bs : forall a z, chain a bs z -> a <= z.
Proof. induction bs as [|b r IH]; intros a z; cbn; [lia|]. intros (E & L & C). apply IH in C. lia. Qed.

Lemma chain_app bs1 : forall a b bs2 z, chain a bs1 b -> chain b bs2 z -> chain a (bs1 ++ bs2) z.
Proof.
  induction bs1 as [|x r IH]; intros a b bs2 z; cbn; [intros ->; auto|]. intros (E & L & C) D. split; [exact E|].
  split; [exact L|]. eapply IH; eassumption.
Qed.

Lemma submit_chain n : forall start b l s, 0 <= b -> submit_blocks n start b = (l, s) -> chain start l s.
Proof.
  induction n as [|n IH]; intros start b l s Hb E; cbn [submit_blocks] in E.
  - injection E as <- <-. reflexivity.
  - destruct (submit_blocks n (start + b) b) as [l' s'] eqn:E'. injection E as <- <-. cbn [chain bfirst blast].
    split; [reflexivity|]. split; [lia|]. eapply IH; eassumption.
Qed.

Lemma par_blocks_ok pool len grain :
  1 <= len -> 0 <= pool < 2 ^ 32 - 1 -> 1 <= grain -> len + grain - 1 < 2 ^ 32 ->
  exists bs n b, par_blocks pool len grain = Some bs /\ chain 0 bs len /\
    (forall x, In x bs -> bfirst x < blast x) /\
    get_scheduling_parameters len (pool + 1) grain = SchedOk n b /\ zlen bs = n /\ 1 <= n /\ 1 <= b /\ n * b <= len /\
    n = Z.min (pool + 1) ((len + grain - 1) / grain) /\
    (forall k x, vget bs k = Some x -> bfirst x = k * b).
Proof.
  intros Hl Hp Hg Ho. unfold par_blocks, parallel_for_plan.
  assert (W1 : wrap32 len = len) by (unfold wrap32; apply Z.mod_small; lia).
  assert (W2 : wrap32 (pool + 1) = pool + 1) by (unfold wrap32; apply Z.mod_small; lia). rewrite W1, W2.
  destruct (sched_ok len (pool + 1) grain) as (n & b & E & Hn & Hb & Hnb & Q); [lia|lia|lia|lia|]. rewrite E.
  destruct (Z.ltb_spec pool (n - 1)); [lia|].
  destruct (submit_blocks (Z.to_nat (n - 1)) 0 b) as [l s] eqn:Es.
  assert (Hb0 : 0 <= b) by lia.
  pose proof (submit_blocks_spec _ _ _ _ _ Hb0 Es) as (S1 & S2 & S3 & S4).
  pose proof (submit_chain _ _ _ _ _ Hb0 Es) as SC.
  rewrite Z2Nat.id in S1 by lia.
  assert (Sl : s + b <= len) by (rewrite S1; replace (0 + (n - 1) * b + b) with (n * b) by ring; exact Hnb).
  exists (l ++ [Blk s len]), n, b. split; [reflexivity|]. split; [|split; [|split; [|split; [|split; [|split; [|split; [|split]]]]]]].
  - eapply chain_app; [exact SC|]. cbn. split; [reflexivity|]. split; [lia|reflexivity].
  - intros x Hx. apply in_app_iff in Hx. destruct Hx as [Hx|[<-|[]]].
    + apply In_nth_error in Hx. destruct Hx as [i Hi]. destruct (S4 i x Hi) as [A B]. rewrite A, B. nia.
    + cbn. lia.
  - exact eq_refl.
  - rewrite zlen_app. unfold zlen. rewrite S2. cbn. lia.
  - lia.
  - lia.
  - lia.
  - exact Q.
  - intros k x Hx. pose proof (vget_Some_range _ _ _ Hx) as R. unfold vget in Hx. destruct (Z.ltb_spec k 0); [discriminate|].
    destruct (Nat.lt_ge_cases (Z.to_nat k) (length l)) as [L|L].
    + rewrite nth_error_app1 in Hx by exact L. destruct (S4 _ _ Hx) as [A _]. rewrite A. lia.
    + rewrite nth_error_app2 in Hx by exact L. rewrite zlen_app in R. unfold zlen in R. cbn in R.
      replace (Z.to_nat k - length l)%nat with O in Hx by lia. cbn in Hx. injection Hx as <-. cbn. rewrite S1, S2 in *. nia.
Qed.

Lemma sub_len {A} (l : list A) b : 0 <= bfirst b -> bfirst b <= blast b <= zlen l -> zlen (sub l b) = blast b - bfirst b.
Proof.
  intros H0 H. unfold sub, zlen in *. rewrite firstn_length, skipn_length. lia.
Qed.

Lemma sub_split {A} (l : list A) a b z : 0 <= a <= b -> b <= z ->
  sub l (Blk a z) = sub l (Blk a b) ++ sub l (Blk b z).
Proof.
  intros H1 H2. unfold sub. cbn [bfirst blast].
  replace (Z.to_nat (z - a)) with (Z.to_nat (b - a) + Z.to_nat (z - b))%nat by lia.
  replace (Z.to_nat b) with (Z.to_nat (b - a) + Z.to_nat a)%nat by lia.
  set (p := Z.to_nat (b - a)). set (q := Z.to_nat (z - b)). set (k := Z.to_nat a). clearbody p q k. clear.
  rewrite <- (firstn_skipn p (firstn (p + q) (skipn k l))).
  rewrite firstn_firstn. replace (min p (p + q)) with p by lia. f_equal.
  rewrite skipn_firstn_comm. replace (p + q - p)%nat with q by lia. f_equal.
  revert l. induction k as [|k IH]; intros l.
  - rewrite Nat.add_0_r. reflexivity.
  - replace (p + S k)%nat with (S (p + k)) by lia. destruct l as [|x l]; [destruct p; reflexivity|]. cbn [skipn]. apply IH.
Qed.

Lemma sub_all {A} (l : list A) : sub l (Blk 0 (zlen l)) = l.
Proof. unfold sub, zlen. cbn. rewrite Z.sub_0_r, Nat2Z.id. apply firstn_all. Qed.

Lemma sub_nil {A} (l : list A) a : sub l (Blk a a) = [].
Proof. unfold sub. cbn. rewrite Z.sub_diag. reflexivity. Qed.

Lemma blk_eta b : b = Blk (bfirst b) (blast b).
Proof. destruct b. reflexivity. Qed.

(** a block function that behaves additively on the blocks of a chain *)
Lemma concat_blocks {A} (l : list A) (f F : Z -> list A -> list (Z * Z)) bs :
  (forall a, F a [] = []) ->
  (forall a x y, F a (x ++ y) = F a x ++ F (a + zlen x) y) ->
  (forall b, In b bs -> f (bfirst b) (sub l b) = F (bfirst b) (sub l b)) ->
  forall a z, 0 <= a -> z <= zlen l -> chain a bs z ->
  concat (map (fun b => f (bfirst b) (sub l b)) bs) = F a (sub l (Blk a z)).
Proof.
  intros F0 FA. induction bs as [|b r IH]; intros Hf a z Ha Hz C; cbn in C.
  - subst. rewrite sub_nil, F0. reflexivity.
  - destruct C as (E & L & C). cbn [map concat]. rewrite Hf by (left; reflexivity).
    pose proof (chain_le _ _ _ C) as CL.
    rewrite (IH (fun x Hx => Hf x (or_intror Hx)) (blast b) z) by (assumption || lia).
    rewrite (sub_split l a (blast b) z) by lia. rewrite FA.
    rewrite (blk_eta b) at 2. rewrite E. f_equal.
    rewrite sub_len; cbn [bfirst blast]; [|lia|lia]. f_equal. lia.
Qed.

Lemma par_stores_concat {A} pool grain esz (l : list A) f F content :
  1 <= zlen l -> 0 <= pool < 2 ^ 32 - 1 -> 1 <= grain -> zlen l + grain - 1 < 2 ^ 32 ->
  (forall a, F a [] = []) ->
  (forall a x y, F a (x ++ y) = F a x ++ F (a + zlen x) y) ->
  (forall b, 0 <= bfirst b -> blast b <= zlen l -> bfirst b < blast b -> f (bfirst b) (sub l b) = F (bfirst b) (sub l b)) ->
  F 0 l = store_all 0 content ->
  fills (par_stores pool grain esz l f) esz content.
Proof.
  intros Hl Hp Hg Ho F0 FA Hf HF. unfold par_stores.
  destruct (par_blocks_ok pool (zlen l) grain Hl Hp Hg Ho) as (bs & n & b & E & C & P & _). rewrite E.
  apply fills_concat. rewrite (concat_blocks l f F bs F0 FA) with (a := 0) (z := zlen l); try lia; try exact C.
  - rewrite sub_all. exact HF.
  - intros x Hx. assert (B : 0 <= bfirst x /\ blast x <= zlen l).
    { clear - C Hx. assert (G : forall bs a, chain a bs (zlen l) -> 0 <= a -> In x bs -> 0 <= bfirst x /\ blast x <= zlen l).
      { clear. induction bs as [|y r IH]; intros a C Ha H; [destruct H|]. cbn in C. destruct C as (E & L & C). destruct H as [->|H].
        - split; [lia|]. apply chain_le in C. exact C.
        - apply (IH (blast y)); [exact C|lia|exact H]. }
      apply (G bs 0 C); [lia|exact Hx]. }
    apply Hf; [lia|lia|apply P; exact Hx].
Qed.
