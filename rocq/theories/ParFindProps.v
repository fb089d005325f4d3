(** Property C48 (parallel search), its invariant and its theorems. *)
From Coq Require Import List ZArith Lia Bool.
From Verif Require Import Vec VecLemmas ParModel ParProofs ParSumModel ParSumProofs ParFindModel.
Import ListNotations.
Open Scope Z_scope.

Section Inv.
Variables (c : cfg) (hit : Z -> bool).
Hypothesis (G : good_cfg c).
Let F i := blk_first c i.
Let E i := blk_end c i.

Lemma fblk i : 0 <= i < c_n c -> 0 <= F i < E i /\ E i <= c_len c.
Proof.
  intros Hi. destruct G as (G1 & G2 & G3). unfold F, E, blk_first, blk_end, blk_last.
  destruct (Z.eqb_spec i (c_n c - 1)); nia.
Qed.
Lemma fcover k : 0 <= k < c_len c -> exists i, 0 <= i < c_n c /\ F i <= k < E i.
Proof.
  intros Hk. destruct G as (G1 & G2 & G3).
  destruct (Z_lt_le_dec k ((c_n c - 1) * c_bs c)) as [K|K].
  - exists (k / c_bs c). pose proof (Z.div_mod k (c_bs c) ltac:(lia)). pose proof (Z.mod_pos_bound k (c_bs c) ltac:(lia)).
    assert (k / c_bs c < c_n c - 1) by (apply Z.div_lt_upper_bound; lia).
    pose proof (Z.div_pos k (c_bs c) ltac:(lia) ltac:(lia)).
    split; [lia|]. unfold F, E, blk_first, blk_end, blk_last. destruct (Z.eqb_spec (k / c_bs c) (c_n c - 1)); nia.
  - exists (c_n c - 1). split; [lia|]. unfold F, E, blk_first, blk_end, blk_last. rewrite Z.eqb_refl. lia.
Qed.

Definition searching (p : fphase) : Prop := match p with FScan _ | FSet _ | FStore => True | _ => False end.

(** result part *)
Record RInv (s : fstate) : Prop := {
  r_done : fdone s = true -> fres s <> None;
  r_res : forall k, fres s = Some k -> 0 <= k < c_len c /\ hit k = true;
  r_pend : fres s <> None -> fdone s = true \/ exists i, 0 <= i < c_n c /\ fpc s i = FStore;
  r_pc : forall i, 0 <= i < c_n c ->
    match fpc s i with
    | FScan k => F i <= k <= E i /\ forall j, F i <= j < k -> hit j = false
    | FSet k => F i <= k < E i /\ hit k = true
    | FStore => fres s <> None
    | _ => fres s <> None \/ forall j, F i <= j < E i -> hit j = false
    end }.

(** barrier part *)
Definition arrived (p : fphase) : Z := match p with BReset | BInc | BSpin _ | FDone => 1 | _ => 0 end.
Definition count (s : fstate) : Z := fold_right Z.add 0 (map (fun i => arrived (fpc s i)) (zrange (c_n c))).
Definition early (p : fphase) : Prop := match p with BReset | BInc | FDone => False | BDec g | BSpin g => g = 0 | _ => True end.
Definition BInv (s : fstate) : Prop :=
  (fgen s = 0 /\ fspaces s = c_n c - count s /\ 0 < fspaces s /\ forall i, 0 <= i < c_n c -> early (fpc s i)) \/
  (fgen s = 0 /\ exists i, 0 <= i < c_n c /\ (fpc s i = BReset \/ fpc s i = BInc) /\
                           forall j, 0 <= j < c_n c -> j <> i -> fpc s j = BSpin 0) \/
  (fgen s = 1 /\ forall j, 0 <= j < c_n c -> fpc s j = BSpin 0 \/ fpc s j = FDone).

Lemma count_upd f i p : 0 <= i < c_n c ->
  fold_right Z.add 0 (map (fun j => arrived (zupd f i p j)) (zrange (c_n c))) =
  fold_right Z.add 0 (map (fun j => arrived (f j)) (zrange (c_n c))) + arrived p - arrived (f i).
Proof.
  intros Hi. apply In_zrange in Hi. pose proof (NoDup_zrange (c_n c)) as Nd.
  induction (zrange (c_n c)) as [|x r IH]; [destruct Hi|]. inversion Nd as [|? ? N1 N2]; subst. cbn.
  destruct Hi as [->|Hi].
  - rewrite zupd_same. assert (map (fun j => arrived (zupd f i p j)) r = map (fun j => arrived (f j)) r) as ->.
    { apply map_ext_in. intros j Hj. rewrite zupd_other; [reflexivity|]. intros ->. contradiction. } lia.
  - rewrite zupd_other by (intros ->; contradiction). rewrite IH by assumption. lia.
Qed.

Lemma count_all (f : Z -> fphase) l :
  fold_right Z.add 0 (map (fun j => arrived (f j)) l) = Z.of_nat (length l) -> forall j, In j l -> arrived (f j) = 1.
Proof.
  assert (B : forall r, fold_right Z.add 0 (map (fun j => arrived (f j)) r) <= Z.of_nat (length r)).
  { induction r as [|x r IH]; cbn [map fold_right length]; [lia|]. assert (arrived (f x) <= 1) by (destruct (f x); cbn; lia). lia. }
  induction l as [|x r IH]; intros H j Hj; [destruct Hj|]. cbn [map fold_right length] in H.
  specialize (B r). assert (arrived (f x) <= 1) by (destruct (f x); cbn; lia).
  destruct Hj as [->|Hj]; [lia|]. apply IH; [lia|exact Hj].
Qed.

Lemma finit_R : RInv (finit c).
Proof.
  constructor; cbn; try discriminate; try congruence. intros i Hi. pose proof (fblk i Hi). split; [unfold F in *; lia|]. unfold F. intros; lia.
Qed.
Lemma finit_B : BInv (finit c).
Proof.
  left. cbn. assert (Z0 : count (finit c) = 0).
  { unfold count. cbn. induction (zrange (c_n c)) as [|x r IH]; cbn; [reflexivity|exact IH]. }
  rewrite Z0. destruct G. repeat split; try lia.
Qed.

Lemma fstep_R s i s' : RInv s -> 0 <= i < c_n c -> fstep c hit s i = Some s' -> RInv s'.
Proof.
  intros R Hi St. pose proof (r_pc s R i Hi) as P. pose proof (fblk i Hi) as Fb. unfold fstep in St.
  assert (Keep : forall p, fpc s i <> FStore ->
    match p with
    | FScan k => F i <= k <= E i /\ forall j, F i <= j < k -> hit j = false
    | FSet k => F i <= k < E i /\ hit k = true
    | FStore => fres s <> None
    | _ => fres s <> None \/ forall j, F i <= j < E i -> hit j = false
    end -> forall sp g, RInv (FSt (fdone s) (fres s) sp g (zupd (fpc s) i p))).
  { intros p NS Hp sp g. constructor; cbn; try apply R.
    - intros Hr. destruct (r_pend s R Hr) as [D|(j & Hj & Ej)]; [left; exact D|]. right. exists j. split; [exact Hj|].
      rewrite zupd_other; [exact Ej|]. intros ->. contradiction.
    - intros j Hj. destruct (Z.eq_dec j i) as [->|N]; [rewrite zupd_same; exact Hp|].
      rewrite zupd_other by exact N. apply (r_pc s R j Hj). }
  destruct (fpc s i) as [k|k| | |g| | |g|] eqn:Ep.
  - destruct P as [P1 P2]. destruct (Z.eqb_spec k (blk_end c i)) as [Ek|Nk]; cbn [negb andb] in St.
    + injection St as <-. apply Keep; [discriminate|]. right. intros j Hj. apply P2. unfold E in *. lia.
    + destruct (fdone s) eqn:Ed; cbn [negb] in St.
      * injection St as <-. apply Keep; [discriminate|]. left. apply (r_done s R). exact Ed.
      * injection St as <-. apply Keep; [discriminate|]. destruct (hit k) eqn:Eh.
        -- split; [unfold E in *; lia|exact Eh].
        -- split; [unfold E in *; lia|]. intros j Hj. destruct (Z.eq_dec j k) as [->|]; [exact Eh|]. apply P2. lia.
  - destruct (fres s) as [k'|] eqn:Er; injection St as <-.
    + apply Keep; [discriminate|]. left. congruence.
    + constructor; cbn; try discriminate.
      * intros k0 E0. injection E0 as <-. split; [|apply P]. destruct P. unfold E in *. lia.
      * intros _. right. exists i. split; [exact Hi|apply zupd_same].
      * intros j Hj. destruct (Z.eq_dec j i) as [->|N]; [rewrite zupd_same; discriminate|].
        rewrite zupd_other by exact N. pose proof (r_pc s R j Hj) as Q.
        destruct (fpc s j); try exact Q; try discriminate; left; discriminate.
  - injection St as <-. constructor; cbn; try apply R.
    + intros _. exact P.
    + intros _. left. reflexivity.
    + intros j Hj. destruct (Z.eq_dec j i) as [->|N]; [rewrite zupd_same; left; exact P|].
      rewrite zupd_other by exact N. apply (r_pc s R j Hj).
  - injection St as <-. apply Keep; [discriminate|exact P].
  - injection St as <-. apply Keep; [discriminate|]. destruct (_ =? 0); exact P.
  - injection St as <-. apply Keep; [discriminate|exact P].
  - injection St as <-. apply Keep; [discriminate|exact P].
  - destruct (fgen s =? g); [discriminate|]. injection St as <-. apply Keep; [discriminate|exact P].
  - discriminate.
Qed.

Lemma fstep_B s i s' : BInv s -> 0 <= i < c_n c -> fstep c hit s i = Some s' -> BInv s'.
Proof.
  intros B Hi St. destruct B as [(B1 & B2 & B3 & B4)|[(B1 & q & Hq & Pq & B2)|(B1 & B2)]].
  - assert (Ke : forall p d r, arrived p = 0 -> early p -> arrived (fpc s i) = 0 ->
             BInv (FSt d r (fspaces s) (fgen s) (zupd (fpc s) i p))).
    { intros p d r A1 A2 A3. left. cbn. unfold count in *. cbn [fpc]. rewrite count_upd by exact Hi.
      rewrite A1, A3. repeat split; try lia. intros j Hj. destruct (Z.eq_dec j i) as [->|N];
      [rewrite zupd_same; exact A2 | rewrite zupd_other by exact N; apply B4; exact Hj]. }
    pose proof (B4 i Hi) as Ei. unfold fstep in St. destruct (fpc s i) as [k|k| | |g| | |g|] eqn:Ep; cbn in Ei; try contradiction.
    + destruct (negb (k =? blk_end c i) && negb (fdone s)); injection St as <-; [|apply Ke; cbn; auto].
      destruct (hit k); apply Ke; cbn; auto.
    + destruct (fres s); injection St as <-; apply Ke; cbn; auto.
    + injection St as <-; apply Ke; cbn; auto.
    + injection St as <-; apply Ke; cbn; auto.
    + injection St as <-. subst g. destruct (Z.eqb_spec (fspaces s - 1) 0) as [E0|N0].
      * right. left. cbn. split; [exact B1|]. exists i. split; [exact Hi|]. split; [left; apply zupd_same|].
        intros j Hj N. rewrite zupd_other by exact N.
        assert (A : arrived (zupd (fpc s) i BReset j) = 1).
        { apply count_all with (l := zrange (c_n c)) (f := zupd (fpc s) i BReset); [|apply In_zrange; exact Hj].
          rewrite count_upd by exact Hi. fold (count s). rewrite Ep. cbn. rewrite length_zrange. lia. }
        rewrite zupd_other in A by exact N. specialize (B4 j Hj). destruct (fpc s j); cbn in A, B4; try discriminate; try contradiction.
        subst. reflexivity.
      * left. cbn. unfold count in *. cbn [fpc]. rewrite count_upd by exact Hi. rewrite Ep. cbn. repeat split; try lia.
        intros j Hj. destruct (Z.eq_dec j i) as [->|N]; [rewrite zupd_same; reflexivity | rewrite zupd_other by exact N; apply B4; exact Hj].
    + rewrite B1 in St. subst g. discriminate.
  - unfold fstep in St. destruct (Z.eq_dec i q) as [->|N].
    + destruct Pq as [Pq|Pq]; rewrite Pq in St; injection St as <-.
      * right. left. cbn. split; [exact B1|]. exists q. split; [exact Hq|]. split; [right; apply zupd_same|].
        intros j Hj N. rewrite zupd_other by exact N. apply B2; assumption.
      * right. right. cbn. split; [lia|]. intros j Hj. destruct (Z.eq_dec j q) as [->|N]; [right; apply zupd_same|].
        left. rewrite zupd_other by exact N. apply B2; assumption.
    + rewrite (B2 i Hi N), B1 in St. discriminate.
  - unfold fstep in St. destruct (B2 i Hi) as [Ei|Ei]; rewrite Ei in St; [|discriminate]. rewrite B1 in St. cbn in St.
    injection St as <-. right. right. cbn. split; [reflexivity|]. intros j Hj. destruct (Z.eq_dec j i) as [->|N]; [right; apply zupd_same|].
    rewrite zupd_other by exact N. apply B2. exact Hj.
Qed.

Lemma freach_inv s : freach c hit s -> RInv s /\ BInv s.
Proof.
  induction 1 as [|s i s' R [I1 I2] Hi St]; [split; [apply finit_R|apply finit_B]|].
  split; [eapply fstep_R|eapply fstep_B]; eassumption.
Qed.

Lemma find_result s : freach c hit s -> find_by_key_returns c s ->
  exists r, find_value c s = Some r /\
    ((0 <= r < c_len c /\ hit r = true) \/ (r = c_len c /\ forall j, 0 <= j < c_len c -> hit j = false)).
Proof.
  intros R D. destruct (freach_inv s R) as [I _]. unfold find_value. destruct (fdone s) eqn:Ed.
  - destruct (fres s) as [k|] eqn:Er; [|exfalso; exact (r_done s I Ed Er)]. exists k. split; [reflexivity|]. left. apply (r_res s I). exact Er.
  - exists (c_len c). split; [reflexivity|]. right. split; [reflexivity|]. intros j Hj.
    destruct (fcover j Hj) as (i & Hi & Bi). pose proof (r_pc s I i Hi) as P. rewrite (D i Hi) in P.
    destruct P as [P|P]; [|apply P; exact Bi]. destruct (r_pend s I P) as [X|(q & Hq & X)]; [congruence|].
    rewrite (D q Hq) in X. discriminate.
Qed.

Lemma find_progress s : freach c hit s -> find_by_key_returns c s \/ exists i s', 0 <= i < c_n c /\ fstep c hit s i = Some s'.
Proof.
  intros R. destruct (freach_inv s R) as [_ [(B1 & B2 & B3 & B4)|[(B1 & q & Hq & Pq & B2)|(B1 & B2)]]].
  - right. assert (A : exists i, 0 <= i < c_n c /\ arrived (fpc s i) = 0).
    { destruct (Forall_dec (fun i => arrived (fpc s i) = 1) (fun i => Z.eq_dec _ _) (zrange (c_n c))) as [Fa|Fa].
      - exfalso. assert (count s = c_n c); [|lia]. unfold count. destruct G as (G1 & _).
        transitivity (Z.of_nat (length (zrange (c_n c)))); [|rewrite length_zrange; lia].
        clear -Fa. induction Fa as [|x l H Fa IH]; [reflexivity|]. cbn [map fold_right length]. rewrite H, IH. lia.
      - apply neg_Forall_Exists_neg in Fa; [|intros i; apply Z.eq_dec]. apply Exists_exists in Fa.
        destruct Fa as (i & Hi & A). exists i. split; [apply In_zrange; exact Hi|]. destruct (fpc s i); cbn in *; congruence. }
    destruct A as (i & Hi & A). exists i. unfold fstep. destruct (fpc s i); cbn in A; try discriminate.
    + destruct (_ && _); eexists; split; [exact Hi|reflexivity|exact Hi|reflexivity].
    + destruct (fres s); eexists; split; [exact Hi|reflexivity|exact Hi|reflexivity].
    + eexists; split; [exact Hi|reflexivity].
    + eexists; split; [exact Hi|reflexivity].
    + eexists; split; [exact Hi|reflexivity].
  - right. exists q. unfold fstep. destruct Pq as [Pq|Pq]; rewrite Pq; eexists; split; try exact Hq; reflexivity.
  - assert (fdone_dec : forall i, {fpc s i = FDone} + {fpc s i <> FDone}) by (intros i; destruct (fpc s i); (left; reflexivity) || (right; discriminate)).
    destruct (Forall_dec (fun i => fpc s i = FDone) fdone_dec (zrange (c_n c))) as [Fa|Fa].
    + left. intros i Hi. rewrite Forall_forall in Fa. apply Fa, In_zrange, Hi.
    + right. apply neg_Forall_Exists_neg in Fa; [|intros i; destruct (fdone_dec i); [left|right]; assumption].
      apply Exists_exists in Fa. destruct Fa as (i & Hi & A). apply In_zrange in Hi. exists i. unfold fstep.
      destruct (B2 i Hi) as [Ei|Ei]; [|contradiction]. rewrite Ei, B1. cbn. eauto.
Qed.

(** the barrier releases nobody before everybody has finished searching *)
Lemma find_barrier s : freach c hit s -> forall i j, 0 <= i < c_n c -> 0 <= j < c_n c -> fpc s i = FDone -> ~ searching (fpc s j).
Proof.
  intros R i j Hi Hj Ei. destruct (freach_inv s R) as [_ [(B1 & B2 & B3 & B4)|[(B1 & q & Hq & Pq & B2)|(B1 & B2)]]].
  - specialize (B4 i Hi). rewrite Ei in B4. destruct B4.
  - destruct (Z.eq_dec i q) as [->|N]; [destruct Pq; congruence|]. rewrite (B2 i Hi N) in Ei. discriminate.
  - destruct (B2 j Hj) as [->| ->]; cbn; tauto.
Qed.
End Inv.

Lemma frun_reach c hit sched s s' : (forall i, In i sched -> 0 <= i < c_n c) ->
  freach c hit s -> frun c hit sched s = Some s' -> freach c hit s'.
Proof.
  revert s. induction sched as [|i r IH]; intros s Hs R E; cbn in E; [injection E as <-; exact R|].
  destruct (fstep c hit s i) as [s1|] eqn:E1; [|discriminate]. cbn in E.
  apply (IH s1); [intros j Hj; apply Hs; right; exact Hj| |exact E].
  eapply fr_step; [exact R | apply Hs; left; reflexivity | exact E1].
Qed.

(** C48.  For every non-empty sequence and every pool, under every interleaving: the search
    returns a position of a matching element, or the end position if and only if no element
    matches; and it never gets stuck before it returns. *)
Theorem C48_parallel_search : forall pool len (hit : Z -> bool),
  1 <= len -> len + 1023 < 2 ^ 32 -> 0 <= pool < 2 ^ 32 - 1 ->
  exists c, find_cfg pool len = Some c /\
    (forall s, freach c hit s -> find_by_key_returns c s ->
      exists r, find_value c s = Some r /\
        ((0 <= r < len /\ hit r = true) \/ (r = len /\ forall j, 0 <= j < len -> hit j = false))) /\
    (forall s, freach c hit s -> find_by_key_returns c s \/ exists i s', 0 <= i < c_n c /\ fstep c hit s i = Some s').
Proof.
  intros pool len hit Hl Ho Hp. destruct (sum_cfg_good pool len Hl Hp Ho) as (c & E & G & <- & N).
  exists c. split; [exact E|]. split; intros s R; [intros D; apply find_result; assumption | apply find_progress; assumption].
Qed.
Print Assumptions C48_parallel_search.

(** C48, barrier: no thread leaves the search before all threads have stopped searching. *)
Theorem C48_barrier : forall pool len (hit : Z -> bool),
  1 <= len -> len + 1023 < 2 ^ 32 -> 0 <= pool < 2 ^ 32 - 1 ->
  exists c, find_cfg pool len = Some c /\
    forall s, freach c hit s -> forall i j, 0 <= i < c_n c -> 0 <= j < c_n c -> fpc s i = FDone -> ~ searching (fpc s j).
Proof.
  intros pool len hit Hl Ho Hp. destruct (sum_cfg_good pool len Hl Hp Ho) as (c & E & G & <- & N).
  exists c. split; [exact E|]. intros s R. eapply find_barrier; eassumption.
Qed.
Print Assumptions C48_barrier.

(** The sibling [parallel_find_if] (dead code at this commit: its only call, preproc.cpp:1599, is
    under [#if 0]) does not wait for the workers: it can return, destroying the barrier, while
    a worker still has to read it. *)
Theorem C48_find_if_dangling_barrier_refuted :
  exists pool len c s, find_cfg pool len = Some c /\ freach c (fun _ => false) s /\
    find_if_returns c s /\ exists g, fpc s 0 = BSpin g.
Proof.
  exists 1, 1025, (Cfg 1025 2 512).
  set (sched := repeat 0 (Z.to_nat 515) ++ repeat 1 (Z.to_nat 518)).
  destruct (frun (Cfg 1025 2 512) (fun _ => false) sched (finit (Cfg 1025 2 512))) as [s|] eqn:E.
  2:{ exfalso. revert E. vm_compute. discriminate. }
  exists s. split; [vm_compute; reflexivity|]. split; [|split].
  - eapply frun_reach; [|constructor|exact E]. unfold sched. intros i Hi.
    rewrite in_app_iff in Hi. destruct Hi as [Hi|Hi]; apply repeat_spec in Hi; subst; cbn; lia.
  - assert (X : option_map (fun s => fpc s 1) (frun (Cfg 1025 2 512) (fun _ => false) sched (finit (Cfg 1025 2 512))) = Some FDone)
      by (vm_compute; reflexivity).
    rewrite E in X. injection X as X. exact X.
  - exists 0. assert (X : option_map (fun s => fpc s 0) (frun (Cfg 1025 2 512) (fun _ => false) sched (finit (Cfg 1025 2 512))) = Some (BSpin 0))
      by (vm_compute; reflexivity).
    rewrite E in X. injection X as X. exact X.
Qed.
Print Assumptions C48_find_if_dangling_barrier_refuted.

(** A run with a match in the middle of the worker's block. *)
Example C48_instance :
  let c := Cfg 1025 2 512 in
  option_map (find_value c) (frun c (fun k => k =? 3) (repeat 0 (Z.to_nat 8) ++ repeat 1 (Z.to_nat 5) ++ [0]) (finit c)) = Some (Some 3).
Proof. vm_compute. reflexivity. Qed.
