From Coq Require Import List ZArith Lia Permutation.
From Verif Require Import Vec VecLemmas ParModel ParSpec.
Import ListNotations.
Open Scope Z_scope.

Lemma sched_ok len avail mn :
  1 <= len -> 1 <= avail -> 1 <= mn -> len + mn - 1 < 2 ^ 32 ->
  exists n b, get_scheduling_parameters len avail mn = SchedOk n b /\
    1 <= n <= avail /\ 1 <= b /\ n * b <= len /\ n = Z.min avail ((len + mn - 1) / mn).
Proof.
  intros Hl Ha Hm Ho. unfold get_scheduling_parameters.
  destruct (Z.eqb_spec mn 0); [lia|]. cbv zeta.
  assert (W : wrap32 (len + mn - 1) = len + mn - 1) by (unfold wrap32; apply Z.mod_small; lia). rewrite W.
  destruct (Z.eqb_spec avail 0); [lia|]. cbn [negb].
  set (mx := (len + mn - 1) / mn).
  assert (M1 : 1 <= mx). { unfold mx. apply Z.div_le_lower_bound; lia. }
  assert (M2 : mx <= len). { unfold mx. apply Z.div_le_upper_bound; [lia|]. nia. }
  destruct (Z.eqb_spec (Z.min avail mx) 0); [lia|]. cbn [orb].
  destruct (Z.ltb_spec avail (Z.min avail mx)); [lia|].
  destruct (Z.eqb_spec mx 0); [lia|].
  assert (B : 1 <= len / Z.min avail mx). { apply Z.div_le_lower_bound; lia. }
  destruct (Z.eqb_spec (len / Z.min avail mx) 0); [lia|].
  exists (Z.min avail mx), (len / Z.min avail mx). split; [reflexivity|].
  split; [lia|]. split; [exact B|]. split; [apply Z.mul_div_le; lia | reflexivity].
Qed.

Lemma zseq_shift m a s s' : s' = s + Z.of_nat a ->
  map (fun k => s' + Z.of_nat k) (seq 0 m) = map (fun k => s + Z.of_nat k) (seq (0 + a) m).
Proof.
  intros ->. rewrite Nat.add_0_l. revert a. induction m as [|m IH]; intros a; [reflexivity|].
  cbn [seq map]. f_equal; [lia|].
  rewrite <- seq_shift, map_map. specialize (IH (S a)). rewrite <- IH. apply map_ext. intros k. lia.
Qed.

Lemma submit_blocks_spec n : forall start b l s, 0 <= b ->
  submit_blocks n start b = (l, s) ->
  s = start + Z.of_nat n * b /\ length l = n /\
  concat (map elements l) = map (fun k => start + Z.of_nat k) (seq 0 (Z.to_nat (Z.of_nat n * b))) /\
  forall i blk, nth_error l i = Some blk -> bfirst blk = start + Z.of_nat i * b /\ blast blk = start + Z.of_nat (S i) * b.
Proof.
  induction n as [|n IH]; intros start b l s Hb E; cbn [submit_blocks] in E.
  - injection E as <- <-. repeat split; try (cbn; lia).
    + destruct i; discriminate.
    + destruct i; discriminate.
  - destruct (submit_blocks n (start + b) b) as [l' s'] eqn:E'. injection E as <- <-.
    destruct (IH _ _ _ _ Hb E') as (-> & Hlen & Hc & Hn). split; [lia|]. split; [cbn; lia|]. split.
    + cbn [map concat]. rewrite Hc. unfold elements at 1. cbn [bfirst blast].
      replace (start + b - start) with b by lia.
      replace (Z.to_nat (Z.of_nat (S n) * b)) with (Z.to_nat b + Z.to_nat (Z.of_nat n * b))%nat by nia.
      rewrite seq_app, map_app. f_equal.
      apply zseq_shift. lia.
    + intros [|i] blk H.
      * injection H as <-. cbn [bfirst blast]. lia.
      * apply Hn in H. lia.
Qed.

Lemma plan_ok pool len mn :
  1 <= len -> 0 <= pool < 2 ^ 32 - 1 -> 1 <= mn -> len + mn - 1 < 2 ^ 32 ->
  exists workers master,
    parallel_for_plan pool len mn = PlanOk workers master /\
    zlen workers <= pool /\
    concat (map elements (workers ++ [master])) = zrange len /\
    (forall b, In b (workers ++ [master]) -> bfirst b < blast b) /\
    (forall b, In b workers -> blast b - bfirst b <= blast master - bfirst master).
Proof.
  intros Hl Hp Hm Ho. unfold parallel_for_plan.
  assert (W1 : wrap32 len = len) by (unfold wrap32; apply Z.mod_small; lia).
  assert (W2 : wrap32 (pool + 1) = pool + 1) by (unfold wrap32; apply Z.mod_small; lia).
  rewrite W1, W2.
  destruct (sched_ok len (pool + 1) mn) as (n & b & E & Hn & Hb & Hnb & _); [lia|lia|lia|lia|]. rewrite E.
  destruct (Z.ltb_spec pool (n - 1)); [lia|].
  destruct (submit_blocks (Z.to_nat (n - 1)) 0 b) as [l s] eqn:Es.
  assert (Hb0 : 0 <= b) by lia.
  destruct (submit_blocks_spec _ _ _ _ _ Hb0 Es) as (-> & Hlen & Hc & Hnth).
  exists l, (Blk (0 + Z.of_nat (Z.to_nat (n - 1)) * b) len). split; [reflexivity|].
  assert (Lt : (n - 1) * b < len) by nia.
  assert (Inb : forall x, In x l -> blast x - bfirst x = b).
  { intros x Hx. apply In_nth_error in Hx. destruct Hx as [i Hi]. apply Hnth in Hi. lia. }
  split; [unfold zlen; lia|]. split; [|split].
  - rewrite map_app, concat_app, Hc. cbn [map concat]. rewrite app_nil_r. unfold elements, zrange. cbn [bfirst blast].
    rewrite Z2Nat.id by lia.
    replace (Z.to_nat len) with (Z.to_nat ((n - 1) * b) + Z.to_nat (len - (0 + (n - 1) * b)))%nat by nia.
    rewrite seq_app, map_app. f_equal. apply (zseq_shift _ (Z.to_nat ((n - 1) * b)) 0). nia.
  - intros x Hx. apply in_app_or in Hx. destruct Hx as [Hx|[<-|[]]]; [specialize (Inb x Hx); lia | cbn; lia].
  - intros x Hx. rewrite (Inb x Hx). cbn [bfirst blast]. nia.
Qed.

Lemma interleaving_perm {A} (ls : list (list A)) l : interleaving ls l -> Permutation (concat ls) l.
Proof.
  induction 1 as [ls H|pre a l post rest H IH].
  - replace (concat ls) with (@nil A); [constructor|]. symmetry. induction ls as [|x r IH]; [reflexivity|].
    cbn. rewrite (H x (or_introl eq_refl)), IH; [reflexivity|]. intros y Hy. apply H. right. exact Hy.
  - rewrite concat_app in *. cbn [concat] in *. rewrite <- app_comm_cons.
    rewrite <- Permutation_middle. constructor. exact IH.
Qed.

Lemma fold_perm {S} (step : Z -> S -> S) l l' s :
  independent step -> NoDup l -> Permutation l l' ->
  fold_left (fun x i => step i x) l s = fold_left (fun x i => step i x) l' s.
Proof.
  intros Ind Nd P. revert s. induction P as [|x l l' P IH|x y l|l1 l2 l3 P1 IH1 P2 IH2]; intros s.
  - reflexivity.
  - cbn. apply IH. inversion Nd; assumption.
  - cbn. rewrite Ind; [reflexivity|]. inversion Nd as [|? ? H1 H2]; subst. cbn in H1. intros ->. tauto.
  - rewrite IH1 by exact Nd. apply IH2. eapply Permutation_NoDup; eassumption.
Qed.

Lemma parallel_eq_sequential {S} pool len mn (step : Z -> S -> S) s s' :
  1 <= len -> 0 <= pool < 2 ^ 32 - 1 -> 1 <= mn -> len + mn - 1 < 2 ^ 32 ->
  independent step -> parallel_execution pool len mn step s s' -> s' = sequential_loop step len s.
Proof.
  intros Hl Hp Hm Ho Ind (w & m & order & E & I & ->).
  destruct (plan_ok pool len mn Hl Hp Hm Ho) as (w' & m' & E' & _ & C & _). rewrite E in E'. injection E' as <- <-.
  apply interleaving_perm in I. rewrite C in I. unfold sequential_loop. symmetry.
  apply fold_perm; [exact Ind | apply NoDup_zrange | exact I].
Qed.

Lemma interleaving_seq {A} (ls : list (list A)) : interleaving ls (concat ls).
Proof.
  assert (G : forall n pre (ls : list (list A)), n = length (concat ls) -> (forall l, In l pre -> l = []) -> interleaving (pre ++ ls) (concat ls)).
  { induction n as [n IH] using lt_wf_ind. intros pre l0. revert pre. induction l0 as [|x r IHr]; intros pre En Hp.
    - cbn. constructor. rewrite app_nil_r. exact Hp.
    - destruct x as [|a x].
      + cbn [concat app]. replace (pre ++ [] :: r) with ((pre ++ [[]]) ++ r) by (rewrite <- app_assoc; reflexivity).
        apply IHr; [exact En|]. intros l Hl. apply in_app_or in Hl. destruct Hl as [Hl|[<-|[]]]; auto.
      + cbn [concat]. rewrite <- app_comm_cons. constructor.
        apply (IH (length (concat (x :: r)))); [subst n; cbn; lia | reflexivity | exact Hp]. }
  apply (G _ [] ls eq_refl). intros l [].
Qed.

Lemma parallel_execution_exists {S} pool len mn (step : Z -> S -> S) s :
  1 <= len -> 0 <= pool < 2 ^ 32 - 1 -> 1 <= mn -> len + mn - 1 < 2 ^ 32 ->
  exists s', parallel_execution pool len mn step s s'.
Proof.
  intros Hl Hp Hm Ho. destruct (plan_ok pool len mn Hl Hp Hm Ho) as (w & m & E & _).
  eexists. exists w, m, (concat (map elements (w ++ [m]))). split; [exact E|]. split; [apply interleaving_seq|reflexivity].
Qed.
