(** Iteration over the mesh arrays. *)
From Coq Require Import List ZArith Lia Bool Permutation.
From Verif Require Import Vec VecLemmas HmeshModel HmeshSpec HmeshCore ParModel ParProofs HmeshParModel.
Import ListNotations.
Open Scope Z_scope.

Definition zspan (i j : Z) : list Z := map (fun k => i + Z.of_nat k) (seq 0 (Z.to_nat (j - i))).
Definition live (removed : list Z) (i : Z) : bool := if in_dec Z.eq_dec i removed then false else true.
Definition live_span removed i j := filter (live removed) (zspan i j).

Lemma zspan_nil i j : j <= i -> zspan i j = [].
Proof. intros H. unfold zspan. replace (Z.to_nat (j - i)) with O by lia. reflexivity. Qed.
Lemma zspan_cons i j : i < j -> zspan i j = i :: zspan (i + 1) j.
Proof.
  intros H. unfold zspan. replace (Z.to_nat (j - i)) with (S (Z.to_nat (j - (i + 1)))) by lia. cbn [seq map].
  f_equal; [lia|]. rewrite <- seq_shift, map_map. apply map_ext. intros k. lia.
Qed.
Lemma zspan_zrange n : zspan 0 n = zrange n.
Proof. unfold zspan, zrange. rewrite Z.sub_0_r. apply map_ext. intros; lia. Qed.
Lemma In_zspan i j x : In x (zspan i j) <-> i <= x < j.
Proof.
  unfold zspan. rewrite in_map_iff. split.
  - intros (k & <- & K). apply in_seq in K. lia.
  - intros H. exists (Z.to_nat (x - i)). split; [lia|]. apply in_seq. lia.
Qed.
Lemma zspan_app i j k : i <= j <= k -> zspan i k = zspan i j ++ zspan j k.
Proof.
  intros H. remember (Z.to_nat (j - i)) as n eqn:En. revert i H En. induction n as [|n IH]; intros i H En.
  - assert (i = j) by lia. subst. rewrite (zspan_nil j j) by lia. reflexivity.
  - rewrite (zspan_cons i k), (zspan_cons i j) by lia. cbn. f_equal. apply IH; lia.
Qed.
Lemma live_In removed i : live removed i = true <-> ~ In i removed.
Proof. unfold live. destruct (in_dec Z.eq_dec i removed); split; intros; congruence || tauto. Qed.
Lemma live_span_app removed i j k : i <= j <= k -> live_span removed i k = live_span removed i j ++ live_span removed j k.
Proof. intros H. unfold live_span. rewrite (zspan_app i j k H), filter_app. reflexivity. Qed.
Lemma live_span_removed removed i j : (forall k, i <= k < j -> In k removed) -> live_span removed i j = [].
Proof.
  intros H. unfold live_span. destruct (filter _ _) as [|x r] eqn:E; [reflexivity|]. exfalso.
  assert (K : In x (filter (live removed) (zspan i j))) by (rewrite E; left; reflexivity).
  apply filter_In in K. destruct K as [K1 K2]. apply In_zspan in K1. apply live_In in K2. apply K2, H, K1.
Qed.
Lemma live_span_zslots removed n : live_span removed 0 n = live_slots n removed.
Proof. unfold live_span, live_slots. rewrite zspan_zrange. reflexivity. Qed.

Lemma skip_spec fuel len removed : forall i, (Z.to_nat (len - i) <= fuel)%nat -> i <= len ->
  let j := skip_removed fuel len removed i in
  i <= j <= len /\ (forall k, i <= k < j -> In k removed) /\ (j < len -> ~ In j removed).
Proof.
  induction fuel as [|fuel IH]; intros i Hf Hi; cbn.
  - split; [lia|]. split; [intros; lia|lia].
  - destruct (Z.ltb_spec i len) as [L|L]; cbn [andb]; [|split; [lia|]; split; [intros; lia|lia]].
    unfold is_removed. destruct (zmem i removed) eqn:E.
    + destruct (IH (i + 1)) as (A & B & C); [lia|lia|]. split; [lia|]. split; [|exact C].
      intros k Hk. destruct (Z.eq_dec k i) as [->|N]; [apply zmem_In; exact E|]. apply B. lia.
    + split; [lia|]. split; [intros; lia|]. intros _. apply zmem_notIn. exact E.
Qed.

(** the loop from a live position (or the end) to a live position (or the end) *)
Lemma it_loop_spec fuel len removed last : forall i, (Z.to_nat (last - i) <= fuel)%nat -> 0 <= i <= last -> last <= len ->
  (i < last -> ~ In i removed) -> (last < len -> ~ In last removed) ->
  it_loop fuel len removed i last = Some (live_span removed i last).
Proof.
  induction fuel as [|fuel IH]; intros i Hf Hi Hl Hr Hlast; cbn.
  - destruct (Z.eqb_spec i last); [|lia]. unfold live_span. rewrite zspan_nil by lia. reflexivity.
  - destruct (Z.eqb_spec i last) as [->|N].
    + unfold live_span. rewrite zspan_nil by lia. reflexivity.
    + unfold it_next. destruct (skip_spec (Z.to_nat len) len removed (i + 1)) as (A & B & C); [lia|lia|].
      set (j := skip_removed (Z.to_nat len) len removed (i + 1)) in *.
      assert (Hj : j <= last).
      { destruct (Z_lt_le_dec last j) as [K|K]; [|exact K]. exfalso. apply Hlast; [lia|]. apply B. lia. }
      rewrite IH; [|lia|lia|lia|intros; apply C; lia|exact Hlast]. cbn [obind]. f_equal.
      unfold live_span at 2. rewrite zspan_cons by lia. cbn [filter]. replace (live removed i) with true by (symmetry; apply live_In; apply Hr; lia).
      f_equal. change (live_span removed j last = live_span removed (i + 1) last).
      rewrite (live_span_app removed (i + 1) j last) by lia. rewrite (live_span_removed removed (i + 1) j) by (intros; apply B; lia). reflexivity.
Qed.

Lemma iterate_spec len removed : 0 <= len -> iterate len removed = Some (live_slots len removed).
Proof.
  intros H. unfold iterate, it_begin. destruct (skip_spec (Z.to_nat len) len removed 0) as (A & B & C); [lia|lia|].
  set (j := skip_removed _ _ _ _) in *. rewrite it_loop_spec; [|lia|lia|lia|exact C|lia].
  rewrite <- live_span_zslots. rewrite (live_span_app removed 0 j len) by lia. rewrite (live_span_removed removed 0 j) by exact B. reflexivity.
Qed.

Lemma count_spec len removed : 0 <= len -> NoDup removed -> (forall x, In x removed -> 0 <= x < len) ->
  zlen (live_slots len removed) = len - zlen removed.
Proof.
  intros H N R.
  assert (P : Permutation (zrange len) (live_slots len removed ++ removed)).
  { apply NoDup_Permutation.
    - apply NoDup_zrange.
    - assert (X : forall a b : list Z, NoDup a -> NoDup b -> (forall x, In x a -> ~ In x b) -> NoDup (a ++ b)).
      { induction 1 as [|x a Hx Na IH]; intros Nb D; [exact Nb|]. cbn. constructor; [|apply IH; [exact Nb|intros y Hy; apply D; right; exact Hy]].
        rewrite in_app_iff. intros [K|K]; [contradiction|]. exact (D x (or_introl eq_refl) K). }
      apply X; [apply NoDup_filter, NoDup_zrange|exact N|]. intros x K. apply filter_In in K. apply live_In. apply K.
    - intros x. rewrite in_app_iff. unfold live_slots. rewrite filter_In, In_zrange. fold (live removed x). rewrite live_In.
      destruct (in_dec Z.eq_dec x removed); [|tauto]. specialize (R x i). tauto. }
  apply Permutation_length in P. rewrite app_length, length_zrange in P. unfold zlen. lia.
Qed.

(** ** parallel loops *)
Lemma live_span_len removed i j : 0 <= zlen (live_span removed i j) <= Z.max 0 (j - i).
Proof.
  unfold live_span, zlen. split; [lia|]. assert (X : forall (f : Z -> bool) l, (length (filter f l) <= length l)%nat).
  { induction l as [|a l IH]; cbn; [lia|]. destruct (f a); cbn; lia. }
  specialize (X (live removed) (zspan i j)). unfold zspan in X at 2. rewrite map_length, seq_length in X. lia.
Qed.

Lemma mesh_blocks_spec n len removed bs : forall start l s,
  0 <= start <= len -> 1 <= bs -> (start < len -> ~ In start removed) -> Z.of_nat n * bs <= zlen (live_span removed start len) ->
  mesh_blocks n len removed start bs = (l, s) ->
  start <= s <= len /\ (s < len -> ~ In s removed) /\
  (forall b, In b l -> start <= bfirst b <= blast b /\ blast b <= s /\ (bfirst b < len -> ~ In (bfirst b) removed) /\ (blast b < len -> ~ In (blast b) removed)) /\
  concat (map (fun b => live_span removed (bfirst b) (blast b)) l) = live_span removed start s /\
  zlen (live_span removed start len) - Z.of_nat n * bs <= zlen (live_span removed s len).
Proof.
  induction n as [|n IH]; intros start l s Hs Hb Hr Hn E; cbn [mesh_blocks] in E.
  - injection E as <- <-. split; [lia|]. split; [exact Hr|]. split; [intros b []|]. split; [unfold live_span; rewrite zspan_nil by lia; reflexivity|lia].
  - destruct (mesh_blocks n len removed (it_advance len removed start bs) bs) as [l' s'] eqn:E'. injection E as <- <-.
    assert (Lb : bs <= len - start).
    { pose proof (live_span_len removed start len). assert (bs <= Z.of_nat (S n) * bs) by nia. lia. }
    unfold it_advance in E' |- *. destruct (skip_spec (Z.to_nat len) len removed (start + bs)) as (A & B & C); [lia|lia|].
    set (j := skip_removed _ _ _ _) in *.
    assert (S1 : live_span removed start len = live_span removed start j ++ live_span removed j len) by (apply live_span_app; lia).
    assert (S2 : zlen (live_span removed start j) <= bs).
    { rewrite (live_span_app removed start (start + bs) j) by lia. rewrite (live_span_removed removed (start + bs) j) by exact B. rewrite app_nil_r.
      pose proof (live_span_len removed start (start + bs)). lia. }
    assert (Hn' : Z.of_nat n * bs <= zlen (live_span removed j len)) by (rewrite S1, zlen_app in Hn; lia).
    destruct (IH j l' s' ltac:(lia) Hb C Hn' E') as (D1 & D2 & D3 & D4 & D5).
    split; [lia|]. split; [exact D2|]. split; [|split].
    + intros b [<-|Hb']; cbn; [split; [lia|]; split; [lia|]; split; [exact Hr|exact C]|]. destruct (D3 b Hb') as (F1 & F2 & F3 & F4). split; [lia|]. auto.
    + cbn [map concat bfirst blast]. rewrite D4. symmetry. apply live_span_app. lia.
    + rewrite S1, zlen_app. lia.
Qed.

Lemma count_removed_spec len removed first : NoDup removed -> (forall x, In x removed -> 0 <= x < len) -> 0 <= first <= len ->
  edge_distance removed first len = zlen (live_span removed first len).
Proof.
  intros N R H. unfold edge_distance, count_removed_in_range.
  destruct (Z.eqb_spec (len - first) 0).
  - unfold live_span. rewrite zspan_nil by lia. unfold zlen. cbn. lia.
  - set (r := filter _ removed).
    assert (P : Permutation (zspan first len) (live_span removed first len ++ r)).
    { apply NoDup_Permutation.
      - unfold zspan. apply FinFun.Injective_map_NoDup; [intros x y; lia|apply seq_NoDup].
      - assert (X : forall a b : list Z, NoDup a -> NoDup b -> (forall x, In x a -> ~ In x b) -> NoDup (a ++ b)).
        { induction 1 as [|x a Hx Na IH]; intros Nb D; [exact Nb|]. cbn. constructor; [|apply IH; [exact Nb|intros y Hy; apply D; right; exact Hy]].
          rewrite in_app_iff. intros [K|K]; [contradiction|]. exact (D x (or_introl eq_refl) K). }
        apply X.
        + apply NoDup_filter. unfold zspan. apply FinFun.Injective_map_NoDup; [intros x y; lia|apply seq_NoDup].
        + apply NoDup_filter. exact N.
        + intros x K K'. apply filter_In in K. apply filter_In in K'. destruct K as [_ K]. apply live_In in K. apply K, K'.
      - intros x. rewrite in_app_iff. unfold live_span, r. rewrite !filter_In, In_zspan, live_In, andb_true_iff, Z.leb_le, Z.leb_le.
        destruct (in_dec Z.eq_dec x removed) as [I|I]; [|tauto]. specialize (R x I). split; [intros; right; split; [exact I|lia]|]. intros [[_ K]|[_ K]]; [contradiction|lia]. }
    apply Permutation_length in P. rewrite app_length in P. unfold zspan in P at 1. rewrite map_length, seq_length in P. unfold zlen. lia.
Qed.

Lemma edge_loop_spec pool len removed mn : NoDup removed -> (forall x, In x removed -> 0 <= x < len) ->
  live_slots len removed <> [] -> 0 <= pool < 2 ^ 32 - 1 -> 1 <= mn -> 0 <= len -> len + mn - 1 < 2 ^ 32 ->
  exists workers master parts, mesh_parallel_for_plan edge_distance pool len removed mn = PlanOk workers master /\
    zlen workers <= pool /\
    omap (mesh_block_elements len removed) (workers ++ [master]) = Some parts /\ concat parts = live_slots len removed.
Proof.
  intros N R Ne Hp Hm Hl Hw. unfold mesh_parallel_for_plan, it_begin.
  destruct (skip_spec (Z.to_nat len) len removed 0) as (A & B & C); [lia|lia|]. set (first := skip_removed _ _ _ _) in *.
  rewrite count_removed_spec by (assumption || lia).
  assert (Es : live_span removed first len = live_slots len removed).
  { rewrite <- live_span_zslots, (live_span_app removed 0 first len) by lia. rewrite (live_span_removed removed 0 first) by exact B. reflexivity. }
  rewrite Es. pose proof (live_span_len removed first len) as Ll. rewrite Es in Ll.
  assert (L1 : 1 <= zlen (live_slots len removed)).
  { destruct (live_slots len removed); [congruence|]. unfold zlen. cbn [length]. lia. }
  set (k := zlen (live_slots len removed)) in *.
  assert (W1 : wrap32 k = k) by (unfold wrap32; apply Z.mod_small; lia).
  assert (W2 : wrap32 (pool + 1) = pool + 1) by (unfold wrap32; apply Z.mod_small; lia). rewrite W1, W2.
  destruct (sched_ok k (pool + 1) mn) as (n & b & E & Hn & Hb & Hnb & Q); [lia|lia|lia|lia|]. rewrite E.
  destruct (Z.ltb_spec pool (n - 1)); [lia|].
  destruct (mesh_blocks (Z.to_nat (n - 1)) len removed first b) as [l s] eqn:Em.
  assert (Hk : Z.of_nat (Z.to_nat (n - 1)) * b <= zlen (live_span removed first len)).
  { rewrite Es. fold k. rewrite Z2Nat.id by lia. nia. }
  destruct (mesh_blocks_spec (Z.to_nat (n - 1)) len removed b first l s A Hb C Hk Em) as (D1 & D2 & D3 & D4 & D5).
  exists l, (Blk s len), (map (fun b => live_span removed (bfirst b) (blast b)) (l ++ [Blk s len])).
  split; [reflexivity|].
  assert (Len : forall m st l' s', mesh_blocks m len removed st b = (l', s') -> length l' = m).
  { induction m as [|m IHm]; intros st l' s' X; cbn in X; [injection X as <- <-; reflexivity|].
    destruct (mesh_blocks m len removed (it_advance len removed st b) b) eqn:Y. injection X as <- <-. cbn. f_equal. eapply IHm. exact Y. }
  split; [unfold zlen; rewrite (Len _ _ _ _ Em); lia|]. split.
  - assert (X : forall bl, (forall x, In x bl -> 0 <= bfirst x <= blast x /\ blast x <= len /\ (bfirst x < len -> ~ In (bfirst x) removed) /\ (blast x < len -> ~ In (blast x) removed)) ->
      omap (mesh_block_elements len removed) bl = Some (map (fun b => live_span removed (bfirst b) (blast b)) bl)).
    { induction bl as [|x bl IHb]; intros H'; [reflexivity|]. cbn. destruct (H' x (or_introl eq_refl)) as (K1 & K2 & K3 & K4).
      unfold mesh_block_elements at 1. rewrite it_loop_spec; [|lia|lia|lia|intros; apply K3; lia|exact K4]. cbn [obind].
      rewrite IHb; [reflexivity|]. intros y Hy. apply H'. right. exact Hy. }
    apply X. intros x Hx. apply in_app_iff in Hx. destruct Hx as [Hx|[<-|[]]].
    + destruct (D3 x Hx) as (F1 & F2 & F3 & F4). split; [lia|]. split; [lia|]. auto.
    + cbn. split; [lia|]. split; [lia|]. split; [exact D2|]. lia.
  - rewrite map_app, concat_app, D4. cbn. rewrite app_nil_r, <- Es. symmetry. apply live_span_app. lia.
Qed.
