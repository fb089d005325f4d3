(** Multi-threaded conversion: invariant, safety, progress, termination. *)
From Coq Require Import List ZArith Lia Bool.
From Verif Require Import Vec VecLemmas HmeshModel HmeshSpec HmeshCore ParModel ParProofs ParSumModel ParSumSpec ParSumProofs InputModel InputSpec InputProofs.
Import ListNotations.
Open Scope Z_scope.

Lemma insert_all_app m a b : insert_all m (a ++ b) = match insert_all m a with CAccept m' => insert_all m' b | r => r end.
Proof.
  revert m. induction a as [|f a IH]; intros m; cbn; [reflexivity|]. destruct (add_face m f); [apply IH|reflexivity|reflexivity].
Qed.

Definition slice (fs : list (list Z)) (k : Z) (n : nat) : list (list Z) := firstn n (skipn (Z.to_nat k) fs).

Lemma vget_skipn {A} (l : list A) k : vget l k = if k <? 0 then None else hd_error (skipn (Z.to_nat k) l).
Proof.
  unfold vget. destruct (k <? 0); [reflexivity|]. generalize (Z.to_nat k). intros n. revert l. induction n as [|n IH]; intros [|x l]; cbn; try reflexivity. apply IH.
Qed.

Lemma slice_S fs k n f : vget fs k = Some f -> slice fs k (S n) = f :: slice fs (k + 1) n.
Proof.
  intros E. pose proof (vget_Some_range _ _ _ E) as R. rewrite vget_skipn in E. destruct (Z.ltb_spec k 0); [lia|]. unfold slice.
  replace (Z.to_nat (k + 1)) with (S (Z.to_nat k)) by lia. destruct (skipn (Z.to_nat k) fs) as [|x r] eqn:Es; [discriminate|]. cbn in E. injection E as ->.
  cbn [firstn]. f_equal. f_equal. clear R H. revert fs Es. induction (Z.to_nat k) as [|q IH]; intros fs Es.
  - cbn in Es. subst. reflexivity.
  - destruct fs as [|y fs]; [discriminate|]. cbn in Es. apply IH in Es. exact Es.
Qed.

Lemma add_faces_spec slots fs n : forall k m, (forall j, k <= j < k + Z.of_nat n -> vget slots j = vget fs j) -> 0 <= k -> k + Z.of_nat n <= zlen fs ->
  match insert_all m (slice fs k n) with
  | CAccept m' => add_faces slots n k m = AaOk m'
  | CRefuse => exists m', add_faces slots n k m = AaFail m'
  | CUB => True
  end.
Proof.
  induction n as [|n IH]; intros k m Eq Hk Hl.
  - unfold slice. cbn. reflexivity.
  - destruct (vget_range_Some fs k) as [f Ef]; [lia|]. rewrite (slice_S _ _ _ _ Ef). cbn [insert_all add_faces]. rewrite (Eq k) by lia. rewrite Ef.
    destruct (add_face m f) as [i m'|m'|]; [|eexists; reflexivity|exact Logic.I]. apply IH; [|lia|lia]. intros j Hj. apply Eq. lia.
Qed.

Lemma firstn_slice (fs : list (list Z)) a b : 0 <= a <= b -> firstn (Z.to_nat b) fs = firstn (Z.to_nat a) fs ++ slice fs a (Z.to_nat (b - a)).
Proof.
  intros H. unfold slice. replace (Z.to_nat b) with (Z.to_nat a + Z.to_nat (b - a))%nat by lia.
  generalize (Z.to_nat a) (Z.to_nat (b - a)). clear. intros n k. revert fs. induction n as [|n IH]; intros [|x fs]; cbn; try reflexivity.
  - destruct k; reflexivity.
  - rewrite IH. reflexivity.
Qed.

Lemma sum_first_concat (fs : list (list Z)) k : sum_first (map zlen fs) k = zlen (concat (firstn (Z.to_nat k) fs)).
Proof.
  unfold sum_first. generalize (Z.to_nat k). clear. intros n. revert fs. induction n as [|n IH]; intros [|f fs]; cbn; try reflexivity. rewrite zlen_app, IH. reflexivity.
Qed.

Lemma zlen_map {A B} (g : A -> B) l : zlen (map g l) = zlen l.
Proof. unfold zlen. rewrite map_length. reflexivity. Qed.

Section Par.
Variables (c : cfg) (coords : list point) (sizes : option (list Z)) (rest : list Z) (fs : list (list Z)) (m0 : hmesh).
Hypothesis (Hs : sizes_ok sizes fs) (Hr : forall x, In x (concat fs) -> 0 <= x) (Hl : zlen (concat fs) < 2 ^ 31).
Hypothesis (B0 : built coords [] m0) (G : good_cfg c) (HL : c_len c = zlen (map zlen fs)).

Notation v := (map zlen fs).
Notation nv := (zlen coords).
Notation a := (Arr nv sizes (concat fs ++ rest) (zlen fs)).
Notation F := (blk_first c). Notation L := (blk_last c).

Lemma HU : all_u32 v.
Proof.
  intros x Hx. apply in_map_iff in Hx. destruct Hx as (f & <- & Hf). pose proof (In_zlen_concat fs f Hf). pose proof (zlen_nonneg f). lia.
Qed.

Definition okface (slots : list (list Z)) (j : Z) : Prop := forall f, vget fs j = Some f -> vget slots j = Some f /\ good_face nv f.

Definition pc_inv (s : cstate) (i : Z) : Prop :=
  match c_pc s i with
  | Check k => F i <= k <= L i + 1 /\ ((forall j, F i <= j < k -> okface (c_slots s) j) \/ c_err s = true)
  | Checked => (forall j, F i <= j <= L i -> okface (c_slots s) j) \/ c_err s = true
  end.

Definition refuses : Prop :=
  (exists f, In f fs /\ ~ good_face nv f) \/
  exists k, (forall f, In f (firstn k fs) -> good_face nv f) /\ insert_all m0 (firstn k fs) = CRefuse.

Definition prefix_done (k : Z) (m : hmesh) : Prop :=
  let p := firstn (Z.to_nat k) fs in
  (forall f, In f p -> good_face nv f) /\ insert_all m0 p = CAccept m.

Definition col_inv (s : cstate) : Prop :=
  match c_col s with
  | Gather j okay m =>
      0 <= j <= c_n c - 1 /\ (forall i, 0 <= i < j -> c_pc s i = Checked) /\
      (if okay then prefix_done (F j) m else refuses)
  | Returned r =>
      (forall i, 0 <= i < c_n c -> c_pc s i = Checked) /\
      match r with Some m => prefix_done (zlen fs) m | None => refuses end
  end.

Record CInv (s : cstate) : Prop := {
  ci_sum : sreach c v (c_sum s);
  ci_len : zlen (c_slots s) = zlen fs;
  ci_pc : forall i, 0 <= i < c_n c -> pc_inv s i;
  ci_err : c_err s = true -> exists f, In f fs /\ ~ good_face nv f;
  ci_col : col_inv s;
  (* a thread checks faces only after its part of the sums *)
  ci_fin : forall i, 0 <= i < c_n c -> c_pc s i = Checked -> spc (c_sum s) i = Fin }.

Lemma bounds i : 0 <= i < c_n c -> 0 <= F i <= L i /\ L i < zlen fs.
Proof. intros H. pose proof (blk_bounds c v G HL i H) as B. rewrite zlen_map in B. exact B. Qed.

Lemma F_next i : 0 <= i < c_n c - 1 -> F (i + 1) = L i + 1.
Proof. apply blk_next. Qed.

Lemma L_last : L (c_n c - 1) = zlen fs - 1.
Proof. unfold blk_last. rewrite Z.eqb_refl, HL, zlen_map. reflexivity. Qed.

Lemma cinit_inv : CInv (cinit c (zlen fs) v m0).
Proof.
  constructor; cbn.
  - apply sr_init.
  - apply zlen_repeat, zlen_nonneg.
  - intros i Hi. unfold pc_inv. cbn. pose proof (bounds i Hi). split; [lia|]. left. intros j Hj. lia.
  - discriminate.
  - unfold col_inv. cbn. destruct G as (G1 & _). split; [lia|]. split; [lia|]. unfold prefix_done, blk_first. cbn. split; [intros f []|reflexivity].
  - discriminate.
Qed.

Lemma firstn_In {A} n (l : list A) x : In x (firstn n l) -> In x l.
Proof. intros H. rewrite <- (firstn_skipn n l). apply in_app_iff. left. exact H. Qed.

Lemma In_slice k n f : In f (slice fs k n) -> 0 <= k -> exists j, k <= j < k + Z.of_nat n /\ vget fs j = Some f.
Proof.
  revert k. induction n as [|n IH]; intros k H Hk; [destruct H|]. destruct (vget fs k) as [g|] eqn:Eg.
  - rewrite (slice_S _ _ _ _ Eg) in H. destruct H as [<-|H]; [exists k; split; [lia|exact Eg]|]. destruct (IH (k + 1) H) as (j & Hj & Ej); [lia|]. exists j. split; [lia|exact Ej].
  - exfalso. unfold slice in H. rewrite vget_skipn in Eg. destruct (Z.ltb_spec k 0); [lia|]. destruct (skipn (Z.to_nat k) fs); [destruct H|discriminate].
Qed.

Lemma block_insert s j m : 0 <= j < c_n c -> (forall q, F j <= q <= L j -> okface (c_slots s) q) -> prefix_done (F j) m ->
  match add_faces (c_slots s) (block_count c j) (F j) m with
  | AaUB => False
  | AaOk m' => prefix_done (L j + 1) m'
  | AaFail _ => refuses
  end.
Proof.
  intros Hj Ok [Pg Pi]. pose proof (bounds j Hj) as [Bd1 Bd2]. set (n := block_count c j).
  assert (En : Z.of_nat n = L j + 1 - F j) by (unfold n, block_count; lia).
  assert (Ef : firstn (Z.to_nat (L j + 1)) fs = firstn (Z.to_nat (F j)) fs ++ slice fs (F j) n).
  { unfold n, block_count. apply firstn_slice. lia. }
  assert (Gs : forall f, In f (firstn (Z.to_nat (L j + 1)) fs) -> good_face nv f).
  { intros f. rewrite Ef, in_app_iff. intros [K|K]; [apply Pg; exact K|]. apply In_slice in K; [|lia]. destruct K as (q & Hq & Eq). apply (Ok q); [lia|exact Eq]. }
  assert (Ei : insert_all m0 (firstn (Z.to_nat (L j + 1)) fs) = insert_all m (slice fs (F j) n)) by (rewrite Ef, insert_all_app, Pi; reflexivity).
  pose proof (add_faces_spec (c_slots s) fs n (F j) m) as S.
  assert (Q1 : forall q, F j <= q < F j + Z.of_nat n -> vget (c_slots s) q = vget fs q).
  { intros q Hq. destruct (vget_range_Some fs q) as [f Eq]; [lia|]. rewrite Eq. apply (Ok q); [lia|exact Eq]. }
  specialize (S Q1 ltac:(lia) ltac:(lia)). rewrite <- Ei in S.
  assert (N0 : NoDup (all_edges [])) by constructor.
  pose proof (insert_all_spec coords (firstn (Z.to_nat (L j + 1)) fs) [] m0 B0 N0 Gs) as U.
  destruct (insert_all m0 (firstn (Z.to_nat (L j + 1)) fs)) as [m'| |] eqn:Er; [| |destruct U].
  - rewrite S. split; assumption.
  - destruct S as [m' ->]. right. exists (Z.to_nat (L j + 1)). auto.
Qed.

(** ** steps *)
Lemma pc_inv_mono s slots err p i k :
  (forall j, (F i <= j <= L i) -> vget slots j = vget (c_slots s) j) -> (c_err s = true -> err = true) ->
  0 <= i < c_n c -> k <> i -> pc_inv s i -> pc_inv (set_check s slots err k p) i.
Proof.
  intros E1 E2 Hi N H. unfold pc_inv in *. cbn [set_check c_pc c_slots c_err]. rewrite zupd_other by congruence. pose proof (bounds i Hi) as Bd.
  assert (X : forall j, F i <= j <= L i -> okface (c_slots s) j -> okface slots j) by (intros j Hj O f Ef; rewrite E1 by lia; apply O; exact Ef).
  destruct (c_pc s i).
  - destruct H as [R [H|H]]; (split; [exact R|]); [left|right; auto]. intros j Hj. apply X; [lia|]. apply H. exact Hj.
  - destruct H as [H|H]; [left|right; auto]. intros j Hj. apply X; [lia|auto].
Qed.

Lemma col_inv_check s slots err k p : c_pc s k <> Checked -> col_inv s -> (forall i, 0 <= i < c_n c -> i = k -> True) -> 0 <= k < c_n c ->
  col_inv (set_check s slots err k p).
Proof.
  intros Nk H _ Hk. unfold col_inv in *. cbn [set_check c_col c_pc]. destruct (c_col s) as [j okay m|r].
  - destruct H as (R & P & Q). split; [exact R|]. split; [|exact Q]. intros i Hi. destruct (Z.eq_dec i k) as [->|N]; [exfalso; apply Nk, P, Hi|]. rewrite zupd_other by exact N. apply P. exact Hi.
  - destruct H as (P & _). exfalso. apply Nk, P, Hk.
Qed.

(** updating thread [i] *)
Lemma check_update s i slots err p :
  CInv s -> 0 <= i < c_n c -> c_pc s i <> Checked -> spc (c_sum s) i = Fin ->
  zlen slots = zlen fs ->
  (forall i', 0 <= i' < c_n c -> i' <> i -> forall j, F i' <= j <= L i' -> vget slots j = vget (c_slots s) j) ->
  (c_err s = true -> err = true) -> (err = true -> exists f, In f fs /\ ~ good_face nv f) ->
  pc_inv (set_check s slots err i p) i -> CInv (set_check s slots err i p).
Proof.
  intros I Hi Np Fi Ls Fr E1 E2 P. constructor.
  - exact (ci_sum _ I).
  - exact Ls.
  - intros i' Hi'. destruct (Z.eq_dec i' i) as [->|N]; [exact P|]. apply pc_inv_mono; [exact (Fr i' Hi' N)|exact E1|exact Hi'|congruence|exact (ci_pc _ I i' Hi')].
  - exact E2.
  - apply col_inv_check; auto. exact (ci_col _ I).
  - intros i' Hi'. cbn [set_check c_pc c_sum]. destruct (Z.eq_dec i' i) as [->|N]; [intros _; exact Fi|]. rewrite zupd_other by exact N. apply (ci_fin _ I). exact Hi'.
Qed.

Lemma check_face_ok s i k : CInv s -> 0 <= i < c_n c -> c_pc s i = Check k -> spc (c_sum s) i = Fin -> k <= L i ->
  exists s', check_face a s i k = Next s' /\ CInv s' /\ c_sum s' = c_sum s /\ c_col s' = c_col s /\
    (forall j, j <> i -> c_pc s' j = c_pc s j) /\ (c_pc s' i = Checked \/ c_pc s' i = Check (k + 1)).
Proof.
  intros I Hi Pk Fi Hk. pose proof (bounds i Hi) as [Bd1 Bd2]. pose proof (ci_pc _ I i Hi) as P. unfold pc_inv in P. rewrite Pk in P. destruct P as [Rk Pr].
  assert (Np : c_pc s i <> Checked) by congruence.
  assert (Rk' : 0 <= k < zlen fs) by lia. destruct (vget_range_Some fs k Rk') as [f Ef].
  unfold check_face. cbn [a_sizes a_idx a_nv]. rewrite (face_size_ok sizes fs k f Hs Ef). cbv zeta.
  pose proof (In_zlen_concat fs f (vget_In _ _ _ Ef)) as Lf. pose proof (zlen_nonneg f) as Lf0.
  rewrite int32_small by lia.
  assert (Hf : forall x, In x f -> 0 <= x) by (intros x Hx; apply Hr, in_concat; exists f; split; [eapply vget_In; exact Ef|exact Hx]).
  assert (Upd : forall slots err p, zlen slots = zlen fs ->
     (forall j, j <> k -> vget slots j = vget (c_slots s) j) -> (c_err s = true -> err = true) -> (err = true -> exists f, In f fs /\ ~ good_face nv f) ->
     pc_inv (set_check s slots err i p) i -> CInv (set_check s slots err i p)).
  { intros slots err p A1 A2 A3 A4 A5. apply check_update; auto. intros i' Hi' N j Hj. apply A2. intros ->. exact (blk_disjoint c G i' i k Hi' Hi N Hj (conj (proj1 Rk) Hk)). }
  assert (Fields : forall slots err p, c_sum (set_check s slots err i p) = c_sum s /\ c_col (set_check s slots err i p) = c_col s /\ forall j, j <> i -> c_pc (set_check s slots err i p) j = c_pc s j).
  { intros slots err p. split; [reflexivity|]. split; [reflexivity|]. intros j N. cbn. apply zupd_other. exact N. }
  destruct (Z.ltb_spec (zlen f) 3) as [K3|K3].
  - eexists. split; [reflexivity|]. destruct (Fields (c_slots s) true Checked) as (Q1 & Q2 & Q3). split; [|split; [exact Q1|split; [exact Q2|split; [exact Q3|left; cbn; apply zupd_same]]]].
    apply Upd; [exact (ci_len _ I)|auto|auto| |].
    + intros _. exists f. split; [eapply vget_In; exact Ef|]. intros [L3 _ _]. unfold zlen in K3. lia.
    + unfold pc_inv. cbn. rewrite zupd_same. right. reflexivity.
  - assert (Es : vget (smem (c_sum s)) k = Some (sum_first v (k + 1))).
    { pose proof (sreach_inv c v G HL HU _ (ci_sum _ I)) as SI. pose proof (si_blk _ _ _ SI i Hi) as Bk. rewrite Fi in Bk. cbn in Bk. rewrite (proj1 Bk k) by lia.
      f_equal. unfold wrap32. apply Z.mod_small. rewrite sum_first_concat. split; [apply zlen_nonneg|].
      assert (zlen (concat (firstn (Z.to_nat (k + 1)) fs)) <= zlen (concat fs)); [|lia].
      rewrite <- (firstn_skipn (Z.to_nat (k + 1)) fs) at 2. rewrite concat_app, zlen_app. pose proof (zlen_nonneg (concat (skipn (Z.to_nat (k + 1)) fs))). lia. }
    rewrite Es. rewrite (sum_first_S v k (zlen f)) by (unfold vget in *; destruct (k <? 0); [discriminate|]; rewrite nth_error_map, Ef; reflexivity).
    replace (sum_first v k + zlen f - zlen f) with (sum_first v k) by lia. rewrite sum_first_concat.
    assert (Ec : concat fs = concat (firstn (Z.to_nat k) fs) ++ f ++ concat (skipn (Z.to_nat (k + 1)) fs)).
    { rewrite <- (firstn_skipn (Z.to_nat k) fs) at 1. rewrite concat_app. f_equal.
      pose proof (slice_S fs k (length fs) f Ef) as Sl. unfold slice in Sl. rewrite !firstn_all2 in Sl by (rewrite skipn_length; lia). rewrite Sl. reflexivity. }
    rewrite int32_small.
    2:{ split; [apply zlen_nonneg|]. rewrite Ec, zlen_app in Hl. pose proof (zlen_nonneg (f ++ concat (skipn (Z.to_nat (k + 1)) fs))). lia. }
    replace (Z.to_nat (zlen f)) with (length f) by (unfold zlen; lia).
    pose proof (read_face_spec true nv f (concat (firstn (Z.to_nat k) fs)) (concat (skipn (Z.to_nat (k + 1)) fs) ++ rest) [] Hf) as S. cbn [app] in S.
    assert (Er : concat fs ++ rest = concat (firstn (Z.to_nat k) fs) ++ f ++ concat (skipn (Z.to_nat (k + 1)) fs) ++ rest).
    { transitivity ((concat (firstn (Z.to_nat k) fs) ++ f ++ concat (skipn (Z.to_nat (k + 1)) fs)) ++ rest); [f_equal; exact Ec|rewrite <- !app_assoc; reflexivity]. }
    rewrite Er.
    destruct (read_face true _ nv _ (length f) []) as [l|l|]; [| |destruct S].
    + destruct S as (-> & R & N). rewrite vset_Some by (rewrite (ci_len _ I); lia).
      assert (Vs : vset (c_slots s) k f = Some (lset (c_slots s) (Z.to_nat k) f)) by (apply vset_Some; rewrite (ci_len _ I); lia).
      eexists. split; [reflexivity|]. destruct (Fields (lset (c_slots s) (Z.to_nat k) f) (c_err s) (Check (k + 1))) as (Q1 & Q2 & Q3). split; [|split; [exact Q1|split; [exact Q2|split; [exact Q3|right; cbn; apply zupd_same]]]].
      apply Upd; auto.
      * rewrite (vset_len _ _ _ _ Vs). exact (ci_len _ I).
      * intros j Nj. apply (vget_vset_neq _ _ _ _ _ Vs). congruence.
      * apply (ci_err _ I).
      * unfold pc_inv. cbn. rewrite zupd_same. split; [lia|]. destruct Pr as [Pr|Pr]; [left|right; exact Pr]. intros j Hj g Eg.
        destruct (Z.eq_dec j k) as [->|Nj].
        -- assert (g = f) by congruence. subst g. split; [exact (vget_vset_eq _ _ _ _ Vs)|]. constructor; [unfold zlen in K3; lia|apply N; constructor|]. intros x Hx. split; [apply Hf; exact Hx|apply R; exact Hx].
        -- rewrite (vget_vset_neq _ _ _ _ _ Vs) by congruence. apply Pr; [lia|exact Eg].
    + rewrite vset_Some by (rewrite (ci_len _ I); lia).
      assert (Vs : vset (c_slots s) k l = Some (lset (c_slots s) (Z.to_nat k) l)) by (apply vset_Some; rewrite (ci_len _ I); lia).
      eexists. split; [reflexivity|]. destruct (Fields (lset (c_slots s) (Z.to_nat k) l) true (Check (k + 1))) as (Q1 & Q2 & Q3). split; [|split; [exact Q1|split; [exact Q2|split; [exact Q3|right; cbn; apply zupd_same]]]].
      apply Upd; auto.
      * rewrite (vset_len _ _ _ _ Vs). exact (ci_len _ I).
      * intros j Nj. apply (vget_vset_neq _ _ _ _ _ Vs). congruence.
      * intros _. exists f. split; [eapply vget_In; exact Ef|]. intros [_ N R]. apply S. split; [intros x Hx; apply R; exact Hx|exact N].
      * unfold pc_inv. cbn. rewrite zupd_same. split; [lia|]. right. reflexivity.
Qed.

Definition col_measure (x : collector) : Z := match x with Gather j _ _ => c_n c - j + 1 | Returned _ => 0 end.

Lemma collect_ok s : CInv s -> c_pc s (c_n c - 1) = Checked ->
  (exists s', collect c s = Next s' /\ CInv s' /\ c_sum s' = c_sum s /\ c_pc s' = c_pc s /\ 0 <= col_measure (c_col s') < col_measure (c_col s)) \/
  (collect c s = Blocked /\ ((exists r, c_col s = Returned r) \/ exists j k, 0 <= j < c_n c - 1 /\ c_pc s j = Check k)).
Proof.
  intros I Pm. pose proof (ci_col _ I) as Cl. unfold col_inv in Cl. unfold collect.
  assert (Gn : 1 <= c_n c) by apply G.
  assert (Upd : forall x, col_inv (set_col s x) -> CInv (set_col s x)).
  { intros x H. destruct I as [I1 I2 I3 I4 I5 I6]. constructor; auto. }
  destruct (c_col s) as [j okay m|r] eqn:Ec; [|right; split; [reflexivity|left; eauto]].
  destruct Cl as (Rj & Pj & Qj). destruct (Z.ltb_spec j (c_n c - 1)) as [K|K].
  - destruct (c_pc s j) as [k|] eqn:Ej; [right; split; [reflexivity|]; right; exists j, k; split; [lia|exact Ej]|left].
    assert (Pj' : forall i, 0 <= i < j + 1 -> c_pc s i = Checked) by (intros i Hi; destruct (Z.eq_dec i j) as [->|]; [exact Ej|apply Pj; lia]).
    destruct okay; cbn [andb negb].
    + destruct (c_err s) eqn:Ee; cbn [negb].
      * eexists. split; [reflexivity|]. split; [|split; [reflexivity|split; [reflexivity|cbn; lia]]]. apply Upd. unfold col_inv. cbn. split; [lia|]. split; [exact Pj'|]. left. apply (ci_err _ I). exact Ee.
      * assert (Ok : forall q, F j <= q <= L j -> okface (c_slots s) q).
        { pose proof (ci_pc _ I j ltac:(lia)) as P. unfold pc_inv in P. rewrite Ej, Ee in P. destruct P as [P|P]; [exact P|discriminate]. }
        pose proof (block_insert s j m ltac:(lia) Ok Qj) as Bi. destruct (add_faces (c_slots s) (block_count c j) (F j) m) as [m'|m'|]; [| |destruct Bi].
        -- eexists. split; [reflexivity|]. split; [|split; [reflexivity|split; [reflexivity|cbn; lia]]]. apply Upd. unfold col_inv. cbn. split; [lia|]. split; [exact Pj'|]. rewrite F_next by lia. exact Bi.
        -- eexists. split; [reflexivity|]. split; [|split; [reflexivity|split; [reflexivity|cbn; lia]]]. apply Upd. unfold col_inv. cbn. split; [lia|]. split; [exact Pj'|exact Bi].
    + eexists. split; [reflexivity|]. split; [|split; [reflexivity|split; [reflexivity|cbn; lia]]]. apply Upd. unfold col_inv. cbn. split; [lia|]. split; [exact Pj'|exact Qj].
  - left. assert (j = c_n c - 1) by lia. subst j.
    assert (All : forall i, 0 <= i < c_n c -> c_pc s i = Checked) by (intros i Hi; destruct (Z.eq_dec i (c_n c - 1)) as [->|]; [exact Pm|apply Pj; lia]).
    destruct okay; cbn [negb orb].
    + destruct (c_err s) eqn:Ee.
      * eexists. split; [reflexivity|]. split; [|split; [reflexivity|split; [reflexivity|cbn; lia]]]. apply Upd. unfold col_inv. cbn. split; [exact All|]. left. apply (ci_err _ I). exact Ee.
      * assert (Ok : forall q, F (c_n c - 1) <= q <= L (c_n c - 1) -> okface (c_slots s) q).
        { pose proof (ci_pc _ I (c_n c - 1) ltac:(lia)) as P. unfold pc_inv in P. rewrite Pm, Ee in P. destruct P as [P|P]; [exact P|discriminate]. }
        pose proof (block_insert s (c_n c - 1) m ltac:(lia) Ok Qj) as Bi. rewrite L_last in Bi. replace (zlen fs - 1 + 1) with (zlen fs) in Bi by lia.
        destruct (add_faces (c_slots s) (block_count c (c_n c - 1)) (F (c_n c - 1)) m) as [m'|m'|]; [| |destruct Bi].
        -- eexists. split; [reflexivity|]. split; [|split; [reflexivity|split; [reflexivity|cbn; lia]]]. apply Upd. unfold col_inv. cbn. split; [exact All|exact Bi].
        -- eexists. split; [reflexivity|]. split; [|split; [reflexivity|split; [reflexivity|cbn; lia]]]. apply Upd. unfold col_inv. cbn. split; [exact All|exact Bi].
    + eexists. split; [reflexivity|]. split; [|split; [reflexivity|split; [reflexivity|cbn; lia]]]. apply Upd. unfold col_inv. cbn. split; [exact All|exact Qj].
Qed.

(** measure *)
Definition nu (i : Z) (p : checker) : Z := match p with Check k => L i + 2 - k | Checked => 0 end.
Definition CMu (s : cstate) : Z :=
  Mu c (c_sum s) + fold_right Z.add 0 (map (fun i => nu i (c_pc s i)) (zrange (c_n c))) + col_measure (c_col s).

Lemma sum_step s i x : CInv s -> 0 <= i < c_n c -> sstep c (c_sum s) i = Some x ->
  CInv (set_sum s x) /\ CMu (set_sum s x) < CMu s.
Proof.
  intros I Hi E. pose proof (sreach_inv c v G HL HU _ (ci_sum _ I)) as SI.
  destruct (sstep_mu c v G HL (c_sum s) i x SI Hi E) as [D1 D2].
  assert (Fi : spc (c_sum s) i <> Fin) by (intros K; unfold sstep in E; rewrite K in E; discriminate).
  split.
  - destruct I as [I1 I2 I3 I4 I5 I6]. constructor; auto.
    + cbn. eapply sr_step; eassumption.
    + cbn. intros j Hj Pj. destruct (Z.eq_dec j i) as [->|N]; [exfalso; apply Fi, I6; assumption|]. rewrite D2 by exact N. apply I6; assumption.
  - unfold CMu. cbn. assert (Mu c x < Mu c (c_sum s)); [|lia]. unfold Mu. apply sum_decr with (i := i); [apply NoDup_zrange|apply In_zrange; exact Hi|exact D1|].
    intros j N. rewrite D2 by exact N. reflexivity.
Qed.

Lemma cstep_ok s i : CInv s -> 0 <= i < c_n c ->
  match cstep c a s i with
  | Crash => False
  | Next s' => CInv s' /\ CMu s' < CMu s
  | Blocked => True
  end.
Proof.
  intros I Hi. pose proof (sreach_inv c v G HL HU _ (ci_sum _ I)) as SI. unfold cstep.
  assert (Sum : spc (c_sum s) i <> Fin -> (spc (c_sum s) i = WaitPrev -> prom (c_sum s) (i - 1) <> None) ->
    match (match sstep c (c_sum s) i with Some x => Next (set_sum s x) | None => Crash end) with Crash => False | Next s' => CInv s' /\ CMu s' < CMu s | Blocked => True end).
  { intros NF NW. destruct (sstep_ok c v G HL HU (c_sum s) i SI Hi NF NW) as (x & Ex & _). rewrite Ex. apply (sum_step s i x I Hi Ex). }
  destruct (spc (c_sum s) i) as [|k sum| |q|oa|k q|] eqn:Ep; try (apply Sum; [discriminate|discriminate]).
  - destruct (prom (c_sum s) (i - 1)) eqn:Epr; [|exact Logic.I]. apply Sum; [discriminate|]. intros _. discriminate.
  - destruct (spc (c_sum s) (c_n c - 1)); try exact Logic.I.
    destruct (c_pc s i) as [k|] eqn:Ek.
    + assert (Np : c_pc s i <> Checked) by congruence.
      assert (Dec : forall s', (forall j, j <> i -> c_pc s' j = c_pc s j) -> c_sum s' = c_sum s -> c_col s' = c_col s -> nu i (c_pc s' i) < nu i (c_pc s i) -> CMu s' < CMu s).
      { intros s' H1 H2 H3 H4. unfold CMu. rewrite H2, H3.
        assert (fold_right Z.add 0 (map (fun i => nu i (c_pc s' i)) (zrange (c_n c))) < fold_right Z.add 0 (map (fun i => nu i (c_pc s i)) (zrange (c_n c)))); [|lia].
        apply sum_decr with (i := i); [apply NoDup_zrange|apply In_zrange; exact Hi|exact H4|]. intros j N. rewrite H1 by exact N. reflexivity. }
      destruct (Z.leb_spec k (L i)) as [K|K].
      * destruct (check_face_ok s i k I Hi Ek Ep K) as (s' & -> & I' & E1 & E2 & E3 & E4). split; [exact I'|]. apply Dec; auto. rewrite Ek. destruct E4 as [-> | ->]; cbn; lia.
      * pose proof (ci_pc _ I i Hi) as P. unfold pc_inv in P. rewrite Ek in P. destruct P as [Rk Pr]. split.
        -- apply check_update; auto; [exact (ci_len _ I)|exact (ci_err _ I)|].
           unfold pc_inv. cbn. rewrite zupd_same. destruct Pr as [Pr|Pr]; [left|right; exact Pr]. intros j Hj. apply Pr. lia.
        -- apply Dec; auto; [intros j N; cbn; apply zupd_other; exact N|]. rewrite Ek. cbn. rewrite zupd_same. cbn. lia.
    + destruct (Z.eqb_spec i (c_n c - 1)) as [->|N]; [|exact Logic.I]. destruct (collect_ok s I Ek) as [(s' & -> & I' & E1 & E2 & E3)|[-> _]]; [|exact Logic.I].
      split; [exact I'|]. unfold CMu. rewrite E1, E2. lia.
Qed.

Lemma creach_inv s : creach c a (cinit c (zlen fs) v m0) s -> CInv s.
Proof.
  induction 1 as [|s i s' R IH Hi E]; [apply cinit_inv|]. pose proof (cstep_ok s i IH Hi) as S. rewrite E in S. apply S.
Qed.

Lemma pc_min s n : (forall i, 0 <= i < Z.of_nat n -> c_pc s i = Checked) \/ exists i k, 0 <= i < Z.of_nat n /\ c_pc s i = Check k.
Proof.
  induction n as [|n [IH|(i & k & Hi & E)]]; [left; lia| |right; exists i, k; split; [lia|exact E]].
  destruct (c_pc s (Z.of_nat n)) as [k|] eqn:E; [right; exists (Z.of_nat n), k; split; [lia|exact E]|].
  left. intros i Hi. destruct (Z.eq_dec i (Z.of_nat n)) as [->|]; [exact E|apply IH; lia].
Qed.

Lemma cprogress s : CInv s -> (exists r, c_col s = Returned r) \/ exists i s', 0 <= i < c_n c /\ cstep c a s i = Next s'.
Proof.
  intros I. assert (Gn : 1 <= c_n c) by apply G. destruct (sprogress c v G HL HU (c_sum s) (ci_sum _ I)) as [A|(i & x & Hi & E)].
  - assert (Am : spc (c_sum s) (c_n c - 1) = Fin) by (apply A; lia).
    destruct (pc_min s (Z.to_nat (c_n c))) as [Pc|(i & k & Hi & Ek)].
    + assert (Pm : c_pc s (c_n c - 1) = Checked) by (apply Pc; lia).
      destruct (collect_ok s I Pm) as [(s' & E & _)|[_ [R|(j & k & Hj & Ej)]]]; [|left; exact R|].
      * right. exists (c_n c - 1), s'. split; [lia|]. unfold cstep. rewrite Am, Pm, Z.eqb_refl. exact E.
      * exfalso. rewrite Pc in Ej by lia. discriminate.
    + right. exists i. assert (Hi' : 0 <= i < c_n c) by lia. pose proof (A i Hi') as Fi. unfold cstep. rewrite Fi, Am, Ek. destruct (Z.leb_spec k (L i)) as [K|K]; [|eauto].
      destruct (check_face_ok s i k I Hi' Ek Fi K) as (s' & E & _). eauto.
  - right. exists i, (set_sum s x). split; [exact Hi|]. unfold cstep. rewrite E.
    destruct (spc (c_sum s) i) eqn:Ep; try reflexivity.
    + destruct (prom (c_sum s) (i - 1)) eqn:Epr; [reflexivity|]. unfold sstep in E. rewrite Ep, Epr in E. discriminate.
    + unfold sstep in E. rewrite Ep in E. discriminate.
Qed.

Lemma CMu_nonneg s : CInv s -> 0 <= CMu s.
Proof.
  intros I. pose proof (sreach_inv c v G HL HU _ (ci_sum _ I)) as SI. pose proof (Mu_nonneg c v G HL (c_sum s) SI) as M1. unfold CMu.
  assert (M2 : 0 <= col_measure (c_col s)).
  { pose proof (ci_col _ I) as Cl. unfold col_inv in Cl. destruct (c_col s); cbn; [lia|lia]. }
  assert (M3 : forall l, (forall i, In i l -> 0 <= i < c_n c) -> 0 <= fold_right Z.add 0 (map (fun i => nu i (c_pc s i)) l)).
  { induction l as [|i l IH]; intros H; cbn; [lia|]. specialize (IH (fun j Hj => H j (or_intror Hj))). pose proof (ci_pc _ I i (H i (or_introl eq_refl))) as P. unfold pc_inv in P.
    destruct (c_pc s i); cbn; lia. }
  specialize (M3 (zrange (c_n c)) (fun i Hi => proj1 (In_zrange _ _) Hi)). lia.
Qed.

Lemma crun_bounded sched : forall s s', CInv s -> (forall i, In i sched -> 0 <= i < c_n c) -> crun c a sched s = Some s' -> Z.of_nat (length sched) <= CMu s.
Proof.
  induction sched as [|i r IH]; intros s s' I Hi E; [apply CMu_nonneg; exact I|]. cbn in E. pose proof (cstep_ok s i I (Hi i (or_introl eq_refl))) as S.
  destruct (cstep c a s i) as [| |s1]; try discriminate. destruct S as [I1 D]. specialize (IH s1 s' I1 (fun j Hj => Hi j (or_intror Hj)) E). cbn [length]. lia.
Qed.

Lemma creturned s r res : CInv s -> c_col s = Returned r -> result nv m0 fs res ->
  res = match r with Some m => CAccept m | None => CRefuse end.
Proof.
  intros I E [R1 R2]. pose proof (ci_col _ I) as Cl. unfold col_inv in Cl. rewrite E in Cl. destruct Cl as [_ Cl].
  destruct r as [m|].
  - destruct Cl as [Gd Ia]. rewrite firstn_all2 in Gd, Ia by (unfold zlen; lia). rewrite <- Ia. apply R1. exact Gd.
  - destruct Cl as [Bd|(k & Gd & Ia)]; [apply R2; exact Bd|]. destruct (all_good_dec nv fs Hr) as [A|Bd]; [|apply R2; exact Bd].
    rewrite (R1 A). rewrite <- (firstn_skipn k fs), insert_all_app, Ia. reflexivity.
Qed.
End Par.
