(** The simultaneous traversal of two hierarchies reports exactly the overlapping pairs. *)
From Coq Require Import List ZArith Lia Bool Permutation.
From Coq Require Import ZifyBool.
From Verif Require Import Vec VecLemmas BvhModel BvhFloat BvhArith BvhSpec BvhProofs.
Import ListNotations.
Open Scope Z_scope.

(** ** The output map *)

Lemma report_src (ts : Z) out m f :
  0 <= f < ts -> (forall p, In p out -> 0 <= snd p) ->
  fold_left (report ts) out m f = m f ++ map (fun p => snd p + ts) (filter (fun p => fst p =? f) out).
Proof.
  revert m. induction out as [|[a b] r IH]; intros m Hf Hp; cbn [fold_left filter map].
  - rewrite app_nil_r. reflexivity.
  - rewrite IH by (auto; intros p H; apply Hp; right; exact H).
    pose proof (Hp (a, b) (or_introl eq_refl)) as Hb. cbn [snd fst] in *.
    unfold report, push_back.
    destruct (Z.eqb_spec f (b + ts)); [lia|].
    rewrite (Z.eqb_sym a f). destruct (Z.eqb_spec f a).
    + cbn [map snd]. rewrite <- app_assoc. reflexivity.
    + reflexivity.
Qed.

Lemma report_cut (ts : Z) out m g :
  0 <= g -> (forall p, In p out -> fst p < ts) ->
  fold_left (report ts) out m (g + ts) = m (g + ts) ++ map fst (filter (fun p => snd p =? g) out).
Proof.
  revert m. induction out as [|[a b] r IH]; intros m Hf Hp; cbn [fold_left filter map].
  - rewrite app_nil_r. reflexivity.
  - rewrite IH by (auto; intros p H; apply Hp; right; exact H).
    pose proof (Hp (a, b) (or_introl eq_refl)) as Ha. cbn [snd fst] in *.
    unfold report, push_back.
    destruct (Z.eqb_spec (g + ts) a); [lia|].
    destruct (Z.eqb_spec b g); destruct (Z.eqb_spec (g + ts) (b + ts)); try lia.
    + cbn [map fst]. rewrite <- app_assoc. reflexivity.
    + reflexivity.
Qed.

Lemma report_other (ts tc : Z) out m k :
  (forall p, In p out -> 0 <= fst p < ts /\ 0 <= snd p < tc) -> ~ (0 <= k < ts + tc) ->
  fold_left (report ts) out m k = m k.
Proof.
  revert m. induction out as [|[a b] r IH]; intros m Hp Hk; cbn [fold_left]; [reflexivity|].
  rewrite IH by (auto; intros p H; apply Hp; right; exact H).
  pose proof (Hp (a, b) (or_introl eq_refl)) as Hb. cbn [snd fst] in *.
  unfold report, push_back.
  destruct (Z.eqb_spec k (b + ts)); [lia|]. destruct (Z.eqb_spec k a); [lia|]. reflexivity.
Qed.

Section Two.
Variables (sbx : list box) (sord : list Z) (cbx : list box) (cord : list Z).
Let ts := zlen sbx.
Let tc := zlen cbx.
Hypothesis Hts : okt ts.
Hypothesis Htc : okt tc.
Hypothesis Hso : Permutation sord (zrange ts).
Hypothesis Hco : Permutation cord (zrange tc).
Variables (sm cm : list box).
Hypothesis Hsm : forall l, 0 <= l <= depth ts -> level_ok sbx sord sm l.
Hypothesis Hcm : forall l, 0 <= l <= depth tc -> level_ok cbx cord cm l.

(** expected face pairs below a pair of nodes *)
Definition hit (p : Z * Z) : bool :=
  intersect_bounding_boxes (lbox sbx sord (fst p)) (lbox cbx cord (snd p)).
Definition lfaces (p : Z * Z) : Z * Z := (lface sord (fst p), lface cord (snd p)).
Definition prodx (A B : list Z) : list (Z * Z) := map lfaces (filter hit (list_prod A B)).

Lemma perm_filter {A} (p : A -> bool) l l' : Permutation l l' -> Permutation (filter p l) (filter p l').
Proof.
  induction 1 as [|x l l' H IH|x y l|l l' l'' H1 IH1 H2 IH2]; cbn.
  - constructor.
  - destruct (p x); [constructor; exact IH | exact IH].
  - destruct (p x), (p y); try apply Permutation_refl. constructor.
  - eapply Permutation_trans; eauto.
Qed.

Lemma list_prod_app_l {A B} (a b : list A) (c : list B) :
  list_prod (a ++ b) c = list_prod a c ++ list_prod b c.
Proof. induction a as [|x a IH]; cbn; [reflexivity|]. rewrite IH, app_assoc. reflexivity. Qed.

Lemma list_prod_perm_l {A B} (a b : list A) (c : list B) :
  Permutation a b -> Permutation (list_prod a c) (list_prod b c).
Proof.
  induction 1; cbn.
  - constructor.
  - apply Permutation_app_head. assumption.
  - rewrite !app_assoc. apply Permutation_app_tail, Permutation_app_comm.
  - eapply Permutation_trans; eauto.
Qed.

Lemma list_prod_app_r {A B} (a : list A) (b c : list B) :
  Permutation (list_prod a (b ++ c)) (list_prod a b ++ list_prod a c).
Proof.
  induction a as [|x a IH]; cbn; [constructor|].
  rewrite map_app, <- app_assoc.
  rewrite (Permutation_app_head _ (Permutation_app_head _ IH)).
  rewrite <- app_assoc. apply Permutation_app_head.
  rewrite !app_assoc. apply Permutation_app_tail, Permutation_app_comm.
Qed.

Lemma list_prod_perm_r {A B} (a : list A) (b c : list B) :
  Permutation b c -> Permutation (list_prod a b) (list_prod a c).
Proof.
  intros H. induction a as [|x a IH]; cbn; [constructor|].
  apply Permutation_app; [apply Permutation_map; exact H | exact IH].
Qed.

Lemma prodx_perm A A' B B' :
  Permutation A A' -> Permutation B B' -> Permutation (prodx A B) (prodx A' B').
Proof.
  intros HA HB. apply Permutation_map, perm_filter.
  eapply Permutation_trans; [apply list_prod_perm_l; exact HA | apply list_prod_perm_r; exact HB].
Qed.

Lemma prodx_app_l A B C : prodx (A ++ B) C = prodx A C ++ prodx B C.
Proof. unfold prodx. rewrite list_prod_app_l, filter_app, map_app. reflexivity. Qed.

Lemma prodx_app_r A B C : Permutation (prodx A (B ++ C)) (prodx A B ++ prodx A C).
Proof.
  unfold prodx. rewrite <- map_app, <- filter_app.
  apply Permutation_map, perm_filter, list_prod_app_r.
Qed.

Lemma list_prod_nil_r {A B} (a : list A) : list_prod a (@nil B) = [].
Proof. induction a as [|x a IH]; [reflexivity | exact IH]. Qed.

Lemma prodx_nil_r A : prodx A [] = [].
Proof. unfold prodx. rewrite list_prod_nil_r. reflexivity. Qed.

Definition sleaves := leaves sbx.
Definition cleaves := leaves cbx.

(** a queue entry, symbolically: levels and positions *)
Record pn := PN { sl : Z; sj : Z; cl : Z; cj : Z }.
Definition wf_pn (p : pn) : Prop := wf_node sbx (sl p) (sj p) /\ wf_node cbx (cl p) (cj p).
Definition idx_pn (p : pn) : Z * Z := (node_idx (sl p) (sj p), node_idx (cl p) (cj p)).
Definition exp_pn (p : pn) : list (Z * Z) := prodx (sleaves (sl p) (sj p)) (cleaves (cl p) (cj p)).
Definition weight (p : pn) : nat :=
  (3 ^ (Z.to_nat (depth ts - sl p) + Z.to_nat (depth tc - cl p)))%nat.
Definition wsum (q : list pn) : nat := list_sum (map weight q).

Lemma visit_ok p :
  wf_pn p ->
  exists kids out,
    visit ts tc sm sord cm cord (node_idx (sl p) (sj p)) (node_idx (cl p) (cj p))
      = Some (map idx_pn kids, out) /\
    (forall k, In k kids -> wf_pn k) /\
    (wsum kids < weight p)%nat /\
    Permutation (exp_pn p) (out ++ flat_map exp_pn kids).
Proof.
  intros [Hs Hc]. unfold visit.
  destruct (node_info_ok sbx sord Hts Hso sm (sl p) (sj p) Hsm Hs) as (bs & Es & Ls).
  destruct (node_info_ok cbx cord Htc Hco cm (cl p) (cj p) Hcm Hc) as (bc & Ec & Lc).
  fold ts in Es. fold tc in Ec. rewrite Es. cbn [obind]. rewrite Ec. cbn [obind fst snd].
  destruct (intersect_bounding_boxes bs bc) eqn:Ov.
  2:{ exists [], []. cbn [map]. split; [reflexivity|]. split; [intros k []|]. split.
      - cbn. unfold weight. assert (3 ^ (Z.to_nat (depth ts - sl p) + Z.to_nat (depth tc - cl p)) <> 0)%nat
          by (apply Nat.pow_nonzero; lia). lia.
      - cbn. unfold exp_pn, prodx.
        assert (G : forall l, (forall q, In q l -> hit q = false) -> filter hit l = []).
        { induction l as [|a r IH]; intros H; [reflexivity|]. cbn. rewrite H by (left; reflexivity).
          apply IH. intros q Hq. apply H. right. exact Hq. }
        rewrite G; [constructor|].
        intros [k m] Hkm. apply in_prod_iff in Hkm. destruct Hkm as [Hk Hm].
        unfold hit; cbn [fst snd]. destruct (intersect_bounding_boxes (lbox sbx sord k) (lbox cbx cord m)) eqn:E; [|reflexivity].
        rewrite <- Ov. symmetry. eapply intersect_mono; [| |exact E].
        + apply Ls. exists k. split; [apply In_leaves; exact Hk | reflexivity].
        + apply Lc. exists m. split; [apply In_leaves; exact Hm | reflexivity]. }
  destruct p as [l1 j1 l2 j2]; cbn [sl sj cl cj] in *.
  pose proof Hs as [Hl1 Hj1]. pose proof Hc as [Hl2 Hj2]. fold ts in Hl1, Hj1. fold tc in Hl2, Hj2.
  destruct (Z.eqb_spec l1 (depth ts)) as [E1 | N1]; destruct (Z.eqb_spec l2 (depth tc)) as [E2 | N2].
  - (* both leaves *)
    exists [], [(lface sord j1, lface cord j2)]. cbn [map]. split; [reflexivity|]. split; [intros k []|]. split.
    + cbn. unfold weight. assert (3 ^ (Z.to_nat (depth ts - l1) + Z.to_nat (depth tc - l2)) <> 0)%nat
        by (apply Nat.pow_nonzero; lia). cbn [sl cl]. lia.
    + subst l1 l2. rewrite cnt_leaf in Hj1, Hj2. unfold exp_pn, sleaves, cleaves; cbn [sl sj cl cj].
      pose proof (leaves_leaf sbx sord j1 Hj1) as Q1. fold ts in Q1. rewrite Q1.
      pose proof (leaves_leaf cbx cord j2 Hj2) as Q2. fold tc in Q2. rewrite Q2.
      unfold prodx; cbn [list_prod map app filter].
      assert (hit (j1, j2) = true) as ->.
      { unfold hit; cbn [fst snd]. eapply intersect_mono; [| |exact Ov].
        - apply Ls. intros x Hx. apply (under_leaf sbx sord) in Hx; [subst; apply sub_refl | fold ts; lia].
        - apply Lc. intros x Hx. apply (under_leaf cbx cord) in Hx; [subst; apply sub_refl | fold tc; lia]. }
      cbn. apply Permutation_refl.
  - (* source leaf, cut inner *)
    rewrite (left_child_idx l2), (right_child_idx l2) by apply Hl2.
    unfold tc at 1. rewrite right_child_spec by (try assumption; fold tc; lia). fold tc.
    pose proof (wf_left cbx Htc l2 j2 Hc ltac:(fold tc; lia)) as WL.
    assert (Wgt : (3 ^ (Z.to_nat (depth ts - l1) + Z.to_nat (depth tc - l2))
                  = 3 * 3 ^ (Z.to_nat (depth ts - l1) + Z.to_nat (depth tc - (l2 + 1))))%nat).
    { replace (Z.to_nat (depth tc - l2)) with (S (Z.to_nat (depth tc - (l2 + 1)))) by lia.
      rewrite Nat.add_succ_r. reflexivity. }
    assert (Nz : (3 ^ (Z.to_nat (depth ts - l1) + Z.to_nat (depth tc - (l2 + 1))) <> 0)%nat)
      by (apply Nat.pow_nonzero; lia).
    assert (Pc : Permutation (exp_pn (PN l1 j1 l2 j2))
        (exp_pn (PN l1 j1 (l2 + 1) (2 * j2)) ++ exp_pn (PN l1 j1 (l2 + 1) (2 * j2 + 1)))).
    { unfold exp_pn; cbn [sl sj cl cj]. eapply Permutation_trans; [|apply prodx_app_r].
      apply prodx_perm; [apply Permutation_refl | apply leaves_split; fold tc; lia]. }
    destruct (Z.ltb_spec (2 * j2 + 1) (cnt tc (l2 + 1))) as [Hr | Hr].
    + exists [PN l1 j1 (l2 + 1) (2 * j2); PN l1 j1 (l2 + 1) (2 * j2 + 1)], [].
      split; [reflexivity|]. split.
      { intros k [<- | [<- | []]]; split; cbn [sl sj cl cj]; auto. split; fold tc; lia. }
      split.
      { unfold wsum, weight; cbn [map list_sum fold_right sl sj cl cj]. lia. }
      cbn [flat_map app]. rewrite app_nil_r. exact Pc.
    + exists [PN l1 j1 (l2 + 1) (2 * j2)], [].
      split; [reflexivity|]. split.
      { intros k [<- | []]; split; cbn [sl sj cl cj]; auto. }
      split.
      { unfold wsum, weight; cbn [map list_sum fold_right sl sj cl cj]. lia. }
      cbn [flat_map app]. rewrite app_nil_r. eapply Permutation_trans; [exact Pc|].
      unfold exp_pn at 2; cbn [sl sj cl cj]. unfold cleaves.
      rewrite (leaves_not_real cbx cord (l2 + 1) (2 * j2 + 1)) by (fold tc; lia).
      rewrite prodx_nil_r, app_nil_r. apply Permutation_refl.
  - (* source inner, cut leaf *)
    rewrite (left_child_idx l1), (right_child_idx l1) by apply Hl1.
    unfold ts at 1. rewrite right_child_spec by (try assumption; fold ts; lia). fold ts.
    pose proof (wf_left sbx Hts l1 j1 Hs ltac:(fold ts; lia)) as WL.
    assert (Wgt : (3 ^ (Z.to_nat (depth ts - l1) + Z.to_nat (depth tc - l2))
                  = 3 * 3 ^ (Z.to_nat (depth ts - (l1 + 1)) + Z.to_nat (depth tc - l2)))%nat).
    { replace (Z.to_nat (depth ts - l1)) with (S (Z.to_nat (depth ts - (l1 + 1)))) by lia. reflexivity. }
    assert (Nz : (3 ^ (Z.to_nat (depth ts - (l1 + 1)) + Z.to_nat (depth tc - l2)) <> 0)%nat)
      by (apply Nat.pow_nonzero; lia).
    assert (Pc : Permutation (exp_pn (PN l1 j1 l2 j2))
        (exp_pn (PN (l1 + 1) (2 * j1) l2 j2) ++ exp_pn (PN (l1 + 1) (2 * j1 + 1) l2 j2))).
    { unfold exp_pn; cbn [sl sj cl cj]. rewrite <- prodx_app_l.
      apply prodx_perm; [apply leaves_split; fold ts; lia | apply Permutation_refl]. }
    destruct (Z.ltb_spec (2 * j1 + 1) (cnt ts (l1 + 1))) as [Hr | Hr].
    + exists [PN (l1 + 1) (2 * j1) l2 j2; PN (l1 + 1) (2 * j1 + 1) l2 j2], [].
      split; [reflexivity|]. split.
      { intros k [<- | [<- | []]]; split; cbn [sl sj cl cj]; auto. split; fold ts; lia. }
      split.
      { unfold wsum, weight; cbn [map list_sum fold_right sl sj cl cj]. lia. }
      cbn [flat_map app]. rewrite app_nil_r. exact Pc.
    + exists [PN (l1 + 1) (2 * j1) l2 j2], [].
      split; [reflexivity|]. split.
      { intros k [<- | []]; split; cbn [sl sj cl cj]; auto. }
      split.
      { unfold wsum, weight; cbn [map list_sum fold_right sl sj cl cj]. lia. }
      cbn [flat_map app]. rewrite app_nil_r. eapply Permutation_trans; [exact Pc|].
      unfold exp_pn at 2; cbn [sl sj cl cj]. unfold sleaves.
      rewrite (leaves_not_real sbx sord (l1 + 1) (2 * j1 + 1)) by (fold ts; lia).
      cbn. rewrite app_nil_r. apply Permutation_refl.
  - (* both inner *)
    rewrite (left_child_idx l1), (right_child_idx l1) by apply Hl1.
    rewrite (left_child_idx l2), (right_child_idx l2) by apply Hl2.
    unfold tc at 1 2. rewrite (right_child_spec cbx) by (try assumption; fold tc; lia). fold tc.
    unfold ts at 1. rewrite (right_child_spec sbx) by (try assumption; fold ts; lia). fold ts.
    pose proof (wf_left sbx Hts l1 j1 Hs ltac:(fold ts; lia)) as WLs.
    pose proof (wf_left cbx Htc l2 j2 Hc ltac:(fold tc; lia)) as WLc.
    assert (Wgt : (3 ^ (Z.to_nat (depth ts - l1) + Z.to_nat (depth tc - l2))
                  = 9 * 3 ^ (Z.to_nat (depth ts - (l1 + 1)) + Z.to_nat (depth tc - (l2 + 1))))%nat).
    { replace (Z.to_nat (depth ts - l1)) with (S (Z.to_nat (depth ts - (l1 + 1)))) by lia.
      replace (Z.to_nat (depth tc - l2)) with (S (Z.to_nat (depth tc - (l2 + 1)))) by lia.
      rewrite Nat.add_succ_r. cbn [plus Nat.pow]. lia. }
    assert (Nz : (3 ^ (Z.to_nat (depth ts - (l1 + 1)) + Z.to_nat (depth tc - (l2 + 1))) <> 0)%nat)
      by (apply Nat.pow_nonzero; lia).
    set (P00 := PN (l1 + 1) (2 * j1) (l2 + 1) (2 * j2)).
    set (P01 := PN (l1 + 1) (2 * j1) (l2 + 1) (2 * j2 + 1)).
    set (P10 := PN (l1 + 1) (2 * j1 + 1) (l2 + 1) (2 * j2)).
    set (P11 := PN (l1 + 1) (2 * j1 + 1) (l2 + 1) (2 * j2 + 1)).
    assert (Pc : Permutation (exp_pn (PN l1 j1 l2 j2))
        (exp_pn P00 ++ exp_pn P01 ++ exp_pn P10 ++ exp_pn P11)).
    { unfold exp_pn, P00, P01, P10, P11; cbn [sl sj cl cj].
      eapply Permutation_trans.
      { apply prodx_perm; [apply (leaves_split sbx); fold ts; lia | apply (leaves_split cbx); fold tc; lia]. }
      rewrite prodx_app_l. rewrite app_assoc. apply Permutation_app; apply prodx_app_r. }
    destruct (Z.ltb_spec (2 * j2 + 1) (cnt tc (l2 + 1))) as [Hrc | Hrc];
    destruct (Z.ltb_spec (2 * j1 + 1) (cnt ts (l1 + 1))) as [Hrs | Hrs].
    + exists [P00; P01; P10; P11], [].
      split; [reflexivity|]. split.
      { intros k [<- | [<- | [<- | [<- | []]]]]; split; cbn [sl sj cl cj P00 P01 P10 P11]; auto;
          split; fold ts; fold tc; lia. }
      split.
      { unfold wsum, weight, P00, P01, P10, P11; cbn [map list_sum fold_right sl sj cl cj]. lia. }
      cbn [flat_map app]. rewrite app_nil_r. exact Pc.
    + exists [P00; P01], [].
      split; [reflexivity|]. split.
      { intros k [<- | [<- | []]]; split; cbn [sl sj cl cj P00 P01]; auto; split; fold ts; fold tc; lia. }
      split.
      { unfold wsum, weight, P00, P01; cbn [map list_sum fold_right sl sj cl cj]. lia. }
      cbn [flat_map app]. rewrite app_nil_r. eapply Permutation_trans; [exact Pc|].
      assert (exp_pn P10 = [] /\ exp_pn P11 = []) as [-> ->].
      { unfold exp_pn, P10, P11, sleaves; cbn [sl sj cl cj].
        rewrite (leaves_not_real sbx sord (l1 + 1) (2 * j1 + 1)) by (fold ts; lia). split; reflexivity. }
      rewrite !app_nil_r. apply Permutation_refl.
    + exists [P00; P10], [].
      split; [reflexivity|]. split.
      { intros k [<- | [<- | []]]; split; cbn [sl sj cl cj P00 P10]; auto; split; fold ts; fold tc; lia. }
      split.
      { unfold wsum, weight, P00, P10; cbn [map list_sum fold_right sl sj cl cj]. lia. }
      cbn [flat_map app]. rewrite app_nil_r. eapply Permutation_trans; [exact Pc|].
      assert (exp_pn P01 = [] /\ exp_pn P11 = []) as [-> ->].
      { unfold exp_pn, P01, P11, cleaves; cbn [sl sj cl cj].
        rewrite (leaves_not_real cbx cord (l2 + 1) (2 * j2 + 1)) by (fold tc; lia).
        rewrite !prodx_nil_r. split; reflexivity. }
      rewrite !app_nil_r. apply Permutation_refl.
    + exists [P00], [].
      split; [reflexivity|]. split.
      { intros k [<- | []]; split; cbn [sl sj cl cj P00]; auto. }
      split.
      { unfold wsum, weight, P00; cbn [map list_sum fold_right sl sj cl cj]. lia. }
      cbn [flat_map app]. rewrite app_nil_r. eapply Permutation_trans; [exact Pc|].
      assert (exp_pn P01 = [] /\ exp_pn P10 = [] /\ exp_pn P11 = []) as (-> & -> & ->).
      { unfold exp_pn, P01, P10, P11, sleaves, cleaves; cbn [sl sj cl cj].
        rewrite (leaves_not_real cbx cord (l2 + 1) (2 * j2 + 1)) by (fold tc; lia).
        rewrite (leaves_not_real sbx sord (l1 + 1) (2 * j1 + 1)) by (fold ts; lia).
        rewrite !prodx_nil_r. repeat split; reflexivity. }
      rewrite !app_nil_r. apply Permutation_refl.
Qed.

Lemma wsum_app a b : wsum (a ++ b) = (wsum a + wsum b)%nat.
Proof. unfold wsum. rewrite map_app, list_sum_app. reflexivity. Qed.

(** with enough fuel the loop ends; and whenever it ends its output is a permutation of
    what was expected *)
Lemma traverse_ok fuel q m0 em :
  (forall p, In p q -> wf_pn p) ->
  exists b m, traverse fuel ts tc sm sord cm cord (map idx_pn q) (fold_left (report ts) em m0) = Some (b, m) /\
    ((wsum q <= fuel)%nat -> b = true) /\
    (b = true -> exists out, m = fold_left (report ts) (em ++ out) m0 /\
                             Permutation out (flat_map exp_pn q)).
Proof.
  revert q em. induction fuel as [|fuel IH]; intros [|p q] em Hq; cbn [map traverse].
  - do 2 eexists. split; [reflexivity|]. split; [reflexivity|]. intros _. exists [].
    rewrite app_nil_r. split; [reflexivity | constructor].
  - do 2 eexists. split; [reflexivity|]. split; [|discriminate].
    intros H. exfalso. unfold wsum in H. cbn [map list_sum fold_right] in H.
    assert (weight p <> 0)%nat by (apply Nat.pow_nonzero; lia). lia.
  - do 2 eexists. split; [reflexivity|]. split; [reflexivity|]. intros _. exists [].
    rewrite app_nil_r. split; [reflexivity | constructor].
  - destruct (visit_ok p (Hq p (or_introl eq_refl))) as (kids & out & E & Wk & Dk & Pk).
    cbn [idx_pn]. rewrite E. cbn [obind fst snd].
    rewrite <- map_app. rewrite <- fold_left_app.
    destruct (IH (q ++ kids) (em ++ out)) as (b & m & Et & Hb & Ho).
    { intros p' Hp. apply in_app_or in Hp. destruct Hp; [apply Hq; right; assumption | auto]. }
    exists b, m. split; [exact Et|]. split.
    + intros H. apply Hb. rewrite wsum_app. unfold wsum in *. cbn [map list_sum fold_right] in H.
      unfold list_sum in *. lia.
    + intros Hbt. destruct (Ho Hbt) as (out' & -> & Po). exists (out ++ out').
      split; [rewrite app_assoc; reflexivity|]. cbn [flat_map].
      eapply Permutation_trans; [apply Permutation_app_head; exact Po|].
      rewrite flat_map_app.
      eapply Permutation_trans; [|apply Permutation_app_tail, Permutation_sym, Pk].
      rewrite <- app_assoc. apply Permutation_app_head. apply Permutation_app_comm.
Qed.

Lemma root_wf : wf_pn (PN 0 0 0 0).
Proof.
  split; cbn [sl sj cl cj]; split; fold ts; fold tc;
    try (pose proof (depth_bounds ts Hts); pose proof (depth_bounds tc Htc); lia);
    rewrite cnt_root by assumption; lia.
Qed.

Definition all_pairs : list (Z * Z) := prodx (zrange ts) (zrange tc).

Lemma exp_root : exp_pn (PN 0 0 0 0) = all_pairs.
Proof.
  unfold exp_pn, all_pairs, sleaves, cleaves; cbn [sl sj cl cj].
  rewrite (leaves_root sbx Hts), (leaves_root cbx Htc). reflexivity.
Qed.

Lemma intersect_ok fuel :
  exists b m, intersectOIBVHs fuel sm sord cm cord = Some (b, m) /\
    ((3 ^ (Z.to_nat (depth ts) + Z.to_nat (depth tc)) <= fuel)%nat -> b = true) /\
    (b = true -> exists out, m = fold_left (report ts) out (fun _ => []) /\ Permutation out all_pairs).
Proof.
  unfold intersectOIBVHs. rewrite (order_len sbx sord Hso), (order_len cbx cord Hco).
  fold ts tc.
  destruct (traverse_ok fuel [PN 0 0 0 0] (fun _ => []) []) as (b & m & E & Hb & Ho).
  { intros p [<- | []]. apply root_wf. }
  cbn [map idx_pn sl sj cl cj fold_left] in E.
  change (node_idx 0 0) with 0 in E.
  exists b, m. split; [exact E|]. split.
  - intros H. apply Hb. unfold wsum, weight; cbn [map list_sum fold_right sl sj cl cj].
    rewrite !Z.sub_0_r. lia.
  - intros Hbt. destruct (Ho Hbt) as (out & Em & P). exists out. split; [exact Em|].
    cbn [flat_map] in P. rewrite app_nil_r, exp_root in P. exact P.
Qed.





Lemma In_all_pairs f g :
  In (f, g) all_pairs <->
  exists bf bg, vget sbx f = Some bf /\ vget cbx g = Some bg /\ intersect_bounding_boxes bf bg = true.
Proof.
  unfold all_pairs, prodx. rewrite in_map_iff. split.
  - intros ([k m] & E & H). apply filter_In in H. destruct H as [H Hh].
    apply in_prod_iff in H. destruct H as [Hk Hm]. apply In_zrange in Hk. apply In_zrange in Hm.
    unfold lfaces in E; cbn [fst snd] in E. injection E as <- <-.
    unfold hit in Hh; cbn [fst snd] in Hh.
    exists (lbox sbx sord k), (lbox cbx cord m).
    split; [apply lbox_get; assumption|]. split; [apply lbox_get; assumption | exact Hh].
  - intros (bf & bg & Ef & Eg & H).
    pose proof (vget_Some_range _ _ _ Ef) as Rf. pose proof (vget_Some_range _ _ _ Eg) as Rg.
    assert (If : In f sord) by (apply (Permutation_in _ (Permutation_sym Hso)), In_zrange; exact Rf).
    assert (Ig : In g cord) by (apply (Permutation_in _ (Permutation_sym Hco)), In_zrange; exact Rg).
    apply In_vget in If. destruct If as [k Ek]. apply In_vget in Ig. destruct Ig as [m Em].
    pose proof (vget_Some_range _ _ _ Ek) as Rk. pose proof (vget_Some_range _ _ _ Em) as Rm.
    rewrite (order_len sbx sord Hso) in Rk. rewrite (order_len cbx cord Hco) in Rm.
    pose proof (lface_get sbx sord Hso k Rk) as Lk. pose proof (lface_get cbx cord Hco m Rm) as Lm.
    exists (k, m). unfold lfaces; cbn [fst snd].
    split; [f_equal; congruence|]. apply filter_In. split.
    + apply in_prod_iff. split; apply In_zrange; assumption.
    + unfold hit; cbn [fst snd].
      pose proof (lbox_get sbx sord Hso k Rk) as Bk. pose proof (lbox_get cbx cord Hco m Rm) as Bm.
      replace (lbox sbx sord k) with bf by congruence. replace (lbox cbx cord m) with bg by congruence.
      exact H.
Qed.

Lemma NoDup_list_prod {A B} (a : list A) (b : list B) : NoDup a -> NoDup b -> NoDup (list_prod a b).
Proof.
  intros Ha Hb. induction Ha as [|x l Hx Hl IH]; cbn; [constructor|].
  assert (Hm : NoDup (map (fun y => (x, y)) b)).
  { apply FinFun.Injective_map_NoDup; [|exact Hb]. intros u v E. congruence. }
  assert (D : forall z, In z (map (fun y => (x, y)) b) -> ~ In z (list_prod l b)).
  { intros z Hz Hz'. apply in_map_iff in Hz. destruct Hz as (y & <- & _).
    apply in_prod_iff in Hz'. tauto. }
  revert D Hm. generalize (map (fun y => (x, y)) b) as c.
  induction c as [|z c IHc]; intros D Hm; cbn; [exact IH|].
  inversion Hm as [|? ? Hz Hc]; subst. constructor.
  - intros H. apply in_app_or in H. destruct H as [H | H]; [contradiction|]. apply (D z); [left; reflexivity | exact H].
  - apply IHc; [intros w Hw; apply D; right; exact Hw | exact Hc].
Qed.

Lemma NoDup_all_pairs : NoDup all_pairs.
Proof.
  unfold all_pairs, prodx.
  assert (N : NoDup (filter hit (list_prod (zrange ts) (zrange tc)))).
  { apply NoDup_filter, NoDup_list_prod; apply NoDup_zrange. }
  assert (R : forall p, In p (filter hit (list_prod (zrange ts) (zrange tc))) -> 0 <= fst p < ts /\ 0 <= snd p < tc).
  { intros [k m] H. apply filter_In in H. destruct H as [H _]. apply in_prod_iff in H.
    rewrite !In_zrange in H. exact H. }
  revert N R. generalize (filter hit (list_prod (zrange ts) (zrange tc))) as l.
  induction l as [|[k m] l IH]; intros N R; cbn [map]; [constructor|].
  inversion N as [|? ? Hn Nl]; subst. constructor.
  - intros H. apply in_map_iff in H. destruct H as ([k' m'] & E & H).
    unfold lfaces in E; cbn [fst snd] in E.
    pose proof (R (k, m) (or_introl eq_refl)) as [Rk Rm]. cbn [fst snd] in Rk, Rm.
    pose proof (R (k', m') (or_intror H)) as [Rk' Rm']. cbn [fst snd] in Rk', Rm'.
    injection E as E1 E2.
    assert (k' = k).
    { eapply (NoDup_vget_inj sord); [apply (Permutation_NoDup (Permutation_sym Hso)), NoDup_zrange| |].
      - apply (lface_get sbx sord Hso k' Rk').
      - rewrite E1. apply (lface_get sbx sord Hso k Rk). }
    assert (m' = m).
    { eapply (NoDup_vget_inj cord); [apply (Permutation_NoDup (Permutation_sym Hco)), NoDup_zrange| |].
      - apply (lface_get cbx cord Hco m' Rm').
      - rewrite E2. apply (lface_get cbx cord Hco m Rm). }
    subst. contradiction.
  - apply IH; [exact Nl|]. intros p Hp. apply R. right. exact Hp.
Qed.

End Two.

(** ** Overlap *)

Lemma intersect_iff_overlap a b :
  proper_box a -> proper_box b -> (intersect_bounding_boxes a b = true <-> boxes_overlap a b).
Proof.
  intros Ha Hb. unfold proper_box in *. split.
  - intros H. unfold intersect_bounding_boxes in H.
    exists (V3 (Z.max (vx (bmin a)) (vx (bmin b))) (Z.max (vy (bmin a)) (vy (bmin b))) (Z.max (vz (bmin a)) (vz (bmin b)))).
    unfold in_box; cbn [vx vy vz]. lia.
  - intros (p & [Ax [Ay Az]] & [Bx [By Bz]]). unfold intersect_bounding_boxes. lia.
Qed.

Lemma NoDup_map_inj_on {A B} (f : A -> B) l :
  (forall x y, In x l -> In y l -> f x = f y -> x = y) -> NoDup l -> NoDup (map f l).
Proof.
  induction l as [|x l IH]; intros H N; cbn; [constructor|].
  inversion N as [|? ? Hx Nl]; subst. constructor.
  - intros I. apply in_map_iff in I. destruct I as (y & E & Hy).
    assert (x = y) by (apply H; [left; reflexivity | right; exact Hy | congruence]). congruence.
  - apply IH; [|exact Nl]. intros a b Ia Ib. apply H; right; assumption.
Qed.

Theorem broad_phase_exact sbx cbx sord cord slsched clsched ssched csched :
  1 <= zlen sbx <= 2 ^ 23 -> 1 <= zlen cbx <= 2 ^ 23 ->
  (forall b, In b sbx -> proper_box b) -> (forall b, In b cbx -> proper_box b) ->
  any_order sord (zlen sbx) -> any_order cord (zlen cbx) ->
  any_order slsched (zlen sbx) -> any_order clsched (zlen cbx) ->
  (forall l, any_order (ssched l) (nodes_on_level (zlen sbx) l)) ->
  (forall l, any_order (csched l) (nodes_on_level (zlen cbx) l)) ->
  exists sm cm,
    build_oibvh sbx sord slsched ssched = Some sm /\
    build_oibvh cbx cord clsched csched = Some cm /\
    (exists fuel m, intersectOIBVHs fuel sm sord cm cord = Some (true, m)) /\
    (forall fuel, intersectOIBVHs fuel sm sord cm cord <> None) /\
    (forall fuel m, intersectOIBVHs fuel sm sord cm cord = Some (true, m) -> exact_candidates sbx cbx m).
Proof.
  intros Hs Hc Ps Pc Os Oc Ls Lc Ss Sc.
  destruct (build_ok sbx sord Hs Os Ps slsched ssched Ls) as (sm & Esm & _ & Hsm); [intros l _; apply Ss|].
  destruct (build_ok cbx cord Hc Oc Pc clsched csched Lc) as (cm & Ecm & _ & Hcm); [intros l _; apply Sc|].
  exists sm, cm. split; [exact Esm|]. split; [exact Ecm|].
  pose proof (intersect_ok sbx sord cbx cord Hs Hc Os Oc sm cm Hsm Hcm) as T.
  split.
  { destruct (T (3 ^ (Z.to_nat (depth (zlen sbx)) + Z.to_nat (depth (zlen cbx))))%nat) as (b & m & E & Hb & _).
    rewrite (Hb (le_n _)) in E. eauto. }
  split.
  { intros fuel. destruct (T fuel) as (b & m & E & _). rewrite E. discriminate. }
  intros fuel m E. destruct (T fuel) as (b & m' & E' & _ & Ho). rewrite E in E'. injection E' as <- <-.
  destruct (Ho eq_refl) as (out & -> & P).
  assert (Io : forall f g, In (f, g) out <->
     exists bf bg, vget sbx f = Some bf /\ vget cbx g = Some bg /\ boxes_overlap bf bg).
  { intros f g. rewrite <- (In_all_pairs sbx sord cbx cord Os Oc f g) || idtac.
    split.
    - intros H. apply (Permutation_in _ P) in H. apply (In_all_pairs sbx sord cbx cord Os Oc) in H.
      destruct H as (bf & bg & Ef & Eg & H). exists bf, bg. split; [exact Ef|]. split; [exact Eg|].
      apply intersect_iff_overlap; eauto using vget_In.
    - intros (bf & bg & Ef & Eg & H). apply (Permutation_in _ (Permutation_sym P)).
      apply (In_all_pairs sbx sord cbx cord Os Oc). exists bf, bg. split; [exact Ef|]. split; [exact Eg|].
      apply intersect_iff_overlap; eauto using vget_In. }
  assert (Rg : forall p, In p out -> 0 <= fst p < zlen sbx /\ 0 <= snd p < zlen cbx).
  { intros [f g] H. apply Io in H. destruct H as (bf & bg & Ef & Eg & _). cbn.
    split; eapply vget_Some_range; eauto. }
  assert (No : NoDup out).
  { apply (Permutation_NoDup (Permutation_sym P)), NoDup_all_pairs; assumption. }
  split; [|split].
  - intros f Hf. rewrite (report_src (zlen sbx)) by (auto; intros p Hp; apply Rg in Hp; lia).
    cbn [app]. split.
    + apply NoDup_map_inj_on; [|apply NoDup_filter; exact No].
      intros [a b] [c d] H1 H2 E12. apply filter_In in H1. apply filter_In in H2. cbn [fst snd] in *.
      f_equal; lia.
    + intros x. rewrite in_map_iff. split.
      * intros ([a b] & <- & H). apply filter_In in H. cbn [fst snd] in *. destruct H as [H Ea].
        apply Io in H. destruct H as (bf & bg & Ef & Eg & Hov). apply Z.eqb_eq in Ea. subst a.
        exists b, bf, bg. auto.
      * intros (g & bf & bg & -> & Ef & Eg & Hov). exists (f, g). split; [reflexivity|].
        apply filter_In. cbn [fst]. split; [apply Io; eauto | apply Z.eqb_refl].
  - intros g Hg. rewrite (report_cut (zlen sbx)) by (auto; try lia; intros p Hp; apply Rg in Hp; lia).
    cbn [app]. split.
    + apply NoDup_map_inj_on; [|apply NoDup_filter; exact No].
      intros [a b] [c d] H1 H2 E12. apply filter_In in H1. apply filter_In in H2. cbn [fst snd] in *.
      f_equal; lia.
    + intros f. rewrite in_map_iff. split.
      * intros ([a b] & <- & H). apply filter_In in H. cbn [fst snd] in *. destruct H as [H Ea].
        apply Io in H. apply Z.eqb_eq in Ea. subst b. exact H.
      * intros H. exists (f, g). split; [reflexivity|].
        apply filter_In. cbn [snd]. split; [apply Io; exact H | apply Z.eqb_refl].
  - intros k Hk. rewrite (report_other (zlen sbx) (zlen cbx)) by (auto; exact Rg). reflexivity.
Qed.
