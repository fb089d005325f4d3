From Coq Require Import List ZArith Lia Bool Relations Permutation Sorted.
From Verif Require Import Vec VecLemmas HmeshModel HmeshSpec HmeshCore HmeshCyc HmeshFaces HmeshAdd HmeshIter HmeshProps ParModel ParProofs
  InputModel InputSpec InputProofs CompModel CompSpec CompProofs CompProps ExtractModel ExtractSpec.
Import ListNotations.
Open Scope Z_scope.

(** ** std::binary_search *)
Lemma sorted_vget l : StronglySorted Z.le l -> forall i j x y, i <= j -> vget l i = Some x -> vget l j = Some y -> x <= y.
Proof.
  induction 1 as [|a l St IH F]; intros i j x y Hij Ei Ej.
  - apply vget_Some_range in Ei. unfold zlen in Ei. cbn in Ei. lia.
  - pose proof (vget_Some_range _ _ _ Ei) as Ri. pose proof (vget_Some_range _ _ _ Ej) as Rj. unfold zlen in Ri, Rj. cbn [length] in *.
    assert (Sh : forall k z, 0 < k -> vget (a :: l) k = Some z -> vget l (k - 1) = Some z).
    { intros k z Hk E. unfold vget in *. destruct (Z.ltb_spec k 0); [lia|]. destruct (Z.ltb_spec (k - 1) 0); [lia|].
      replace (Z.to_nat k) with (S (Z.to_nat (k - 1))) in E by lia. exact E. }
    destruct (Z.eq_dec j 0) as [->|Nj].
    + assert (i = 0) by lia. subst i. assert (x = y) by congruence. lia.
    + apply Sh in Ej; [|lia]. destruct (Z.eq_dec i 0) as [->|Ni].
      * cbn in Ei. injection Ei as <-. apply vget_In in Ej. rewrite Forall_forall in F. apply F, Ej.
      * apply Sh in Ei; [|lia]. eapply IH; [|exact Ei|exact Ej]. lia.
Qed.

Lemma lower_bound_spec l x : StronglySorted Z.le l -> forall fuel first len, 0 <= first -> 0 <= len <= Z.of_nat fuel -> first + len <= zlen l ->
  (forall i y, i < first -> vget l i = Some y -> y < x) -> (forall i y, first + len <= i -> vget l i = Some y -> x <= y) ->
  exists r, lower_bound fuel l first len x = Some r /\ 0 <= r <= zlen l /\
    (forall i y, i < r -> vget l i = Some y -> y < x) /\ (forall i y, r <= i -> vget l i = Some y -> x <= y).
Proof.
  intros S. induction fuel as [|k IH]; intros first len H1 H2 H3 Lo Hi; cbn [lower_bound].
  - assert (len = 0) by lia. subst len. cbn. exists first. replace (first + 0) with first in Hi by lia. split; [reflexivity|]. split; [lia|]. auto.
  - destruct (Z.leb_spec len 0) as [L|L].
    + exists first. assert (len = 0) by lia. subst len. replace (first + 0) with first in Hi by lia. split; [reflexivity|]. split; [lia|]. auto.
    + assert (Hh : 0 <= len / 2 < len) by (split; [apply Z.div_pos; lia|apply Z.div_lt; lia]). set (half := len / 2) in *.
      destruct (vget_range_Some l (first + half)) as [y Ey]; [lia|]. rewrite Ey. cbn [obind]. destruct (Z.ltb_spec y x) as [Q|Q].
      * apply IH; try lia; [|intros i z Hi'; apply Hi; lia]. intros i z Hz Ez. destruct (Z_lt_le_dec i first) as [C|C]; [eapply Lo; eassumption|].
        pose proof (sorted_vget l S i (first + half) z y) as M. specialize (M ltac:(lia) Ez Ey). lia.
      * apply IH; try lia; [exact Lo|]. intros i z Hz Ez. pose proof (sorted_vget l S (first + half) i y z Hz Ey Ez). lia.
Qed.

Lemma binary_search_spec l x : StronglySorted Z.le l -> exists b, binary_search l x = Some b /\ (b = true <-> In x l).
Proof.
  intros S. unfold binary_search. destruct (lower_bound_spec l x S (length l) 0 (zlen l)) as (r & E & R & Lo & Hi); try (unfold zlen; lia).
  - intros i y Hi E. apply vget_Some_range in E. lia.
  - intros i y Hi E. apply vget_Some_range in E. lia.
  - rewrite E. cbn [obind]. destruct (Z.eqb_spec r (zlen l)) as [Q|Q].
    + exists false. split; [reflexivity|]. split; [discriminate|]. intros K. apply In_vget in K. destruct K as [i Ei]. pose proof (vget_Some_range _ _ _ Ei). exfalso. specialize (Lo i x ltac:(lia) Ei). lia.
    + destruct (vget_range_Some l r) as [y Ey]; [lia|]. rewrite Ey. cbn [obind]. exists (negb (x <? y)). split; [reflexivity|]. pose proof (Hi r y ltac:(lia) Ey) as M. destruct (Z.ltb_spec x y) as [C|C]; cbn.
      * split; [discriminate|]. intros K. apply In_vget in K. destruct K as [i Ei]. exfalso. destruct (Z_lt_le_dec i r) as [D|D]; [specialize (Lo i x D Ei); lia|].
        pose proof (sorted_vget l S r i y x D Ey Ei). lia.
      * split; [|reflexivity]. intros _. assert (x = y) by lia. subst y. eapply vget_In; exact Ey.
Qed.

(** ** association lists *)
Definition numbered (l : list Z) : list (Z * Z) := combine l (zrange (zlen l)).
Lemma zrange_snoc n : 0 <= n -> zrange (n + 1) = zrange n ++ [n].
Proof.
  intros H. unfold zrange. replace (Z.to_nat (n + 1)) with (S (Z.to_nat n)) by lia. rewrite seq_S, map_app. cbn. f_equal. f_equal. lia.
Qed.
Lemma numbered_snoc l v : numbered (l ++ [v]) = numbered l ++ [(v, zlen l)].
Proof.
  unfold numbered. rewrite zlen_snoc, zrange_snoc by apply zlen_nonneg. rewrite combine_app_eq; [reflexivity|].
  rewrite length_zrange. unfold zlen. lia.
Qed.
Lemma In_numbered l v x : In (v, x) (numbered l) <-> vget l x = Some v.
Proof.
  induction l as [|a l IH] using rev_ind; [split; [intros []|intros E; apply vget_Some_range in E; unfold zlen in E; cbn in E; lia]|].
  rewrite numbered_snoc, in_app_iff, IH. cbn [In]. split.
  - intros [K|[K|[]]]; [rewrite vget_app1; [exact K|eapply vget_Some_range; exact K]|]. injection K as -> <-. apply vget_last.
  - intros K. apply vget_snoc in K. destruct K as [K|[-> ->]]; [left; exact K|right; left; reflexivity].
Qed.
Lemma lookup_In l k x : lookup l k = Some x -> In (k, x) l.
Proof.
  induction l as [|[a b] l IH]; [discriminate|]. cbn. destruct (Z.eqb_spec a k) as [->|]; [intros E; injection E as ->; left; reflexivity|intros E; right; exact (IH E)].
Qed.
Lemma lookup_None l k : lookup l k = None -> forall x, ~ In (k, x) l.
Proof.
  induction l as [|[a b] l IH]; [intros _ x []|]. cbn. destruct (Z.eqb_spec a k) as [->|N]; [discriminate|]. intros E x [K|K]; [injection K as -> _; congruence|exact (IH E x K)].
Qed.
Lemma lookup_numbered l v : match lookup (numbered l) v with Some x => vget l x = Some v | None => ~ In v l end.
Proof.
  destruct (lookup (numbered l) v) as [x|] eqn:E.
  - apply In_numbered, lookup_In, E.
  - intros K. apply In_vget in K. destruct K as [i K]. apply In_numbered in K. eapply lookup_None; eassumption.
Qed.

(** ** a fold that treats the buckets of a table separately *)
Section Buckets.
Variable fcc : list Z.
Variable g : option comp -> Z -> option comp.
Definition bstep (cs : list (option comp)) (f : Z) : option (list (option comp)) :=
  do k <- vget fcc f; do oc <- vget cs k; do c <- g oc f; vset cs k (Some c).
Definition bfold (l : list Z) (oc : option comp) : option (option comp) := ofold (fun oc f => option_map Some (g oc f)) l oc.

Lemma bucket_fold l : forall cs, (forall f, In f l -> exists k, vget fcc f = Some k /\ 0 <= k < zlen cs) ->
  (forall k oc, vget cs k = Some oc -> exists r, bfold (filter (has fcc k) l) oc = Some r) ->
  exists cs', ofold bstep l cs = Some cs' /\ zlen cs' = zlen cs /\
    forall k oc, vget cs k = Some oc -> exists r, bfold (filter (has fcc k) l) oc = Some r /\ vget cs' k = Some r.
Proof.
  induction l as [|f l IH]; intros cs Hr Hb.
  - exists cs. split; [reflexivity|]. split; [reflexivity|]. intros k oc E. exists oc. auto.
  - destruct (Hr f (or_introl eq_refl)) as (k & Ek & Rk). destruct (vget_range_Some cs k Rk) as [oc Eo].
    assert (Hk : has fcc k f = true) by (apply has_spec; exact Ek).
    destruct (Hb k oc Eo) as [r Er]. cbn [filter] in Er. rewrite Hk in Er. cbn [bfold ofold] in Er. unfold bfold in Er. cbn [ofold] in Er.
    destruct (g oc f) as [c|] eqn:Eg; [|discriminate]. cbn [option_map obind] in Er.
    destruct (vset cs k (Some c)) as [cs1|] eqn:Es; [|rewrite (vset_Some cs k (Some c) Rk) in Es; discriminate].
    pose proof (vset_len _ _ _ _ Es) as L1.
    assert (Oth : forall k', k' <> k -> has fcc k' f = false).
    { intros k' N. destruct (has fcc k' f) eqn:Q; [|reflexivity]. apply has_spec in Q. congruence. }
    assert (V1 : forall k' oc', vget cs1 k' = Some oc' -> (k' = k /\ oc' = Some c) \/ (k' <> k /\ vget cs k' = Some oc')).
    { intros k' oc' E. destruct (Z.eq_dec k' k) as [->|N]; [left; rewrite (vget_vset_eq _ _ _ _ Es) in E; split; congruence|right]. rewrite (vget_vset_neq _ _ _ _ _ Es) in E by congruence. auto. }
    destruct (IH cs1) as (cs' & E' & L' & V').
    + intros h Hh. destruct (Hr h (or_intror Hh)) as (q & Q1 & Q2). exists q. split; [exact Q1|lia].
    + intros k' oc' E. destruct (V1 k' oc' E) as [[-> ->]|[N E2]]; [exists r; exact Er|]. destruct (Hb k' oc' E2) as [r' Er']. cbn [filter] in Er'. rewrite (Oth k' N) in Er'. exists r'. exact Er'.
    + exists cs'. split; [cbn [ofold]; unfold bstep at 1; rewrite Ek; cbn [obind]; rewrite Eo; cbn [obind]; rewrite Eg; cbn [obind]; rewrite Es; exact E'|]. split; [lia|].
      intros k' oc' E. destruct (Z.eq_dec k' k) as [->|N].
      * assert (oc' = oc) by congruence. subst oc'. destruct (V' k (Some c) (vget_vset_eq _ _ _ _ Es)) as (r' & R1 & R2). exists r'. split; [|exact R2].
        cbn [filter]. rewrite Hk. unfold bfold. cbn [ofold]. rewrite Eg. cbn [option_map obind]. exact R1.
      * destruct (V' k' oc') as (r' & R1 & R2); [rewrite (vget_vset_neq _ _ _ _ _ Es) by congruence; exact E|]. exists r'. split; [|exact R2]. cbn [filter]. rewrite (Oth k' N). exact R1.
Qed.
End Buckets.

Lemma ofold_ext {A B} (f g : B -> A -> option B) l : (forall b a, f b a = g b a) -> forall b, ofold f l b = ofold g l b.
Proof. intros H. induction l as [|a l IH]; intros b; [reflexivity|]. cbn. rewrite H. destruct (g b a); [apply IH|reflexivity]. Qed.

Lemma lset_same {A} (l : list A) : forall i x, nth_error l i = Some x -> lset l i x = l.
Proof. induction l as [|a l IH]; intros [|i] x E; try reflexivity; cbn in *; [congruence|]. f_equal. apply IH, E. Qed.
Lemma vset_same {A} (l : list A) i x : vget l i = Some x -> vset l i x = Some l.
Proof.
  intros E. pose proof (vget_Some_range _ _ _ E) as R. rewrite (vset_Some l i x R). f_equal. apply lset_same. unfold vget in E. destruct (i <? 0); [discriminate|exact E].
Qed.

(** ** insertion of the polygons *)
Lemma all_edges_app a b : all_edges (a ++ b) = all_edges a ++ all_edges b.
Proof. unfold all_edges. rewrite map_app, concat_app. reflexivity. Qed.
Lemma all_edges_one p : all_edges [p] = directed_edges p.
Proof. unfold all_edges. cbn. apply app_nil_r. Qed.
Lemma NoDup_app_l {A} (a b : list A) : NoDup (a ++ b) -> NoDup a.
Proof. induction a as [|x a IH]; [constructor|]. cbn. intros N. inversion N as [|? ? X1 X2]; subst. constructor; [intros K; apply X1, in_app_iff; auto|auto]. Qed.
Lemma vget_split {A} (l : list A) i x : vget l i = Some x -> exists a b, l = a ++ x :: b /\ zlen a = i.
Proof.
  intros E. pose proof (vget_Some_range _ _ _ E) as R. unfold vget in E. destruct (Z.ltb_spec i 0); [lia|]. apply nth_error_split in E. destruct E as (a & b & E & L). exists a, b. split; [exact E|]. unfold zlen. lia.
Qed.
Lemma firstn_snoc {A} (l : list A) n x : nth_error l n = Some x -> firstn (S n) l = firstn n l ++ [x].
Proof. revert l. induction n as [|n IH]; intros [|a l] E; try discriminate; cbn in *; [congruence|]. f_equal. apply IH, E. Qed.

Section Extract.
Variables (P : params) (inm : hmesh) (polys vss : list (list Z)).
Hypothesis (H : proper P inm polys vss).
Let coords := map vpt (verts inm).

Lemma base_built : built_on (adjacent inm) coords [] inm.
Proof.
  pose proof (history_inv inm (pr_hist _ _ _ _ H)) as I.
  constructor.
  - apply H.
  - intros s t h1 h2 A1 A2. apply (live_arc inm h1 s t (proj1 I)) in A1. apply (live_arc inm h2 s t (proj1 I)) in A2. destruct A1 as (L1 & S1 & T1), A2 as (L2 & S2 & T2).
    exact (pr_simple _ _ _ _ H h1 h2 s t L1 L2 S1 T1 S2 T2).
  - apply H.
  - apply H.
  - unfold coords, zlen. rewrite map_length. reflexivity.
  - intros i p E. unfold coords, vget in *. destruct (i <? 0); [discriminate|]. rewrite <- nth_error_map. unfold coords. rewrite nth_error_map in *. exact E.
  - rewrite (pr_faces _ _ _ _ H). reflexivity.
  - intros i f E. apply vget_Some_range in E. unfold zlen in E. cbn in E. lia.
  - intros s t h A. left. apply (live_arc inm h s t (proj1 I)) in A. exists h. exact A.
  - intros s t (h & A). exists h. apply (live_arc inm h s t (proj1 I)). exact A.
Qed.

Lemma nv_coords : number_of_vertices inm = zlen coords.
Proof. unfold number_of_vertices. rewrite (pr_rv _ _ _ _ H). unfold coords, zlen. rewrite map_length. cbn. lia. Qed.

Lemma len_polys : zlen polys = zlen vss.
Proof. pose proof (f_equal (@length _) (pr_vss _ _ _ _ H)) as E. rewrite !map_length in E. unfold zlen. lia. Qed.

Lemma poly_vertices i p : vget polys i = Some p -> exists vs, vget vss i = Some vs /\ omap (target inm) p = Some vs.
Proof.
  intros E. unfold vget in *. destruct (i <? 0); [discriminate|]. pose proof (f_equal (fun l => nth_error l (Z.to_nat i)) (pr_vss _ _ _ _ H)) as Q. cbv beta in Q. rewrite !nth_error_map, E in Q.
  cbn in Q. destruct (nth_error vss (Z.to_nat i)) as [vs|]; [|discriminate]. cbn in Q. exists vs. split; [reflexivity|congruence].
Qed.

Lemma vss_good p : In p vss -> good_face (zlen coords) p.
Proof. intros Hp. pose proof (pr_wf _ _ _ _ H) as W. rewrite nv_coords in W. constructor; [apply W; exact Hp|apply W; exact Hp|intros v Hv; exact (wf_range _ _ W p v Hp Hv)]. Qed.

Lemma edges_disjoint i j p q e : vget vss i = Some p -> vget vss j = Some q -> In e (directed_edges p) -> In e (directed_edges q) -> i = j.
Proof.
  intros Ei Ej Hp Hq. pose proof (wf_manifold _ _ (pr_wf _ _ _ _ H)) as N.
  assert (G : forall i j p q, i < j -> vget vss i = Some p -> vget vss j = Some q -> In e (directed_edges p) -> In e (directed_edges q) -> False).
  { clear - N. intros i j p q Hij Ei Ej Hp Hq. apply vget_split in Ei. destruct Ei as (a & b & -> & La). rewrite (vget_app_r a (p :: b) j) in Ej by lia.
    assert (Ej' : In q b). { unfold vget in Ej. destruct (Z.ltb_spec (j - zlen a) 0); [discriminate|]. replace (Z.to_nat (j - zlen a)) with (S (Z.to_nat (j - zlen a - 1))) in Ej by lia. cbn in Ej. eapply nth_error_In; exact Ej. }
    rewrite map_app, concat_app in N. cbn [map concat] in N. apply in_split in Hp. destruct Hp as (x & y & Ep). rewrite Ep in N. rewrite app_assoc in N. rewrite <- !app_assoc in N. cbn [app] in N. rewrite app_assoc in N. apply NoDup_remove_2 in N. apply N.
    rewrite !in_app_iff. right. right. apply in_concat. exists (directed_edges q). split; [apply in_map; exact Ej'|exact Hq]. }
  destruct (Z.lt_trichotomy i j) as [K|[K|K]]; [exfalso; exact (G i j p q K Ei Ej Hp Hq)|exact K|exfalso; exact (G j i q p K Ej Ei Hq Hp)].
Qed.

Definition stable (m : hmesh) : Prop := forall h, live_halfedge inm h -> live_halfedge m h /\ target m h = target inm h.

Lemma omap_ext_in {A B} (g h : A -> option B) l : (forall x, In x l -> g x = h x) -> omap g l = omap h l.
Proof. induction l as [|a l IH]; intros E; [reflexivity|]. cbn. rewrite (E a (or_introl eq_refl)), IH; [reflexivity|]. intros x Hx. apply E. right. exact Hx. Qed.

Lemma insert_polygons pool n : (n <= length vss)%nat -> exists m, ofold (insert_polygon pool inm polys) (zrange (Z.of_nat n)) inm = Some m /\
  built_on (adjacent inm) coords (firstn n vss) m /\ stable m.
Proof.
  induction n as [|n IH]; intros Hn.
  - exists inm. split; [reflexivity|]. split; [exact base_built|]. intros h L. auto.
  - destruct IH as (m & E & B & St); [lia|]. destruct (nth_error vss n) as [vs|] eqn:Ev; [|apply nth_error_None in Ev; lia].
    assert (Vs : vget vss (Z.of_nat n) = Some vs). { unfold vget. destruct (Z.ltb_spec (Z.of_nat n) 0); [lia|]. rewrite Nat2Z.id. exact Ev. }
    destruct (vget_range_Some polys (Z.of_nat n)) as [p Ep]; [rewrite len_polys; unfold zlen; lia|].
    destruct (poly_vertices _ _ Ep) as (vs' & Vs' & Et). assert (vs' = vs) by congruence. subst vs'.
    replace (Z.of_nat (S n)) with (Z.of_nat n + 1) by lia. rewrite zrange_snoc, ofold_app, E by lia. cbn [ofold obind].
    unfold insert_polygon at 1. rewrite Ep. cbn [obind].
    assert (Et' : omap (target match pool with Some _ => inm | None => m end) p = Some vs).
    { destruct pool; [exact Et|]. rewrite <- Et. apply omap_ext_in. intros h Hh. apply St. eapply pr_live; [exact H|eapply vget_In; exact Ep|exact Hh]. }
    rewrite Et'. cbn [obind]. pose proof (vss_good vs (nth_error_In _ _ Ev)) as Gf. pose proof (built_face coords _ m vs B Gf) as S.
    pose proof (history_inv m (b_hist _ _ _ B)) as I.
    assert (Lv : forall v, In v vs -> lv m v) by (intros v Hv; apply (built_lv _ _ _ _ B), (gfr _ _ Gf), Hv).
    pose proof (add_face_spec m vs I (gf3 _ _ Gf) (gfd _ _ Gf) Lv) as Sp.
    assert (Nc : ~ clash (all_edges (firstn n vss)) vs).
    { intros (s & t & K1 & K2). apply In_all_edges in K2. destruct K2 as (j & q & Ej & Kq). rewrite <- directed_cyc in Kq.
      pose proof (vget_Some_range _ _ _ Ej) as Rj. assert (Lf : zlen (firstn n vss) = Z.of_nat n) by (unfold zlen; rewrite firstn_length; lia).
      assert (Eq : vget vss j = Some q). { rewrite <- (firstn_skipn n vss). rewrite vget_app1 by lia. exact Ej. }
      pose proof (edges_disjoint _ _ _ _ _ Eq Vs Kq K1). lia. }
    destruct (add_face m vs) as [f m'|m'|]; [|contradiction|contradiction]. destruct S as [_ B']. destruct Sp as [_ Fa].
    exists m'. split; [reflexivity|]. split; [rewrite (firstn_snoc _ _ _ Ev); exact B'|].
    intros h L. destruct (St h L) as [L1 T1]. destruct (fa_pres _ _ _ _ Fa) as (_ & _ & P3). destruct (P3 h L1) as (L2 & _ & T2 & _). split; [exact L2|congruence].
Qed.

Lemma mesh_built pool porder : polygon_order pool (zlen polys) = Some porder ->
  (match pool with None => True | Some t => 0 <= t < 2 ^ 32 - 1 /\ 1 <= zlen vss /\ zlen vss + 1023 < 2 ^ 32 end) ->
  exists m, ofold (insert_polygon pool inm polys) porder inm = Some m /\ built_on (adjacent inm) coords vss m.
Proof.
  intros E Hp. assert (Eo : porder = zrange (zlen vss)).
  { rewrite len_polys in E. unfold polygon_order in E. destruct pool as [t|]; [|congruence]. destruct Hp as (H1 & H2 & H3).
    assert (P1 : 1 <= 1024) by lia. assert (P2 : zlen vss + 1024 - 1 < 2 ^ 32) by lia. destruct (plan_ok t (zlen vss) 1024 H2 H1 P1 P2) as (w & ms & Ep & _ & Ec & _). rewrite Ep in E. congruence. }
  subst porder. destruct (insert_polygons pool (length vss) (le_n _)) as (m & Em & B & _). exists m. rewrite firstn_all in B. split; [exact Em|exact B].
Qed.

(** ** the components of the mesh *)
Section Mesh.
Variable m : hmesh.
Hypothesis (B : built_on (adjacent inm) coords vss m).

Lemma mesh_dense : dense m.
Proof. apply small_dense; [apply (b_rv _ _ _ B)|apply (b_rf _ _ _ B)]. Qed.
Lemma mesh_nf : number_of_faces m = zlen vss.
Proof. unfold number_of_faces. rewrite (b_rf _ _ _ B), (b_fl _ _ _ B). unfold zlen. cbn. lia. Qed.
Lemma mesh_face i p : vget vss i = Some p -> live_face m i /\ get_vertices_around_face m i = Some (rotate1 p).
Proof. intros E. split; [apply (built_live_face _ _ _ _ B); eapply vget_Some_range; exact E|apply (b_face _ _ _ B); exact E]. Qed.
Lemma mesh_faces_iter : iterate (zlen (faces m)) (rf m) = Some (zrange (zlen vss)).
Proof.
  destruct (C16_iteration_and_counts_agree m (b_hist _ _ _ B)) as (_ & _ & _ & (fs & Ef & El & Ifs & Nf & Lf) & _). rewrite Ef. f_equal. rewrite (b_fl _ _ _ B), (b_rf _ _ _ B) in Ef.
  rewrite El. unfold live_slots. rewrite (b_rf _ _ _ B), (b_fl _ _ _ B). clear. induction (zrange (zlen vss)) as [|x l IH]; [reflexivity|]. cbn. f_equal. exact IH.
Qed.

Lemma connected_joined a b : connected m a b <-> joined inm vss a b.
Proof.
  pose proof (b_hist _ _ _ B) as Hm. pose proof (C12_connectivity_consistent m Hm) as C. pose proof (history_inv m Hm) as I.
  assert (A1 : forall s t p, In p vss -> In (s, t) (directed_edges p) -> connected m s t).
  { intros s t p Hp Hst. destruct (In_vget vss p Hp) as [i Ei]. destruct (mesh_face i p Ei) as [Lf Ev].
    destruct (face_front m C mesh_dense i Lf) as (v & vs & Ev' & Hw). assert (Eq : rotate1 p = v :: vs) by congruence.
    assert (Hs : In s p /\ In t p) by (rewrite directed_cyc in Hst; apply cyc_In in Hst; exact Hst). destruct Hs as [Hs Ht]. apply In_rotate1 in Hs, Ht. rewrite Eq in Hs, Ht.
    eapply rt_trans; [apply connected_sym; [exact C|apply Hw; exact Hs]|apply Hw; exact Ht]. }
  split.
  - induction 1 as [x y (h & Lh & Sh & Th)| |x y z _ I1 _ I2]; [|apply rst_refl|eapply rst_trans; eassumption].
    assert (Ar : arc m x y h) by (apply (live_arc m h x y (proj1 I)); auto).
    assert (Y : forall p q, In (p, q) (all_edges vss) -> exists f, In f vss /\ In (p, q) (directed_edges f)).
    { intros p q K. apply in_concat in K. destruct K as (l & K1 & K2). apply in_map_iff in K1. destruct K1 as (f & <- & Hf). exists f. auto. }
    destruct (b_arcs _ _ _ B x y h Ar) as [K|[K|K]]; [apply rst_step; left; exact K|apply rst_step; right; apply Y, K|apply rst_sym, rst_step; right; apply Y, K].
  - induction 1 as [x y [K|(p & Hp & K)]| |x y _ I1|x y z _ I1 _ I2]; [|eapply A1; eassumption|apply rt_refl|apply connected_sym; assumption|eapply rt_trans; eassumption].
    destruct (b_base _ _ _ B x y K) as [h A]. apply (live_arc m h x y (proj1 I)) in A. apply rt_step. exists h. exact A.
Qed.

Section Numbers.
Variables (reps : list Z) (r : components).
Hypothesis (R : describes_components m reps r).
Let fcc := face_component r.

Lemma fcc_range i : 0 <= i < zlen vss -> exists k, vget fcc i = Some k /\ 0 <= k < n_components r.
Proof.
  intros Hi. destruct (vget_range_Some vss i Hi) as [p Ep]. destruct (mesh_face i p Ep) as [Lf Ev]. destruct (dc_face _ _ _ R i _ Lf Ev) as (k & u & K1 & K2 & _).
  exists k. split; [exact K1|]. rewrite (dc_n _ _ _ R). eapply vget_Some_range; exact K2.
Qed.
Lemma fcc_len : zlen fcc = zlen vss.
Proof. unfold fcc. rewrite (dc_flen _ _ _ R). apply mesh_nf. Qed.

Lemma same_number i j k : vget fcc i = Some k -> (vget fcc j = Some k <-> together inm vss i j).
Proof.
  intros Ei. pose proof (C12_connectivity_consistent m (b_hist _ _ _ B)) as C.
  assert (Ri : 0 <= i < zlen vss) by (rewrite <- fcc_len; eapply vget_Some_range; exact Ei). destruct (vget_range_Some vss i Ri) as [p Ep].
  destruct (mesh_face i p Ep) as [Lf Ev]. destruct (dc_face _ _ _ R i _ Lf Ev) as (k' & u & K1 & K2 & K3). assert (k' = k) by (unfold fcc in Ei; congruence). subst k'.
  assert (Ge : forall q, In q vss -> exists v, In v q).
  { intros q Hq. pose proof (wf_size _ _ (pr_wf _ _ _ _ H) q Hq) as L. destruct q as [|v q]; [cbn in L; lia|]. exists v. left. reflexivity. }
  split.
  - intros Ej. assert (Rj : 0 <= j < zlen vss) by (rewrite <- fcc_len; eapply vget_Some_range; exact Ej). destruct (vget_range_Some vss j Rj) as [q Eq].
    destruct (mesh_face j q Eq) as [Lg Eg]. destruct (dc_face _ _ _ R j _ Lg Eg) as (l & w & L1 & L2 & L3). assert (l = k) by (unfold fcc in Ej; congruence). subst l. assert (w = u) by congruence. subst w.
    destruct (Ge p (vget_In _ _ _ Ep)) as [a Ha]. destruct (Ge q (vget_In _ _ _ Eq)) as [b Hb]. exists p, q, a, b. repeat (split; [assumption|]). apply connected_joined.
    eapply rt_trans; [apply connected_sym; [exact C|apply K3, In_rotate1, Ha]|apply L3, In_rotate1, Hb].
  - intros (p' & q & a & b & Ep' & Eq & Ha & Hb & J). assert (p' = p) by congruence. subst p'. apply connected_joined in J.
    destruct (mesh_face j q Eq) as [Lg Eg]. destruct (dc_face _ _ _ R j _ Lg Eg) as (l & w & L1 & L2 & L3).
    assert (k = l); [|unfold fcc; congruence]. apply (dc_disjoint _ _ _ R k l u w K2 L2).
    eapply rt_trans; [apply K3, In_rotate1, Ha|]. eapply rt_trans; [exact J|]. apply connected_sym; [exact C|]. apply L3, In_rotate1, Hb.
Qed.

(** ** first loop: the vertices of the components *)
Definition pt (v : Z) : point := match vget (verts inm) v with Some d => vpt d | None => (0, 0, 0) end.
Definition flag (v : Z) : bool := match vget (seam_flags P) v with Some b => b | None => false end.
Record vst (vorig : list Z) (c : comp) : Prop := {
  vs_map : c_map c = numbered vorig; vs_nd : NoDup vorig;
  vs_mesh : built (map pt vorig) [] (c_mesh c);
  vs_back : want_vmaps P = true -> c_back c = vorig;
  vs_seam : c_seam c = map snd (filter (fun p => flag (fst p)) (numbered vorig));
  vs_faces : c_faces c = [] }.

Lemma mesh_pt v : 0 <= v < zlen coords -> exists d, vget (verts m) v = Some d /\ vpt d = pt v.
Proof.
  intros Hv. destruct (vget_range_Some coords v Hv) as [q Eq]. pose proof (b_pt _ _ _ B v q Eq) as E. destruct (vget (verts m) v) as [d|]; [|discriminate]. exists d. split; [reflexivity|].
  cbn in E. injection E as ->. unfold pt. unfold coords, vget in *. destruct (v <? 0); [discriminate|]. rewrite nth_error_map in Eq. destruct (nth_error (verts inm) (Z.to_nat v)) as [d'|]; [|discriminate]. cbn in Eq. congruence.
Qed.

Lemma map_vertices_spec vs : (forall v, In v vs -> 0 <= v < zlen coords) -> forall vorig c, vst vorig c ->
  exists vorig' c', ofold (map_vertex P m) vs c = Some c' /\ vst vorig' c' /\ c_loc c' = c_loc c /\ (forall v, In v vorig' <-> In v vorig \/ In v vs).
Proof.
  induction vs as [|v vs IH]; intros Rg vorig c V; cbn [ofold].
  - exists vorig, c. split; [reflexivity|]. split; [exact V|]. split; [reflexivity|]. intros v. cbn. tauto.
  - assert (Rg' : forall w, In w vs -> 0 <= w < zlen coords) by (intros w Hw; apply Rg; right; exact Hw).
    unfold map_vertex at 1. rewrite (vs_map _ _ V). pose proof (lookup_numbered vorig v) as Lk. destruct (lookup (numbered vorig) v) as [x|].
    + destruct (IH Rg' vorig c V) as (vo & c' & E & V' & L & I). exists vo, c'. cbn [obind]. split; [exact E|]. split; [exact V'|]. split; [exact L|].
      intros w. rewrite I. cbn. apply vget_In in Lk. split; [tauto|]. intros [K|[<-|K]]; auto.
    + destruct (mesh_pt v (Rg v (or_introl eq_refl))) as (d & Ed & Ept). rewrite Ed. cbn [obind]. rewrite Ept.
      destruct (built_vertex _ _ (pt v) (vs_mesh _ _ V)) as (cv & cm & Ea & Ecv & Bm). rewrite Ea. cbn [obind].
      assert (Efl : (if v <? zlen (seam_flags P) then vget (seam_flags P) v else Some false) = Some (flag v)).
      { unfold flag. destruct (Z.ltb_spec v (zlen (seam_flags P))) as [L|L].
        - pose proof (Rg v (or_introl eq_refl)). destruct (vget_range_Some (seam_flags P) v) as [b Eb]; [lia|]. rewrite Eb. reflexivity.
        - rewrite vget_None by lia. reflexivity. }
      rewrite Efl. cbn [obind].
      assert (Ecv' : cv = zlen vorig) by (rewrite Ecv; unfold zlen; rewrite map_length; reflexivity).
      destruct (IH Rg' (vorig ++ [v]) (Comp cm (numbered vorig ++ [(v, cv)]) (if want_vmaps P then c_back c ++ [v] else c_back c) (if flag v then c_seam c ++ [cv] else c_seam c) (c_loc c) (c_faces c))) as (vo & c' & E & V' & L & I).
      * constructor; cbn.
        -- rewrite numbered_snoc, Ecv'. reflexivity.
        -- apply NoDup_snoc; [apply V|exact Lk].
        -- rewrite map_app. exact Bm.
        -- intros W. rewrite W. rewrite (vs_back _ _ V W). reflexivity.
        -- rewrite numbered_snoc, filter_app, map_app. cbn [filter fst]. rewrite (vs_seam _ _ V). destruct (flag v); cbn [map snd app]; [rewrite Ecv'; reflexivity|rewrite app_nil_r; reflexivity].
        -- apply V.
      * exists vo, c'. split; [exact E|]. split; [exact V'|]. split; [exact L|]. intros w. rewrite I, in_app_iff. cbn. tauto.
Qed.

(** the location as a function of "some face is below", "some face is above" *)
Definition loc_of (b a : bool) : option location :=
  match b, a with false, false => None | true, false => Some Below | false, true => Some Above | true, true => Some Undefined end.
Lemma add_location_spec b a b' a' : add_location (loc_of b a) b' a' = loc_of (b || b') (a || a').
Proof. destruct b, a, b', a'; reflexivity. Qed.
Definition inb (l : list Z) (x : Z) : bool := if in_dec Z.eq_dec x l then true else false.
Lemma inb_spec l x : inb l x = true <-> In x l.
Proof. unfold inb. destruct (in_dec Z.eq_dec x l); split; congruence || auto. Qed.
Lemma search_below x : binary_search (below_list P) x = Some (inb (below_list P) x).
Proof.
  destruct (binary_search_spec _ x (pr_below _ _ _ _ H)) as (b & E & Q). rewrite E. f_equal. destruct (inb (below_list P) x) eqn:D.
  - apply Q, inb_spec, D.
  - apply not_true_iff_false. rewrite Q, <- inb_spec, D. discriminate.
Qed.
Lemma search_above x : binary_search (above_list P) x = Some (inb (above_list P) x).
Proof.
  destruct (binary_search_spec _ x (pr_above _ _ _ _ H)) as (b & E & Q). rewrite E. f_equal. destruct (inb (above_list P) x) eqn:D.
  - apply Q, inb_spec, D.
  - apply not_true_iff_false. rewrite Q, <- inb_spec, D. discriminate.
Qed.

Definition vertex_step (oc : option comp) (f : Z) : option comp :=
  let c := match oc with Some c => c | None => comp_new end in
  do isb <- binary_search (below_list P) f;
  do isa <- binary_search (above_list P) f;
  let c1 := Comp (c_mesh c) (c_map c) (c_back c) (c_seam c) (add_location (c_loc c) isb isa) (c_faces c) in
  do vs <- get_vertices_around_face m f;
  ofold (map_vertex P m) vs c1.

Lemma map_face_vertices_bstep cs f : map_face_vertices P m fcc cs f = bstep fcc vertex_step cs f.
Proof.
  unfold map_face_vertices, bstep, vertex_step. destruct (vget fcc f); [|reflexivity]. cbn [obind]. destruct (vget cs z) as [oc|]; [|reflexivity]. cbn [obind].
  destruct (binary_search (below_list P) f); [|reflexivity]. cbn [obind]. destruct (binary_search (above_list P) f); [|reflexivity]. cbn [obind].
  destruct (get_vertices_around_face m f); [|reflexivity]. cbn [obind]. reflexivity.
Qed.

(** state of a component after the faces [D] *)
Record vdone (D : list Z) (vorig : list Z) (c : comp) : Prop := {
  vd_st : vst vorig c;
  vd_loc : c_loc c = loc_of (existsb (inb (below_list P)) D) (existsb (inb (above_list P)) D);
  vd_in : forall v, In v vorig <-> exists i p, In i D /\ vget vss i = Some p /\ In v p }.

Lemma comp_new_vst : vst [] comp_new.
Proof.
  constructor; cbn; try reflexivity; [constructor|]. destruct (built_vertices []) as (m0 & E & B0). cbn in E. injection E as <-. exact B0.
Qed.

Lemma vertex_fold D : (forall i, In i D -> 0 <= i < zlen vss) -> exists oc, bfold vertex_step D None = Some oc /\
  match oc with None => D = [] | Some c => D <> [] /\ exists vorig, vdone D vorig c end.
Proof.
  induction D as [|f D IH] using rev_ind; intros Rg.
  - exists None. split; reflexivity.
  - destruct IH as (oc & E & S); [intros i Hi; apply Rg, in_app_iff; left; exact Hi|].
    unfold bfold. rewrite ofold_app. fold (bfold vertex_step D None). rewrite E. cbn [obind ofold].
    assert (Hf : 0 <= f < zlen vss) by (apply Rg, in_app_iff; right; left; reflexivity). destruct (vget_range_Some vss f Hf) as [p Ep]. destruct (mesh_face f p Ep) as [Lf Ev].
    set (c := match oc with Some c => c | None => comp_new end).
    assert (S' : exists vorig, vdone D vorig c).
    { destruct oc as [c0|]; [exact (proj2 S)|]. subst D. exists []. constructor; [exact comp_new_vst|reflexivity|]. intros v. split; [intros []|]. intros (i & q & [] & _). }
    destruct S' as (vorig & Vd).
    unfold vertex_step at 1. fold c. rewrite search_below, search_above. cbn [obind]. rewrite Ev. cbn [obind].
    destruct (map_vertices_spec (rotate1 p)) with (vorig := vorig) (c := Comp (c_mesh c) (c_map c) (c_back c) (c_seam c) (add_location (c_loc c) (inb (below_list P) f) (inb (above_list P) f)) (c_faces c)) as (vo & c' & Eo & V' & L & I).
    + intros v Hv. apply (proj1 (In_rotate1 _ _)) in Hv. apply (gfr _ _ (vss_good p (vget_In _ _ _ Ep)) v Hv).
    + destruct (vd_st _ _ _ Vd) as [V1 V2 V3 V4 V5 V6]. constructor; cbn; assumption.
    + rewrite Eo. cbn [option_map obind]. exists (Some c'). split; [reflexivity|]. split; [intros K; apply app_eq_nil in K; destruct K as [_ K]; discriminate|].
      exists vo. constructor; [exact V'| |].
      * rewrite L. cbn [c_loc]. rewrite (vd_loc _ _ _ Vd), add_location_spec, !existsb_app. cbn [existsb]. rewrite !orb_false_r. reflexivity.
      * intros v. rewrite I, (vd_in _ _ _ Vd). split.
        -- intros [(i & q & K1 & K2 & K3)|K]; [exists i, q; split; [apply in_app_iff; left; exact K1|auto]|]. exists f, p. split; [apply in_app_iff; right; left; reflexivity|]. split; [exact Ep|]. apply In_rotate1. exact K.
        -- intros (i & q & K1 & K2 & K3). apply in_app_iff in K1. destruct K1 as [K1|[<-|[]]]; [left; exists i, q; auto|]. right. apply In_rotate1. congruence.
Qed.

(** ** second loop: the faces of the components *)
Definition face_step (oc : option comp) (f : Z) : option comp :=
  match oc with
  | None => None
  | Some c =>
      if negb (keep_flag P c) then Some c
      else
        do vs <- get_vertices_around_face m f;
        do ws <- omap (lookup (c_map c)) vs;
        do cm <- (match add_face (c_mesh c) ws with Added _ m' => Some m' | Rejected m' => Some m' | AddUB => None end);
        Some (Comp cm (c_map c) (c_back c) (c_seam c) (c_loc c) (if want_fmaps P then c_faces c ++ [f] else c_faces c))
  end.
Lemma insert_face_bstep cs f : insert_face P m fcc cs f = bstep fcc face_step cs f.
Proof.
  unfold insert_face, bstep, face_step. destruct (vget fcc f) as [k|]; [|reflexivity]. cbn [obind]. destruct (vget cs k) as [oc|] eqn:Ek; [|reflexivity]. cbn [obind].
  destruct oc as [c|]; [|reflexivity]. destruct (negb (keep_flag P c)); [cbn [obind]; symmetry; apply vset_same; exact Ek|].
  destruct (get_vertices_around_face m f); [|reflexivity]. cbn [obind]. destruct (omap (lookup (c_map c)) l); [|reflexivity]. cbn [obind].
  destruct (add_face (c_mesh c) l0); reflexivity.
Qed.

Definition remapped (vorig : list Z) (i : Z) (g : list Z) : Prop := exists p, vget vss i = Some p /\ Forall2 (fun x v => vget vorig x = Some v) g (rotate1 p).
Record fdone (D E vorig : list Z) (gs : list (list Z)) (c : comp) : Prop := {
  fd_map : c_map c = numbered vorig; fd_nd : NoDup vorig;
  fd_mesh : built (map pt vorig) gs (c_mesh c);
  fd_back : want_vmaps P = true -> c_back c = vorig;
  fd_seam : c_seam c = map snd (filter (fun p => flag (fst p)) (numbered vorig));
  fd_loc : c_loc c = loc_of (existsb (inb (below_list P)) D) (existsb (inb (above_list P)) D);
  fd_in : forall v, In v vorig <-> exists i p, In i D /\ vget vss i = Some p /\ In v p;
  fd_faces : want_fmaps P = true -> c_faces c = E;
  fd_gs : Forall2 (remapped vorig) E gs }.

Lemma keep_ext c c' : c_loc c = c_loc c' -> keep_flag P c = keep_flag P c'.
Proof. unfold keep_flag. intros ->. reflexivity. Qed.

Lemma F2_NoDup (vorig : list Z) g q : Forall2 (fun x v => vget vorig x = Some v) g q -> NoDup q -> NoDup g.
Proof.
  induction 1 as [|x v g q E F IH]; intros N; [constructor|]. inversion N as [|? ? N1 N2]; subst. constructor; [|apply IH, N2]. intros K. apply N1.
  clear - E F K. induction F as [|y w g q E' F IH]; [destruct K|]. destruct K as [->|K]; [left; congruence|right; apply IH, K].
Qed.
Lemma F2_cyc (vorig : list Z) g q s t : Forall2 (fun x v => vget vorig x = Some v) g q -> In (s, t) (cyc_pairs g) ->
  exists a b, vget vorig s = Some a /\ vget vorig t = Some b /\ In (a, b) (cyc_pairs q).
Proof.
  intros F K. apply In_nth_error in K. destruct K as [i K]. apply cyc_nth in K. destruct K as (K1 & K2 & Li). pose proof (F2_length _ _ _ F) as L.
  destruct (Forall2_nth' _ _ _ _ _ F K1) as (a & A1 & A2). destruct (Forall2_nth' _ _ _ _ _ F K2) as (b & B1 & B2). exists a, b. split; [exact A2|]. split; [exact B2|].
  eapply nth_error_In with (n := i). apply cyc_nth. rewrite <- L. auto.
Qed.
Lemma F2_In_l {A C} (Q : A -> C -> Prop) l l' x : Forall2 Q l l' -> In x l -> exists y, In y l' /\ Q x y.
Proof. induction 1 as [|a b l l' E F IH]; [intros []|]. intros [->|K]; [exists b; split; [left; reflexivity|exact E]|]. destruct (IH K) as (y & Y1 & Y2). exists y. split; [right; exact Y1|exact Y2]. Qed.
Lemma F2_In_r {A C} (Q : A -> C -> Prop) l l' y : Forall2 Q l l' -> In y l' -> exists x, In x l /\ Q x y.
Proof. induction 1 as [|a b l l' E F IH]; [intros []|]. intros [->|K]; [exists a; split; [left; reflexivity|exact E]|]. destruct (IH K) as (x & Y1 & Y2). exists x. split; [right; exact Y1|exact Y2]. Qed.
Lemma F2_snoc {A C} (Q : A -> C -> Prop) l l' a b : Forall2 Q l l' -> Q a b -> Forall2 Q (l ++ [a]) (l' ++ [b]).
Proof. intros F E. apply Forall2_app; [exact F|]. constructor; [exact E|constructor]. Qed.

Lemma lookups vorig q : (forall v, In v q -> In v vorig) -> exists ws, omap (lookup (numbered vorig)) q = Some ws /\ Forall2 (fun x v => vget vorig x = Some v) ws q.
Proof.
  induction q as [|v q IH]; intros I; [exists []; split; [reflexivity|constructor]|]. cbn. pose proof (lookup_numbered vorig v) as L. destruct (lookup (numbered vorig) v) as [x|]; [|exfalso; apply L, I; left; reflexivity].
  destruct IH as (ws & E & F); [intros w Hw; apply I; right; exact Hw|]. rewrite E. cbn. exists (x :: ws). split; [reflexivity|constructor; assumption].
Qed.

Lemma face_fold D vorig c : vdone D vorig c -> keep_flag P c = true -> forall E, NoDup E -> (forall i, In i E -> In i D /\ 0 <= i < zlen vss) ->
  exists c' gs, bfold face_step E (Some c) = Some (Some c') /\ fdone D E vorig gs c'.
Proof.
  intros Vd Kp. induction E as [|f E IH] using rev_ind; intros Nd Rg.
  - exists c, []. split; [reflexivity|]. destruct Vd as [[V1 V2 V3 V4 V5 V6] V7 V8]. constructor; try assumption; [intros _; exact V6|constructor].
  - destruct IH as (c1 & gs & E1 & F1); [eapply NoDup_app_l; exact Nd|intros i Hi; apply Rg, in_app_iff; left; exact Hi|].
    unfold bfold. rewrite ofold_app. fold (bfold face_step E (Some c)). rewrite E1. cbn [obind ofold].
    destruct (Rg f) as [Hd Hf]; [apply in_app_iff; right; left; reflexivity|]. destruct (vget_range_Some vss f Hf) as [p Ep]. destruct (mesh_face f p Ep) as [_ Ev].
    unfold face_step at 1. rewrite (keep_ext c1 c) by (rewrite (fd_loc _ _ _ _ _ F1), (vd_loc _ _ _ Vd); reflexivity). rewrite Kp. cbn [negb]. rewrite Ev. cbn [obind].
    rewrite (fd_map _ _ _ _ _ F1). destruct (lookups vorig (rotate1 p)) as (ws & Ew & Fw).
    { intros v Hv. apply (proj1 (In_rotate1 _ _)) in Hv. apply (fd_in _ _ _ _ _ F1). exists f, p. auto. }
    rewrite Ew. cbn [obind]. pose proof (vss_good p (vget_In _ _ _ Ep)) as Gp.
    assert (Gw : good_face (zlen (map pt vorig)) ws).
    { constructor.
      - rewrite (F2_length _ _ _ Fw). pose proof (gf3 _ _ Gp) as L3. destruct p as [|a p]; [exact L3|]. cbn [rotate1]. rewrite app_length. cbn in *. lia.
      - eapply F2_NoDup; [exact Fw|]. apply rotate1_NoDup, (gfd _ _ Gp).
      - intros x Hx. destruct (F2_In_l _ _ _ _ Fw Hx) as (v & _ & Ex). apply vget_Some_range in Ex. unfold zlen in *. rewrite map_length. exact Ex. }
    assert (Nc : ~ clash (all_edges gs) ws).
    { intros (s & t & K1 & K2). rewrite directed_cyc in K1. destruct (F2_cyc _ _ _ _ _ Fw K1) as (a & b & A1 & A2 & A3). apply (proj1 (In_rotate1_cyc _ _ _)) in A3.
      apply In_all_edges in K2. destruct K2 as (j & g & Ej & Kg). destruct (F2_In_r _ _ _ _ (fd_gs _ _ _ _ _ F1) (vget_In _ _ _ Ej)) as (i & Hi & q & Eq & Fq).
      destruct (F2_cyc _ _ _ _ _ Fq Kg) as (a' & b' & B1 & B2 & B3). apply (proj1 (In_rotate1_cyc _ _ _)) in B3. assert (a' = a) by congruence. assert (b' = b) by congruence. subst a' b'. rewrite <- directed_cyc in A3, B3.
      pose proof (edges_disjoint _ _ _ _ _ Eq Ep B3 A3). subst i. clear - Nd Hi. apply NoDup_remove_2 with (l' := []) in Nd. apply Nd. rewrite app_nil_r. exact Hi. }
    pose proof (built_face _ _ _ _ (fd_mesh _ _ _ _ _ F1) Gw) as Sf. destruct (add_face (c_mesh c1) ws) as [fi cm|cm|]; [|contradiction|contradiction]. destruct Sf as [_ Bm]. cbn [obind option_map].
    eexists. exists (gs ++ [ws]). split; [reflexivity|]. destruct F1 as [F1 F2 F3 F4 F5 F6 F7 F8 F9]. constructor; cbn; try assumption; [congruence|intros W; rewrite W, (F8 W); reflexivity|].
    apply F2_snoc; [exact F9|]. exists p. auto.
Qed.
Lemma face_fold_dropped c E : keep_flag P c = false -> bfold face_step E (Some c) = Some (Some c).
Proof. intros K. unfold bfold. induction E as [|f E IH]; [reflexivity|]. cbn [ofold]. unfold face_step at 1. rewrite K. cbn [negb option_map obind]. exact IH. Qed.

(** ** saving *)
Lemma live_slots_all len : live_slots len [] = zrange len.
Proof. unfold live_slots. induction (zrange len) as [|x l IH]; [reflexivity|]. cbn. f_equal. exact IH. Qed.

Lemma fill_spec n g : 0 <= n -> (forall i, 0 <= i < n -> exists x, g i = Some x) ->
  exists l, fill n g (zrange n) = Some l /\ zlen l = n /\ forall i, 0 <= i < n -> vget l i = g i.
Proof.
  intros Hn Hg. unfold fill.
  assert (G : forall k, (k <= Z.to_nat n)%nat -> exists l, ofold (fun acc i => do x <- g i; vset acc i x) (zrange (Z.of_nat k)) (repeat null (Z.to_nat n)) = Some l /\
    zlen l = n /\ forall i, 0 <= i < Z.of_nat k -> vget l i = g i).
  { induction k as [|k IH]; intros Hk.
    - exists (repeat null (Z.to_nat n)). split; [reflexivity|]. split; [apply zlen_repeat; exact Hn|]. intros i Hi. lia.
    - destruct IH as (l & E & L & V); [lia|]. replace (Z.of_nat (S k)) with (Z.of_nat k + 1) by lia. rewrite zrange_snoc, ofold_app, E by lia. cbn [ofold obind].
      destruct (Hg (Z.of_nat k)) as [x Ex]; [lia|]. rewrite Ex. cbn [obind]. destruct (vset l (Z.of_nat k) x) as [l'|] eqn:Es; [|rewrite vset_Some in Es by lia; discriminate].
      cbn [obind]. exists l'. split; [reflexivity|]. split; [rewrite (vset_len _ _ _ _ Es); exact L|]. intros i Hi. destruct (Z.eq_dec i (Z.of_nat k)) as [->|N].
      + rewrite (vget_vset_eq _ _ _ _ Es). congruence.
      + rewrite (vget_vset_neq _ _ _ _ _ Es) by congruence. apply V. lia. }
  destruct (G (Z.to_nat n) (le_n _)) as (l & E & L & V). rewrite Z2Nat.id in E, V by exact Hn. exists l. auto.
Qed.

Lemma vertex_map_value_spec v x : 0 <= v -> vertex_origin P v x -> vertex_map_value P v = Some x.
Proof.
  intros Hv (m0 & Hm & M & O). unfold vertex_map_value.
  assert (E : (let z := if v <? zlen (m1_to_m0_sm P) then match vget (m1_to_m0_sm P) v with Some x => x | None => null end
            else if negb (zlen (m1_to_m0_cm P) =? 0) then match lookup (m1_to_m0_cm P) v with Some x => x | None => null end
            else null in if z =? null then v else z) = m0).
  { cbv zeta. assert (Nn : forall z, z <> null -> (z =? null) = false) by (intros z Q; apply Z.eqb_neq; exact Q).
    assert (Cm : forall y, lookup (m1_to_m0_cm P) v = Some y -> (zlen (m1_to_m0_cm P) =? 0) = false).
    { intros y Q. destruct (m1_to_m0_cm P); [discriminate|]. apply Z.eqb_neq. unfold zlen. cbn. lia. }
    destruct M as [(L & G & N)|[(L & G & N)|(-> & [(L & G)|(L & G)])]].
    - destruct (Z.ltb_spec v (zlen (m1_to_m0_sm P))); [|lia]. rewrite G, (Nn m0 N). reflexivity.
    - destruct (Z.ltb_spec v (zlen (m1_to_m0_sm P))); [lia|]. rewrite (Cm _ G), G. cbn [negb]. rewrite (Nn m0 N). reflexivity.
    - destruct (Z.ltb_spec v (zlen (m1_to_m0_sm P))); [|lia]. rewrite G. reflexivity.
    - destruct (Z.ltb_spec v (zlen (m1_to_m0_sm P))); [lia|]. destruct G as [G|G].
      + rewrite G. destruct (negb (zlen (m1_to_m0_cm P) =? 0)); reflexivity.
      + rewrite (Cm _ G), G. reflexivity. }
  cbv zeta in E |- *. rewrite E. destruct O as [(L & ->)|(ps & Ep & O)].
  - destruct (Z.ltb_spec m0 (zlen (m0_to_ps_vtx P))); [lia|]. reflexivity.
  - pose proof (vget_Some_range _ _ _ Ep). destruct (Z.ltb_spec m0 (zlen (m0_to_ps_vtx P))); [|lia]. rewrite Ep. cbn [obind]. destruct O as [(L & O)|(L & y & Ey & ->)].
    + destruct (Z.leb_spec (sm_vtx_cnt P) ps); [lia|]. exact O.
    + destruct (Z.leb_spec (sm_vtx_cnt P) ps); [|lia]. rewrite Ey. cbn [obind]. f_equal. lia.
Qed.
Lemma face_map_value_spec i x : face_origin P i x -> face_map_value P i = Some x.
Proof.
  intros (m0 & ps & M & Ep & O). unfold face_map_value. cbv zeta.
  assert (E : (if 0 <? zlen (m1_to_m0_face P) then lookup (m1_to_m0_face P) (base_offset P + i) else Some (base_offset P + i)) = Some m0).
  { destruct M as [(-> & ->)|(N & G)]; [reflexivity|]. destruct (m1_to_m0_face P) as [|y l]; [congruence|]. destruct (Z.ltb_spec 0 (zlen (y :: l))) as [_|Q]; [exact G|]. unfold zlen in Q. cbn in Q. lia. }
  rewrite E. cbn [obind]. rewrite Ep. cbn [obind]. destruct O as [(L & O)|(L & y & Ey & ->)].
  - destruct (Z.leb_spec (sm_face_count P) ps); [lia|]. exact O.
  - destruct (Z.leb_spec (sm_face_count P) ps); [|lia]. rewrite Ey. cbn [obind]. f_equal. lia.
Qed.

Definition members (k : Z) (D : list Z) : Prop := NoDup D /\ forall i, In i D <-> vget fcc i = Some k.

Lemma members_range k D i : members k D -> In i D -> 0 <= i < zlen vss.
Proof. intros [_ M] K. apply M in K. rewrite <- fcc_len. eapply vget_Some_range; exact K. Qed.

Lemma touches_spec k D l i : members k D -> In i D -> (existsb (inb l) D = true <-> touches inm vss l i).
Proof.
  intros [_ M] K. rewrite existsb_exists. apply M in K. split.
  - intros (j & Hj & Q). apply inb_spec in Q. exists j. split; [|exact Q]. apply (same_number i j k K). apply M, Hj.
  - intros (j & Q & Hj). exists j. split; [apply M, (same_number i j k K), Q|apply inb_spec, Hj].
Qed.
Lemma location_spec k D i : members k D -> In i D -> has_location P inm vss i (loc_of (existsb (inb (below_list P)) D) (existsb (inb (above_list P)) D)).
Proof.
  intros M K. pose proof (touches_spec k D (below_list P) i M K) as Tb. pose proof (touches_spec k D (above_list P) i M K) as Ta. unfold has_location.
  destruct (existsb (inb (below_list P)) D), (existsb (inb (above_list P)) D); cbn [loc_of]; intuition congruence.
Qed.
Lemma location_unique i l l' : has_location P inm vss i l -> has_location P inm vss i l' -> l = l'.
Proof. unfold has_location. destruct l as [[| |]|], l' as [[| |]|]; tauto. Qed.

Lemma wanted_spec k D i c : members k D -> In i D -> c_loc c = loc_of (existsb (inb (below_list P)) D) (existsb (inb (above_list P)) D) -> (keep_flag P c = true <-> wanted P inm vss i).
Proof.
  intros M K Ec. pose proof (location_spec k D i M K) as L. rewrite <- Ec in L. unfold keep_flag, wanted. split.
  - intros Q. exists (c_loc c). split; [exact L|]. destruct (c_loc c) as [[| |]|]; auto.
  - intros (l & Hl & Q). rewrite (location_unique i _ _ L Hl). destruct l as [[| |]|]; auto.
Qed.

Lemma save_spec k D E vorig gs c : members k D -> members k E -> D <> [] -> fdone D E vorig gs c ->
  exists e, save P None c = Some (Some e) /\ fst e = c_mesh c /\ component_of P inm vss e vorig E.
Proof.
  intros MD ME Ne F. unfold save. pose proof (fd_mesh _ _ _ _ _ F) as Bm.
  assert (Lz : zlen (map pt vorig) = zlen vorig) by (unfold zlen; rewrite map_length; reflexivity).
  assert (Lg : zlen gs = zlen E) by (unfold zlen; rewrite (F2_length _ _ _ (fd_gs _ _ _ _ _ F)); reflexivity).
  assert (Same : forall i, In i E <-> In i D) by (intros i; rewrite (proj2 MD), (proj2 ME); reflexivity).
  assert (Loc : exists loc, (if negb (zlen (below_list P) =? 0) && negb (zlen (above_list P) =? 0) then c_loc c else Some Undefined) = Some loc /\
    (below_list P = [] \/ above_list P = [] -> loc = Undefined) /\
    (below_list P <> [] -> above_list P <> [] -> forall i, In i E -> has_location P inm vss i (Some loc))).
  { destruct (below_list P) as [|x lb] eqn:Eb; [exists Undefined; split; [reflexivity|]; split; [auto|congruence]|].
    destruct (above_list P) as [|y la] eqn:Ea; [exists Undefined; split; [destruct (negb _); reflexivity|]; split; [auto|congruence]|].
    assert (Nb : (zlen (x :: lb) =? 0) = false) by (apply Z.eqb_neq; unfold zlen; cbn; lia). assert (Na : (zlen (y :: la) =? 0) = false) by (apply Z.eqb_neq; unfold zlen; cbn; lia).
    rewrite Nb, Na. cbn [negb andb]. destruct D as [|i0 D']; [congruence|].
    assert (Q : touches inm vss (below_list P) i0 \/ touches inm vss (above_list P) i0).
    { apply (pr_located _ _ _ _ H); [rewrite Eb; discriminate|rewrite Ea; discriminate|]. apply (members_range k (i0 :: D') i0 MD). left. reflexivity. }
    assert (Lc : exists loc, c_loc c = Some loc).
    { rewrite (fd_loc _ _ _ _ _ F). assert (I0 : In i0 (i0 :: D')) by (left; reflexivity).
      destruct Q as [Q|Q]; apply (touches_spec k (i0 :: D') _ i0 MD I0) in Q; rewrite Q; [destruct (existsb (inb (above_list P)) (i0 :: D'))|destruct (existsb (inb (below_list P)) (i0 :: D'))]; cbn [loc_of]; eauto. }
    destruct Lc as [loc Lc]. exists loc. split; [exact Lc|]. split; [intros [K|K]; discriminate|]. intros _ _ i Hi. apply Same in Hi. rewrite <- Lc, (fd_loc _ _ _ _ _ F). apply (location_spec k); assumption. }
  destruct Loc as (loc & El & Lu & Ls). rewrite El. cbn [obind].
  assert (Vm : exists vm, (if want_vmaps P then
                do is <- iterate (zlen (verts (c_mesh c))) (rv (c_mesh c));
                fill (number_of_vertices (c_mesh c)) (fun i => do v <- vget (c_back c) i; vertex_map_value P v) is
              else Some []) = Some vm /\
    if want_vmaps P then zlen vm = zlen vorig /\ forall x v, vget vorig x = Some v -> exists r, vget vm x = Some r /\ vertex_origin P v r else vm = []).
  { destruct (want_vmaps P) eqn:W; [|exists []; auto]. rewrite (fd_back _ _ _ _ _ F W). unfold number_of_vertices. rewrite (b_rv _ _ _ Bm), (b_vl _ _ _ Bm), Lz.
    rewrite iterate_spec by apply zlen_nonneg. cbn [obind]. rewrite live_slots_all. change (zlen []) with 0. rewrite Z.sub_0_r.
    assert (Ex : forall x v, vget vorig x = Some v -> exists r, vertex_origin P v r /\ vertex_map_value P v = Some r).
    { intros x v Ev. apply vget_In in Ev. apply (fd_in _ _ _ _ _ F) in Ev. destruct Ev as (i & p & Hi & Ep & Hv). apply vget_In in Ep. destruct (pr_vmap _ _ _ _ H W p v Ep Hv) as [r' Hr']. exists r'. split; [exact Hr'|].
      apply vertex_map_value_spec; [|exact Hr']. apply (gfr _ _ (vss_good p Ep) v Hv). }
    destruct (fill_spec (zlen vorig) (fun i => do v <- vget vorig i; vertex_map_value P v)) as (vm & E1 & E2 & E3); [apply zlen_nonneg| |].
    - intros i Hi. destruct (vget_range_Some vorig i Hi) as [v Ev]. destruct (Ex i v Ev) as (r' & _ & Er). exists r'. rewrite Ev. exact Er.
    - exists vm. split; [exact E1|]. split; [exact E2|]. intros x v Ev. destruct (Ex x v Ev) as (r' & Or & Er). exists r'. split; [|exact Or]. rewrite E3 by (eapply vget_Some_range; exact Ev). rewrite Ev. exact Er. }
  destruct Vm as (vm & Evm & Pvm). rewrite Evm. cbn [obind].
  assert (Fm : exists fm, (if want_fmaps P then
                do is <- iterate (zlen (faces (c_mesh c))) (rf (c_mesh c));
                fill (number_of_faces (c_mesh c)) (fun i => do f <- vget (c_faces c) i; face_map_value P f) is
              else Some []) = Some fm /\
    if want_fmaps P then zlen fm = zlen E /\ forall f i, vget E f = Some i -> exists r, vget fm f = Some r /\ face_origin P i r else fm = []).
  { destruct (want_fmaps P) eqn:W; [|exists []; auto]. rewrite (fd_faces _ _ _ _ _ F W). unfold number_of_faces. rewrite (b_rf _ _ _ Bm), (b_fl _ _ _ Bm), Lg.
    rewrite iterate_spec by apply zlen_nonneg. cbn [obind]. rewrite live_slots_all. change (zlen []) with 0. rewrite Z.sub_0_r.
    assert (Ex : forall f i, vget E f = Some i -> exists r, face_origin P i r /\ face_map_value P i = Some r).
    { intros f i Ei. apply vget_In in Ei. destruct (pr_fmap _ _ _ _ H W i (members_range k E i ME Ei)) as [r' Hr']. exists r'. split; [exact Hr'|]. apply face_map_value_spec. exact Hr'. }
    destruct (fill_spec (zlen E) (fun i => do f <- vget E i; face_map_value P f)) as (fm & E1 & E2 & E3); [apply zlen_nonneg| |].
    - intros i Hi. destruct (vget_range_Some E i Hi) as [v Ev]. destruct (Ex i v Ev) as (r' & _ & Er). exists r'. rewrite Ev. exact Er.
    - exists fm. split; [exact E1|]. split; [exact E2|]. intros x v Ev. destruct (Ex x v Ev) as (r' & Or & Er). exists r'. split; [|exact Or]. rewrite E3 by (eapply vget_Some_range; exact Ev). rewrite Ev. exact Er. }
  destruct Fm as (fm & Efm & Pfm). rewrite Efm. cbn [obind].
  eexists. split; [reflexivity|]. split; [reflexivity|]. constructor; cbn [fst snd i_location i_seam i_vmap i_fmap].
  - apply (b_hist _ _ _ Bm).
  - exists (map pt vorig), gs. split; [apply built_mirrors; exact Bm|]. split; [exact Lz|]. split; [exact Lg|]. split.
    + intros x v Ev. assert (Em : vget (map pt vorig) x = Some (pt v)).
      { unfold vget in *. destruct (x <? 0); [discriminate|]. rewrite nth_error_map, Ev. reflexivity. }
      rewrite Em. pose proof (vget_In _ _ _ Ev) as Hv. apply (fd_in _ _ _ _ _ F) in Hv. destruct Hv as (i & p & Hi & Ep & Hv). pose proof (gfr _ _ (vss_good p (vget_In _ _ _ Ep)) v Hv) as Rv.
      unfold coords in Rv. unfold pt. destruct (vget_range_Some (verts inm) v) as [d Ed]; [unfold zlen in *; rewrite map_length in Rv; exact Rv|]. rewrite Ed. reflexivity.
    + intros f i g p Eg Ei Ep. exists (rotate1 p). split; [destruct p as [|a p]; [exists [], []; auto|exists [a], p; auto]|].
      pose proof (fd_gs _ _ _ _ _ F) as Fg. unfold vget in Eg, Ei. destruct (f <? 0); [discriminate|]. destruct (Forall2_nth' _ _ _ _ _ Fg Ei) as (g' & G1 & p' & G2 & G3). assert (g' = g) by congruence. subst g'.
      assert (p' = p) by congruence. subst p'. exact G3.
  - apply F.
  - apply ME.
  - intros K. subst E. destruct D as [|i D']; [congruence|]. destruct (proj2 (Same i)). left. reflexivity.
  - intros i Hi. apply (members_range k E i ME Hi).
  - intros i j Hi. rewrite (proj2 ME j). apply same_number. apply ME, Hi.
  - intros v. rewrite (fd_in _ _ _ _ _ F). split; intros (i & p & K1 & K2); exists i, p; (split; [apply Same; exact K1|exact K2]).
  - split; [exact Lu|exact Ls].
  - rewrite (fd_seam _ _ _ _ _ F). split.
    + pose proof (fd_nd _ _ _ _ _ F) as Nd. clear - Nd. unfold numbered. assert (N : NoDup (map snd (combine vorig (zrange (zlen vorig))))).
      { replace (map snd (combine vorig (zrange (zlen vorig)))) with (zrange (zlen vorig)); [apply NoDup_zrange|]. symmetry.
        assert (Hl : length vorig = length (zrange (zlen vorig))) by (rewrite length_zrange; unfold zlen; lia). revert Hl. generalize (zrange (zlen vorig)). clear. induction vorig as [|x l IH]; intros [|y q] Hq; try discriminate; [reflexivity|]. cbn. f_equal. apply IH. cbn in Hq. lia. }
      revert N. generalize (combine vorig (zrange (zlen vorig))). clear. induction l as [|x l IH]; [constructor|]. cbn. intros N. inversion N as [|? ? N1 N2]; subst. destruct (flag (fst x)); [|apply IH, N2]. cbn. constructor; [|apply IH, N2].
      intros K. apply N1. apply in_map_iff in K. destruct K as (y & Y1 & Y2). apply filter_In in Y2. rewrite <- Y1. apply in_map. apply Y2.
    + intros x. rewrite in_map_iff. split.
      * intros ([v y] & <- & K). apply filter_In in K. cbn in K. destruct K as [K1 K2]. apply In_numbered in K1. exists v. split; [exact K1|]. unfold flag in K2. destruct (vget (seam_flags P) v) as [b|]; [congruence|discriminate].
      * intros (v & Ev & Fv). exists (v, x). split; [reflexivity|]. apply filter_In. split; [apply In_numbered; exact Ev|]. cbn. unfold flag. rewrite Fv. reflexivity.
  - exact Pvm.
  - exact Pfm.
Qed.

(** what is known about entry [k] of the table before saving *)
Definition cfin (k : Z) (oc : option comp) : Prop :=
  match oc with
  | None => forall i, vget fcc i <> Some k
  | Some c => exists D, members k D /\ D <> [] /\ c_loc c = loc_of (existsb (inb (below_list P)) D) (existsb (inb (above_list P)) D) /\
      (keep_flag P c = true -> exists E vorig gs, members k E /\ fdone D E vorig gs c)
  end.

Lemma save_all_spec cs : forall k0, (forall j oc, vget cs j = Some oc -> cfin (k0 + j) oc) ->
  exists out origins, save_all P (fun _ => None) k0 cs = Some out /\
    Forall2 (fun e o => component_of P inm vss e (fst o) (snd o)) (map snd out) origins /\
    NoDup (concat (map snd origins)) /\
    forall i, In i (concat (map snd origins)) <-> (exists k, k0 <= k < k0 + zlen cs /\ vget fcc i = Some k) /\ wanted P inm vss i.
Proof.
  induction cs as [|oc cs IH]; intros k0 Hc; cbn [save_all].
  - exists [], []. split; [reflexivity|]. split; [constructor|]. split; [constructor|]. intros i. cbn. split; [intros []|]. intros [(k & K & _) _]. unfold zlen in K. cbn in K. lia.
  - assert (H0 : cfin k0 oc) by (replace k0 with (k0 + 0) by lia; apply Hc; reflexivity).
    destruct (IH (k0 + 1)) as (out & origins & E & F & N & I).
    { intros j oc' Ej. pose proof (vget_Some_range _ _ _ Ej) as Rj. replace (k0 + 1 + j) with (k0 + (j + 1)) by lia. apply Hc. unfold vget in *. destruct (Z.ltb_spec (j + 1) 0); [lia|]. destruct (Z.ltb_spec j 0); [lia|].
      replace (Z.to_nat (j + 1)) with (S (Z.to_nat j)) by lia. exact Ej. }
    assert (Lc : zlen (oc :: cs) = zlen cs + 1) by (unfold zlen; cbn [length]; lia). pose proof (zlen_nonneg cs) as Lc0.
    assert (Skip : (forall i, vget fcc i = Some k0 -> ~ wanted P inm vss i) -> forall i, In i (concat (map snd origins)) <-> (exists k, k0 <= k < k0 + zlen (oc :: cs) /\ vget fcc i = Some k) /\ wanted P inm vss i).
    { intros Hw i. rewrite I. split; intros [(k & K1 & K2) W]; (split; [|exact W]); exists k; (split; [|exact K2]); [lia|]. destruct (Z.eq_dec k k0) as [->|]; [|lia]. exfalso. exact (Hw i K2 W). }
    destruct oc as [c|].
    + destruct H0 as (D & MD & Ne & Lo & Kp). destruct (keep_flag P c) eqn:Kf.
      * destruct (Kp eq_refl) as (E' & vorig & gs & ME & Fd). destruct (save_spec k0 D E' vorig gs c MD ME Ne Fd) as (e & Es & _ & Co). rewrite Es. cbn [obind]. rewrite E. cbn [obind].
        exists ((k0, e) :: out), ((vorig, E') :: origins). split; [reflexivity|]. split; [cbn; constructor; [exact Co|exact F]|]. cbn [map snd concat]. split.
        -- assert (Dj : forall i, In i E' -> ~ In i (concat (map snd origins))).
           { intros i Hi K. apply I in K. destruct K as [(k & K1 & K2) _]. apply ME in Hi. assert (k = k0) by congruence. lia. }
           destruct ME as [NE _]. clear - NE N Dj. induction E' as [|x l IH]; [exact N|]. cbn. inversion NE as [|? ? N1 N2]; subst. constructor; [rewrite in_app_iff; intros [K|K]; [contradiction|exact (Dj x (or_introl eq_refl) K)]|].
           apply IH; [exact N2|]. intros i Hi. apply Dj. right. exact Hi.
        -- intros i. rewrite in_app_iff, I. split.
           ++ intros [K|[(k & K1 & K2) W]]; [|split; [exists k; split; [lia|exact K2]|exact W]]. pose proof K as K'. apply ME in K'. split; [exists k0; split; [lia|exact K']|].
              apply (wanted_spec k0 D i c MD); [apply MD; exact K'|exact Lo|exact Kf].
           ++ intros [(k & K1 & K2) W]. destruct (Z.eq_dec k k0) as [->|]; [left; apply ME; exact K2|right]. split; [exists k; split; [lia|exact K2]|exact W].
      * cbn [obind]. rewrite E. cbn [obind]. exists out, origins. split; [reflexivity|]. split; [exact F|]. split; [exact N|]. apply Skip. intros i Ei W. apply (wanted_spec k0 D i c MD) in W; [congruence|apply MD; exact Ei|exact Lo].
    + cbn [obind]. rewrite E. cbn [obind]. exists out, origins. split; [reflexivity|]. split; [exact F|]. split; [exact N|]. apply Skip. intros i Ei _. exact (H0 i Ei).
Qed.

Lemma members_filter l k : Permutation l (zrange (zlen vss)) -> members k (filter (has fcc k) l).
Proof.
  intros Pm. split.
  - apply NoDup_filter. eapply Permutation_NoDup; [apply Permutation_sym; exact Pm|apply NoDup_zrange].
  - intros i. rewrite filter_In, has_spec. split; [tauto|]. intros K. split; [|exact K]. apply (Permutation_in _ (Permutation_sym Pm)), In_zrange. rewrite <- fcc_len. eapply vget_Some_range; exact K.
Qed.

(** both loops and the saving *)
Lemma loops_spec forder : Permutation forder (zrange (zlen vss)) ->
  exists cs cs' out, ofold (map_face_vertices P m fcc) (zrange (zlen vss)) (repeat None (Z.to_nat (n_components r))) = Some cs /\
    ofold (insert_face P m fcc) forder cs = Some cs' /\
    save_all P (fun _ => None) 0 cs' = Some out /\ partitions P inm vss (map snd out).
Proof.
  intros Pm. rewrite (ofold_ext _ _ _ map_face_vertices_bstep).
  set (cs0 := repeat (@None comp) (Z.to_nat (n_components r))).
  assert (Nn : 0 <= n_components r) by (rewrite (dc_n _ _ _ R); apply zlen_nonneg).
  assert (L0 : zlen cs0 = n_components r) by (apply zlen_repeat; exact Nn).
  assert (V0 : forall k oc, vget cs0 k = Some oc -> oc = None /\ 0 <= k < n_components r).
  { intros k oc E. pose proof (vget_Some_range _ _ _ E) as Rk. rewrite L0 in Rk. split; [|exact Rk]. unfold cs0 in E. rewrite vget_repeat in E by exact Rk. congruence. }
  assert (Zr : Permutation (zrange (zlen vss)) (zrange (zlen vss))) by apply Permutation_refl.
  destruct (bucket_fold fcc vertex_step (zrange (zlen vss)) cs0) as (cs & E1 & L1 & V1).
  - intros f Hf. apply In_zrange in Hf. rewrite L0. apply fcc_range. exact Hf.
  - intros k oc E. destruct (V0 k oc E) as [-> _]. destruct (vertex_fold (filter (has fcc k) (zrange (zlen vss)))) as (r' & Er & _); [intros i Hi; apply filter_In in Hi; apply In_zrange, Hi|]. exists r'. exact Er.
  - assert (V1' : forall k oc, vget cs k = Some oc -> match oc with
        | None => forall i, vget fcc i <> Some k
        | Some c => filter (has fcc k) (zrange (zlen vss)) <> [] /\ exists vorig, vdone (filter (has fcc k) (zrange (zlen vss))) vorig c end).
    { intros k oc E. pose proof (vget_Some_range _ _ _ E) as Rk. rewrite L1, L0 in Rk. assert (E0 : vget cs0 k = Some None) by (apply vget_repeat; exact Rk).
      destruct (V1 k None E0) as (r' & Er & Ec). destruct (vertex_fold (filter (has fcc k) (zrange (zlen vss)))) as (r2 & Er2 & S); [intros i Hi; apply filter_In in Hi; apply In_zrange, Hi|].
      assert (r2 = oc) by congruence. subst r2. destruct oc as [c|]; [exact S|]. intros i Ei. apply (members_filter _ k Zr) in Ei. rewrite S in Ei. destruct Ei. }
    exists cs. rewrite (ofold_ext _ _ _ insert_face_bstep).
    assert (Ff : forall k oc, vget cs k = Some oc -> exists r, bfold face_step (filter (has fcc k) forder) oc = Some r /\ cfin k r).
    { intros k oc E. specialize (V1' k oc E). set (D := filter (has fcc k) (zrange (zlen vss))) in *. pose proof (members_filter _ k Zr) as MD. fold D in MD. pose proof (members_filter _ k Pm) as ME.
      destruct oc as [c|].
      - destruct V1' as (Ne & vorig & Vd). destruct (keep_flag P c) eqn:Kf.
        + destruct (face_fold D vorig c Vd Kf (filter (has fcc k) forder)) as (c' & gs & Eb & Fd); [apply ME|intros i Hi; split; [apply MD, ME, Hi|apply (members_range k _ i ME Hi)]|].
          exists (Some c'). split; [exact Eb|]. exists D. split; [exact MD|]. split; [exact Ne|]. split; [apply Fd|]. intros _. exists (filter (has fcc k) forder), vorig, gs. split; [exact ME|exact Fd].
        + exists (Some c). split; [apply face_fold_dropped; exact Kf|]. exists D. split; [exact MD|]. split; [exact Ne|]. split; [apply Vd|]. congruence.
      - exists None. split; [|exact V1']. destruct (filter (has fcc k) forder) as [|i l] eqn:Q; [reflexivity|]. exfalso. apply (V1' i). apply ME. left. reflexivity. }
    destruct (bucket_fold fcc face_step forder cs) as (cs' & E2 & L2 & V2).
    + intros f Hf. apply (Permutation_in _ Pm), In_zrange in Hf. rewrite L1, L0. apply fcc_range. exact Hf.
    + intros k oc E. destruct (Ff k oc E) as (r' & Er & _). exists r'. exact Er.
    + destruct (save_all_spec cs' 0) as (out & origins & E3 & F & N & I).
      { intros j oc Ej. pose proof (vget_Some_range _ _ _ Ej) as Rj. rewrite L2 in Rj. destruct (vget_range_Some cs j Rj) as [oc0 E0]. destruct (V2 j oc0 E0) as (r' & Er & Ec). destruct (Ff j oc0 E0) as (r2 & Er2 & Cf).
        assert (r' = oc) by congruence. assert (r2 = oc) by congruence. subst. exact Cf. }
      exists cs', out. split; [exact E1|]. split; [exact E2|]. split; [exact E3|]. exists origins. split; [exact F|]. split; [exact N|]. intros i. rewrite I. split.
      * intros [(k & _ & Ek) W]. split; [|exact W]. rewrite <- fcc_len. eapply vget_Some_range; exact Ek.
      * intros [Ri W]. split; [|exact W]. destruct (fcc_range i Ri) as (k & Ek & Rk). exists k. split; [|exact Ek]. rewrite L2, L1, L0. lia.
Qed.
End Numbers.
End Mesh.
End Extract.
