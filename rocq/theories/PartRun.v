(** Runs of the loop around the kernel: invariants. *)
From Coq Require Import List ZArith Lia Bool Permutation.
From Verif Require Import Vec VecLemmas HmeshModel HmeshSpec HmeshCore InputModel InputSpec InputProofs ParModel DataModel DataProofs DataProps PartModel PartSpec PartProofs.
From Verif Require TriProps.
Import ListNotations.
Open Scope Z_scope.
Ltac Zify.zify_post_hook ::= idtac.

Lemma origins_app cut nf a : forall b o, origins cut nf (a ++ b) o = origins cut nf b (origins cut nf a o).
Proof. induction a as [|[c f p|] a IH]; intros b o; cbn [app origins]; [reflexivity|apply IH|apply IH]. Qed.

Record dinv (nvs nfs nvc nfc : Z) (d : driver) : Prop := {
  di_src : tracked nvs nfs (face_origin false nfs d) (d_src d);
  di_cut : tracked nvc nfc (face_origin true nfc d) (d_cut d);
  di_keys : keys_live (d_src d);
  di_keys' : no_stale (d_log d) -> keys_live (d_cut d);
  di_none : (forall f p, ~ In (HPart true f p) (d_log d)) -> im_birth (d_cut d) = [] /\ number_of_faces (im (d_cut d)) = nfc }.

Lemma no_stale_app a b : no_stale (a ++ b) -> no_stale a.
Proof. intros H x y f p E K. apply (H x (y ++ b) f p); [rewrite E, <- app_assoc; reflexivity|]. apply in_or_app. auto. Qed.
Lemma no_stale_rebuilt a : no_stale (a ++ [HRebuilt]) -> forall f p, ~ In (HPart true f p) a.
Proof. intros H f p K. apply in_split in K. destruct K as (x & y & ->). apply (H x (y ++ [HRebuilt]) f p); [rewrite <- app_assoc; reflexivity|]. apply in_or_app. right. left. reflexivity. Qed.

Lemma zlen_zrange' n : 0 <= n -> zlen (zrange n) = n.
Proof. intros H. unfold zlen, zrange. rewrite map_length, seq_length. lia. Qed.
Lemma vget_zrange' n k b : vget (zrange n) k = Some b -> b = k /\ 0 <= k < n.
Proof.
  intros E. pose proof (vget_Some_range _ _ _ E) as R. destruct (Z_le_dec 0 n) as [Hn|Hn].
  - rewrite zlen_zrange' in R by exact Hn. unfold vget, zrange in E. destruct (Z.ltb_spec k 0); [lia|]. rewrite nth_error_map in E. destruct (nth_error (seq 0 (Z.to_nat n)) (Z.to_nat k)) as [x|] eqn:Ex; [|discriminate]. cbn in E. injection E as <-.
    assert (Hx : nth_error (seq 0 (Z.to_nat n)) (Z.to_nat k) = Some (Z.to_nat k)). { rewrite nth_error_nth' with (d := O); [|rewrite seq_length; lia]. rewrite seq_nth by lia. reflexivity. }
    rewrite Hx in Ex. injection Ex as <-. lia.
  - unfold zrange in R. replace (Z.to_nat n) with O in R by lia. cbn in R. lia.
Qed.

Lemma fresh_tracked nv fs m bt pt : converted nv fs m -> (forall k b, assoc bt k = Some b -> 0 <= k /\ (k < zlen fs -> b = k)) -> NoDup (map fst bt) -> (forall v, In v pt -> nv <= v) ->
  tracked nv (zlen fs) (zrange (zlen fs)) (IM m bt pt).
Proof.
  intros C H1 H2 H3. destruct (converted_plain nv fs m C) as (P & Nv & Nf). pose proof (zlen_nonneg fs).
  assert (0 <= nv). { destruct C as (c & _ & _ & <- & _). apply zlen_nonneg. }
  constructor; cbn [im im_birth im_part]; try assumption; try lia.
  - rewrite zlen_zrange'; lia.
  - rewrite zlen_zrange'; lia.
  - intros k b E. apply vget_zrange' in E. lia.
  - intros k b E. apply vget_zrange' in E. destruct E as [-> R]. destruct (assoc bt k) as [b|] eqn:Ea; [left; rewrite (proj2 (H1 k b Ea)) by lia; reflexivity|right; split; [lia|reflexivity]].
Qed.

Lemma first_dinv nvs fss nvc fsc src cut cand : converted nvs fss src -> converted nvc fsc cut -> dinv nvs (zlen fss) nvc (zlen fsc) (first_turn src cut cand).
Proof.
  intros C1 C2. unfold first_turn. constructor; cbn [d_src d_cut d_log].
  - apply (fresh_tracked nvs fss src [] []); [exact C1|discriminate|constructor|intros v []].
  - apply (fresh_tracked nvc fsc cut [] []); [exact C2|discriminate|constructor|intros v []].
  - intros k [].
  - intros _ k [].
  - intros _. split; [reflexivity|]. apply (converted_plain nvc fsc cut C2).
Qed.

Lemma face_origin_snoc cut nf d s c p' cand h : face_origin cut nf (DS s c p' cand (d_log d ++ [h])) = origins cut nf [h] (face_origin cut nf d).
Proof. unfold face_origin. cbn [d_log]. apply origins_app. Qed.

Lemma resolve_fp_dinv nvs nfs nvc nfc d x d' : dinv nvs nfs nvc nfc d -> legal d x -> resolve_fp d x = Some d' -> dinv nvs nfs nvc nfc d' /\ d_cand d' = d_cand d /\ d_prev d' = d_prev d.
Proof.
  intros I L E. destruct x as (raw, orc). unfold resolve_fp in E. unfold legal in L. cbn [fst snd] in L. pose proof I as [I1 I2 I3 I4 I5]. destruct (raw <? d_prev d) eqn:Er.
  - destruct (resolve_one (d_src d) raw orc) as [(s', r)|] eqn:Eo; cbn [obind fst snd] in E; [|discriminate]. injection E as <-. split; [|auto].
    destruct (resolve_one_defined _ _ _ _ _ _ I1 I3 L) as (s2 & r2 & E2 & Kl). rewrite Eo in E2. injection E2 as <- <-.
    destruct (resolve_one_tracked _ _ _ _ _ _ _ _ I1 L Eo) as [(-> & ->)|(f' & p & b & -> & Eb & T & _)].
    + constructor; assumption.
    + constructor; cbn [d_src d_cut d_log].
      * rewrite face_origin_snoc. cbn [origins Bool.eqb]. rewrite Eb. exact T.
      * rewrite face_origin_snoc. cbn [origins Bool.eqb]. exact I2.
      * exact Kl.
      * intros N. apply I4. apply no_stale_app in N. exact N.
      * intros N. apply I5. intros f q K. apply (N f q). apply in_or_app. auto.
  - destruct (resolve_one (d_cut d) (raw - d_prev d) orc) as [(s', r)|] eqn:Eo; cbn [obind fst snd] in E; [|discriminate]. injection E as <-. split; [|auto].
    destruct (resolve_one_tracked _ _ _ _ _ _ _ _ I2 L Eo) as [(-> & ->)|(f' & p & b & -> & Eb & T & _)].
    + constructor; assumption.
    + constructor; cbn [d_src d_cut d_log].
      * rewrite face_origin_snoc. cbn [origins Bool.eqb]. exact I1.
      * rewrite face_origin_snoc. cbn [origins Bool.eqb]. rewrite Eb. exact T.
      * exact I3.
      * intros N. apply no_stale_app in N. destruct (resolve_one_defined _ _ _ _ _ _ I2 (I4 N) L) as (s2 & r2 & E2 & Kl). rewrite Eo in E2. injection E2 as <- _. exact Kl.
      * intros N. exfalso. apply (N f' p). apply in_or_app. right. left. reflexivity.
Qed.

Lemma resolve_all_dinv nvs nfs nvc nfc l : forall d d', dinv nvs nfs nvc nfc d -> legal_all d l -> resolve_all d l = Some d' -> dinv nvs nfs nvc nfc d' /\ d_prev d' = d_prev d.
Proof.
  induction l as [|x l IH]; intros d d' I L E; unfold resolve_all in E; cbn [ofold] in E; [injection E as <-; auto|].
  inversion L as [|? ? ? Lx Ln]; subst. destruct (resolve_fp d x) as [d1|] eqn:E1; cbn [obind] in E; [|discriminate].
  destruct (resolve_fp_dinv _ _ _ _ _ _ _ I Lx E1) as (I1 & _ & P1). destruct (IH d1 d' I1 (Ln d1 eq_refl) E) as [I2 P2]. split; [exact I2|congruence].
Qed.

Lemma dinv_log nvs nfs nvc nfc d p cand : dinv nvs nfs nvc nfc d -> dinv nvs nfs nvc nfc (DS (d_src d) (d_cut d) p cand (d_log d)).
Proof. intros [? ? ? ? ?]. constructor; assumption. Qed.

Lemma do_turn_dinv nvs nfs nvc fsc d t d' : dinv nvs nfs nvc (zlen fsc) d -> legal_turn nvc fsc d t -> do_turn d t = Some d' ->
  dinv nvs nfs nvc (zlen fsc) d' /\ d_prev d' = number_of_faces (im (d_src d')).
Proof.
  intros I L E. destruct t as [m|l cand]; cbn [do_turn legal_turn] in *.
  - injection E as <-. split; [|reflexivity]. pose proof I as [I1 I2 I3 I4 I5]. constructor; cbn [d_src d_cut d_log].
    + rewrite face_origin_snoc. cbn [origins]. exact I1.
    + rewrite face_origin_snoc. cbn [origins]. apply (fresh_tracked nvc fsc m); [exact L| |apply I2|apply I2]. apply (tr_key _ _ _ _ I2).
    + exact I3.
    + intros N. rewrite (proj1 (I5 (no_stale_rebuilt _ N))). intros k [].
    + intros N. split; [cbn [im_birth]; apply I5; intros f q K; apply (N f q), in_or_app; auto|]. cbn [im]. apply (converted_plain nvc fsc m L).
  - destruct (resolve_all d l) as [d1|] eqn:E1; cbn [obind] in E; [|discriminate]. injection E as <-. split; [|reflexivity]. apply dinv_log. exact (proj1 (resolve_all_dinv _ _ _ _ l d d1 I (proj1 L) E1)).
Qed.

Lemma reached_dinv nvs fss nvc fsc d : reached nvs fss nvc fsc d -> dinv nvs (zlen fss) nvc (zlen fsc) d /\ d_prev d = number_of_faces (im (d_src d)).
Proof.
  induction 1 as [src cut cand C1 C2 _|d t d' R [IH _] L E].
  - split; [apply first_dinv; assumption|reflexivity].
  - exact (do_turn_dinv _ _ _ _ _ _ _ IH L E).
Qed.

(** ** candidates and absence of undefined behaviour *)
Lemma destruct_last {A} (l : list A) : l = [] \/ exists a x, l = a ++ [x].
Proof. induction l as [|y l IH]; [auto|]. right. destruct IH as [->|(a & x & ->)]; [exists [], y; reflexivity|exists (y :: a), x; reflexivity]. Qed.
Lemma resolve_all_defined nvs nfs nvc nfc l : forall d, dinv nvs nfs nvc nfc d -> no_stale (d_log d) -> legal_all d l ->
  exists d', resolve_all d l = Some d' /\ no_stale (d_log d').
Proof.
  induction l as [|x l IH]; intros d I N L; unfold resolve_all; cbn [ofold]; [eauto|]. inversion L as [|? ? ? Lx Ln]; subst.
  assert (Q : exists d1, resolve_fp d x = Some d1 /\ no_stale (d_log d1)).
  { destruct x as (raw, orc). unfold resolve_fp. unfold legal in Lx. cbn [fst snd] in Lx. pose proof I as [I1 I2 I3 I4 I5].
    assert (Ns : forall c f p, no_stale (d_log d ++ [HPart c f p])).
    { intros c f p a b f' p' E K. destruct (destruct_last b) as [->|(b' & y & ->)]; [destruct K|]. 
      assert (E' : d_log d ++ [HPart c f p] = (a ++ HPart true f' p' :: b') ++ [y]) by (rewrite <- app_assoc; exact E). apply app_inj_tail in E'. destruct E' as [E1 <-].
      apply in_app_iff in K. destruct K as [K|[K|[]]]; [|discriminate]. exact (N a b' f' p' E1 K). }
    destruct (raw <? d_prev d) eqn:Er.
    - destruct (resolve_one_defined _ _ _ _ _ _ I1 I3 Lx) as (s' & r & -> & _). cbn [obind fst snd]. eexists. split; [reflexivity|]. cbn [d_log]. destruct r as [(f, p)|]; auto.
    - destruct (resolve_one_defined _ _ _ _ _ _ I2 (I4 N) Lx) as (s' & r & -> & _). cbn [obind fst snd]. eexists. split; [reflexivity|]. cbn [d_log]. destruct r as [(f, p)|]; auto. }
  destruct Q as (d1 & E1 & N1). rewrite E1. cbn [obind]. destruct (resolve_fp_dinv _ _ _ _ _ _ _ I Lx E1) as (I1 & _). exact (IH d1 I1 N1 (Ln d1 E1)).
Qed.

Lemma number_nonneg m : plain m -> 0 <= number_of_faces m /\ 0 <= number_of_vertices m.
Proof.
  intros P. unfold number_of_faces, number_of_vertices. rewrite (pl_rf m P), (pl_rv m P). change (zlen (@nil Z)) with 0. pose proof (zlen_nonneg (faces m)). pose proof (zlen_nonneg (verts m)). lia.
Qed.

Lemma log_grows l : forall d d', resolve_all d l = Some d' -> exists e, d_log d' = d_log d ++ e.
Proof.
  induction l as [|x l IH]; intros d d' E; unfold resolve_all in E; cbn [ofold] in E; [injection E as <-; exists []; rewrite app_nil_r; reflexivity|].
  destruct (resolve_fp d x) as [d1|] eqn:E1; cbn [obind] in E; [|discriminate]. destruct (IH d1 d' E) as [e2 H2].
  assert (H1 : exists e1, d_log d1 = d_log d ++ e1).
  { destruct x as (raw, o). unfold resolve_fp in E1. destruct (raw <? d_prev d).
    - destruct (resolve_one _ _ _) as [(s, r)|]; cbn [obind fst snd] in E1; [|discriminate]. injection E1 as <-. cbn [d_log]. destruct r as [(f, p)|]; [eexists; reflexivity|exists []; rewrite app_nil_r; reflexivity].
    - destruct (resolve_one _ _ _) as [(s, r)|]; cbn [obind fst snd] in E1; [|discriminate]. injection E1 as <-. cbn [d_log]. destruct r as [(f, p)|]; [eexists; reflexivity|exists []; rewrite app_nil_r; reflexivity]. }
  destruct H1 as [e1 H1]. exists (e1 ++ e2). rewrite H2, H1, app_assoc. reflexivity.
Qed.

Lemma reached_cand nvs fss nvc fsc d : reached nvs fss nvc fsc d -> no_stale (d_log d) -> forall x, In x (d_cand d) -> 0 <= x < all_faces d.
Proof.
  induction 1 as [src cut cand C1 C2 H|d t d' R IH L E]; intros N x Hx.
  - cbn [first_turn d_cand] in Hx. unfold all_faces. cbn [first_turn d_src d_cut im]. destruct (converted_plain _ _ _ C1) as (_ & _ & ->). destruct (converted_plain _ _ _ C2) as (_ & _ & ->). auto.
  - destruct (reached_dinv _ _ _ _ _ R) as [I _]. destruct t as [m|l cand]; cbn [do_turn legal_turn] in *.
    + injection E as <-. cbn [d_cand d_log] in *. pose proof (no_stale_rebuilt _ N) as Np. apply no_stale_app in N. specialize (IH N x Hx). unfold all_faces in *. cbn [d_src d_cut im].
      rewrite (proj2 (di_none _ _ _ _ _ I Np)) in IH. destruct (converted_plain _ _ _ L) as (_ & _ & ->). exact IH.
    + destruct (resolve_all d l) as [d1|] eqn:E1; cbn [obind] in E; [|discriminate]. injection E as <-. exact (proj2 L d1 eq_refl x Hx).
Qed.

(** ** the answers *)
Lemma wrap32_small x : 0 <= x < 2 ^ 32 -> wrap32 x = x.
Proof. intros H. unfold wrap32. apply Z.mod_small. exact H. Qed.

Lemma face_answer nvs fss nvc fsc d mesh vmap fmap i : reached nvs fss nvc fsc d -> zlen fss + zlen fsc < 2 ^ 32 -> 0 <= i < all_faces d ->
  face_told (zlen fss) (zlen fsc) d i = Some (user_face (component d nvs (zlen fss) mesh vmap fmap) i).
Proof.
  intros R Hb Hi. destruct (reached_dinv _ _ _ _ _ R) as [[T1 T2 _ _ _] Hp]. unfold face_told, user_face, component. cbn [c_isf c_src_birth c_cut_birth c_csf].
  unfold all_faces in Hi. pose proof (tr_len _ _ _ _ T1) as L1. pose proof (tr_len _ _ _ _ T2) as L2. rewrite L1, L2 in Hi. rewrite L1 in *.
  set (o1 := face_origin false (zlen fss) d) in *. set (o2 := face_origin true (zlen fsc) d) in *. pose proof (zlen_nonneg fss). pose proof (zlen_nonneg fsc).
  destruct (Z.ltb_spec i (zlen o1)) as [Hl|Hl].
  - rewrite TriProps.vget_front by lia. destruct (vget_range_Some o1 i) as [b Eb]; [lia|]. rewrite Eb. destruct (tr_birth _ _ _ _ T1 i b Eb) as [->|[Hs ->]]; [reflexivity|]. rewrite (proj2 (tr_o _ _ _ _ T1 i b Eb) Hs). reflexivity.
  - rewrite TriProps.vget_back by lia. destruct (vget_range_Some o2 (i - zlen o1)) as [b Eb]; [lia|].
    assert (Em : vget (map (Z.add (zlen fss)) o2) (i - zlen o1) = Some (zlen fss + b)).
    { unfold vget in *. destruct (Z.ltb_spec (i - zlen o1) 0); [lia|]. rewrite nth_error_map, Eb. reflexivity. }
    rewrite Em. f_equal. destruct (tr_o _ _ _ _ T2 _ b Eb) as [Rb Hb']. set (k := i - zlen o1) in *. replace i with (k + zlen o1) by lia. rewrite assoc_shift.
    destruct (tr_birth _ _ _ _ T2 _ b Eb) as [->|[Hs ->]]; cbn [option_map].
    + rewrite Hp. replace (b + zlen o1 - zlen o1) with b by lia. rewrite (wrap32_small b) by lia. rewrite wrap32_small by lia. lia.
    + rewrite (Hb' Hs) in *. replace (k + zlen o1 - zlen o1) with k by lia. rewrite (wrap32_small k) by lia. rewrite wrap32_small by lia. lia.
Qed.

Lemma vertex_answer nvs fss nvc fsc d mesh vmap fmap i : reached nvs fss nvc fsc d -> nvs + nvc < 2 ^ 32 ->
  i = UINT32_MAX \/ 0 <= i < number_of_vertices (im (d_src d)) + number_of_vertices (im (d_cut d)) ->
  vertex_told nvs nvc d i = Some (user_vertex (component d nvs (zlen fss) mesh vmap fmap) i).
Proof.
  intros R Hb Hi. destruct (reached_dinv _ _ _ _ _ R) as [[T1 T2 _ _ _] Hp]. unfold vertex_told, user_vertex, component. cbn [c_isv c_src_part c_cut_part c_csv]. 
  destruct (Z.eqb_spec i UINT32_MAX) as [E|N]; [reflexivity|]. destruct Hi as [Hi|Hi]; [contradiction|].
  pose proof (tr_nv _ _ _ _ T1) as N1. pose proof (tr_nv _ _ _ _ T2) as N2. set (isv := number_of_vertices (im (d_src d))) in *. set (icv := number_of_vertices (im (d_cut d))) in *.
  destruct (Z.ltb_spec i 0); [lia|]. destruct (Z.ltb_spec i isv) as [Hl|Hl].
  - destruct (zmem i (im_part (d_src d))) eqn:M.
    + apply zmem_In in M. apply (tr_part' _ _ _ _ T1) in M. destruct (Z.ltb_spec i nvs); [lia|]. reflexivity.
    + destruct (Z.ltb_spec i nvs); [reflexivity|]. exfalso. assert (zmem i (im_part (d_src d)) = true); [|congruence]. apply zmem_In. apply (tr_part _ _ _ _ T1). fold isv. lia.
  - destruct (Z.ltb_spec i nvs); [lia|]. assert (Zm : zmem i (map (fun v => v + isv) (im_part (d_cut d))) = zmem (i - isv) (im_part (d_cut d))) by (replace i with ((i - isv) + isv) at 1 by lia; apply zmem_shift). rewrite Zm.
    destruct (zmem (i - isv) (im_part (d_cut d))) eqn:M.
    + apply zmem_In in M. apply (tr_part' _ _ _ _ T2) in M. destruct (Z.ltb_spec i (isv + nvc)); [lia|]. destruct (Z.ltb_spec i (isv + icv)); [reflexivity|lia].
    + destruct (Z.ltb_spec i (isv + nvc)).
      * f_equal. rewrite (wrap32_small (i - isv)) by lia. rewrite wrap32_small by lia. lia.
      * exfalso. assert (zmem (i - isv) (im_part (d_cut d)) = true); [|congruence]. apply zmem_In. apply (tr_part _ _ _ _ T2). fold icv. lia.
Qed.
