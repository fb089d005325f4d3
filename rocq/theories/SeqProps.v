(** C41: seam vertex sequences. *)
From Coq Require Import List ZArith Lia Bool Permutation.
From Verif Require Import Vec VecLemmas HmeshModel HmeshSpec HmeshCore HmeshFaces HmeshProps InputModel InputSpec InputProofs ParModel DataModel DataSpec DataProofs DataFull DataRows DataFan DataProps
  ApiInv SeqModel SeqSpec SeqProofs.
Import ListNotations.
Open Scope Z_scope.
Ltac Zify.zify_post_hook ::= idtac.

Section Outer.
Variable m : hmesh.
Hypothesis C : component_mesh m.
Variable pick : list Z -> Z.
Hypothesis Pick : choice pick.
Variable seam : list Z.
Hypothesis Seam : forall v, In v seam -> 0 <= v < zlen (verts m).

Definition good (keys : list Z) (p : list Z * bool) : Prop :=
  (2 <= length (fst p))%nat /\ (forall v w, In v (fst p) -> In w seam -> joined m w v -> In w (fst p)) /\
  ((forall v, In v seam -> exists nbs, neighbours m seam v nbs /\ (1 <= length nbs <= 2)%nat) ->
   linked (joined m) (fst p) /\
   (snd p = true -> (3 <= length (fst p))%nat /\ joined m (last (fst p) 0) (hd 0 (fst p))) /\
   (snd p = false -> (3 <= length (fst p))%nat -> ~ joined m (last (fst p) 0) (hd 0 (fst p)))).

Lemma In_remaining keys trav x : In x (remove_traversed keys trav) <-> In x keys /\ ~ In x trav.
Proof. unfold remove_traversed. rewrite filter_In. destruct (zmem x trav) eqn:E; [apply zmem_In in E|apply zmem_notIn in E]; cbn; intuition congruence. Qed.

Lemma filter_shorter (keys : list Z) trav x : In x keys -> In x trav -> (length (remove_traversed keys trav) < length keys)%nat.
Proof.
  intros Hk Ht. unfold remove_traversed. induction keys as [|y r IH]; [destruct Hk|]. cbn.
  assert (Le : (length (filter (fun k => negb (zmem k trav)) r) <= length r)%nat).
  { clear. induction r as [|z r IH]; [constructor|]. cbn. destruct (negb _); cbn; lia. }
  destruct Hk as [->|Hk].
  - apply zmem_In in Ht. rewrite Ht. cbn. lia.
  - specialize (IH Hk). destruct (negb _); cbn; lia.
Qed.

Lemma outer fuel : forall keys, keys <> [] -> NoDup keys -> (forall x, In x keys -> In x seam) ->
  (forall x y, In x keys -> In y seam -> joined m y x -> In y keys) ->
  (forall x, In x keys -> exists w, In w seam /\ joined m w x) ->
  (length keys <= fuel)%nat ->
  exists seqs, sequences fuel m pick keys = Some seqs /\ Permutation (concat (map fst seqs)) keys /\ forall p, In p seqs -> good keys p.
Proof.
  induction fuel as [|fuel IH]; intros keys Ne Nd Sub Cl Nb Hf.
  - destruct keys; [congruence|cbn in Hf; lia].
  - cbn [sequences]. destruct keys as [|k0 kr] eqn:Ek; [congruence|]. rewrite <- Ek in *. clear k0 kr Ek.
    assert (Keys : forall v, In v keys -> 0 <= v < zlen (verts m)) by auto.
    assert (Hs : In (pick keys) keys) by (apply Pick; exact Ne). set (seed := pick keys) in *.
    assert (Hw : exists w, In w keys /\ joined m w seed).
    { destruct (Nb seed Hs) as (w & Hw & Jw). exists w. split; [eapply Cl; eassumption|exact Jw]. }
    destruct (sequence_ok m C keys Keys seed Hs Hw) as (acc & loop & trav & E & Na & Ht & Hk & Hc & Hsd & L2).
    rewrite E. cbn [obind]. set (keys' := remove_traversed keys trav).
    assert (G : good keys (acc, loop)).
    { split; [exact L2|]. split; cbn [fst snd].
      - intros v w Hv Hw' J. eapply Hc; [exact Hv| |exact J]. eapply Cl; [apply Hk; exact Hv|exact Hw'|exact J].
      - intros Deg. apply (sequence_path m C keys Keys) with (seed := seed) (trav := trav); [|exact Hs|exact E].
        intros v Hv. destruct (Deg v (Sub v Hv)) as (nbs & (N1 & N2 & N3) & L). exists nbs. split; [|exact L]. split; [exact N1|]. split.
        + intros w. rewrite N2. split; intros [A B]; (split; [|exact B]); [eapply Cl; eassumption|apply Sub; exact A].
        + intros h h' w A1 A2 A3 A4 A5 A6 A7. eapply N3; try eassumption. apply Sub. exact A7. }
    assert (In' : forall x, In x keys' <-> In x keys /\ ~ In x acc) by (intros x; unfold keys'; rewrite In_remaining, Ht; reflexivity).
    assert (P : Permutation (acc ++ keys') keys).
    { apply NoDup_Permutation.
      - apply NoDup_app_mk; [exact Na|apply NoDup_filter; exact Nd|]. intros x H1 H2. apply In' in H2. tauto.
      - exact Nd.
      - intros x. rewrite in_app_iff, In'. destruct (in_dec Z.eq_dec x acc) as [K|K]; [|tauto]. pose proof (Hk x K). tauto. }
    destruct keys' as [|k0 kr] eqn:Ek.
    + exists [(acc, loop)]. split; [reflexivity|]. split; [cbn; exact P|]. intros p [<-|[]]. exact G.
    + rewrite <- Ek in *. destruct (IH keys') as (seqs & Es & Ps & Gs).
      * rewrite Ek. discriminate.
      * unfold keys'. apply NoDup_filter. exact Nd.
      * intros x Hx. apply Sub. apply In' in Hx. tauto.
      * intros x y Hx Hy J. apply In' in Hx. destruct Hx as [Hx Nx]. apply In'. split; [eapply Cl; eassumption|]. intros Ky. apply Nx. eapply Hc; [exact Ky|exact Hx|]. apply joined_sym; assumption.
      * intros x Hx. apply In' in Hx. apply Nb. tauto.
      * assert (length keys' < length keys)%nat; [|lia]. eapply filter_shorter; [exact Hs|]. apply Ht. exact Hsd.
      * rewrite Es. cbn [obind]. exists ((acc, loop) :: seqs). split; [reflexivity|]. split.
        -- cbn [map fst concat]. rewrite Ps. exact P.
        -- intros p [<-|Hp]; [exact G|]. exact (Gs p Hp).
Qed.
End Outer.

(** The array is the number of sequences followed by, for each of them, its length, its flag and
    its vertices ([encode]).  Whatever the choice of the seeds, if every seam vertex is joined to
    another one: every sequence has at least two vertices, every seam vertex is in exactly one
    place of exactly one sequence, and seam vertices joined by an edge are in the same sequence.
    If moreover every seam vertex is joined to at most two others: consecutive vertices are
    joined by an edge, and the flag is set exactly if the last one is also joined to the first
    (sequences of two vertices are never loops).
    Missing: seam vertices with more or no neighbours, see the refuted theorems. *)
Theorem C41_sequences_partial : forall m pick seam, component_mesh m -> choice pick ->
  seam <> [] -> (forall v, In v seam -> 0 <= v < zlen (verts m)) ->
  (forall v, In v seam -> exists w, In w seam /\ joined m w v) ->
  exists seqs, sequence_array m pick seam = Some (encode seqs) /\
    NoDup (concat (map fst seqs)) /\ (forall v, In v (concat (map fst seqs)) <-> In v seam) /\
    (forall s loop, In (s, loop) seqs -> (2 <= length s)%nat) /\
    (forall a b, In a seam -> In b seam -> joined m a b -> exists s loop, In (s, loop) seqs /\ In a s /\ In b s) /\
    ((forall v, In v seam -> exists nbs, neighbours m seam v nbs /\ (length nbs <= 2)%nat) ->
     forall s loop, In (s, loop) seqs -> linked (joined m) s /\
       (loop = true <-> (3 <= length s)%nat /\ joined m (last s 0) (hd 0 s))).
Proof.
  intros m pick seam C Pk Ne Rg Nb. set (keys := nodup Z.eq_dec seam).
  assert (Ik : forall x, In x keys <-> In x seam) by (intros x; apply nodup_In).
  assert (Nk : keys <> []). { destruct seam as [|x r]; [congruence|]. intros K. assert (In x keys) as H by (apply Ik; left; reflexivity). rewrite K in H. destruct H. }
  destruct (outer m C pick Pk seam Rg (length keys) keys Nk (NoDup_nodup _ _)) as (seqs & Es & Ps & Gs).
  - intros x. apply Ik.
  - intros x y _ Hy _. apply Ik. exact Hy.
  - intros x Hx. apply Nb. apply Ik. exact Hx.
  - constructor.
  - exists seqs. unfold sequence_array. fold keys. rewrite Es. split; [reflexivity|].
    assert (Iff : forall v, In v (concat (map fst seqs)) <-> In v seam).
    { intros v. rewrite <- Ik. split; apply Permutation_in; [exact Ps|apply Permutation_sym; exact Ps]. }
    split; [eapply Permutation_NoDup; [apply Permutation_sym; exact Ps|apply NoDup_nodup]|]. split; [exact Iff|]. split; [|split].
    + intros s loop H. apply (Gs _ H).
    + intros a b Ha Hb J. apply Iff in Hb. apply in_concat in Hb. destruct Hb as (s & Hs & Hb). apply in_map_iff in Hs. destruct Hs as ([s' loop] & E & Hs). cbn in E. subst s'.
      exists s, loop. split; [exact Hs|]. split; [|exact Hb]. destruct (Gs _ Hs) as (_ & Cl & _). cbn in Cl. eapply Cl; eassumption.
    + intros Deg s loop H. destruct (Gs _ H) as (_ & _ & G). cbn [fst snd] in G. destruct G as (G1 & G2 & G3).
      { intros v Hv. destruct (Deg v Hv) as (nbs & N & L). exists nbs. split; [exact N|]. split; [|exact L].
        destruct (Nb v Hv) as (w & Hw & Jw). destruct N as (_ & N & _). assert (K : In w nbs) by (apply N; auto). destruct nbs; [destruct K|cbn; lia]. }
      split; [exact G1|]. split; [exact G2|]. intros [L3 J]. destruct loop; [reflexivity|]. exfalso. exact (G3 eq_refl L3 J).
Qed.

(** The query reports the size of that array, fills the buffer with it, and stays inside
    smaller buffers; later queries see the same array. *)
Theorem C41_query : forall c pick l bytes, c_type c <> TYPE_INPUT -> sequence_array (c_mesh c) pick (c_seam c) = Some l -> zlen l < 2 ^ 31 -> 0 <= bytes ->
  agrees (fun d => fst (q_sequence pick c None d)) 4 l /\
  inside (fst (q_sequence pick c None (Buffer bytes))) bytes /\
  forall pick' d, snd (q_sequence pick c None d) = Some l /\ q_sequence pick' c (Some l) d = q_sequence pick c None d.
Proof.
  intros c pick l bytes T E Hl Hb. unfold agrees, q_sequence. destruct (Z.eqb_spec (c_type c) TYPE_INPUT) as [K|_]; [contradiction|]. rewrite E. pose proof (zlen_nonneg l).
  split; [split; [cbn [fst]; f_equal; lia|]|split].
  - replace (4 * zlen l) with (zlen l * 4) by lia. rewrite Z.ltb_irrefl, Z.mod_mul by lia. cbn [negb Z.eqb fst]. rewrite Z.div_mul by lia.
    assert (W : wrap32 (zlen l) = zlen l) by (apply Z.mod_small; lia). rewrite W. apply fills_concat. cbn. rewrite app_nil_r. f_equal. apply firstn_all2. unfold zlen. lia.
  - destruct (Z.ltb_spec (zlen l * 4) bytes); [exact I|]. destruct (Z.eqb_spec (bytes mod 4) 0) as [M|M]; cbn [negb fst]; [|exact I].
    intros o v Hv. cbn in Hv. rewrite app_nil_r in Hv. apply In_store_all in Hv. destruct Hv as (i & Vi & ->). apply vget_Some_range in Vi.
    assert (Db : bytes = 4 * (bytes / 4)) by (pose proof (Z.div_mod bytes 4); lia). assert (W : wrap32 (bytes / 4) = bytes / 4) by (apply Z.mod_small; lia).
    rewrite W in Vi. unfold zlen in Vi. rewrite firstn_length in Vi. lia.
  - intros pick' d. split; [|reflexivity]. destruct d; [reflexivity|]. destruct (_ <? _); [reflexivity|]. destruct (negb _); reflexivity.
Qed.

(** A seam vertex that is joined to no other seam vertex makes the query read the top of an empty
    stack, whatever the choice of seeds. *)
Lemma isolated_none m v : component_mesh m -> forall fuel pick keys, choice pick -> In v keys -> (forall x, In x keys -> 0 <= x < zlen (verts m)) ->
  (forall w, In w keys -> ~ joined m w v) -> sequences fuel m pick keys = None.
Proof.
  intros C. induction fuel as [|fuel IH]; intros pick keys Pk Hv Rg Iso; [reflexivity|]. cbn [sequences]. destruct keys as [|k0 kr] eqn:Ek; [reflexivity|]. rewrite <- Ek in *.
  assert (Hs : In (pick keys) keys) by (apply Pk; rewrite Ek; discriminate). set (seed := pick keys) in *.
  destruct (start_ok m C keys Rg seed Hs) as (l & new & El & Ep & W & Nn & Iff). unfold sequence. rewrite El. cbn [obind]. rewrite Ep.
  destruct new as [|p new].
  - reflexivity.
  - destruct (walk_ok m C keys Rg (S (length keys)) (p :: new) (map fst (p :: new) ++ [seed]) [seed] W) as (acc & trav & Ew & Wf & I1 & I2); [discriminate|cbn; lia|].
    rewrite Ew. cbn [obind].
    match goal with |- context [if ?b then Some false else ?x] => destruct (if b then Some false else x) as [lp|]; [|reflexivity] end. cbn [obind].
    assert (Nv : ~ In v trav).
    { (* the only traversed vertex without a neighbour could be the seed, and it has one *)
      intros Kv. apply (w_trav _ _ _ _ _ Wf) in Kv. rewrite app_nil_r in Kv.
      assert (Back : forall fuel stack tr ac ac' tr', winv m keys stack tr ac -> walk fuel m keys stack tr ac = Some (ac', tr') -> ~ In v ac -> ~ In v (map fst stack) -> ~ In v ac').
      { clear - C Rg Iso Hv. induction fuel as [|fuel IHf]; intros stack tr ac ac' tr' W E N1 N2; [discriminate|]. destruct stack as [|[y g] rest]; [discriminate|].
        destruct (walk_step m C keys Rg y g rest tr ac W) as (l & new & El & Ep & W' & J & _). cbn [walk] in E. rewrite El in E. cbn [obind] in E. rewrite Ep in E.
        assert (Yv : y <> v) by (intros ->; apply N2; left; reflexivity). assert (Ky : In y keys) by (apply (w_keys _ _ _ _ _ W), (w_trav _ _ _ _ _ W), in_app_iff; right; left; reflexivity).
        assert (N3 : ~ In v (ac ++ [y])) by (rewrite in_app_iff; cbn; intuition congruence).
        assert (N4 : ~ In v (map fst (new ++ rest))).
        { rewrite map_app, in_app_iff. intros [K|K]; [|apply N2; right; exact K]. apply in_map_iff in K. destruct K as ([s x] & Es & K). cbn in Es. subst s.
          apply (Iso y Ky). apply joined_sym; [exact C|]. apply (J v x K). }
        destruct (new ++ rest) as [|q s'] eqn:Es.
        - cbn [negb] in E. rewrite andb_false_r in E. injection E as <- <-. exact N3.
        - cbn [negb] in E. rewrite andb_true_r in E. eapply IHf; [|exact E| |exact N4].
          + eapply winv_perm; [|exact W']. destruct (_ =? _); [apply Permutation_rev|apply Permutation_refl].
          + destruct (_ =? _); [rewrite <- in_rev|]; exact N3. }
      assert (Sv : seed <> v). { intros E. assert (K : In (fst p) (map fst (p :: new))) by (left; reflexivity). apply Iff in K. rewrite E in K. exact (Iso _ (proj1 K) (proj2 K)). }
      eapply (Back _ _ _ _ _ _ W Ew); [|intros K; apply Iff in K; destruct K as [_ J]; apply (Iso seed Hs); apply joined_sym; assumption|exact Kv].
      intros [K|[]]. contradiction. }
    assert (K' : In v (remove_traversed keys trav)) by (apply In_remaining; auto).
    destruct (remove_traversed keys trav) as [|k1 k2] eqn:Er; [destruct K'|]. rewrite <- Er in *.
    rewrite (IH pick (remove_traversed keys trav)); [reflexivity|exact Pk|exact K'| |].
    + intros x Hx. apply In_remaining in Hx. apply Rg. tauto.
    + intros w Hw. apply In_remaining in Hw. apply Iso. tauto.
Qed.

Theorem C41_isolated_refuted : forall c pick v d, component_mesh (c_mesh c) -> choice pick -> c_type c <> TYPE_INPUT ->
  (forall x, In x (c_seam c) -> 0 <= x < zlen (verts (c_mesh c))) ->
  In v (c_seam c) -> (forall w, In w (c_seam c) -> ~ joined (c_mesh c) w v) ->
  fst (q_sequence pick c None d) = Crash.
Proof.
  intros c pick v d C Pk T Rg Hv Iso. unfold q_sequence. destruct (Z.eqb_spec (c_type c) TYPE_INPUT) as [K|_]; [contradiction|].
  unfold sequence_array. rewrite (isolated_none (c_mesh c) v C); [reflexivity|exact Pk|apply nodup_In; exact Hv| |].
  - intros x Hx. apply nodup_In in Hx. auto.
  - intros w Hw. apply nodup_In in Hw. auto.
Qed.

(** ** A seam that branches *)

(** in a linked list, an element that is only related to [v] comes right after [v] *)
Lemma after_v m v x l1 l2 : linked (joined m) (l1 ++ v :: l2) -> NoDup (l1 ++ v :: l2) -> In x l2 ->
  (forall w, In w (l1 ++ v :: l2) -> joined m w x -> w = v) -> x = hd 0 l2.
Proof.
  intros L N Hx Only. apply in_split in Hx. destruct Hx as (a & b & ->). destruct a as [|y a _] using rev_ind; [reflexivity|]. exfalso.
  assert (J : joined m y x). { apply (linked_mid (joined m) (l1 ++ v :: a) y x b). replace ((l1 ++ v :: a) ++ y :: x :: b) with (l1 ++ v :: (a ++ [y]) ++ x :: b) by (rewrite <- !app_assoc; reflexivity). exact L. }
  assert (Ey : y = v) by (apply Only; [|exact J]; apply in_app_iff; right; right; rewrite !in_app_iff; cbn; tauto). subst y.
  apply NoDup_remove_2 in N. apply N. rewrite !in_app_iff. right. left. right. left. reflexivity.
Qed.

(** A seam vertex with three neighbours that have no other seam neighbour: some sequence has
    consecutive vertices that are not joined by an edge, whatever the choice of the seeds. *)
Theorem C41_branching_refuted : forall m pick seam v a b d, component_mesh m -> choice pick -> seam <> [] ->
  (forall x, In x seam -> 0 <= x < zlen (verts m)) -> (forall x, In x seam -> exists w, In w seam /\ joined m w x) ->
  In v seam -> NoDup [a; b; d] ->
  (forall x, In x [a; b; d] -> In x seam /\ joined m x v /\ forall w, In w seam -> joined m w x -> w = v) ->
  exists seqs, sequence_array m pick seam = Some (encode seqs) /\ exists s loop, In (s, loop) seqs /\ ~ linked (joined m) s.
Proof.
  intros m pick seam v a b d C Pk Ne Rg Nb Hv N3 Leaf. destruct (C41_sequences_partial m pick seam C Pk Ne Rg Nb) as (seqs & E & Nd & Iff & _ & Same & _).
  exists seqs. split; [exact E|].
  assert (G : forall x y s lp, In (s, lp) seqs -> In y s -> In x seam -> joined m x y -> In x s).
  { intros x y s lp Hs Hy Hx J. assert (Hys : In y seam) by (apply Iff, in_concat; exists s; split; [change s with (fst (s, lp)); apply in_map; exact Hs|exact Hy]).
    destruct (Same x y Hx Hys J) as (s' & lp' & Hs' & Hx' & Hy').
    assert (s' = s); [|subst; exact Hx']. clear - Nd Hs Hs' Hy Hy'.
    induction seqs as [|[s0 l0] r IH]; [destruct Hs|]. cbn in Nd.
    assert (Out : forall z s1 l1, In (s1, l1) r -> In z s1 -> In z s0 -> False).
    { intros z s1 l1 H1 H2 H3. apply ApiInv.NoDup_app_split in Nd. destruct Nd as (_ & _ & D). apply (D z H3). apply in_concat. exists s1. split; [change s1 with (fst (s1, l1)); apply in_map; exact H1|exact H2]. }
    assert (Nr : NoDup (concat (map fst r))) by (apply ApiInv.NoDup_app_split in Nd; tauto).
    destruct Hs as [Hs|Hs], Hs' as [Hs'|Hs'].
    - congruence.
    - injection Hs as -> ->. exfalso. eapply Out; eassumption.
    - injection Hs' as -> ->. exfalso. eapply Out; eassumption.
    - eapply IH; eassumption. }
  apply Iff in Hv. apply in_concat in Hv. destruct Hv as (s & Hs & Hv). apply in_map_iff in Hs. destruct Hs as ([s0 lp] & Es & Hs). cbn in Es. subst s0.
  exists s, lp. split; [exact Hs|]. intros L.
  assert (Ns : NoDup s).
  { clear - Nd Hs. induction seqs as [|[s0 l0] r IH]; [destruct Hs|]. cbn in Nd. apply ApiInv.NoDup_app_split in Nd. destruct Nd as (N1 & N2 & _). destruct Hs as [Hs|Hs]; [congruence|auto]. }
  assert (Sub : forall x, In x s -> In x seam) by (intros x Hx; apply Iff, in_concat; exists s; split; [change s with (fst (s, lp)); apply in_map; exact Hs|exact Hx]).
  apply in_split in Hv. destruct Hv as (l1 & l2 & Es).
  assert (Pl : forall x, In x [a; b; d] -> x = hd 0 l2 \/ x = hd 0 (rev l1)).
  { intros x Hx. destruct (Leaf x Hx) as (Sx & Jx & Ox). assert (Hin : In x s). { apply (G x v s lp); try assumption. rewrite Es. apply in_app_iff. right. left. reflexivity. }
    assert (Nx : x <> v) by (intros ->; exact (joined_irrefl m C v Jx)). rewrite Es in Hin. apply in_app_iff in Hin. destruct Hin as [Hin|[Hin|Hin]]; [|congruence|].
    - right. assert (Er : rev s = rev l2 ++ v :: rev l1) by (rewrite Es, rev_app_distr; cbn; rewrite <- app_assoc; reflexivity).
      apply (after_v m v x (rev l2) (rev l1)); rewrite <- ?Er.
      + apply linked_rev; [intros p q; apply joined_sym; exact C|exact L].
      + apply NoDup_rev. exact Ns.
      + rewrite <- in_rev. exact Hin.
      + intros w Hw J. rewrite <- in_rev in Hw. apply Ox; [apply Sub; exact Hw|exact J].
    - left. apply (after_v m v x l1 l2); rewrite <- ?Es; try assumption. intros w Hw J. apply Ox; [apply Sub; exact Hw|exact J]. }
  inversion N3 as [|? ? A1 A2]. inversion A2 as [|? ? B1 B2]. subst. cbn in A1, B1.
  pose proof (Pl a (or_introl eq_refl)). pose proof (Pl b (or_intror (or_introl eq_refl))). pose proof (Pl d (or_intror (or_intror (or_introl eq_refl)))). intuition congruence.
Qed.

(** ** Instances: a fan of five triangles around vertex 0 *)

Definition joinedb (m : hmesh) (a b : Z) : bool :=
  existsb (fun h => negb (zmem h (rh m)) && match source m h, target m h with Some x, Some y => (x =? a) && (y =? b) | _, _ => false end) (zrange (zlen (hes m))).
Lemma joinedb_ok m a b : joinedb m a b = true <-> joined m a b.
Proof.
  unfold joinedb. rewrite existsb_exists. split.
  - intros (h & Hh & E). apply In_zrange in Hh. apply andb_true_iff in E. destruct E as [E1 E2]. apply negb_true_iff, zmem_notIn in E1.
    destruct (source m h) as [x|] eqn:Sx; [|discriminate]. destruct (target m h) as [y|] eqn:Ty; [|discriminate]. apply andb_true_iff in E2. destruct E2 as [X Y].
    apply Z.eqb_eq in X. apply Z.eqb_eq in Y. subst. exists h. repeat split; try assumption; lia.
  - intros (h & [Hh Nh] & S & T). exists h. split; [apply In_zrange; exact Hh|]. rewrite S, T, !Z.eqb_refl. apply zmem_notIn in Nh. rewrite Nh. reflexivity.
Qed.

(** the rim, an open path: the hypotheses of the positive theorem *)
Example C41_instance : component_mesh fan5 /\ (forall v, In v [1; 2; 3; 4; 5; 6] -> 0 <= v < zlen (verts fan5)) /\
  (forall v, In v [1; 2; 3; 4; 5; 6] -> exists w, In w [1; 2; 3; 4; 5; 6] /\ joined fan5 w v) /\
  sequence_array fan5 (hd 0) [3; 1; 2; 4; 5; 6] = Some [1; 6; 0; 6; 5; 4; 3; 2; 1].
Proof.
  split; [exact fan5_mesh|]. split; [intros v Hv; change (zlen (verts fan5)) with 7; cbn in Hv; lia|]. split; [|vm_compute; reflexivity].
  intros v Hv. cbn [In] in Hv. destruct Hv as [<-|[<-|[<-|[<-|[<-|[<-|[]]]]]]];
  [exists 2|exists 3|exists 2|exists 3|exists 4|exists 5]; (split; [cbn; tauto|apply joinedb_ok; vm_compute; reflexivity]).
Qed.
(** at most two neighbours, each by one half-edge *)
Example C41_instance_degree : forall v, In v [1; 2; 3; 4; 5; 6] -> exists nbs, neighbours fan5 [1; 2; 3; 4; 5; 6] v nbs /\ (length nbs <= 2)%nat.
Proof.
  intros v Hv. exists (filter (fun w => joinedb fan5 w v) [1; 2; 3; 4; 5; 6]). split; [split; [apply NoDup_filter; repeat constructor; cbn; lia|split]|].
  - intros w. rewrite filter_In, joinedb_ok. reflexivity.
  - assert (G : forall h h', In h (zrange (zlen (hes fan5))) -> In h' (zrange (zlen (hes fan5))) -> source fan5 h = source fan5 h' -> target fan5 h = target fan5 h' -> h = h').
    { assert (K : forallb (fun h => forallb (fun h' => (h =? h') || negb (match source fan5 h, target fan5 h, source fan5 h', target fan5 h' with
          Some x, Some y, Some x', Some y' => (x =? x') && (y =? y') | _, _, _, _ => true end)) (zrange (zlen (hes fan5)))) (zrange (zlen (hes fan5))) = true) by (vm_compute; reflexivity).
      intros h h' H H' Es Et. rewrite forallb_forall in K. specialize (K h H). rewrite forallb_forall in K. specialize (K h' H'). rewrite <- Es, <- Et in K.
      apply orb_true_iff in K. destruct K as [K|K]; [apply Z.eqb_eq; exact K|]. destruct (source fan5 h), (target fan5 h); rewrite ?Z.eqb_refl in K; discriminate. }
    intros h h' w L L' S S' T T' _. apply G; try (apply In_zrange; apply L); try (apply In_zrange; apply L'); congruence.
  - cbn [In] in Hv. destruct Hv as [<-|[<-|[<-|[<-|[<-|[<-|[]]]]]]]; vm_compute; lia.
Qed.
(** vertices 0, 1, 3, 5: a star *)
Example C41_branching_instance : (forall x, In x [0; 1; 3; 5] -> exists w, In w [0; 1; 3; 5] /\ joined fan5 w x) /\
  (forall x, In x [1; 3; 5] -> In x [0; 1; 3; 5] /\ joined fan5 x 0 /\ forall w, In w [0; 1; 3; 5] -> joined fan5 w x -> w = 0) /\
  sequence_array fan5 (hd 0) [0; 1; 3; 5] = Some [1; 4; 0; 3; 0; 5; 1].
Proof.
  split; [|split; [|vm_compute; reflexivity]].
  - intros x Hx. cbn [In] in Hx. destruct Hx as [<-|[<-|[<-|[<-|[]]]]]; [exists 1|exists 0|exists 0|exists 0]; (split; [cbn; tauto|apply joinedb_ok; vm_compute; reflexivity]).
  - intros x Hx. split; [right; exact Hx|]. cbn [In] in Hx. destruct Hx as [<-|[<-|[<-|[]]]]; (split; [apply joinedb_ok; vm_compute; reflexivity|]);
    intros w Hw J; cbn [In] in Hw; destruct Hw as [<-|[<-|[<-|[<-|[]]]]]; try reflexivity; apply joinedb_ok in J; vm_compute in J; discriminate J.
Qed.
(** vertex 1 alone *)
Example C41_isolated_instance : forall w, In w [1] -> ~ joined fan5 w 1.
Proof. intros w [<-|[]] J. apply joinedb_ok in J. vm_compute in J. discriminate J. Qed.

Print Assumptions C41_sequences_partial. Print Assumptions C41_query. Print Assumptions C41_isolated_refuted. Print Assumptions C41_branching_refuted.
