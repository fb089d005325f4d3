(** The walk comes to an end and reads nothing that is not there. *)
From Coq Require Import List Arith Bool Lia Permutation.
From Verif Require Import CutModel ClipModel PatchModel SeverModel SeverSpec SeverReach SeverProofs SeverWalk SeverEnd.
From Verif Require PatchProofs PatchSeeds.
Import ListNotations.

Lemma entry_lookup {A} (l : list (nat * A)) x a : NoDup (map fst l) -> In (x, a) l -> lookup l x = Some a.
Proof.
  induction l as [|[y b] r IH]; cbn; intros N; [intros []|]. inversion N as [|? ? N1 N2]. subst. intros [Q|Q]; [injection Q as -> ->; rewrite Nat.eqb_refl; reflexivity|].
  destruct (Nat.eqb_spec x y) as [->|D]; [|auto]. exfalso. apply N1. apply in_map_iff. exists (y, a). auto.
Qed.

Section Total.
Variable polygons : list (list nat).
Variable sm_count c : nat.
Variable seg : nat -> nat * nat.
Variable registry : list (nat * nat).
Variable cnt : nat.
Variables (sm_vtx_cnt sm_face_count : nat).
Variable psf : nat -> option nat * option nat.
Variables (vertices edges : nat).
Variable incoming : list (nat * list nat).
Variable shuffle : list nat -> list nat.
Notation src := (src seg).
Notation tgt := (tgt seg).
Notation sources := (sources polygons sm_count).
Notation cross := (fun v => cnt <= v).
Notation cut := (fun h => h < 2 * c).
Hypothesis OK : sever_input src tgt cross cut vertices (2 * edges) sources (skipn sm_count polygons) (fun v => sm_vtx_cnt <= v) incoming.
Hypothesis SH : forall l h, In h (shuffle l) <-> In h l.
Hypothesis PT : sever_points src tgt cross cut sources (fun v => sm_vtx_cnt <= v) incoming (cut_edge_at registry cnt sm_face_count psf).
Hypothesis KN : sever_known src cross sources incoming (fun x => exists e f, nth_error registry (x - cnt) = Some (e, f) /\ exists g, match fst (psf e) with Some f => Some f | None => snd (psf e) end = Some g).
Notation side := (side sources).
Notation keys := (shuffle (flag_keys polygons seg cnt sm_vtx_cnt incoming)).
Notation next := (next polygons sm_count).
Notation prev := (prev polygons sm_count).
Notation ihalfedge := (ihalfedge seg cnt).
Notation linked := (linked polygons sm_count).
Notation inv := (inv polygons sm_count c seg cnt vertices edges).
Notation linked_fun := (linked_fun _ _ _ _ _ _ _ _ _ OK).
Notation linked_inj := (linked_inj _ _ _ _ _ _ _ _ _ OK).
Notation linked_ends := (linked_ends _ _ _ _ _ _ _ _ _ OK).
Notation linked_sides := (linked_sides polygons sm_count).
Notation traced_opp := (traced_opp _ _ _ _ _ _ _ _ _ OK).
Notation side_traced := (side_traced polygons sm_count).
Notation polygon_unique := (polygon_unique _ _ _ _ _ _ _ _ _ OK).
Notation good := (good polygons sm_count c seg cnt).
Notation flag := (flag polygons seg cnt sm_vtx_cnt incoming shuffle).
Notation mode := (mode polygons sm_count c).
Notation strictly_cs := (strictly_cs (2 * c) seg registry cnt sm_vtx_cnt sm_face_count psf).
Notation stays := (stays polygons (2 * c) seg registry cnt sm_vtx_cnt sm_face_count psf incoming shuffle).
Notation across := (across polygons (2 * c) seg registry cnt sm_vtx_cnt sm_face_count psf incoming shuffle).
Notation resolve := (resolve polygons sm_count (2 * c) seg registry cnt sm_vtx_cnt sm_face_count psf incoming shuffle).
Notation target_of := (target_of polygons sm_count (2 * c) seg registry cnt sm_vtx_cnt sm_face_count psf incoming shuffle).
Notation source_of := (source_of polygons sm_count (2 * c) seg registry cnt sm_vtx_cnt sm_face_count psf incoming shuffle).
Notation edge_of := (edge_of polygons (2 * c)).
Notation pushed := (pushed polygons seg cnt sm_vtx_cnt incoming shuffle).
Notation step := (step polygons sm_count (2 * c) seg registry cnt sm_vtx_cnt sm_face_count psf incoming shuffle).
Notation walk := (walk polygons sm_count (2 * c) seg registry cnt sm_vtx_cnt sm_face_count psf incoming shuffle).
Notation sequences := (sequences polygons sm_count (2 * c) seg registry cnt sm_vtx_cnt sm_face_count psf incoming shuffle).
Notation partition_from := (partition_from polygons sm_count (2 * c) seg registry cnt sm_vtx_cnt sm_face_count psf incoming shuffle).
Notation class1_start := (class1_start polygons seg cnt).
Notation class3_start := (class3_start polygons sm_count (2 * c) seg cnt).

(** ** The keys *)
Lemma ivn v : ivtx cnt v = false <-> ~ cross v.
Proof. (unfold ivtx; rewrite Nat.leb_gt; cbv beta; lia). Qed.
Lemma ivy v : ivtx cnt v = true <-> cross v.
Proof. apply Nat.leb_le. Qed.
Lemma ih_iff h : ihalfedge h = true <-> cross (src h) \/ cross (tgt h).
Proof. unfold SeverModel.ihalfedge. rewrite orb_true_iff, !ivy. reflexivity. Qed.
Lemma ih_opp h : ihalfedge (opp h) = ihalfedge h.
Proof. unfold SeverModel.ihalfedge, ClipModel.tgt. rewrite sopp_opp. apply orb_comm. Qed.
Lemma flag_edge_has ks g k : edge g = edge k -> traced polygons k = true -> ihalfedge k = true -> (~ cross (src k) -> src k < sm_vtx_cnt) -> (~ cross (tgt k) -> tgt k < sm_vtx_cnt) -> In k (flag_edge polygons seg cnt sm_vtx_cnt ks g).
Proof.
  intros E T H V W. unfold flag_edge. rewrite E. set (e := edge k). assert (K : k = 2 * e \/ k = 2 * e + 1). { unfold e, edge. pose proof (div2_form k). destruct (Nat.even k); lia. }
  assert (T1 : tgt (2 * e) = src (2 * e + 1)) by (rewrite <- opp_double; reflexivity). assert (T2 : tgt (2 * e + 1) = src (2 * e)) by (rewrite <- opp_double; apply tgt_opp).
  assert (AD : forall l x, In k l \/ k = x -> In k (if traced polygons x && negb (existsb (Nat.eqb x) l) then l ++ [x] else l)).
  { intros l x [J|<-]; [destruct (_ && _); [apply in_or_app; left|]; exact J|]. rewrite T. cbn [andb]. destruct (existsb (Nat.eqb k) l) eqn:Q; cbn [negb]; [apply existsb_In, Q|apply in_or_app; right; left; reflexivity]. }
  assert (C : (ivtx cnt (tgt (2 * e)) || ivtx cnt (src (2 * e))) = true /\ (ivtx cnt (tgt (2 * e)) = false -> Nat.leb sm_vtx_cnt (tgt (2 * e)) = false) /\ (ivtx cnt (src (2 * e)) = false -> Nat.leb sm_vtx_cnt (src (2 * e)) = false)).
  { apply ih_iff in H. cbv beta in H, V, W. split; [|split].
    - rewrite orb_true_iff, !ivy. destruct K as [K|K]; rewrite K in H; [tauto|]. rewrite <- T1, T2 in H. tauto.
    - intros N. apply ivn in N. apply Nat.leb_gt. destruct K as [K|K]; rewrite K in V, W; [exact (W N)|]. rewrite <- T1 in V. exact (V N).
    - intros N. apply ivn in N. apply Nat.leb_gt. destruct K as [K|K]; rewrite K in V, W; [exact (V N)|]. rewrite T2 in W. exact (W N). }
  destruct C as (C1 & C2 & C3). destruct (ivtx cnt (tgt (2 * e))) eqn:X, (ivtx cnt (src (2 * e))) eqn:Y; cbn in C1; try discriminate; cbn [negb andb]; rewrite ?C2, ?C3 by reflexivity; cbn [andb];
    (destruct K as [K|K]; [apply AD; left; apply AD; right; exact K|apply AD; right; exact K]).
Qed.
Lemma flag_keys_has x hs g k : In (x, hs) incoming -> In g hs -> edge g = edge k -> traced polygons k = true -> ihalfedge k = true -> (~ cross (src k) -> src k < sm_vtx_cnt) -> (~ cross (tgt k) -> tgt k < sm_vtx_cnt) -> In k keys.
Proof.
  intros J K E T H V W. rewrite (SH (flag_keys polygons seg cnt sm_vtx_cnt incoming) k). unfold flag_keys.
  pose proof (flag_edge_mono polygons seg cnt sm_vtx_cnt) as FM. pose proof (fun ks => flag_edge_has ks g k E T H V W) as FA.
  assert (M1 : forall hs ks, In k ks -> In k (fold_left (flag_edge polygons seg cnt sm_vtx_cnt) hs ks)) by (induction hs0 as [|h hs0 IH]; cbn; intros ks Q; [exact Q|apply IH, FM, Q]).
  assert (M2 : forall hs ks, In g hs -> In k (fold_left (flag_edge polygons seg cnt sm_vtx_cnt) hs ks)) by (induction hs0 as [|h hs0 IH]; cbn; [intros ks []|intros ks [->|Q]; [apply M1, FA|apply IH, Q]]).
  assert (N1 : forall ps ks, In k ks -> In k (fold_left (fun keys (p : nat * list nat) => fold_left (flag_edge polygons seg cnt sm_vtx_cnt) (snd p) keys) ps ks)) by (induction ps as [|p ps IH]; cbn; intros ks Q; [exact Q|apply IH, M1, Q]).
  assert (N2 : forall ps ks, In (x, hs) ps -> In k (fold_left (fun keys (p : nat * list nat) => fold_left (flag_edge polygons seg cnt sm_vtx_cnt) (snd p) keys) ps ks)) by (induction ps as [|p ps IH]; cbn; [intros ks []|intros ks [->|Q]; [apply N1, M2, K|apply IH, Q]]).
  apply N2, J.
Qed.
Lemma flag_keys_traced k : In k keys -> traced polygons k = true.
Proof.
  rewrite (SH (flag_keys polygons seg cnt sm_vtx_cnt incoming) k). unfold flag_keys.
  assert (F : forall g ks, (In k ks -> traced polygons k = true) -> In k (flag_edge polygons seg cnt sm_vtx_cnt ks g) -> traced polygons k = true).
  { intros g ks Q. unfold flag_edge. destruct (_ && _); [exact Q|]. destruct (_ && _ && _); [exact Q|]. destruct (_ && _ && _); [exact Q|].
    assert (AD : forall l x, (In k l -> traced polygons k = true) -> In k (if traced polygons x && negb (existsb (Nat.eqb x) l) then l ++ [x] else l) -> traced polygons k = true).
    { intros l x R. destruct (traced polygons x) eqn:T; cbn [andb]; [|exact R]. destruct (negb _); [|exact R]. intros J. apply in_app_or in J. destruct J as [J|[<-|[]]]; auto. }
    apply AD. apply AD. exact Q. }
  assert (M : forall hs ks, (In k ks -> traced polygons k = true) -> In k (fold_left (flag_edge polygons seg cnt sm_vtx_cnt) hs ks) -> traced polygons k = true) by (induction hs as [|h hs IH]; cbn; intros ks Q; [exact Q|apply IH; apply F; exact Q]).
  assert (N : forall ps ks, (In k ks -> traced polygons k = true) -> In k (fold_left (fun keys (p : nat * list nat) => fold_left (flag_edge polygons seg cnt sm_vtx_cnt) (snd p) keys) ps ks) -> traced polygons k = true) by (induction ps as [|p ps IH]; cbn; intros ks Q; [exact Q|apply IH; apply M; exact Q]).
  apply N. intros [].
Qed.
Lemma key_opp h k : side h -> edge h = edge k -> ihalfedge k = true -> traced polygons k = true -> In k keys.
Proof.
  intros S E H T. destruct (sp_source _ _ _ _ _ _ _ _ PT _ S) as [V W]. cbv beta in V, W.
  assert (EN : (~ cross (src k) -> src k < sm_vtx_cnt) /\ (~ cross (tgt k) -> tgt k < sm_vtx_cnt)).
  { destruct (same_edge _ _ E) as [->|Q]; [split; intros N; [specialize (V N)|specialize (W N)]; lia|]. subst h. rewrite src_opp, tgt_opp in *. split; intros N; [specialize (W N)|specialize (V N)]; lia. }
  assert (HH : ihalfedge h = true) by (destruct (same_edge _ _ E) as [->|Q]; [exact H|rewrite Q, ih_opp; exact H]).
  apply ih_iff in HH. destruct HH as [X|X].
  - destruct (sk_leaving _ _ _ _ _ KN h S X) as (hs & J & K). rewrite reverse_opp in K. eapply flag_keys_has; eauto; try apply EN. rewrite edge_opp. exact E.
  - destruct (sp_known _ _ _ _ _ _ _ _ PT h S X) as (hs & J & K). eapply flag_keys_has; eauto; apply EN.
Qed.
Lemma key_side h : side h -> ihalfedge h = true -> In h keys.
Proof. intros S H. apply (key_opp h h); auto. apply side_traced, S. Qed.
Lemma flag_total s h : In h keys -> exists b, flag s h = Some b /\ (b = true <-> In h (done s)).
Proof. intros K. unfold SeverModel.flag. rewrite (proj2 (existsb_In h keys) K). eexists. split; [reflexivity|apply existsb_In]. Qed.
Lemma lookup_entry x hs : In (x, hs) incoming -> lookup incoming x = Some hs.
Proof. apply entry_lookup, (sp_keys _ _ _ _ _ _ _ _ PT). Qed.
Lemma entry_unique x hs hs' : In (x, hs) incoming -> In (x, hs') incoming -> hs = hs'.
Proof. intros A B. apply lookup_entry in A. apply lookup_entry in B. congruence. Qed.

(** ** The instance of an intersection point *)
Lemma strictly_total x hs h : In (x, hs) incoming -> In h hs -> exists b, strictly_cs h = Some b /\ (b = false -> ~ cross (src h) -> src h < sm_vtx_cnt).
Proof.
  intros J K. unfold SeverModel.strictly_cs. pose proof (si_arriving _ _ _ _ _ _ _ _ _ _ OK _ _ _ J K) as TX. pose proof (sk_points _ _ _ _ _ KN _ _ J) as X. rewrite TX, (proj2 (ivy x) X). cbn [negb andb orb].
  destruct (ivtx cnt (src h)) eqn:Y; cbn [negb andb orb].
  - destruct (is_boundary_halfedge (2 * c) h); cbn [andb]; [|eexists; split; [reflexivity|]; intros _ N; apply ivy in Y; cbv beta in *; lia].
    apply ivy in Y. destruct (sk_faces _ _ _ _ _ KN _ _ _ J K Y) as (e & f & N & g & G). rewrite N. cbn [bind]. rewrite G. cbn [bind]. eexists. split; [reflexivity|]. intros _ N'. cbv beta in *. lia.
  - destruct (Nat.leb sm_vtx_cnt (src h)) eqn:L; cbn; eexists; (split; [reflexivity|]); [discriminate|]. intros _ _. apply Nat.leb_gt, L.
Qed.
Lemma strictly_side h : side h -> cross (tgt h) -> strictly_cs h <> Some true.
Proof.
  intros S X. unfold SeverModel.strictly_cs. rewrite (proj2 (ivy _) X). cbn [negb andb]. rewrite orb_false_r. destruct (ivtx cnt (src h)) eqn:Y; cbn [negb andb].
  - apply ivy in Y. destruct (is_boundary_halfedge (2 * c) h) eqn:B; [|discriminate]. apply boundary_iff in B. destruct (nth_error registry (src h - cnt)) as [[e f]|] eqn:N; cbn [bind]; [|discriminate]. destruct (match fst (psf e) with Some f => Some f | None => snd (psf e) end) as [g|] eqn:G; cbn [bind]; [|discriminate].
    intros Q. injection Q as Q. apply Nat.leb_le in Q. apply (sp_edge _ _ _ _ _ _ _ _ PT h S B Y X). exists e, f. split; [exact N|]. exists g. auto.
  - apply ivn in Y. destruct (sp_source _ _ _ _ _ _ _ _ PT _ S) as [V _]. specialize (V Y). cbv beta in V. assert (L : Nat.leb sm_vtx_cnt (src h) = false) by (apply Nat.leb_gt; lia). rewrite L. discriminate.
Qed.
Lemma stays_total s x hs h : In (x, hs) incoming -> In h hs -> exists b, stays s h = Some b /\ (b = true -> In h (done s)) /\ (side h -> In h (done s) -> b = true).
Proof.
  intros J K. unfold SeverModel.stays. destruct (strictly_total _ _ _ J K) as (b & EB & B). rewrite EB. cbn [bind]. pose proof (si_arriving _ _ _ _ _ _ _ _ _ _ OK _ _ _ J K) as TX. pose proof (sk_points _ _ _ _ _ KN _ _ J) as X.
  destruct b.
  - eexists. split; [reflexivity|]. split; [discriminate|]. intros S. exfalso. apply (strictly_side h S); [rewrite TX; exact X|exact EB].
  - destruct (traced polygons h) eqn:T; cbn [negb].
    + assert (KK : In h keys). { eapply flag_keys_has; eauto; [apply ih_iff; right; rewrite TX; exact X|intros N; rewrite TX in N; destruct (N X)]. }
      destruct (flag_total s h KK) as (b' & -> & F). exists b'. split; [reflexivity|]. tauto.
    + eexists. split; [reflexivity|]. split; [discriminate|]. intros S. rewrite (side_traced _ S) in T. discriminate.
Qed.
Lemma across_total s x hs : In (x, hs) incoming -> exists l, across s hs = Some l /\ (forall h, In h l -> In h hs /\ In h (done s)) /\ (forall h, In h hs -> side h -> In h (done s) -> In h l).
Proof.
  intros J. assert (G : forall r, incl r hs -> exists l, across s r = Some l /\ (forall h, In h l -> In h r /\ In h (done s)) /\ (forall h, In h r -> side h -> In h (done s) -> In h l)).
  { induction r as [|h r IH]; intros IN; cbn [SeverModel.across]; [exists []; split; [reflexivity|]; split; [intros h []|intros h []]|].
    destruct IH as (l & E & L1 & L2); [intros y Y; apply IN; right; exact Y|]. destruct (stays_total s x hs h J (IN h (or_introl eq_refl))) as (b & -> & B1 & B2). cbn [bind]. rewrite E. cbn [bind].
    destruct b; eexists; (split; [reflexivity|]); split.
    - intros y [<-|Y]; [split; [left; reflexivity|auto]|]. destruct (L1 y Y). split; [right|]; assumption.
    - intros y [<-|Y] S D; [left; reflexivity|right; auto].
    - intros y Y. destruct (L1 y Y). split; [right|]; assumption.
    - intros y [<-|Y] S D; [specialize (B2 S D); discriminate|auto]. }
  apply (G hs). intros y Y. exact Y.
Qed.
Lemma erase_total h l : In h l -> exists l', erase h l = Some l'.
Proof. induction l as [|y l IH]; [intros []|]. cbn [erase]. destruct (Nat.eqb_spec h y) as [->|N]; [eauto|]. intros [->|J]; [destruct (N eq_refl)|]. destruct (IH J) as [l' ->]. cbn. eauto. Qed.
Lemma prev_exists b : side b -> exists a, prev b = Some a /\ linked a b.
Proof.
  intros S. destruct (pred_exists _ _ _ S) as [a L]. exists a. split; [|exact L]. destruct (prev b) as [a'|] eqn:E; [apply prev_linked in E; f_equal; exact (linked_inj _ _ _ E L)|]. exfalso.
  apply links_In in L. unfold SeverModel.prev in E. revert L E. generalize (links polygons sm_count). induction l as [|[u v] l IH]; cbn; [intros []|]. destruct (Nat.eqb_spec b v) as [->|N]; [discriminate|]. intros [Q|Q]; [injection Q as -> ->; destruct (N eq_refl)|auto].
Qed.
Lemma next_exists a : side a -> exists b, next a = Some b /\ linked a b.
Proof.
  intros (p & P & J). apply In_nth_error in J. destruct J as [k J]. assert (K : k < length p) by (apply nth_error_Some; congruence). assert (L : S k mod length p < length p) by (apply Nat.mod_upper_bound; lia).
  destruct (nth_error p (S k mod length p)) as [b|] eqn:B; [|apply nth_error_None in B; lia]. assert (LK : linked a b) by (exists p; split; [exact P|exists k; auto]). exists b. split; [|exact LK].
  destruct (next a) as [b'|] eqn:E; [apply next_linked in E; f_equal; exact (linked_fun _ _ _ E LK)|]. exfalso.
  apply links_In in LK. unfold SeverModel.next in E. revert LK E. generalize (links polygons sm_count). induction l as [|[u v] l IH]; cbn; [intros []|]. destruct (Nat.eqb_spec a u) as [->|N]; [discriminate|]. intros [Q|Q]; [injection Q as -> ->; destruct (N eq_refl)|auto].
Qed.
Lemma resolve_total s e h hs ox : inv s e -> In (tgt h, hs) incoming -> (ox = true -> traced polygons (opp h) = true -> side (opp h)) -> (ox = false -> traced polygons h = true -> side h) -> exists r, resolve s h (tgt h) (tgt h) ox = Some r.
Proof.
  intros I J HT HF. set (x := tgt h) in *. pose proof (sk_points _ _ _ _ _ KN _ _ J) as X. unfold SeverModel.resolve. rewrite (lookup_entry _ _ J). cbn [bind]. destruct (across_total s x hs J) as (others & -> & O1 & O2). cbn [bind].
  destruct others as [|front rest]; [eauto|]. assert (GD : forall y, In y (done s) -> exists m, lookup (ihe s) y = Some m). { intros y D. pose proof (i_done _ _ _ _ _ _ _ _ _ I y D) as N. unfold get in N. destruct (lookup (ihe s) y) as [m|]; [eauto|destruct (N eq_refl)]. }
  destruct (O1 front (or_introl eq_refl)) as [_ FD]. destruct (GD front FD) as [mf MF].
  assert (IN : forall y, side y -> tgt y = x -> In y (done s) -> In y (front :: rest)). { intros y S T D. destruct (sp_known _ _ _ _ _ _ _ _ PT y S) as (hs' & J' & K'); [rewrite T; exact X|]. rewrite T in J'. rewrite (entry_unique _ _ _ J' J) in K'. auto. }
  assert (SD : forall y, In y (done s) -> side y). { intros y D. destruct (GD y D) as [m M]. apply (i_he _ _ _ _ _ _ _ _ _ I y m M). }
  destruct ox.
  - destruct (traced polygons (opp h)) eqn:T.
    + specialize (HT eq_refl eq_refl). destruct (prev_exists _ HT) as (p & -> & L). cbn [bind]. destruct (linked_sides _ _ L) as [Sp _]. assert (TP : tgt p = x) by (rewrite (linked_ends _ _ L); reflexivity).
      assert (K : In p keys) by (apply key_side; [exact Sp|apply ih_iff; right; rewrite TP; exact X]). destruct (flag_total s p K) as (b & -> & B). cbn [bind]. destruct b.
      * destruct (erase_total p (front :: rest)) as [l' ->]; [apply IN; auto; apply B; reflexivity|]. cbn [bind]. destruct (GD p) as [m ->]; [apply B; reflexivity|]. cbn [bind]. eauto.
      * cbn [bind hd_error]. rewrite MF. cbn [bind]. eauto.
    + cbn [bind hd_error]. rewrite MF. cbn [bind]. eauto.
  - destruct (traced polygons h) eqn:T; cbn [negb].
    + specialize (HF eq_refl eq_refl). destruct (next_exists _ HF) as (n & -> & L). cbn [bind]. destruct (linked_sides _ _ L) as [_ Sn]. pose proof (linked_ends _ _ L) as TN. fold x in TN.
      assert (Q : exists b, (if traced polygons (opp n) then flag s (opp n) else Some false) = Some b /\ (b = true -> In (opp n) (done s))).
      { destruct (traced polygons (opp n)) eqn:TO; [|exists false; split; [reflexivity|discriminate]]. assert (K : In (opp n) keys) by (apply (key_opp n); auto; [rewrite edge_opp; reflexivity|apply ih_iff; right; rewrite tgt_opp, <- TN; exact X]).
        destruct (flag_total s _ K) as (b & -> & B). exists b. split; [reflexivity|apply B]. }
      destruct Q as (b & -> & B). cbn [bind]. destruct b; cbn [andb].
      * match goal with |- context [if ?x then _ else _] => destruct x end.
        -- destruct (erase_total (opp n) (front :: rest)) as [l' ->]; [apply IN; auto; [rewrite tgt_opp; auto]|]. cbn [bind]. destruct (GD (opp n)) as [m ->]; [auto|]. cbn [bind]. eauto.
        -- cbn [bind hd_error]. rewrite MF. cbn [bind]. eauto.
      * cbn [bind hd_error]. rewrite MF. cbn [bind]. eauto.
    + rewrite MF. cbn [bind hd_error]. cbn. rewrite MF. cbn. eauto.
Qed.
Lemma incoming_target h : side h -> cross (tgt h) -> exists hs, In (tgt h, hs) incoming.
Proof. intros S X. destruct (sp_known _ _ _ _ _ _ _ _ PT h S X) as (hs & J & _). eauto. Qed.

(** ** The walk *)
Lemma step_total s exc init cur nxt : inv s exc -> side cur -> ihalfedge cur = true -> linked cur nxt -> mode s exc init cur ->
  exists t l, step s init cur nxt = Some (t, l) /\ length l <= 1 /\ (cross (tgt cur) -> l = []) /\ Forall (fun h => cross (tgt h)) l.
Proof.
  intros I S H L M. assert (NI : exc <> None -> init <> cur) by (destruct M as [(-> & _)|(p & _ & _ & N & D)]; [congruence|intros _ ->; exact (N D)]). unfold SeverModel.step.
  assert (A : exists b s1, target_of s cur nxt = Some (b, s1)).
  { unfold SeverModel.target_of. destruct (ivtx cnt (tgt cur)) eqn:X; [|eauto]. destruct (lookup (ihe s) nxt) as [m|]; [eauto|]. apply ivy in X. destruct (incoming_target _ S X) as [hs J].
    destruct (resolve_total s exc cur hs (negb (ivtx cnt (src cur)) && true) I J) as [[b s1] R].
    - intros O T. rewrite andb_true_r in O. apply negb_true_iff, ivn in O. apply traced_opp; auto. intros K. apply O. apply (si_curve _ _ _ _ _ _ _ _ _ _ OK _ S K).
    - intros _ _. exact S.
    - rewrite R. eauto. }
  destruct A as (b & s1 & A). rewrite A. cbn [bind]. destruct (target_spec _ _ _ _ _ _ _ _ _ _ _ _ _ OK _ _ _ _ _ _ I S L A) as (X1 & _). pose proof (extends_inv _ _ _ _ _ _ _ _ _ _ X1 I) as I1.
  assert (B : exists a s2, source_of s1 init cur = Some (a, s2)).
  { unfold SeverModel.source_of. destruct (ivtx cnt (src cur)) eqn:X; [|eauto]. apply ivy in X. destruct (Nat.eqb_spec cur init) as [E|E].
    - destruct (sk_leaving _ _ _ _ _ KN cur S X) as (hs & J & _). assert (U : ~ cut cur). { destruct M as [(_ & _ & U)|(p & -> & _)]; [exact U|]. exfalso. apply NI; [discriminate|auto]. }
      pose proof (resolve_total s1 exc (opp cur) hs false I1) as R. rewrite tgt_opp in R. destruct (R J) as [[a s2] R']; [discriminate|intros _ T; apply traced_opp; auto|]. cbn [negb andb]. rewrite R'. eauto.
    - destruct (prev_exists _ S) as (p & -> & Lp). cbn [bind]. destruct M as [(_ & Q & _)|(q & -> & Lq & _)]; [congruence|]. rewrite (linked_inj _ _ _ Lp Lq). pose proof (i_done _ _ _ _ _ _ _ _ _ I1 q (i_exc _ _ _ _ _ _ _ _ _ I1 q eq_refl)) as N. unfold get in N. destruct (lookup (ihe s1) q) as [m|]; [cbn; eauto|destruct (N eq_refl)]. }
  destruct B as (a & s2 & B). rewrite B. cbn [bind]. unfold SeverModel.pushed. destruct (ivtx cnt (src cur) && negb (ivtx cnt (tgt cur)) && traced polygons (opp cur)) eqn:P.
  - apply andb_true_iff in P. destruct P as [P T]. apply andb_true_iff in P. destruct P as [P1 P2]. apply negb_true_iff, ivn in P2. apply ivy in P1.
    assert (K : In (opp cur) keys) by (apply (key_opp cur); auto; [rewrite edge_opp; reflexivity|rewrite ih_opp; exact H]). destruct (flag_total (edge_of s2 cur a b) _ K) as (f & -> & _). cbn [bind].
    eexists. eexists. split; [reflexivity|]. split; [destruct (_ && _); cbn; lia|]. split; [intros Q; destruct (P2 Q)|]. destruct (_ && _); constructor; [rewrite tgt_opp; exact P1|constructor].
  - cbn [bind]. eexists. eexists. split; [reflexivity|]. repeat split; [cbn; lia|constructor].
Qed.
Definition undone (s : state) : nat := length (filter (fun k => negb (existsb (Nat.eqb k) (done s))) keys).
Lemma filter_le (f g : nat -> bool) l : (forall x, In x l -> f x = true -> g x = true) -> length (filter f l) <= length (filter g l).
Proof.
  induction l as [|x l IH]; cbn; intros H; [lia|]. assert (Q : length (filter f l) <= length (filter g l)) by (apply IH; intros y Y; apply H; right; exact Y). destruct (f x) eqn:F; [rewrite (H x (or_introl eq_refl) F); cbn; lia|]. destruct (g x); cbn; lia.
Qed.
Lemma filter_lt (f g : nat -> bool) l y : (forall x, In x l -> f x = true -> g x = true) -> In y l -> f y = false -> g y = true -> length (filter f l) < length (filter g l).
Proof.
  induction l as [|x l IH]; cbn; intros H; [intros []|]. intros [->|Y] F G.
  - rewrite F, G. cbn. apply le_n_S. apply filter_le. intros z Z. apply H. right. exact Z.
  - assert (Q : length (filter f l) < length (filter g l)) by (apply IH; auto; intros z Z; apply H; right; exact Z). destruct (f x) eqn:E; [rewrite (H x (or_introl eq_refl) E); cbn; lia|]. destruct (g x); cbn; lia.
Qed.
Lemma done_b s h : negb (existsb (Nat.eqb h) (done s)) = true <-> ~ In h (done s).
Proof. rewrite negb_true_iff. destruct (existsb (Nat.eqb h) (done s)) eqn:E; [apply existsb_In in E; split; [discriminate|intros N; destruct (N E)]|]. split; [|reflexivity]. intros _ J. apply existsb_In in J. congruence. Qed.
Lemma undone_le s t : incl (done s) (done t) -> undone t <= undone s.
Proof. intros IN. apply filter_le. intros x _. rewrite !done_b. intros N J. apply N, IN, J. Qed.
Lemma undone_lt s t h : incl (done s) (done t) -> In h keys -> ~ In h (done s) -> In h (done t) -> undone t < undone s.
Proof.
  intros IN K N D. apply filter_lt with h; auto; [|apply negb_false_iff, existsb_In, D|apply done_b, N]. intros x _. rewrite !done_b. intros M J. apply M, IN, J.
Qed.
Lemma undone_pos s h : In h keys -> ~ In h (done s) -> 1 <= undone s.
Proof. intros K N. unfold undone. assert (J : In h (filter (fun k => negb (existsb (Nat.eqb k) (done s))) keys)) by (apply filter_In; split; [exact K|apply done_b, N]). destruct (filter _ keys); [destruct J|cbn; lia]. Qed.

Definition fwd (s : state) (exc : option nat) : Prop := forall a b, In a (done s) -> linked a b -> ihalfedge b = true -> In b (done s) \/ exc = Some a.
Definition starts (h : nat) : Prop := good h /\ cross (tgt h).
(** what is beside a halfedge that was walked is done or waits *)
Definition waits (s : state) (l : list nat) : Prop := forall a b, In a (done s) -> linked a b -> cross (src a) -> ~ cross (tgt a) -> ~ cross (tgt b) -> side (opp a) -> In (opp a) (done s) \/ In (opp a) l.
Lemma step_waits s exc init cur nxt t l : inv s exc -> side cur -> linked cur nxt -> step s init cur nxt = Some (t, l) -> done t = cur :: done s -> forall w, waits s w -> waits t (l ++ w).
Proof.
  intros I S L E D1 w W a b A La X Y Z So. rewrite D1 in A |- *. destruct A as [<-|A]; [|destruct (W a b A La X Y Z So) as [Q|Q]; [left; right; exact Q|right; apply in_or_app; right; exact Q]].
  rewrite (linked_fun _ _ _ La L) in Z. unfold SeverModel.step in E. destruct (target_of s cur nxt) as [[v s1]|] eqn:E1; [|discriminate]. cbn [bind] in E. destruct (source_of s1 init cur) as [[u s2]|] eqn:E2; [|discriminate]. cbn [bind] in E.
  destruct (target_spec _ _ _ _ _ _ _ _ _ _ _ _ _ OK _ _ _ _ _ _ I S L E1) as (X1 & _). pose proof (extends_inv _ _ _ _ _ _ _ _ _ _ X1 I) as I1. destruct (source_spec _ _ _ _ _ _ _ _ _ _ _ _ _ OK _ _ _ _ _ _ I1 S E2) as (X2 & _).
  unfold SeverModel.pushed in E. apply ivy in X. apply ivn in Y. apply ivn in Z. rewrite X, Y, Z, (side_traced _ So) in E. cbn [negb andb] in E. destruct (flag (edge_of s2 cur u v) (opp cur)) as [f|] eqn:F; [|discriminate]. cbn [bind] in E. injection E as <- <-.
  destruct f; cbn [negb andb]; [left|right; left; reflexivity]. right. apply flag_spec in F. destruct F as [_ F]. pose proof (proj1 F eq_refl) as Q. rewrite done_edge_of, (e_done _ _ X2), (e_done _ _ X1) in Q. exact Q.
Qed.
Lemma walk_total fuel : forall s exc stack init cur, inv s exc -> fwd s exc -> side cur -> ihalfedge cur = true -> mode s exc init cur -> cross (tgt init) -> Forall starts stack -> waits s (init :: stack) -> undone s <= fuel -> (In cur (done s) -> undone s < fuel) ->
  exists t stack', walk fuel s stack init cur = Some (t, stack') /\ incl (cur :: done s) (done t) /\ length stack' + undone t <= length stack + undone s /\ Forall starts stack' /\ inv t None /\ fwd t None /\ waits t (init :: stack').
Proof.
  induction fuel as [|fuel IHf]; intros s exc stack init cur I FW S H M TI F WA U1 U2.
  { exfalso. destruct (in_dec Nat.eq_dec cur (done s)) as [D|D]; [specialize (U2 D); lia|]. pose proof (undone_pos s cur (key_side _ S H) D). lia. }
  cbn [SeverModel.walk]. destruct (next_exists _ S) as (nxt & EN & L). rewrite EN. cbn [bind]. destruct (step_total s exc init cur nxt I S H L M) as (t & l & E & L1 & L2 & L3). rewrite E. cbn [bind].
  destruct (step_inv _ _ _ _ _ _ _ _ _ _ _ _ _ OK _ _ _ _ _ _ _ I S H L M E) as (I1 & D1 & G1).
  assert (IN : incl (done s) (done t)) by (rewrite D1; intros y Y; right; exact Y). pose proof (undone_le s t IN) as UL.
  assert (SUM : length l + undone t <= undone s).
  { destruct (in_dec Nat.eq_dec cur (done s)) as [D|D].
    - assert (Q : init = cur) by (destruct M as [(_ & Q & _)|(p & _ & _ & N & _)]; [exact Q|destruct (N D)]). subst init. rewrite (L2 TI). cbn. exact UL.
    - assert (undone t < undone s); [|lia]. apply undone_lt with cur; auto; [apply key_side; auto|rewrite D1; left; reflexivity]. }
  assert (F' : Forall starts (l ++ stack)). { apply Forall_app. split; [|exact F]. rewrite Forall_forall in *. intros h J. split; [apply G1, J|apply L3, J]. }
  assert (FW1 : fwd t (Some cur)).
  { intros x y X Ly Y. rewrite D1 in X |- *. destruct X as [<-|X]; [right; reflexivity|]. destruct (FW x y X Ly Y) as [K|K]; [left; right; exact K|]. left. left. destruct M as [(-> & _)|(p & -> & Lp & _)]; [discriminate|]. injection K as ->. exact (linked_fun _ _ _ Lp Ly). }
  assert (WA1 : waits t (init :: l ++ stack)). { intros x y A1 A2 A3 A4 A5 A6. destruct (step_waits _ _ _ _ _ _ _ I S L E D1 _ WA x y A1 A2 A3 A4 A5 A6) as [Q|Q]; [left; exact Q|right]. apply in_app_or in Q. destruct Q as [Q|[Q|Q]]; [right; apply in_or_app; left; exact Q|left; exact Q|right; apply in_or_app; right; exact Q]. }
  destruct (linked_sides _ _ L) as [_ SN].
  assert (AG : exists again, (if ihalfedge nxt then option_map negb (flag t nxt) else Some false) = Some again /\ (again = true -> ihalfedge nxt = true /\ ~ In nxt (done t)) /\ (again = false -> ihalfedge nxt = true -> In nxt (done t))).
  { destruct (ihalfedge nxt) eqn:HN; [|exists false; repeat split; discriminate]. destruct (flag_total t nxt (key_side _ SN HN)) as (b & -> & B). exists (negb b). split; [reflexivity|]. destruct b; cbn; [repeat split; try discriminate; intros; apply B; reflexivity|]. split; [|discriminate]. intros _. split; [reflexivity|]. intros J. apply B in J. discriminate. }
  destruct AG as (again & -> & A1 & A2). cbn [bind]. destruct again.
  - destruct (A1 eq_refl) as [HN ND]. destruct (IHf t (Some cur) (l ++ stack) init nxt I1 FW1 SN HN) as (t' & stack' & E' & IN' & SUM' & F2 & I2 & FW2 & WA2).
    + right. exists cur. repeat split; auto. rewrite D1. destruct M as [(_ & -> & _)|(p & _ & _ & _ & D)]; [left; reflexivity|right; exact D].
    + exact TI.
    + exact F'.
    + exact WA1.
    + destruct (in_dec Nat.eq_dec cur (done s)) as [D|D]; [specialize (U2 D); lia|]. assert (undone t < undone s) by (apply undone_lt with cur; auto; [apply key_side; auto|rewrite D1; left; reflexivity]). lia.
    + intros J. destruct (ND J).
    + exists t', stack'. split; [exact E'|]. split; [intros y [<-|Y]; apply IN'; right; rewrite D1; [left; reflexivity|right; exact Y]|]. split; [rewrite app_length in SUM'; lia|]. auto.
  - exists t, (l ++ stack). split; [reflexivity|]. split; [rewrite D1; intros y Y; exact Y|]. split; [rewrite app_length; lia|]. split; [exact F'|]. split.
    + eapply inv_close; [exact OK|exact I1|exact L|]. intros X. apply A2; [reflexivity|]. apply ih_iff. left. rewrite <- (linked_ends _ _ L). exact X.
    + split; [|exact WA1]. intros x y X Ly Y. destruct (FW1 x y X Ly Y) as [K|K]; [left; exact K|]. injection K as <-. rewrite (linked_fun _ _ _ Ly L) in *. left. auto.
Qed.
Lemma sequences_total fuel : forall s h stack, inv s None -> fwd s None -> Forall starts (h :: stack) -> waits s (h :: stack) -> undone s + length (h :: stack) <= fuel ->
  exists t, sequences fuel s (h :: stack) = Some t /\ incl (h :: done s) (done t) /\ inv t None /\ fwd t None /\ waits t [].
Proof.
  induction fuel as [|fuel IHf]; intros s h stack I FW F WA U; [cbn in U; lia|]. inversion F as [|? ? ((SI & H & C) & X) F2]. subst. cbn [SeverModel.sequences]. cbn [length] in U.
  destruct (walk_total (S fuel) s None stack h h I FW SI H) as (t & stack' & E & IN & SUM & F' & I' & FW' & WA'); auto; [left; auto|lia|lia|]. rewrite E. cbn [bind].
  assert (WA2 : waits t stack'). { intros x y A1 A2 A3 A4 A5 A6. destruct (WA' x y A1 A2 A3 A4 A5 A6) as [Q|[Q|Q]]; [left; exact Q|left; rewrite <- Q; apply IN; left; reflexivity|right; exact Q]. }
  destruct stack' as [|h' stack']; [exists t; auto|]. destruct (IHf t h' stack' I' FW' F' WA2) as (t' & E' & IN' & I2 & FW2 & WA3); [lia|]. exists t'. split; [exact E'|]. split; [|auto]. intros y Y. apply IN'. right. apply IN, Y.
Qed.

(** ** Starting again *)
Lemma class1_total s k : exists b, class1_start s k = Some b.
Proof.
  unfold SeverModel.class1_start. destruct (_ || _ || _); [eauto|]. destruct (h_to_ply polygons k) as [|i l] eqn:HP; [eauto|]. assert (J : In i (h_to_ply polygons k)) by (rewrite HP; left; reflexivity). apply PatchProofs.h_to_ply_side in J. destruct J as (p & N & J). rewrite N. cbn [bind].
  destruct (PatchSeeds.index_of_spec k p J) as (j & K & NK). rewrite K. cbn [bind]. assert (JL : j < length p) by (apply nth_error_Some; congruence). destruct (nth_error p (match j with O => length p - 1 | S i => i end)) as [y|] eqn:B; [cbn; eauto|]. apply nth_error_None in B. destruct j; lia.
Qed.
Lemma class3_total s k : In k keys -> exists b, class3_start s k = Some b.
Proof.
  intros K. apply flag_keys_traced in K. unfold SeverModel.class3_start. destruct (_ || _); [eauto|]. destruct (is_boundary_halfedge (2 * c) k); [|eauto]. unfold traced in K. destruct (h_to_ply polygons k); [discriminate|]. cbn. eauto.
Qed.
Lemma find_total test l : (forall k, In k l -> exists b, test k = Some b) -> exists r, find_start test l = Some r.
Proof. induction l as [|k l IH]; intros T; cbn; [eauto|]. destruct (T k (or_introl eq_refl)) as [b ->]. cbn. destruct b; [eauto|]. apply IH. intros y Y. apply T. right. exact Y. Qed.
Lemma class1_starts s h : In h keys -> class1_start s h = Some true -> starts h /\ ~ In h (done s).
Proof.
  intros K E. split; [split; [eapply class1_good; eauto|]|]; unfold SeverModel.class1_start in E.
  - destruct (ivtx cnt (src h)); [discriminate|]. destruct (existsb _ _); [discriminate|]. destruct (ivtx cnt (tgt h)) eqn:T; [apply ivy, T|discriminate].
  - intros D. apply existsb_In in D. rewrite D, orb_true_r in E. discriminate.
Qed.
Lemma class3_starts s h : class3_start s h = Some true -> starts h /\ ~ In h (done s).
Proof.
  intros E. split; [split; [eapply class3_good; eauto|]|]; unfold SeverModel.class3_start in E.
  - destruct (existsb _ _); [discriminate|]. destruct (ivtx cnt (src h)); [|discriminate]. destruct (ivtx cnt (tgt h)) eqn:T; [apply ivy, T|discriminate].
  - intros D. apply existsb_In in D. rewrite D in E. discriminate.
Qed.
Lemma partition_from_total fuel : forall s h, inv s None -> fwd s None -> waits s [] -> In h keys -> starts h -> ~ In h (done s) -> undone s + 1 <= fuel ->
  exists t, partition_from fuel s h = Some t /\ inv t None /\ fwd t None /\ waits t [] /\ find_start (class1_start t) keys = Some None /\ find_start (class3_start t) keys = Some None.
Proof.
  induction fuel as [|fuel IHf]; intros s h I FW WA K ST D U; [lia|]. cbn [SeverModel.partition_from].
  destruct (sequences_total (S fuel) s h [] I FW) as (t & E & IN & I' & FW' & WA'); [constructor; auto|intros x y A1 A2 A3 A4 A5 A6; destruct (WA x y A1 A2 A3 A4 A5 A6) as [Q|[]]; left; exact Q|cbn; lia|]. rewrite E. cbn [bind].
  assert (LT : undone t < undone s) by (apply undone_lt with h; auto; [intros y Y; apply IN; right; exact Y|apply IN; left; reflexivity]).
  destruct (find_total (class1_start t) keys (fun k _ => class1_total t k)) as [r1 R1]. rewrite R1. cbn [bind]. destruct r1 as [h1|]; cbn [bind].
  - destruct (find_start_spec _ _ _ R1) as [K1 C1]. destruct (class1_starts _ _ K1 C1) as [S1 D1]. apply IHf; auto; lia.
  - destruct (find_total (class3_start t) keys (class3_total t)) as [r3 R3]. rewrite R3. cbn [bind]. destruct r3 as [h3|].
    + destruct (find_start_spec _ _ _ R3) as [K3 C3]. destruct (class3_starts _ _ C3) as [S3 D3]. apply IHf; auto; lia.
    + exists t. auto 10.
Qed.

(** ** Nothing is left *)
Lemma h_to_ply_first h p : In p sources -> In h p -> exists i l, h_to_ply polygons h = i :: l /\ i < sm_count.
Proof.
  intros P J. unfold SeverModel.sources in P. unfold h_to_ply. assert (G : forall n a ps, In p (firstn n ps) -> exists i l, flat_map (fun p => map (fun _ => fst p) (filter (Nat.eqb h) (snd p))) (combine (seq a (length ps)) ps) = i :: l /\ i < a + n).
  { induction n as [|n IH]; intros a [|q ps]; cbn; try (intros []; fail). destruct (filter (Nat.eqb h) q) as [|x r] eqn:F; cbn; [|intros _; eexists; eexists; split; [reflexivity|lia]].
    intros [->|Q]; [exfalso; assert (K : In h (filter (Nat.eqb h) p)) by (apply filter_In; split; [exact J|apply Nat.eqb_refl]); rewrite F in K; destruct K|]. destruct (IH (S a) ps Q) as (i & l & E & L). exists i, l. split; [exact E|lia]. }
  destruct (G sm_count 0 polygons P) as (i & l & E & L). exists i, l. split; [exact E|lia].
Qed.
Lemma class1_value s p a b : In p sources -> follows p a b -> ~ cross (src b) -> cross (tgt b) -> ~ In b (done s) ->
  class1_start s b = Some ((negb (ivtx cnt (src a)) && negb (ivtx cnt (tgt a))) || ((ivtx cnt (src a) && negb (ivtx cnt (tgt a))) && Nat.eqb (length (filter (fun h => negb (ivtx cnt (tgt h))) p)) 1)).
Proof.
  intros Q F X B D. destruct (follows_In _ _ _ F) as [Fa Fb]. assert (Sb : side b) by (exists p; auto). pose proof X as X'. apply ivn in X. apply ivy in B.
  assert (DN : existsb (Nat.eqb b) (done s) = false). { destruct (existsb (Nat.eqb b) (done s)) eqn:Y; [apply existsb_In in Y; destruct (D Y)|reflexivity]. }
  unfold SeverModel.class1_start. rewrite X, DN, B. cbn [negb orb]. pose proof (side_traced _ Sb) as T. unfold traced in T. destruct (h_to_ply polygons b) as [|i l] eqn:HP; [discriminate|].
  assert (J : In i (h_to_ply polygons b)) by (rewrite HP; left; reflexivity). apply PatchProofs.h_to_ply_side in J. destruct J as (q & N & J). rewrite N. cbn [bind].
  assert (P : In q sources). { pose proof (nth_error_In _ _ N) as R. rewrite <- (firstn_skipn sm_count polygons) in R. apply in_app_or in R. destruct R as [R|R]; [exact R|]. exfalso. apply (proj1 (sp_source _ _ _ _ _ _ _ _ PT _ Sb) X'). exact (si_cutmesh _ _ _ _ _ _ _ _ _ _ OK b q R J X'). }
  assert (q = p) by (eapply polygon_unique; eauto). subst q. destruct (PatchSeeds.index_of_spec b p J) as (k & K & NK). rewrite K. cbn [bind]. destruct F as (j & Ja & Jb).
  pose proof (si_once _ _ _ _ _ _ _ _ _ _ OK) as ND. apply concat_unique in ND. destruct ND as [ND _]. specialize (ND p P). rewrite NoDup_nth_error in ND. assert (JL : j < length p) by (apply nth_error_Some; congruence).
  assert (E : S j mod length p = k). { apply ND; [apply Nat.mod_upper_bound; lia|congruence]. }
  assert (E' : match k with O => length p - 1 | S i => i end = j). { destruct (Nat.eq_dec (S j) (length p)) as [Z|Z]; [rewrite Z, Nat.mod_same in E by lia; subst k; lia|rewrite Nat.mod_small in E by lia; subst k; reflexivity]. }
  rewrite E', Ja. reflexivity.
Qed.
Lemma ih_dec_polygon p : (exists k, In k p /\ ihalfedge k = false) \/ (forall k, In k p -> ihalfedge k = true).
Proof.
  induction p as [|x p [(k & K & E)|A]]; [right; intros k []|left; exists k; split; [right|]; auto|]. destruct (ihalfedge x) eqn:E; [right; intros k [<-|K]; auto|left; exists x; split; [left|]; auto].
Qed.
(** A side after one without an intersection point, or after the only one that does not end at one *)
Lemma plain_start s p a b : In p sources -> follows p a b -> ihalfedge a = false -> ihalfedge b = true -> ~ In b (done s) -> In b keys /\ class1_start s b = Some true.
Proof.
  intros P F A B D. destruct (follows_In _ _ _ F) as [Fa Fb]. assert (Sb : side b) by (exists p; auto). assert (L : linked a b) by (exists p; auto). pose proof (linked_ends _ _ L) as E. unfold SeverModel.ihalfedge in A. apply orb_false_iff in A. destruct A as [A1 A2].
  split; [apply key_side; auto|]. apply ih_iff in B. assert (X : ~ cross (src b)) by (rewrite <- E; apply ivn, A2). assert (Y : cross (tgt b)) by (destruct B as [B|B]; [destruct (X B)|exact B]). rewrite (class1_value s p a b P F X Y D), A1, A2. reflexivity.
Qed.
Lemma single_filter (f : nat -> bool) h l : NoDup l -> In h l -> f h = true -> (forall k, In k l -> f k = true -> k = h) -> length (filter f l) = 1.
Proof.
  intros N. induction N as [|x l X N IH]; [intros []|]. cbn. intros J Fh U. destruct J as [->|J].
  - rewrite Fh. cbn. f_equal. destruct (filter f l) as [|y r] eqn:E; [reflexivity|]. exfalso. assert (Y : In y (filter f l)) by (rewrite E; left; reflexivity). apply filter_In in Y. destruct Y as [Y1 Y2]. rewrite (U y (or_intror Y1) Y2) in Y1. exact (X Y1).
  - destruct (f x) eqn:E; [exfalso; rewrite (U x (or_introl eq_refl) E) in X; exact (X J)|]. apply IH; auto.
Qed.
Lemma before_exists p b : In p sources -> In b p -> exists a, follows p a b.
Proof.
  intros P J. assert (Sb : side b) by (exists p; auto). destruct (prev_exists _ Sb) as (a & _ & (q & Q & F)). exists a. destruct (follows_In _ _ _ F) as [_ Fb]. rewrite (polygon_unique p q b P Q J Fb). exact F.
Qed.
Lemma after_exists p a : In p sources -> In a p -> exists b, follows p a b.
Proof.
  intros P J. assert (Sa : side a) by (exists p; auto). destruct (next_exists _ Sa) as (b & _ & (q & Q & F)). exists b. destruct (follows_In _ _ _ F) as [Fa _]. rewrite (polygon_unique p q a P Q J Fa). exact F.
Qed.
Lemma single_start s p h b : In p sources -> In h p -> ~ cross (tgt h) -> (forall k, In k p -> ~ cross (tgt k) -> k = h) -> follows p h b -> ~ In b (done s) -> In b keys /\ class1_start s b = Some true.
Proof.
  intros P J X U F D. destruct (follows_In _ _ _ F) as [_ Fb]. assert (Sb : side b) by (exists p; auto). assert (Sh : side h) by (exists p; auto). assert (L : linked h b) by (exists p; auto). pose proof (linked_ends _ _ L) as E.
  pose proof (sp_ends _ _ _ _ _ _ _ _ PT) as NE.
  assert (B : cross (tgt b)). { destruct (le_lt_dec cnt (tgt b)) as [Z|Z]; [exact Z|]. exfalso. assert (b = h) by (apply U; [exact Fb|cbv beta; lia]). subst b. apply (NE h Sh). auto. }
  assert (A : cross (src h)). { destruct (before_exists p h P J) as (a & Fa). destruct (follows_In _ _ _ Fa) as [Ja _]. assert (La : linked a h) by (exists p; auto). pose proof (linked_ends _ _ La) as Ea. destruct (le_lt_dec cnt (tgt a)) as [Z|Z]; [cbv beta; lia|].
    exfalso. assert (a = h) by (apply U; [exact Ja|cbv beta; lia]). subst a. apply (NE h Sh). auto. }
  split; [apply key_side; [exact Sb|apply ih_iff; right; exact B]|]. rewrite (class1_value s p h b P F); [|rewrite <- E; exact X|exact B|exact D]. apply ivy in A. apply ivn in X. rewrite A, X. cbn [negb andb orb].
  rewrite (single_filter _ h p); [reflexivity| |exact J|rewrite X; reflexivity|].
  - pose proof (si_once _ _ _ _ _ _ _ _ _ _ OK) as ND. apply concat_unique in ND. apply ND, P.
  - intros k K Fk. apply U; [exact K|]. apply ivn. apply negb_true_iff, Fk.
Qed.
Hypothesis RE : sever_reached src tgt cross cut sources.
Lemma nothing_left t p : inv t None -> fwd t None -> waits t [] -> find_start (class1_start t) keys = Some None -> find_start (class3_start t) keys = Some None -> reached src tgt cross cut sources p -> forall h, In h p -> ihalfedge h = true -> In h (done t).
Proof.
  intros I FW WA N1 N3. pose proof (find_start_none _ _ N1) as C1. pose proof (find_start_none _ _ N3) as C3.
  assert (PL : forall p, In p sources -> (exists a, In a p /\ ihalfedge a = false) -> forall h, In h p -> ihalfedge h = true -> In h (done t)).
  { intros q P (a & A & E) h J H. assert (G : In h (done t) \/ ihalfedge h = false); [|destruct G as [G|G]; [exact G|congruence]]. apply (cycle q (fun z => In z (done t) \/ ihalfedge z = false)) with a; auto. intros x y F Q. destruct (ihalfedge y) eqn:Y; [left|right; reflexivity]. destruct Q as [Q|Q].
    + destruct (FW x y Q) as [R|R]; [exists q; auto|exact Y|exact R|discriminate].
    + destruct (in_dec Nat.eq_dec y (done t)) as [R|R]; [exact R|]. exfalso. destruct (plain_start t q x y P F Q Y R) as [K W]. rewrite (C1 y K) in W. discriminate. }
  assert (ON : forall p x, In p sources -> In x p -> In x (done t) -> forall h, In h p -> ihalfedge h = true -> In h (done t)).
  { intros q x P X D h J H. destruct (ih_dec_polygon q) as [E|ALL]; [exact (PL q P E h J H)|]. apply (cycle q (fun z => In z (done t))) with x; auto. intros z w F Dz. destruct (follows_In _ _ _ F) as [_ Fw]. destruct (FW z w Dz) as [R|R]; [exists q; auto|apply ALL, Fw|exact R|discriminate]. }
  induction 1 as [p P (a & A & N)|p P (k & K & X & U)|p k P K U X Y|p k q b P K RQ IH KQ X Y F Z]; intros h J H.
  - apply (PL p P); [|exact J|exact H]. exists a. split; [exact A|]. destruct (ihalfedge a) eqn:E; [destruct (N (proj1 (ih_iff _) E))|reflexivity].
  - destruct (after_exists p k P K) as (b & F). destruct (follows_In _ _ _ F) as [_ Fb]. apply (ON p b P Fb); auto. destruct (in_dec Nat.eq_dec b (done t)) as [D|D]; [exact D|]. exfalso. destruct (single_start t p k b P K X U F D) as [Kb W]. rewrite (C1 b Kb) in W. discriminate.
  - apply (ON p k P K); auto. destruct (in_dec Nat.eq_dec k (done t)) as [D|D]; [exact D|]. exfalso. assert (Sk : side k) by (exists p; auto). assert (Hk : ihalfedge k = true) by (apply ih_iff; left; exact X). pose proof (C3 k (key_side k Sk Hk)) as W. unfold SeverModel.class3_start in W.
    assert (DN : existsb (Nat.eqb k) (done t) = false). { destruct (existsb (Nat.eqb k) (done t)) eqn:V; [apply existsb_In in V; destruct (D V)|reflexivity]. }
    rewrite DN, (proj2 (ivy _) X), (proj2 (ivy _) Y), (proj2 (boundary_iff _ _) U) in W. cbn [negb andb orb] in W. destruct (h_to_ply_first k p P K) as (i & l & E & L). rewrite E in W. cbn [hd_error bind] in W. apply Nat.ltb_lt in L. rewrite L in W. discriminate.
  - apply (ON p k P K); auto. rewrite reverse_opp in *. assert (D : In (opp k) (done t)). { apply IH; [exact KQ|]. rewrite ih_opp. apply ih_iff. right. exact X. }
    assert (Lk : linked (opp k) b). { exists q. split; [|exact F]. destruct RQ; assumption. }
    destruct (WA (opp k) b D Lk) as [Q|[]]; rewrite ?src_opp, ?tgt_opp, ?sopp_opp; auto; [exists p; auto|]. rewrite sopp_opp in Q. exact Q.
Qed.
Lemma some_start : exists h, In h keys /\ class1_start (start seg cnt vertices edges) h = Some true.
Proof.
  destruct (sr_start _ _ _ _ _ RE) as (p & P & (h & J & T) & [(a & A & N)|(k & K & X & U)]).
  - assert (D : exists x y, follows p x y /\ ihalfedge x = false /\ ihalfedge y = true).
    { assert (Na : ihalfedge a = false) by (destruct (ihalfedge a) eqn:E; [destruct (N (proj1 (ih_iff _) E))|reflexivity]). assert (Nh : ihalfedge h = true) by (apply ih_iff, T).
      destruct (existsb (fun q => negb (ihalfedge (fst q)) && ihalfedge (snd q)) (combine p (tl p ++ firstn 1 p))) eqn:E.
      - apply existsb_exists in E. destruct E as ((x & y) & Q & W). cbn in W. apply andb_true_iff in W. destruct W as [W1 W2]. apply negb_true_iff in W1. exists x, y. split; [apply In_combine_follows, Q|auto].
      - exfalso. assert (G : ihalfedge h = false); [|congruence]. apply (cycle p (fun z => ihalfedge z = false)) with a; auto. intros x y F Q. destruct (ihalfedge y) eqn:Y; [|reflexivity]. exfalso.
        assert (W : existsb (fun q => negb (ihalfedge (fst q)) && ihalfedge (snd q)) (combine p (tl p ++ firstn 1 p)) = true); [|congruence]. apply existsb_exists. exists (x, y). split; [apply In_combine_follows, F|cbn; rewrite Q, Y; reflexivity]. }
    destruct D as (x & y & F & Nx & Ny). exists y. exact (plain_start (start seg cnt vertices edges) p x y P F Nx Ny (fun Z => Z)).
  - destruct (after_exists p k P K) as (b & F). exists b. exact (single_start (start seg cnt vertices edges) p k b P K X U F (fun Z => Z)).
Qed.
Lemma copied_some h : h < 2 * edges -> ihalfedge h = false -> lookup (snd (copied_edges seg cnt edges)) h <> None.
Proof.
  intros R H. assert (E : edge h < edges) by (unfold edge; pose proof (div2_form h); destruct (Nat.even h); lia). revert E. unfold copied_edges.
  assert (G : forall n r a, a <= edge h < a + n \/ lookup (snd r) h <> None -> lookup (snd (fold_left (copy_edge seg cnt) (seq a n) r)) h <> None); [|intros E; apply G; left; lia].
  induction n as [|n IH]; cbn [seq fold_left]; intros r a Q; [destruct Q as [Q|Q]; [lia|exact Q]|]. apply IH.
  assert (KEEP : lookup (snd r) h <> None -> lookup (snd (copy_edge seg cnt r a)) h <> None).
  { intros Z. unfold copy_edge. destruct (_ || _); [exact Z|]. cbn [snd]. destruct (Nat.eqb _ _); rewrite lookup_app; destruct (lookup (snd r) h); congruence. }
  destruct Q as [Q|Q]; [|right; auto]. destruct (Nat.eq_dec (edge h) a) as [A|A]; [|left; lia]. right. subst a.
  assert (K : h = 2 * edge h \/ h = 2 * edge h + 1). { unfold edge. pose proof (div2_form h). destruct (Nat.even h); lia. }
  assert (T1 : tgt (2 * edge h) = src (2 * edge h + 1)) by (rewrite <- opp_double; reflexivity). assert (T2 : tgt (2 * edge h + 1) = src (2 * edge h)) by (rewrite <- opp_double; apply tgt_opp).
  assert (C : ivtx cnt (tgt (2 * edge h)) || ivtx cnt (src (2 * edge h)) = false). { unfold SeverModel.ihalfedge in H. apply orb_false_iff in H. destruct H as [H1 H2]. destruct K as [K|K]; rewrite K in H1, H2; [rewrite H1, H2; reflexivity|]. rewrite <- T1 in H1. rewrite T2 in H2. rewrite H1, H2. reflexivity. }
  unfold copy_edge. rewrite C. cbn [snd]. clear C. set (e := edge h) in *. destruct (Nat.eqb _ _); rewrite lookup_app; destruct (lookup (snd r) h); try discriminate; cbn [lookup]; destruct (Nat.eqb_spec h (2 * e)); try discriminate; destruct (Nat.eqb_spec h (2 * e + 1)); try discriminate; lia.
Qed.
Lemma all_total {A B} (f : A -> option B) l : (forall x, In x l -> f x <> None) -> all f l <> None.
Proof. induction l as [|x l IH]; cbn; intros H; [discriminate|]. pose proof (H x (or_introl eq_refl)) as Hx. destruct (f x); [cbn|congruence]. specialize (IH (fun y J => H y (or_intror J))). destruct (all f l); [discriminate|congruence]. Qed.
Theorem severed_total fuel : length keys < fuel -> exists r, severed polygons sm_count (2 * c) seg registry cnt sm_vtx_cnt sm_face_count psf vertices edges incoming shuffle fuel = Some r.
Proof.
  intros FU. set (s0 := start seg cnt vertices edges). assert (U : undone s0 <= length keys) by (unfold undone; apply PeanoNat.Nat.le_trans with (length (filter (fun _ => true) keys)); [apply filter_le; auto|clear; induction keys; cbn; lia]).
  assert (I0 : inv s0 None) by (apply start_inv; assumption). assert (F0 : fwd s0 None) by (intros a b Z; destruct Z).
  assert (PA : exists t, partition polygons sm_count (2 * c) seg registry cnt sm_vtx_cnt sm_face_count psf vertices edges incoming shuffle fuel = Some t /\ inv t None /\ fwd t None /\ waits t [] /\ find_start (class1_start t) keys = Some None /\ find_start (class3_start t) keys = Some None).
  { unfold partition. fold s0. destruct (find_total (class1_start s0) keys (fun k _ => class1_total s0 k)) as [r R]. rewrite R. cbn [bind]. destruct r as [h|].
    - cbn [bind]. destruct (find_start_spec _ _ _ R) as [K C]. destruct (class1_starts _ _ K C) as [ST D]. apply partition_from_total; auto; [intros x y Z; destruct Z|lia].
    - exfalso. destruct some_start as (h & K & W). fold s0 in W. rewrite (find_start_none _ _ R h K) in W. discriminate. }
  destruct PA as (t & E & I & FW & WA & N1 & N3). unfold severed. rewrite E. cbn [bind].
  assert (AL : all (all (mapped seg cnt edges t)) sources <> None). { apply all_total. intros p P. apply all_total. intros h J. unfold SeverModel.mapped. destruct (ihalfedge h) eqn:H.
    - apply (i_done _ _ _ _ _ _ _ _ _ I). apply (nothing_left t p); auto. apply (sr_all _ _ _ _ _ RE p P). exists h. split; [exact J|apply ih_iff, H].
    - apply copied_some; [|exact H]. apply (si_range _ _ _ _ _ _ _ _ _ _ OK). exists p. auto. }
  destruct (all _ sources) as [ps|]; [cbn; eauto|congruence].
Qed.
End Total.
