(** [remove_face], [remove_edge], [remove_vertex]. *)
From Coq Require Import List ZArith Lia Bool.
From Verif Require Import Vec VecLemmas HmeshModel HmeshSpec HmeshCore HmeshCyc HmeshFaces HmeshAdd.
Import ListNotations.
Open Scope Z_scope.

(** ** clearing fields *)
Definition nle (x x' : Z) : Prop := x' = null \/ x' = x.
Definition clears (S : Z -> Prop) (m m' : hmesh) : Prop :=
  same_but_hes m m' /\
  forall x d, hget m x = Some d -> exists d', hget m' x = Some d' /\ ht d' = ht d /\ ho d' = ho d /\ he d' = he d /\
    nle (hf d) (hf d') /\ nle (hn d) (hn d') /\ nle (hp d) (hp d') /\ (~ S x -> d' = d).

Lemma nle_refl x : nle x x.
Proof. right. reflexivity. Qed.
Lemma nle_trans a b c : nle a b -> nle b c -> nle a c.
Proof. unfold nle. intros [->| ->] [->| ->]; auto. Qed.

Lemma clears_refl S m : clears S m m.
Proof. split; [apply sbh_refl|]. intros x d E. exists d. repeat split; auto; apply nle_refl. Qed.
Lemma clears_trans S a b c : clears S a b -> clears S b c -> clears S a c.
Proof.
  intros [A1 A2] [B1 B2]. split; [exact (sbh_trans _ _ _ A1 B1)|]. intros x d E.
  destruct (A2 x d E) as (d1 & E1 & T1 & O1 & X1 & F1 & N1 & P1 & K1). destruct (B2 x d1 E1) as (d2 & E2 & T2 & O2 & X2 & F2 & N2 & P2 & K2).
  exists d2. repeat split; try congruence; try (eapply nle_trans; eassumption). intros K. rewrite (K2 K). auto.
Qed.

Lemma clears_hupd (S : Z -> Prop) m h g d : hget m h = Some d -> S h ->
  (forall x, ht (g x) = ht x /\ ho (g x) = ho x /\ he (g x) = he x /\ nle (hf x) (hf (g x)) /\ nle (hn x) (hn (g x)) /\ nle (hp x) (hp (g x))) ->
  exists m', hupd m h g = Some m' /\ clears S m m' /\ hget m' h = Some (g d).
Proof.
  intros E Sh Hg. destruct (hupd_sbh m h g d E) as (m' & X & B & G & O). exists m'. split; [exact X|]. split; [|exact G]. split; [exact B|].
  intros x dx Ex. destruct (Z.eq_dec x h) as [->|N].
  - assert (dx = d) by congruence. subst. exists (g d). split; [exact G|]. destruct (Hg d) as (A1 & A2 & A3 & A4 & A5 & A6). repeat split; auto. contradiction.
  - exists dx. rewrite O by exact N. repeat split; auto; apply nle_refl.
Qed.

Definition closed (hs : list Z) (m : hmesh) : Prop :=
  forall h, In h hs -> exists d, hget m h = Some d /\ (hn d = null \/ In (hn d) hs) /\ (hp d = null \/ In (hp d) hs).

Lemma closed_clears hs m m' : closed hs m -> clears (fun h => In h hs) m m' -> closed hs m'.
Proof.
  intros H [_ R] h Hh. destruct (H h Hh) as (d & E & N & P). destruct (R h d E) as (d' & E' & _ & _ & _ & _ & N' & P' & _).
  exists d'. split; [exact E'|]. unfold nle in *. split; [destruct N' as [->| ->]|destruct P' as [->| ->]]; auto.
Qed.

Ltac clr := intros []; cbn; repeat split; unfold nle; auto.

Lemma detach_spec hs m h : closed hs m -> In h hs ->
  exists m', detach_face m h = Some m' /\ clears (fun x => In x hs) m m' /\
    exists d, hget m' h = Some d /\ hf d = null /\ hn d = null /\ hp d = null.
Proof.
  intros Cl Hh. unfold detach_face, detach_np. destruct (Cl h Hh) as (d & E & N & P).
  destruct (clears_hupd (fun x => In x hs) m h (fun d => with_f d null) d E Hh) as (m1 & X1 & R1 & G1); [clr|].
  rewrite X1. cbn [obind]. rewrite G1. cbn [obind hn with_f].
  assert (S1 : exists m2 d2, (if negb (hn d =? null) then do m' <- hupd m1 (hn d) (fun x => with_p x null); hupd m' h (fun x => with_n x null) else Some m1) = Some m2 /\
    clears (fun x => In x hs) m m2 /\ hget m2 h = Some d2 /\ hf d2 = null /\ hn d2 = null).
  { destruct (Z.eqb_spec (hn d) null) as [K|K]; cbn [negb].
    - exists m1, (with_f d null). cbn. auto.
    - destruct N as [N|N]; [contradiction|]. pose proof (closed_clears _ _ _ Cl R1) as Cl1. destruct (Cl1 _ N) as (dn & En & _).
      destruct (clears_hupd (fun x => In x hs) m1 (hn d) (fun x => with_p x null) dn En N) as (m2 & X2 & R2 & G2); [clr|]. rewrite X2. cbn [obind].
      destruct (proj2 R2 h _ G1) as (d2 & E2 & _ & _ & _ & F2 & _). cbn in F2.
      destruct (clears_hupd (fun x => In x hs) m2 h (fun x => with_n x null) d2 E2 Hh) as (m3 & X3 & R3 & G3); [clr|]. exists m3, (with_n d2 null).
      split; [exact X3|]. split; [exact (clears_trans _ _ _ _ (clears_trans _ _ _ _ R1 R2) R3)|]. split; [exact G3|]. cbn. unfold nle in F2. split; [tauto|reflexivity]. }
  destruct S1 as (m2 & d2 & -> & R2 & G2 & F2 & N2). cbn [obind]. rewrite G2. cbn [obind].
  destruct (Z.eqb_spec (hp d2) null) as [K|K]; cbn [negb].
  - exists m2. split; [reflexivity|]. split; [exact R2|]. eauto.
  - pose proof (closed_clears _ _ _ Cl R2) as Cl2. destruct (Cl2 h Hh) as (d2' & E2' & _ & P2). assert (d2' = d2) by congruence. subst d2'.
    destruct P2 as [P2|P2]; [contradiction|]. destruct (Cl2 _ P2) as (dp & Ep & _).
    destruct (clears_hupd (fun x => In x hs) m2 (hp d2) (fun x => with_n x null) dp Ep P2) as (m3 & X3 & R3 & G3); [clr|]. rewrite X3. cbn [obind].
    destruct (proj2 R3 h _ G2) as (d3 & E3 & _ & _ & _ & F3 & N3 & _).
    destruct (clears_hupd (fun x => In x hs) m3 h (fun x => with_p x null) d3 E3 Hh) as (m4 & X4 & R4 & G4); [clr|]. exists m4.
    split; [exact X4|]. split; [exact (clears_trans _ _ _ _ (clears_trans _ _ _ _ R2 R3) R4)|]. exists (with_p d3 null). split; [exact G4|]. cbn.
    unfold nle in *. rewrite F2 in F3. rewrite N2 in N3. tauto.
Qed.

Lemma detach_loop hs l : forall m, closed hs m -> (forall h, In h l -> In h hs) ->
  exists m', ofold detach_face l m = Some m' /\ clears (fun x => In x hs) m m' /\
    forall h, In h l -> exists d, hget m' h = Some d /\ hf d = null /\ hn d = null /\ hp d = null.
Proof.
  induction l as [|h l IH]; intros m Cl Sub.
  - exists m. split; [reflexivity|]. split; [apply clears_refl|]. intros h [].
  - destruct (detach_spec hs m h Cl (Sub h (or_introl eq_refl))) as (m1 & X1 & R1 & d & E & K1 & K2 & K3). cbn [ofold]. rewrite X1. cbn [obind].
    destruct (IH m1 (closed_clears _ _ _ Cl R1) (fun x K => Sub x (or_intror K))) as (m2 & X2 & R2 & G2). exists m2. split; [exact X2|].
    split; [exact (clears_trans _ _ _ _ R1 R2)|]. intros x [<-|Hx]; [|apply G2; exact Hx].
    destruct (proj2 R2 h d E) as (d' & E' & _ & _ & _ & A & B & D & _). exists d'. split; [exact E'|]. unfold nle in *. rewrite K1 in A. rewrite K2 in B. rewrite K3 in D. tauto.
Qed.

Record face_removed (m : hmesh) (f : Z) (m' : hmesh) : Prop := {
  fr_inv : HInv m'; fr_soft : soft m m';
  fr_faces : faces m' = faces m; fr_rf : rf m' = rf m ++ [f];
  fr_he : forall h d, hget m h = Some d -> hf d <> f -> hget m' h = Some d;
  fr_he' : forall h d, hget m h = Some d -> hf d = f -> exists d', hget m' h = Some d' /\ hf d' = null }.

Lemma remove_face_spec m f : HInv m -> live_face m f -> exists m', remove_face m f = Some m' /\ face_removed m f m'.
Proof.
  intros [C F] [R N]. destruct (vget_range_Some _ _ R) as [hs Ef]. assert (Nn : f <> null) by (unfold null; lia).
  destruct (f_face _ _ _ F f hs Nn N Ef) as (G1 & G2 & G3 & G4). unfold remove_face. rewrite Ef. cbn [obind].
  assert (Cl : closed hs m).
  { intros h Hh. destruct (G3 h Hh) as (_ & d & E & _). exists d. split; [exact E|].
    destruct (cyc_all_fst hs h Hh) as [b Hb]. destruct (cyc_all_snd hs h Hh) as [a Ha].
    destruct (G4 _ _ Hb) as (da & db & _ & E1 & _ & _ & K1 & _). destruct (G4 _ _ Ha) as (da' & db' & _ & _ & E2 & _ & _ & K2 & _).
    apply cyc_In in Hb. apply cyc_In in Ha. assert (da = d) by congruence. assert (db' = d) by congruence. subst. tauto. }
  destruct (detach_loop hs hs m Cl (fun h H => H)) as (m1 & X1 & ((V & Ed & Fc & R1 & R2 & R3 & R4 & Ln) & Rh) & Gn). rewrite X1. cbn [obind].
  eexists. split; [reflexivity|]. set (m' := set_rf m1 (rf m1 ++ [f])).
  assert (S : soft m m').
  { constructor; try assumption. intros h d E. destruct (Rh h d E) as (d' & E' & T & O & X & _ & _ & _ & K). exists d'. split; [exact E'|].
    repeat split; auto. intros Q. apply K. intros Hh. destruct (G3 h Hh) as ((_ & Q') & _). contradiction. }
  assert (InH : forall h d, hget m h = Some d -> hf d = f -> In h hs).
  { intros h d E K. destruct (proj2 (f_he _ _ _ F h d E)) as [(_ & [] & _)|(_ & _ & hs' & E' & Hi)]; [congruence|]. rewrite K in E'. congruence. }
  assert (Other : forall h d, hget m h = Some d -> hf d <> f -> hget m' h = Some d).
  { intros h d E K. destruct (Rh h d E) as (d' & E' & _ & _ & _ & _ & _ & _ & Q). change (hget m1 h = Some d). rewrite E'. f_equal. apply Q.
    intros Hh. destruct (G3 h Hh) as (_ & d2 & E2 & K2). congruence. }
  constructor; try assumption.
  - split; [exact (soft_core _ _ C S)|]. constructor.
    + cbn. rewrite R1. apply NoDup_snoc; [apply F|exact N].
    + cbn. rewrite R1, Fc. intros x K. apply in_app_iff in K. destruct K as [K|[<-|[]]]; [apply F; exact K|exact R].
    + cbn. rewrite R1. intros K. apply in_app_iff in K. destruct K as [K|[K|[]]]; [eapply finv_null_rf; eassumption|congruence].
    + intros h d' E'. change (hget m1 h = Some d') in E'. destruct (soft_back _ _ _ _ S E') as (d & E & _).
      cbn. rewrite R1, Fc. destruct (Z.eq_dec (hf d) f) as [K|K].
      * destruct (Gn h (InH h d E K)) as (d2 & E2 & A1 & A2 & A3). assert (d2 = d') by congruence. subst d2. split; [auto|contradiction].
      * pose proof (Other h d E K) as E2. change (hget m1 h = Some d) in E2. assert (d' = d) by congruence. subst d'.
        destruct (f_he _ _ _ F h d E) as [A1 A2]. split; [exact A1|]. intros Q. destruct (A2 Q) as [(_ & [] & _)|(B1 & B2 & B3)].
        right. split; [exact Q|]. split; [|exact B3]. intros Z. apply in_app_iff in Z. destruct Z as [Z|[Z|[]]]; congruence.
    + cbn. rewrite R1, Fc. intros x hs' _ Nx Ex. rewrite in_app_iff in Nx. cbn in Nx. assert (Nxf : x <> f) by (intros ->; apply Nx; auto).
      assert (Nxn : x <> null) by (apply vget_Some_range in Ex; unfold null; lia).
      pose proof (f_face _ _ _ F x hs' Nxn (fun K => Nx (or_introl K)) Ex) as Gc. eapply good_cycle_ext; [|exact Gc].
      intros h Hh L. split; [apply (soft_lh _ _ _ S); exact L|]. destruct (proj1 (proj2 (proj2 Gc)) h Hh) as (_ & d & E & K).
      split; [rewrite E; apply Other; [exact E|congruence]|]. intros d2 E2. destruct (s_he _ _ S _ _ E2) as (d3 & E3 & T3 & _). eauto.
    + constructor.
    + intros h [].
  - cbn. rewrite R1. reflexivity.
  - intros h d E K. destruct (Gn h (InH h d E K)) as (d2 & E2 & A1 & _). exists d2. split; [exact E2|exact A1].
Qed.

(** ** remove_edge *)
Lemma In_remove_first x h l : NoDup l -> (In x (remove_first h l) <-> In x l /\ x <> h).
Proof.
  induction 1 as [|y l Hy N IH]; cbn; [tauto|]. destruct (Z.eqb_spec y h) as [->|Ny].
  - split; [intros K; split; [auto|intros ->; contradiction]|]. intros [[K|K] Nx]; [congruence|exact K].
  - cbn. rewrite IH. split; [intros [->|K]; [auto|tauto]|]. intros [[K|K] Nx]; auto.
Qed.
Lemma NoDup_remove_first h l : NoDup l -> NoDup (remove_first h l).
Proof.
  induction 1 as [|y l Hy N IH]; cbn; [constructor|]. destruct (Z.eqb_spec y h); [exact N|]. constructor; [|exact IH].
  rewrite In_remove_first by exact N. tauto.
Qed.

Record edge_removed (m : hmesh) (e : Z) (m' : hmesh) : Prop := {
  er_elen : zlen (edges m') = zlen (edges m);
  er_edge : forall x, x <> e -> vget (edges m') x = vget (edges m) x;
  er_re : re m' = re m ++ [e]; er_rh : rh m' = rh m ++ [2 * e; 2 * e + 1];
  er_hlen : zlen (hes m') = zlen (hes m);
  er_h : forall h, h / 2 <> e -> hget m' h = hget m h;
  er_he : forall h d, h / 2 = e -> hget m' h = Some d -> hf d = null /\ hn d = null /\ hp d = null;
  er_vlen : zlen (verts m') = zlen (verts m);
  er_v : forall v d, vget (verts m) v = Some d -> exists d', vget (verts m') v = Some d' /\ vpt d' = vpt d /\
           NoDup (vhs d') /\ forall h, In h (vhs d') <-> In h (vhs d) /\ h / 2 <> e;
  er_faces : faces m' = faces m; er_rf : rf m' = rf m; er_rv : rv m' = rv m }.

Lemma remove_edge_spec m e : HInv m -> live_edge m e -> face m (edge_halfedge e 0) = Some null -> face m (edge_halfedge e 1) = Some null ->
  exists m', remove_edge m e = Some m' /\ edge_removed m e m'.
Proof.
  intros [C F] [R N] Z0 Z1. unfold edge_halfedge in *. replace (e * 2 + 0) with (2 * e) in Z0 by lia. replace (e * 2 + 1) with (2 * e + 1) in Z1 by lia.
  unfold remove_edge. rewrite (c_edge m C e (conj R N)). cbn [obind]. rewrite opposite_even.
  pose proof (c_len m C) as CL.
  assert (L0 : lh m (2 * e)) by (split; [lia|rewrite div_even; exact N]). assert (L1 : lh m (2 * e + 1)) by (split; [lia|rewrite div_odd; exact N]).
  destruct (lh_hget _ _ L0) as [d0 E0]. destruct (lh_hget _ _ L1) as [d1 E1].
  unfold face in Z0, Z1. rewrite E0 in Z0. rewrite E1 in Z1. cbn in Z0, Z1. injection Z0 as Z0. injection Z1 as Z1.
  destruct (proj1 (f_he _ _ _ F _ _ E0) Z0) as [N0 P0]. destruct (proj1 (f_he _ _ _ F _ _ E1) Z1) as [N1 P1].
  destruct (c_he m C _ _ L0 E0) as (O0 & X0 & V0). destruct (c_he m C _ _ L1 E1) as (O1 & X1 & V1).
  rewrite opposite_even in O0. rewrite opposite_odd in O1.
  assert (T01 : ht d0 <> ht d1) by (apply (c_loop m C (2 * e) d0 d1 L0 E0); rewrite opposite_even; exact E1).
  destruct (vget_range_Some _ _ (proj1 V0)) as [a Ea]. destruct (vget_range_Some _ _ (proj1 V1)) as [b Eb].
  assert (Ia : In (2 * e) (vhs a)) by (apply (c_inc m C _ a Ea); split; [exact L0|eauto]).
  assert (Ib : In (2 * e + 1) (vhs b)) by (apply (c_inc m C _ b Eb); split; [exact L1|eauto]).
  assert (Nn0 : 2 * e <> null) by (unfold null; lia). assert (Nn1 : 2 * e + 1 <> null) by (unfold null; lia).
  (* first half-edge *)
  destruct (hupd_sbh m (2 * e) (fun d => with_e d null) d0 E0) as (m1 & Y1 & B1 & G1 & W1). rewrite Y1. cbn [obind].
  unfold remove_halfedge at 1. rewrite G1. cbn [obind hn with_e]. rewrite N0. change (negb (null =? null)) with false. cbn iota. cbn [obind].
  rewrite G1. cbn [obind ho with_e]. rewrite O0. destruct (Z.eqb_spec (2 * e + 1) null); [contradiction|]. cbn [negb].
  assert (E1' : hget m1 (2 * e + 1) = Some d1) by (rewrite W1 by lia; exact E1).
  destruct (hupd_sbh m1 (2 * e + 1) (fun d => with_o d null) d1 E1') as (m2 & Y2 & B2 & G2 & W2). rewrite Y2. cbn [obind].
  assert (E0' : hget m2 (2 * e) = Some (with_e d0 null)) by (rewrite W2 by lia; exact G1).
  destruct (hupd_sbh m2 (2 * e) (fun d => with_o d null) _ E0') as (m3 & Y3 & B3 & G3 & W3). rewrite Y3. cbn [obind].
  rewrite G3. cbn [obind hp with_o with_e]. rewrite P0. change (negb (null =? null)) with false. cbn iota. cbn [obind]. rewrite G3. cbn [obind ht with_o with_e].
  pose proof (sbh_trans _ _ _ (sbh_trans _ _ _ B1 B2) B3) as (Q1 & Q2 & Q3 & Q4 & Q5 & Q6 & Q7 & Q8).
  rewrite Q1, Ea. cbn [obind]. rewrite (proj2 (zmem_In _ _) Ia).
  assert (Ea' : vget (verts m3) (ht d0) = Some a) by (rewrite Q1; exact Ea).
  destruct (vupd_spec m3 (ht d0) (fun x => VD (vpt x) (remove_first (2 * e) (vhs x))) a Ea') as (m4 & Y4 & G4 & W4 & V4 & H4 & Ed4 & Fc4 & R4 & R4' & R4'' & R4'''). rewrite Y4. cbn [obind].
  (* second *)
  set (m5 := set_rh m4 (rh m4 ++ [2 * e])).
  assert (Hg5 : forall x, hget m5 x = hget m3 x) by (intros x; unfold hget; cbn; rewrite H4; reflexivity).
  assert (E15 : hget m5 (2 * e + 1) = Some (with_o d1 null)) by (rewrite Hg5, W3 by lia; exact G2).
  destruct (hupd_sbh m5 (2 * e + 1) (fun d => with_e d null) _ E15) as (m6 & Y6 & B6 & G6 & W6). rewrite Y6. cbn [obind].
  unfold remove_halfedge. rewrite G6. cbn [obind hn with_e with_o]. rewrite N1. change (negb (null =? null)) with false. cbn iota. cbn [obind].
  rewrite G6. cbn [obind ho with_e with_o]. change (negb (null =? null)) with false. cbn iota. cbn [obind]. rewrite G6. cbn [obind hp with_e with_o]. rewrite P1.
  change (negb (null =? null)) with false. cbn iota. cbn [obind]. rewrite G6. cbn [obind ht with_e with_o].
  destruct B6 as (S1 & S2 & S3 & S4 & S5 & S6 & S7 & S8). cbn in S1, S2, S3, S4, S5, S6, S7, S8.
  assert (Eb6 : vget (verts m6) (ht d1) = Some b) by (rewrite S1, W4 by congruence; rewrite Q1; exact Eb).
  rewrite Eb6. cbn [obind]. rewrite (proj2 (zmem_In _ _) Ib).
  destruct (vupd_spec m6 (ht d1) (fun x => VD (vpt x) (remove_first (2 * e + 1) (vhs x))) b Eb6) as (m7 & Y7 & G7 & W7 & V7 & H7 & Ed7 & Fc7 & R7 & R7' & R7'' & R7'''). rewrite Y7. cbn [obind set_rh edges].
  assert (Ee : edges m7 = edges m) by (rewrite Ed7, S2, Ed4, Q2; reflexivity). rewrite Ee.
  pose proof (vset_Some (edges m) e null R) as Es. rewrite Es. cbn [obind set_edges re].
  eexists. split; [reflexivity|].
  assert (Hg7 : forall x, hget m7 x = hget m6 x) by (intros x; unfold hget; rewrite H7; reflexivity).
  constructor; unfold hget; cbn.
  - exact (vset_len _ _ _ _ Es).
  - intros x Nx. apply (vget_vset_neq _ _ _ _ _ Es). congruence.
  - rewrite R7', S5, R4', Q5. reflexivity.
  - rewrite R7'', S6, R4'', Q6, <- app_assoc. reflexivity.
  - rewrite H7, S8, H4, Q8. reflexivity.
  - intros h Nh. change (hget m7 h = hget m h).
    assert (Na : h <> 2 * e) by (intros ->; apply Nh, div_even). assert (Nb : h <> 2 * e + 1) by (intros ->; apply Nh, div_odd).
    rewrite Hg7, W6, Hg5, W3, W2, W1 by assumption. reflexivity.
  - intros h d Hh E. change (hget m7 h = Some d) in E. destruct (he_cases h) as [K|K]; rewrite Hh in K; subst h.
    + rewrite Hg7, W6, Hg5 in E by lia. rewrite G3 in E. injection E as <-. cbn. auto.
    + rewrite Hg7, G6 in E. injection E as <-. cbn. auto.
  - rewrite V7, S1, V4, Q1. reflexivity.
  - intros v d E. pose proof (c_nodup m C v d E) as Nd.
    destruct (Z.eq_dec v (ht d0)) as [->|Na]; [|destruct (Z.eq_dec v (ht d1)) as [->|Nb]].
    + assert (d = a) by congruence. subst d. rewrite W7, S1, G4 by assumption. eexists. split; [reflexivity|]. cbn [vpt vhs].
      split; [reflexivity|]. split; [apply NoDup_remove_first; exact Nd|]. intros h. rewrite In_remove_first by exact Nd. split; [|intros [K1 K2]; split; [exact K1|intros ->; apply K2, div_even]].
      intros [K1 K2]. split; [exact K1|]. intros K. destruct (he_cases h) as [Kh|Kh]; rewrite K in Kh; [congruence|].
      apply (c_inc m C _ a E) in K1. destruct K1 as (_ & hd & Ehd & Thd). rewrite Kh in Ehd. congruence.
    + assert (d = b) by congruence. subst d. rewrite G7. eexists. split; [reflexivity|]. cbn [vpt vhs].
      split; [reflexivity|]. split; [apply NoDup_remove_first; exact Nd|]. intros h. rewrite In_remove_first by exact Nd. split; [|intros [K1 K2]; split; [exact K1|intros ->; apply K2, div_odd]].
      intros [K1 K2]. split; [exact K1|]. intros K. destruct (he_cases h) as [Kh|Kh]; rewrite K in Kh; [|congruence].
      apply (c_inc m C _ b E) in K1. destruct K1 as (_ & hd & Ehd & Thd). rewrite Kh in Ehd. congruence.
    + rewrite W7, S1, W4, Q1 by assumption. exists d. split; [exact E|]. split; [reflexivity|]. split; [exact Nd|]. intros h. split; [|tauto]. intros K. split; [exact K|].
      intros Kh. apply (c_inc m C _ d E) in K. destruct K as (_ & hd & Ehd & Thd). destruct (he_cases h) as [Q|Q]; rewrite Kh in Q; rewrite Q in Ehd; congruence.
  - rewrite Fc7, S3, Fc4, Q3. reflexivity.
  - rewrite R7, S4, R4, Q4. reflexivity.
  - rewrite R7''', S7, R4''', Q7. reflexivity.
Qed.

Lemma edge_removed_inv m e m' : HInv m -> live_edge m e -> face m (edge_halfedge e 0) = Some null -> face m (edge_halfedge e 1) = Some null ->
  edge_removed m e m' -> HInv m'.
Proof.
  intros [C F] [R N] Z0 Z1 A. unfold edge_halfedge in *. replace (e * 2 + 0) with (2 * e) in Z0 by lia. replace (e * 2 + 1) with (2 * e + 1) in Z1 by lia.
  assert (Hl : forall h, lh m' h <-> lh m h /\ h / 2 <> e).
  { intros h. unfold lh. rewrite (er_hlen _ _ _ A), (er_re _ _ _ A), in_app_iff. cbn. intuition congruence. }
  assert (Lv : forall v, lv m' v <-> lv m v) by (intros v; unfold lv; rewrite (er_vlen _ _ _ A), (er_rv _ _ _ A); tauto).
  assert (Vb : forall v d', vget (verts m') v = Some d' -> exists d, vget (verts m) v = Some d /\ vpt d' = vpt d /\ NoDup (vhs d') /\ forall h, In h (vhs d') <-> In h (vhs d) /\ h / 2 <> e).
  { intros v d' E. pose proof (vget_Some_range _ _ _ E) as Rv. rewrite (er_vlen _ _ _ A) in Rv. destruct (vget_range_Some _ _ Rv) as [d Ed]. exists d. split; [exact Ed|].
    destruct (er_v _ _ _ A v d Ed) as (d2 & E2 & K). assert (d2 = d') by congruence. subst. exact K. }
  assert (Zf : forall h d, h / 2 = e -> hget m h = Some d -> hf d = null).
  { intros h d Kh E. unfold face in *. destruct (he_cases h) as [Q|Q]; rewrite Kh in Q; rewrite Q in E; [rewrite E in Z0; cbn in Z0|rewrite E in Z1; cbn in Z1]; congruence. }
  split; constructor.
  - rewrite (er_hlen _ _ _ A), (er_elen _ _ _ A). apply C.
  - rewrite (er_rh _ _ _ A), (er_re _ _ _ A), (c_rh m C). unfold pairs. rewrite flat_map_app. reflexivity.
  - rewrite (er_re _ _ _ A). apply NoDup_snoc; [apply C|exact N].
  - rewrite (er_re _ _ _ A), (er_elen _ _ _ A). intros x K. apply in_app_iff in K. destruct K as [K|[<-|[]]]; [apply C; exact K|exact R].
  - rewrite (er_rv _ _ _ A). apply C.
  - rewrite (er_rv _ _ _ A), (er_vlen _ _ _ A). apply C.
  - unfold le. rewrite (er_re _ _ _ A), (er_elen _ _ _ A). intros x [K1 K2]. rewrite in_app_iff in K2. cbn in K2.
    rewrite (er_edge _ _ _ A) by (intros ->; tauto). apply C. split; [exact K1|tauto].
  - intros h d L E. apply Hl in L. destruct L as [L Nh]. rewrite (er_h _ _ _ A) in E by exact Nh. rewrite Lv. apply (c_he m C h d L E).
  - intros h d d' L E E'. apply Hl in L. destruct L as [L Nh]. rewrite (er_h _ _ _ A) in E by exact Nh. rewrite (er_h _ _ _ A) in E' by (rewrite opposite_div; exact Nh). exact (c_loop m C h d d' L E E').
  - intros v d' E. destruct (Vb v d' E) as (d & _ & _ & Nd & _). exact Nd.
  - intros v d' E h. destruct (Vb v d' E) as (d & Ed & _ & _ & K). rewrite K, (c_inc m C v d Ed h), Hl. split.
    + intros ((L & hd & E2 & T) & Nh). split; [auto|]. exists hd. rewrite (er_h _ _ _ A) by exact Nh. auto.
    + intros ((L & Nh) & hd & E2 & T). rewrite (er_h _ _ _ A) in E2 by exact Nh. split; [|exact Nh]. split; [exact L|eauto].
  - intros h d E K. rewrite (er_re _ _ _ A), in_app_iff in K. cbn in K. destruct (Z.eq_dec (h / 2) e) as [Q|Q].
    + exact (er_he _ _ _ A h d Q E).
    + rewrite (er_h _ _ _ A) in E by exact Q. apply (c_dead m C h d E). destruct K as [K|[K|[]]]; [exact K|congruence].
  - rewrite (er_rf _ _ _ A). apply F.
  - rewrite (er_rf _ _ _ A), (er_faces _ _ _ A). apply F.
  - rewrite (er_rf _ _ _ A). apply F.
  - intros h d E. rewrite (er_rf _ _ _ A), (er_faces _ _ _ A). destruct (Z.eq_dec (h / 2) e) as [Q|Q].
    + destruct (er_he _ _ _ A h d Q E) as (K1 & K2 & K3). split; [auto|contradiction].
    + rewrite (er_h _ _ _ A) in E by exact Q. exact (f_he _ _ _ F h d E).
  - rewrite (er_rf _ _ _ A), (er_faces _ _ _ A). intros f hs Nf Nr E. pose proof (f_face _ _ _ F f hs Nf Nr E) as Gc. eapply good_cycle_ext; [|exact Gc].
    intros h Hh L. destruct (proj1 (proj2 (proj2 Gc)) h Hh) as (_ & d & Ehd & Kd). assert (Nh : h / 2 <> e).
    { intros Q. pose proof (Zf h d Q Ehd). congruence. }
    split; [apply Hl; auto|]. split; [apply (er_h _ _ _ A); exact Nh|]. intros d2 E2. exists d2. rewrite (er_h _ _ _ A) by (rewrite opposite_div; exact Nh). auto.
  - constructor.
  - intros h [].
Qed.

(** ** remove_vertex *)
Lemma remove_vertex_inv m v d : HInv m -> live_vertex m v -> vget (verts m) v = Some d -> vhs d = [] -> HInv (set_rv m (rv m ++ [v])).
Proof.
  intros [C F] [R N] E Em. assert (Nt : forall h hd, lh m h -> hget m h = Some hd -> ht hd <> v).
  { intros h hd L Eh T. assert (K : In h (vhs d)) by (apply (c_inc m C v d E); eauto). rewrite Em in K. destruct K. }
  split; [|destruct F as [a1 a2 a3 a4 a5 a6 a7]; constructor; assumption].
  pose proof C as C'. destruct C' as [a1 a2 a3 a4 a5 a6 a7 a8 a9 a10 a11 a12]. constructor; try assumption.
  - apply NoDup_snoc; assumption.
  - cbn. intros x K. apply in_app_iff in K. destruct K as [K|[<-|[]]]; [apply a6; exact K|exact R].
  - intros h hd L Eh. destruct (a8 h hd L Eh) as (B1 & B2 & B3 & B4). split; [exact B1|]. split; [exact B2|]. split; [exact B3|].
    cbn. rewrite in_app_iff. intros [K|[K|[]]]; [contradiction|]. exact (Nt h hd L Eh (eq_sym K)).
Qed.
