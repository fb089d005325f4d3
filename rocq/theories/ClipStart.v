(** Proofs about ClipModel: where the way around the face starts. *)
From Coq Require Import List Arith Bool Lia Permutation.
From Verif Require Import CutModel ClipModel ClipSpec ClipInv ClipProofs ClipFace.
Import ListNotations.

Section Start.
Variable seg : nat -> nat * nat.
Notation src := (src seg). Notation tgt := (tgt seg). Notation path := (path src tgt).
Variables (psrc ptgt : nat -> nat) (pface : nat -> option nat) (ps_halfedge : nat -> nat -> option nat) (registry : list (nat * nat)) (cnt : nat) (pieces : list (nat * list nat)).
Notation registry_edge := (registry_edge registry cnt).
Notation first_step := (first_step seg psrc pface ps_halfedge registry cnt pieces).
Notation first_boundary := (first_boundary seg psrc pface ps_halfedge registry cnt pieces).

(** the side ph of the face f is divided into hs *)
Record side (f ph : nat) (hs : list nat) : Prop := {
  s_path : path (psrc ph) hs (ptgt ph);
  s_nonempty : hs <> [];
  s_simple : NoDup (map src hs);
  s_face : pface ph = Some f;
  s_other : pface (opp ph) <> Some f;
  s_ends : psrc ph < cnt /\ ptgt ph < cnt /\ psrc ph <> ptgt ph;
  s_points : forall v, In v (tl (map src hs)) -> registry_edge v = Some (edge ph);
  s_whole : length hs = 1 -> ps_halfedge (psrc ph) (ptgt ph) = Some ph /\ forall o, ps_halfedge (ptgt ph) (psrc ph) = Some o -> o = opp ph;
  s_pieces : 3 <= length hs -> lookup pieces (edge ph) = Some (map edge hs) \/ lookup pieces (edge ph) = Some (rev (map edge hs)) }.

Lemma eqo_iff a c : eqo a c = true <-> a = c.
Proof. destruct a, c; cbn; rewrite ?Nat.eqb_eq; split; intros H; try discriminate; try congruence; reflexivity. Qed.
Lemma registry_ivtx v e : registry_edge v = Some e -> ivtx cnt v = true.
Proof. unfold ClipModel.registry_edge, ivtx. destruct (Nat.leb cnt v); [reflexivity|discriminate]. Qed.
Lemma ivtx_orig v : v < cnt -> ivtx cnt v = false.
Proof. unfold ivtx. intros H. apply Nat.leb_gt, H. Qed.
Lemma of_face_side f ph : pface ph = Some f -> pface (opp ph) <> Some f -> of_face pface f (edge ph) = ph.
Proof.
  intros F O. unfold of_face. destruct (halfedge_cases ph) as [E|E].
  - rewrite <- E. rewrite (proj2 (eqo_iff _ _) F). reflexivity.
  - assert (EO : 2 * edge ph = opp ph) by (rewrite E at 2; rewrite (proj2 (opp_2 (edge ph))); reflexivity). rewrite EO. destruct (eqo (pface (opp ph)) (Some f)) eqn:K; [apply eqo_iff in K; contradiction|]. apply opp_opp.
Qed.

Section Side.
Variables f ph : nat.
Variable hs : list nat.
Hypothesis S : side f ph hs.
Lemma side_src U k V : hs = U ++ k :: V -> (U = [] -> src k = psrc ph) /\ (U <> [] -> registry_edge (src k) = Some (edge ph)).
Proof.
  intros E. split.
  - intros ->. pose proof (s_path _ _ _ S) as P. rewrite E in P. apply P.
  - intros N. apply (s_points _ _ _ S). rewrite E. destruct U as [|u U]; [congruence|]. cbn. apply in_map, in_elt.
Qed.
Lemma side_tgt U k V : hs = U ++ k :: V -> (V = [] -> tgt k = ptgt ph) /\ (V <> [] -> registry_edge (tgt k) = Some (edge ph)).
Proof.
  intros E. pose proof (s_path _ _ _ S) as P. rewrite E in P. apply (path_app src tgt) in P. destruct P as (m & _ & _ & P). split.
  - intros ->. exact P.
  - intros N. destruct V as [|v V]; [congruence|]. destruct P as [<- P]. apply (s_points _ _ _ S). rewrite E. destruct U as [|u U]; [cbn; left; reflexivity|]. cbn. apply in_map. apply in_or_app. right. right. left. reflexivity.
Qed.
Definition ends : psrc ph < cnt /\ ptgt ph < cnt /\ psrc ph <> ptgt ph := s_ends _ _ _ S.
Lemma of_face_ph : of_face pface f (edge ph) = ph.
Proof. apply of_face_side; [apply (s_face _ _ _ S)|apply (s_other _ _ _ S)]. Qed.

(** *** the sequence of the halfedges *)
Lemma seq_rest (pre : list nat) l a z : path a (pre ++ l) z -> pre <> [] -> (forall h, In h l -> src h <> tgt h) -> fold_left (fun acc e => acc ++ [if Nat.eqb (src (2 * e)) (tgt (last acc 0)) then 2 * e else 2 * e + 1]) (map edge l) pre = pre ++ l.
Proof.
  revert pre. induction l as [|x l IH]; intros pre P N H; [cbn; rewrite app_nil_r; reflexivity|]. cbn [map fold_left].
  destruct (exists_last N) as (pre' & y & EP). assert (EL : last pre 0 = y) by (rewrite EP; apply last_last).
  assert (SX : src x = tgt y). { rewrite EP in P. rewrite <- app_assoc in P. cbn [app] in P. apply (path_app src tgt) in P. destruct P as (m & _ & _ & P). apply P. }
  assert (EX : (if Nat.eqb (src (2 * edge x)) (tgt (last pre 0)) then 2 * edge x else 2 * edge x + 1) = x).
  { rewrite EL, <- SX. destruct (halfedge_cases x) as [E|E]; [rewrite <- E, Nat.eqb_refl; reflexivity|]. rewrite <- E.
    assert (EO : 2 * edge x = opp x) by (rewrite E at 2; rewrite (proj2 (opp_2 (edge x))); reflexivity). rewrite EO, src_opp. assert (Nat.eqb (tgt x) (src x) = false) as ->; [|reflexivity]. apply Nat.eqb_neq. intros K. apply (H x (or_introl eq_refl)). congruence. }
  rewrite EX. rewrite IH; [rewrite <- app_assoc; reflexivity|rewrite <- app_assoc; exact P|destruct pre; discriminate|]. intros h Ih. apply H. right. exact Ih.
Qed.
Lemma sequence_of l a z : path a l z -> l <> [] -> (forall h, In h l -> src h <> tgt h) -> (forall x, hd_error l = Some x -> ivtx cnt (src x) = false /\ ivtx cnt (tgt x) = true) -> halfedge_sequence seg cnt (map edge l) = Some l.
Proof.
  intros P N H F. destruct l as [|x l]; [congruence|]. cbn [map halfedge_sequence]. destruct (F x eq_refl) as [F1 F2].
  assert (EX : (if ivtx cnt (src (2 * edge x)) then 2 * edge x + 1 else 2 * edge x) = x).
  { destruct (halfedge_cases x) as [E|E]; [rewrite <- E, F1; reflexivity|]. rewrite <- E. assert (EO : 2 * edge x = opp x) by (rewrite E at 2; rewrite (proj2 (opp_2 (edge x))); reflexivity). rewrite EO, src_opp, F2. reflexivity. }
  rewrite EX. f_equal. apply (seq_rest [x] l a z); [exact P|discriminate|]. intros h I. apply H. right. exact I.
Qed.
Lemma hs_proper h : In h hs -> 2 <= length hs -> src h <> tgt h.
Proof.
  intros I L E. destruct (in_split _ _ I) as (U & V & EH). pose proof (s_path _ _ _ S) as P. rewrite EH in P. apply (path_app src tgt) in P. destruct P as (m & _ & Em & P). destruct V as [|v V].
  - cbn in P. destruct ends as (E1 & E2 & E3). destruct U as [|u U]; [rewrite EH in L; cbn in L; lia|]. pose proof (proj2 (side_src _ _ _ EH) ltac:(discriminate)) as R. apply registry_ivtx in R. rewrite E, P, (ivtx_orig _ E2) in R. discriminate.
  - destruct P as [P _]. pose proof (s_simple _ _ _ S) as N. rewrite EH, map_app in N. cbn [map] in N. apply NoDup_remove_2 in N. apply N. apply in_or_app. right. left. congruence.
Qed.
Lemma sequence_found : 3 <= length hs -> exists sorted sequence first, lookup pieces (edge ph) = Some sorted /\ halfedge_sequence seg cnt sorted = Some sequence /\ hd_error sequence = Some first /\ (if Nat.eqb (src first) (psrc ph) then sequence else map opp sequence) = hs \/
  exists sorted sequence first, lookup pieces (edge ph) = Some sorted /\ halfedge_sequence seg cnt sorted = Some sequence /\ hd_error sequence = Some first /\ (if Nat.eqb (src first) (psrc ph) then sequence else map opp sequence) = rev hs.
Proof.
  intros L3. destruct ends as (E1 & E2 & E3). pose proof (s_path _ _ _ S) as P.
  destruct (s_pieces _ _ _ S L3) as [E|E].
  - assert (EX : exists x l, hs = x :: l) by (clear - L3; destruct hs as [|x l]; [cbn in L3; lia|exists x, l; reflexivity]). destruct EX as (x & l & EH).
    exists (map edge hs), hs, x. left. split; [exact E|]. split; [|split; [rewrite EH; reflexivity|rewrite (proj1 (side_src [] x l EH) eq_refl), Nat.eqb_refl; reflexivity]].
    apply (sequence_of hs (psrc ph) (ptgt ph) P); [rewrite EH; discriminate|intros h I; apply hs_proper; [exact I|lia]|]. intros y Ey. rewrite EH in Ey. injection Ey as <-. split.
    + rewrite (proj1 (side_src [] x l EH) eq_refl). apply ivtx_orig, E1.
    + eapply registry_ivtx. apply (proj2 (side_tgt [] x l EH)). intros ->. rewrite EH in L3. cbn in L3. lia.
  - set (sq := reverse opp hs). assert (ME : rev (map edge hs) = map edge sq) by (unfold sq, reverse; rewrite map_map, <- map_rev; apply map_ext; intros a; symmetry; apply edge_opp).
    assert (PS : path (ptgt ph) sq (psrc ph)) by (apply (path_reverse src tgt opp (src_opp seg) (tgt_opp seg)), P).
    destruct (exists_last (s_nonempty _ _ _ S)) as (l' & x & EH). assert (ESQ : sq = opp x :: reverse opp l') by (unfold sq, reverse; rewrite EH, rev_app_distr; reflexivity).
    exists (map edge sq), sq, (opp x). right. exists (map edge sq), sq, (opp x). split; [rewrite <- ME; exact E|]. split; [|split; [rewrite ESQ; reflexivity|]].
    + apply (sequence_of sq (ptgt ph) (psrc ph) PS); [rewrite ESQ; discriminate| |].
      * intros h I. apply (In_reverse opp opp_opp) in I. pose proof (hs_proper _ I ltac:(lia)) as K. rewrite src_opp, tgt_opp in K. congruence.
      * intros y Ey. rewrite ESQ in Ey. injection Ey as <-. rewrite src_opp, tgt_opp. split; [rewrite (proj1 (side_tgt l' x [] EH) eq_refl); apply ivtx_orig, E2|]. eapply registry_ivtx. apply (proj2 (side_src l' x [] EH)). intros ->. rewrite EH in L3. cbn in L3. lia.
    + rewrite src_opp, (proj1 (side_tgt l' x [] EH) eq_refl). assert (Nat.eqb (ptgt ph) (psrc ph) = false) as -> by (apply Nat.eqb_neq; congruence). unfold sq, reverse. rewrite map_map. erewrite map_ext; [apply map_id|exact opp_opp].
Qed.

(** *** the four kinds of pieces *)
Lemma start_first k V : hs = k :: V -> first_step f k = Some (Some k).
Proof.
  intros E. destruct ends as (E1 & E2 & E3). pose proof (side_src [] k V E) as [SS _]. pose proof (side_tgt [] k V E) as [T1 T2]. unfold ClipModel.first_step. rewrite (SS eq_refl), (ivtx_orig _ E1). cbn [negb andb]. destruct V as [|v V].
  - rewrite (T1 eq_refl), (ivtx_orig _ E2). cbn [negb]. destruct (s_whole _ _ _ S) as [W _]; [rewrite E; reflexivity|]. rewrite W, (proj2 (eqo_iff _ _) (s_face _ _ _ S)). reflexivity.
  - specialize (T2 ltac:(discriminate)). rewrite (registry_ivtx _ _ T2). cbn [negb]. rewrite T2. cbn [CutModel.bind]. rewrite of_face_ph, Nat.eqb_refl. reflexivity.
Qed.
Lemma back_first k V : hs = k :: V -> first_step f (opp k) = Some None.
Proof.
  intros E. destruct ends as (E1 & E2 & E3). pose proof (side_src [] k V E) as [SS _]. pose proof (side_tgt [] k V E) as [T1 T2]. unfold ClipModel.first_step. rewrite src_opp, tgt_opp, (SS eq_refl), (ivtx_orig _ E1). cbn [negb andb]. rewrite andb_true_r. destruct V as [|v V].
  - rewrite (T1 eq_refl), (ivtx_orig _ E2). cbn [negb]. destruct (s_whole _ _ _ S) as [_ W]; [rewrite E; reflexivity|]. destruct (ps_halfedge (ptgt ph) (psrc ph)) as [o|]; [|reflexivity]. rewrite (W o eq_refl). destruct (eqo (pface (opp ph)) (Some f)) eqn:K; [apply eqo_iff in K; destruct (s_other _ _ _ S K)|reflexivity].
  - specialize (T2 ltac:(discriminate)). rewrite (registry_ivtx _ _ T2). reflexivity.
Qed.
Lemma start_last U k : hs = U ++ [k] -> U <> [] -> first_step f k = Some None.
Proof.
  intros E N. destruct ends as (E1 & E2 & E3). pose proof (proj2 (side_src U k [] E) N) as SS. pose proof (proj1 (side_tgt U k [] E) eq_refl) as T. unfold ClipModel.first_step. rewrite (registry_ivtx _ _ SS), T, (ivtx_orig _ E2). reflexivity.
Qed.
Lemma back_last U k : hs = U ++ [k] -> U <> [] -> first_step f (opp k) = Some None.
Proof.
  intros E N. destruct ends as (E1 & E2 & E3). pose proof (proj2 (side_src U k [] E) N) as SS. pose proof (proj1 (side_tgt U k [] E) eq_refl) as T. unfold ClipModel.first_step. rewrite src_opp, tgt_opp, T, (ivtx_orig _ E2), (registry_ivtx _ _ SS). cbn [negb andb]. rewrite SS. cbn [CutModel.bind]. rewrite of_face_ph. assert (Nat.eqb (ptgt ph) (psrc ph) = false) as -> by (apply Nat.eqb_neq; congruence). reflexivity.
Qed.
Lemma find_same l k : In k l -> NoDup (map src l) -> find (fun he => Nat.eqb (src he) (src k) && Nat.eqb (tgt he) (tgt k)) l = Some k.
Proof.
  intros I N. destruct (find _ l) as [h|] eqn:E.
  - apply find_some in E. destruct E as [Ih Eh]. apply andb_prop in Eh. destruct Eh as [Eh _]. apply Nat.eqb_eq in Eh. f_equal. apply (NoDup_map_inj src l N); assumption.
  - pose proof (find_none _ _ E k I) as K. cbn in K. rewrite !Nat.eqb_refl in K. discriminate.
Qed.
Lemma start_inner U k V : hs = U ++ k :: V -> U <> [] -> V <> [] -> first_step f k = Some (Some k).
Proof.
  intros E NU NV. pose proof (proj2 (side_src U k V E) NU) as SS. pose proof (proj2 (side_tgt U k V E) NV) as T. unfold ClipModel.first_step. rewrite (registry_ivtx _ _ SS), (registry_ivtx _ _ T). cbn [negb andb]. rewrite SS, T. cbn [CutModel.bind]. rewrite Nat.eqb_refl. cbn [negb]. rewrite of_face_ph.
  assert (L3 : 3 <= length hs) by (rewrite E, app_length; cbn; destruct U, V; try congruence; cbn; lia). assert (Ik : In k hs) by (rewrite E; apply in_elt).
  assert (NR : NoDup (map src (rev hs))) by (rewrite map_rev; apply NoDup_rev, (s_simple _ _ _ S)).
  destruct (sequence_found L3) as (so & sq & fi & [(A1 & A2 & A3 & A4)|(so' & sq' & fi' & A1 & A2 & A3 & A4)]); rewrite A1; cbn [CutModel.bind]; rewrite A2; cbn [CutModel.bind]; rewrite A3; cbn [CutModel.bind]; rewrite A4, find_same; try reflexivity; [exact Ik|apply (s_simple _ _ _ S)|rewrite <- in_rev; exact Ik|exact NR].
Qed.
(** following the iterator past the end *)
Lemma back_inner U k V : hs = U ++ k :: V -> U <> [] -> V <> [] -> first_step f (opp k) = None.
Proof.
  intros E NU NV. pose proof (proj2 (side_src U k V E) NU) as SS. pose proof (proj2 (side_tgt U k V E) NV) as T. unfold ClipModel.first_step. rewrite src_opp, tgt_opp. rewrite (registry_ivtx _ _ SS), (registry_ivtx _ _ T). cbn [negb andb]. rewrite SS, T. cbn [CutModel.bind]. rewrite Nat.eqb_refl. cbn [negb]. rewrite of_face_ph.
  assert (L3 : 3 <= length hs) by (rewrite E, app_length; cbn; destruct U, V; try congruence; cbn; lia). assert (Ik : In k hs) by (rewrite E; apply in_elt).
  assert (NF : forall l, (forall x, In x l -> In x hs) -> find (fun he => Nat.eqb (src he) (tgt k) && Nat.eqb (tgt he) (src k)) l = None).
  { intros l Il. destruct (find _ l) as [h|] eqn:EF; [|reflexivity]. exfalso. apply find_some in EF. destruct EF as [Ih Eh]. apply andb_prop in Eh. rewrite !Nat.eqb_eq in Eh. destruct Eh as [H1 H2]. apply Il in Ih.
    (* h would follow k and lead back to the start of k *)
    destruct V as [|v V]; [congruence|]. pose proof (s_path _ _ _ S) as P. rewrite E in P. apply (path_app src tgt) in P. destruct P as (m & P1 & Em & Ev & P2). pose proof (s_simple _ _ _ S) as ND.
    assert (h = v). { apply (NoDup_map_inj src hs ND); [exact Ih|rewrite E; apply in_or_app; right; right; left; reflexivity|congruence]. } subst h.
    destruct V as [|w V].
    - cbn in P2. destruct ends as (E1 & E2 & E3). apply registry_ivtx in SS. rewrite <- H2, P2, (ivtx_orig _ E2) in SS. discriminate.
    - destruct P2 as [Ew _]. assert (w = k). { apply (NoDup_map_inj src hs ND); [rewrite E; apply in_or_app; right; right; right; left; reflexivity|exact Ik|congruence]. } subst w. apply NoDup_map_inv in ND. rewrite E in ND. apply NoDup_remove_2 in ND. apply ND, in_or_app. right. right. left. reflexivity. }
  destruct (sequence_found L3) as (so & sq & fi & [(A1 & A2 & A3 & A4)|(so' & sq' & fi' & A1 & A2 & A3 & A4)]); rewrite A1; cbn [CutModel.bind]; rewrite A2; cbn [CutModel.bind]; rewrite A3; cbn [CutModel.bind]; rewrite A4, NF; try reflexivity; [auto|intros x Ix; apply in_rev, Ix].
Qed.
End Side.

(** ** The loop *)
Variable f : nat.
Variable sides : list (nat * list nat).
Hypothesis SD : forall ph hs, In (ph, hs) sides -> side f ph hs.
Definition around : list nat := concat (map snd sides).
(** the pieces at the start of a side, at its end, and in between *)
Definition leading (k : nat) : Prop := exists ph V, In (ph, k :: V) sides.
Definition trailing (k : nat) : Prop := exists ph U, In (ph, U ++ [k]) sides /\ U <> [].
Definition inner (k : nat) : Prop := exists ph U V, In (ph, U ++ k :: V) sides /\ U <> [] /\ V <> [].
Lemma kinds k : In k around -> leading k \/ trailing k \/ inner k.
Proof.
  intros I. unfold around in I. apply in_concat in I. destruct I as (hs & I1 & I2). apply in_map_iff in I1. destruct I1 as ((ph & hs') & E & I1). cbn in E. subst hs'. destruct (in_split _ _ I2) as (U & V & E).
  destruct U as [|u U]; [left; exists ph, V; rewrite E in I1; exact I1|]. destruct V as [|v V]; [right; left; exists ph, (u :: U); rewrite E in I1; split; [exact I1|discriminate]|]. right. right. exists ph, (u :: U), (v :: V). rewrite E in I1. split; [exact I1|]. split; discriminate.
Qed.
Lemma loop_leading k es : leading k -> first_boundary f (edge k :: es) = Some k.
Proof.
  intros (ph & V & I). pose proof (start_first f ph _ (SD _ _ I) k V eq_refl) as A. pose proof (back_first f ph _ (SD _ _ I) k V eq_refl) as B. cbn [ClipModel.first_boundary]. destruct (opp_2 (edge k)) as [O1 O2]. destruct (halfedge_cases k) as [E|E].
  - rewrite <- E, A. reflexivity.
  - assert (EO : 2 * edge k = opp k) by (rewrite E at 2; rewrite O2; reflexivity). rewrite EO at 1. rewrite B. cbn [CutModel.bind]. rewrite <- E, A. reflexivity.
Qed.
Lemma loop_trailing k es : trailing k -> first_boundary f (edge k :: es) = first_boundary f es.
Proof.
  intros (ph & U & I & N). pose proof (start_last f ph _ (SD _ _ I) U k eq_refl N) as A. pose proof (back_last f ph _ (SD _ _ I) U k eq_refl N) as B. cbn [ClipModel.first_boundary]. destruct (opp_2 (edge k)) as [O1 O2]. destruct (halfedge_cases k) as [E|E].
  - rewrite <- E, A. cbn [CutModel.bind]. assert (EO : k + 1 = opp k) by (rewrite E, O1; reflexivity). rewrite EO, B. reflexivity.
  - assert (EO : 2 * edge k = opp k) by (rewrite E at 2; rewrite O2; reflexivity). rewrite EO at 1. rewrite B. cbn [CutModel.bind]. rewrite <- E, A. reflexivity.
Qed.
Lemma loop_inner k es : inner k -> first_boundary f (edge k :: es) = if Nat.even k then Some k else None.
Proof.
  intros (ph & U & V & I & NU & NV). pose proof (start_inner f ph _ (SD _ _ I) U k V eq_refl NU NV) as A. pose proof (back_inner f ph _ (SD _ _ I) U k V eq_refl NU NV) as B. cbn [ClipModel.first_boundary]. destruct (opp_2 (edge k)) as [O1 O2], (even_2 (edge k)) as [V1 V2]. destruct (halfedge_cases k) as [E|E].
  - rewrite <- E, A. cbn [CutModel.bind]. rewrite E, V1. reflexivity.
  - assert (EO : 2 * edge k = opp k) by (rewrite E at 2; rewrite O2; reflexivity). rewrite EO at 1. rewrite B. cbn [CutModel.bind]. rewrite E, V2. reflexivity.
Qed.
Lemma loop_sound bd h : (forall e, In e bd -> In e (map edge around)) -> first_boundary f bd = Some h -> In h around /\ (leading h \/ inner h).
Proof.
  induction bd as [|e bd IH]; intros B E; [discriminate|]. destruct (proj1 (in_map_iff _ _ _) (B e (or_introl eq_refl))) as (k & <- & Ik). destruct (kinds k Ik) as [K|[K|K]].
  - rewrite (loop_leading k bd K) in E. injection E as <-. auto.
  - rewrite (loop_trailing k bd K) in E. apply IH; [|exact E]. intros e I. apply B. right. exact I.
  - rewrite (loop_inner k bd K) in E. destruct (Nat.even k); [|discriminate]. injection E as <-. auto.
Qed.
Lemma loop_found bd : (forall e, In e bd -> In e (map edge around)) -> (exists k, leading k /\ In (edge k) bd) -> (forall k, inner k -> Nat.even k = true) -> exists h, first_boundary f bd = Some h.
Proof.
  intros B (k0 & K0 & I0) EV. induction bd as [|e bd IH]; [destruct I0|]. destruct (proj1 (in_map_iff _ _ _) (B e (or_introl eq_refl))) as (k & <- & Ik). destruct (kinds k Ik) as [K|[K|K]].
  - exists k. apply loop_leading, K.
  - destruct I0 as [E|I0].
    + rewrite E. exists k0. apply loop_leading, K0.
    + rewrite (loop_trailing k bd K). apply IH; [|exact I0]. intros e I. apply B. right. exact I.
  - exists k. rewrite (loop_inner k bd K), (EV k K). reflexivity.
Qed.
Lemma leading_orig k : leading k -> src k < cnt.
Proof. intros (ph & V & I). pose proof (SD _ _ I) as S. destruct (s_ends _ _ _ S) as (E & _). rewrite (proj1 (side_src f ph _ S [] k V eq_refl) eq_refl). exact E. Qed.
End Start.
