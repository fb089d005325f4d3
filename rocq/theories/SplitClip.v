(** C70 and C68 together: the edges are divided, then the faces are clipped. *)
From Coq Require Import List Arith Bool Lia Permutation Reals Sorting.
From Verif Require Import CutModel CutProofs ClipModel ClipSpec ClipInv ClipProofs ClipFace ClipStart ClipProps SplitModel SplitSpec SplitProofs SplitGeo SplitProps.
Import ListNotations.
Open Scope nat_scope.

(** The input mesh: the ends, the faces and the halfedges of the edges 0, ..., n - 1. *)
Record mesh (n : nat) (psrc ptgt : nat -> nat) (pface : nat -> option nat) (ps_halfedge : nat -> nat -> option nat) (pends : nat -> nat * nat) (psf : nat -> option nat * option nat) : Prop := {
  m_ends : forall e, e < n -> pends e = (ptgt (2 * e), psrc (2 * e)) /\ psrc (2 * e + 1) = ptgt (2 * e) /\ ptgt (2 * e + 1) = psrc (2 * e) /\ psrc (2 * e) <> ptgt (2 * e);
  m_faces : forall e, e < n -> psf e = (pface (2 * e), pface (2 * e + 1));
  m_halfedge : forall ph, edge ph < n -> ps_halfedge (psrc ph) (ptgt ph) = Some ph }.
(** The face f has the sides phs, a simple polygon. *)
Record face_of (n : nat) (psrc ptgt : nat -> nat) (pface : nat -> option nat) (f : nat) (phs : list nat) : Prop := {
  f_ring : exists a, path psrc ptgt a phs a;
  f_simple : NoDup (map psrc phs);
  f_3 : 3 <= length phs;
  f_face : forall ph, In ph phs -> edge ph < n /\ pface ph = Some f /\ pface (opp ph) <> Some f;
  f_all : forall ph, edge ph < n -> pface ph = Some f -> In ph phs }.
(** the vertices on a side, in its direction *)
Definition side_way (way : nat -> list nat) (ph : nat) : list nat := if Nat.even ph then rev (way (edge ph)) else way (edge ph).
Definition seg_of (r : state) (e : nat) : nat * nat := nth e (edges r) (0, 0).

Section Directed.
Variable ends : list (nat * nat).
Notation sg := (fun e => nth e ends (0, 0)).
Fixpoint directed (vs es : list nat) : list nat := match vs, es with v :: vs', e :: es' => (if Nat.eqb (fst (sg e)) v then 2 * e else 2 * e + 1) :: directed vs' es' | _, _ => [] end.
Definition follows (vs hs : list nat) : Prop := map (src sg) hs = removelast vs /\ map (tgt sg) hs = tl vs.
Lemma edge_even e : edge (2 * e) = e. Proof. unfold edge. apply Nat.div2_double. Qed.
Lemma edge_odd e : edge (2 * e + 1) = e. Proof. unfold edge. rewrite Nat.add_1_r. apply Nat.div2_succ_double. Qed.
Lemma even_even e : Nat.even (2 * e) = true. Proof. rewrite Nat.even_mul. reflexivity. Qed.
Lemma even_odd e : Nat.even (2 * e + 1) = false. Proof. rewrite Nat.even_add, Nat.even_mul. reflexivity. Qed.
Lemma opp_even e : opp (2 * e) = 2 * e + 1. Proof. unfold opp. rewrite even_even. lia. Qed.
Lemma opp_odd e : opp (2 * e + 1) = 2 * e. Proof. unfold opp. rewrite even_odd. lia. Qed.
Lemma src_even (seg : nat -> nat * nat) e : src seg (2 * e) = fst (seg e). Proof. unfold src. rewrite even_even, edge_even. reflexivity. Qed.
Lemma src_odd (seg : nat -> nat * nat) e : src seg (2 * e + 1) = snd (seg e). Proof. unfold src. rewrite even_odd, edge_odd. reflexivity. Qed.
Lemma tgt_even (seg : nat -> nat * nat) e : tgt seg (2 * e) = snd (seg e). Proof. unfold tgt. rewrite opp_even. apply src_odd. Qed.
Lemma tgt_odd (seg : nat -> nat * nat) e : tgt seg (2 * e + 1) = fst (seg e). Proof. unfold tgt. rewrite opp_odd. apply src_even. Qed.
Lemma directed_follows vs es : joined ends vs es -> NoDup vs -> follows vs (directed vs es) /\ map edge (directed vs es) = es.
Proof.
  revert es. induction vs as [|v vs IH]; intros es J N; [destruct es; destruct J|]. destruct vs as [|w vs]; destruct es as [|e es]; try (destruct J; fail); [split; [split; reflexivity|reflexivity]|].
  destruct J as [E J]. inversion_clear N as [|? ? N1 N2]. destruct (IH es J N2) as ((F1 & F2) & F3). set (D := directed (w :: vs) es) in *. change (directed (v :: w :: vs) (e :: es)) with ((if Nat.eqb (fst (sg e)) v then 2 * e else 2 * e + 1) :: D).
  assert (X : v <> w) by (intros ->; apply N1; left; reflexivity).
  assert (H : src sg (if Nat.eqb (fst (sg e)) v then 2 * e else 2 * e + 1) = v /\ tgt sg (if Nat.eqb (fst (sg e)) v then 2 * e else 2 * e + 1) = w /\ edge (if Nat.eqb (fst (sg e)) v then 2 * e else 2 * e + 1) = e).
  { destruct E as [E|E]; apply (nth_error_nth _ _ (0, 0)) in E; rewrite E; cbn [fst]; [rewrite Nat.eqb_refl, src_even, tgt_even, edge_even, E; auto|]. destruct (Nat.eqb_spec w v); [congruence|]. rewrite src_odd, tgt_odd, edge_odd, E. auto. }
  destruct H as (H1 & H2 & H3). split; [split|]; cbn [map tl]; [rewrite H1, F1; reflexivity|rewrite H2, F2; reflexivity|rewrite H3, F3; reflexivity].
Qed.
Lemma opp_opp' h : opp (opp h) = h. Proof. apply opp_opp. Qed.
Lemma tgt_opp h : tgt sg (opp h) = src sg h. Proof. unfold tgt. rewrite opp_opp. reflexivity. Qed.
Lemma edge_opp' h : edge (opp h) = edge h.
Proof. destruct (Nat.even h) eqn:E; [apply Nat.even_spec in E; destruct E as [k ->]; rewrite opp_even, edge_odd, edge_even; reflexivity|]. assert (O : Nat.odd h = true) by (rewrite <- Nat.negb_even, E; reflexivity). apply Nat.odd_spec in O. destruct O as [k ->]. rewrite opp_odd, edge_odd, edge_even. reflexivity. Qed.
Lemma removelast_tl_rev (vs : list nat) : removelast (rev vs) = rev (tl vs) /\ tl (rev vs) = rev (removelast vs).
Proof.
  split; [destruct vs as [|v vs]; [reflexivity|]; cbn [rev tl]; apply removelast_last|]. destruct (rev vs) as [|v l] eqn:E; [apply (f_equal (@rev nat)) in E; rewrite rev_involutive in E; subst vs; reflexivity|]. apply (f_equal (@rev nat)) in E. rewrite rev_involutive in E. subst vs. cbn [rev tl]. rewrite removelast_last, rev_involutive. reflexivity.
Qed.
Lemma follows_reverse vs hs : follows vs hs -> follows (rev vs) (reverse opp hs).
Proof.
  intros [A B]. destruct (removelast_tl_rev vs) as [R1 R2]. unfold follows, reverse. rewrite R1, R2, <- A, <- B. split; rewrite <- !map_rev, map_map; apply map_ext; intros h; [reflexivity|apply tgt_opp].
Qed.
Lemma follows_path a vs b hs : follows (a :: vs ++ [b]) hs -> path (src sg) (tgt sg) a hs b.
Proof.
  revert a hs. induction vs as [|v vs IH]; intros a hs [A B]; cbn [app] in *; destruct hs as [|h hs]; cbn in A, B; try discriminate.
  - injection A as A A'. injection B as B B'. destruct hs; [|discriminate]. cbn. auto.
  - injection A as A A'. injection B as B B'. cbn [path]. split; [exact A|]. rewrite B. apply IH. split; [exact A'|exact B'].
Qed.
End Directed.

Section Both.
Variables (n : nat) (psrc ptgt : nat -> nat) (pface : nat -> option nat) (ps_halfedge : nat -> nat -> option nat) (pends : nat -> nat * nat) (psf : nat -> option nat * option nat).
Variables (points : list (nat * list nat)) (cnt : nat) (registry : list (nat * nat)) (s r : state) (way : nat -> list nat).
Hypothesis ME : mesh n psrc ptgt pface ps_halfedge pends psf.
Hypothesis G : given n pends psf points cnt s.
Hypothesis W : forall e, e < n -> on_edge pends points e (way e).
Hypothesis RG : forall e l v, In (e, l) points -> In v l -> crossing registry cnt v e.
Hypothesis PD : NoDup (concat (map snd points)).
Hypothesis O : outcome n way psf s r.
Notation seg := (seg_of r). Notation src := (src seg). Notation tgt := (tgt seg).

Lemma way_facts e : e < n -> exists mid, way e = fst (pends e) :: mid ++ [snd (pends e)] /\ NoDup (way e) /\ (forall v, In v mid -> crossing registry cnt v e).
Proof.
  intros L. destruct (W e L) as (mid & EW & P). exists mid. split; [exact EW|]. destruct (gv_ends _ _ _ _ _ _ G e L) as [C1 C2].
  assert (M : NoDup mid /\ forall v, In v mid -> crossing registry cnt v e).
  { destruct (lookup points e) as [l|] eqn:E; [|apply Permutation_sym, Permutation_nil in P; subst mid; split; [constructor|intros v []]]. apply lookup_In in E. split; [|intros v I; apply (RG e l v E); eapply Permutation_in; [exact P|exact I]].
    eapply Permutation_NoDup; [symmetry; exact P|]. apply in_split in E. destruct E as (A & B & E). rewrite E, map_app, concat_app in PD. cbn in PD. apply NoDup_app3 in PD. destruct PD as (_ & PD' & _). apply NoDup_app3 in PD'. exact (proj1 PD'). }
  destruct M as [M1 M2]. split; [|exact M2]. rewrite EW. assert (V : forall v, In v mid -> cnt <= v) by (intros v I; apply M2 in I; exact (proj1 I)).
  assert (D : fst (pends e) <> snd (pends e)) by (destruct (m_ends _ _ _ _ _ _ _ ME e L) as (-> & _ & _ & D); cbn; intros Z; apply D; symmetry; exact Z).
  constructor; [rewrite in_app_iff; cbn; intros [I|[I|[]]]; [apply V in I; lia|congruence]|]. apply (Permutation_NoDup (Permutation_cons_append _ _)). constructor; [intros I; apply V in I; lia|exact M1].
Qed.
Lemma side_cases ph : edge ph < n -> exists a mid b, side_way way ph = a :: mid ++ [b] /\ a = psrc ph /\ b = ptgt ph /\ NoDup (side_way way ph) /\ (forall v, In v mid -> crossing registry cnt v (edge ph)) /\ a < cnt /\ b < cnt /\ a <> b.
Proof.
  intros L. destruct (way_facts (edge ph) L) as (mid & EW & N & M). destruct (gv_ends _ _ _ _ _ _ G (edge ph) L) as [C1 C2]. destruct (m_ends _ _ _ _ _ _ _ ME (edge ph) L) as (EP & E1 & E2 & D). rewrite EP in EW, C1, C2. cbn [fst snd] in *. unfold side_way. rewrite EW in *.
  destruct (Nat.even ph) eqn:E.
  - assert (H : ph = 2 * edge ph) by (apply Nat.even_spec in E; destruct E as [k ->]; rewrite edge_even; reflexivity). assert (F1 : psrc ph = psrc (2 * edge ph)) by (rewrite <- H; reflexivity). assert (F2 : ptgt ph = ptgt (2 * edge ph)) by (rewrite <- H; reflexivity).
    exists (psrc (2 * edge ph)), (rev mid), (ptgt (2 * edge ph)). split; [cbn [rev]; rewrite rev_app_distr; reflexivity|]. split; [congruence|]. split; [congruence|].
    split; [apply NoDup_rev, N|]. split; [intros v I; apply M; apply in_rev; exact I|]. auto.
  - assert (H : ph = 2 * edge ph + 1). { assert (OD : Nat.odd ph = true) by (rewrite <- Nat.negb_even, E; reflexivity). apply Nat.odd_spec in OD. destruct OD as [k ->]. rewrite edge_odd. reflexivity. }
    assert (F1 : psrc ph = ptgt (2 * edge ph)) by (rewrite H at 1; exact E1). assert (F2 : ptgt ph = psrc (2 * edge ph)) by (rewrite H at 1; exact E2).
    exists (ptgt (2 * edge ph)), mid, (psrc (2 * edge ph)). split; [reflexivity|]. split; [congruence|]. split; [congruence|]. split; [exact N|]. split; [exact M|]. auto.
Qed.

Variables (order : list nat) (pieces : nat -> list nat).
Hypothesis SP : split n way (faces psf) (edges s) (edges r) (lookup (iface s)) (lookup (iface r)) (get (incoming s)) (get (incoming r)) (lookup (along r)) (lookup (same r)) order pieces.
Definition hs (ph : nat) : list nat := let d := directed (edges r) (way (edge ph)) (pieces (edge ph)) in if Nat.even ph then reverse opp d else d.
Lemma hs_follows ph : edge ph < n -> follows (edges r) (side_way way ph) (hs ph) /\ (map edge (hs ph) = pieces (edge ph) \/ map edge (hs ph) = rev (pieces (edge ph))).
Proof.
  intros L. destruct (way_facts (edge ph) L) as (mid & _ & N & _). destruct (directed_follows (edges r) (way (edge ph)) (pieces (edge ph)) (s_joined _ _ _ _ _ _ _ _ _ _ _ _ _ SP _ L) N) as [F1 F2]. unfold hs, side_way. cbn zeta. destruct (Nat.even ph); [|split; [exact F1|left; exact F2]].
  split; [apply follows_reverse, F1|]. right. unfold reverse. rewrite map_map, (map_ext _ edge) by (intros; apply edge_opp'). rewrite map_rev, F2. reflexivity.
Qed.
Lemma hs_length ph : edge ph < n -> S (length (hs ph)) = length (way (edge ph)).
Proof.
  intros L. destruct (side_cases ph L) as (a & mid & b & E & _). destruct (hs_follows ph L) as ((_ & F) & _). assert (X : length (side_way way ph) = length (way (edge ph))) by (unfold side_way; destruct (Nat.even ph); [apply rev_length|reflexivity]). rewrite <- X. apply (f_equal (@length nat)) in F. rewrite map_length in F. rewrite F, E. reflexivity.
Qed.
Lemma psrc_opp ph : edge ph < n -> psrc (opp ph) = ptgt ph /\ ptgt (opp ph) = psrc ph.
Proof.
  intros L. destruct (m_ends _ _ _ _ _ _ _ ME (edge ph) L) as (_ & E1 & E2 & _). destruct (Nat.even ph) eqn:E.
  - assert (H : ph = 2 * edge ph) by (apply Nat.even_spec in E; destruct E as [k ->]; rewrite edge_even; reflexivity). rewrite H, opp_even. rewrite H in E1, E2. rewrite edge_even in E1, E2. split; assumption.
  - assert (H : ph = 2 * edge ph + 1). { assert (OD : Nat.odd ph = true) by (rewrite <- Nat.negb_even, E; reflexivity). apply Nat.odd_spec in OD. destruct OD as [k ->]. rewrite edge_odd. reflexivity. }
    rewrite H, opp_odd. rewrite H in E1, E2. rewrite edge_odd in E1, E2. split; symmetry; assumption.
Qed.
Lemma removelast_mid (a : nat) mid b : removelast (a :: mid ++ [b]) = a :: mid.
Proof. change (a :: mid ++ [b]) with ((a :: mid) ++ [b]). apply removelast_last. Qed.
Lemma hs_src ph : edge ph < n -> exists mid, map src (hs ph) = psrc ph :: mid /\ NoDup (psrc ph :: mid) /\ (forall v, In v mid -> crossing registry cnt v (edge ph)) /\ psrc ph < cnt /\ path src tgt (psrc ph) (hs ph) (ptgt ph).
Proof.
  intros L. destruct (side_cases ph L) as (a & mid & b & E & Ea & Eb & N & M & La & Lb & _). destruct (hs_follows ph L) as (F & _). rewrite E in F. exists mid. rewrite <- Ea, <- Eb. pose proof (follows_path _ _ _ _ _ F) as P. destruct F as [F _]. rewrite removelast_mid in F.
  split; [exact F|]. split; [|auto]. rewrite E in N. change (a :: mid ++ [b]) with ((a :: mid) ++ [b]) in N. apply NoDup_app3 in N. exact (proj1 N).
Qed.
Variables (f : nat) (phs : list nat).
Hypothesis FA : face_of n psrc ptgt pface f phs.
Lemma hs_divided ph : In ph phs -> divided seg psrc ptgt pface ps_halfedge registry cnt (along r) f ph (hs ph).
Proof.
  intros I. destruct (f_face _ _ _ _ _ _ FA ph I) as (L & F1 & F2). destruct (hs_src ph L) as (mid & E & N & M & La & P). destruct (side_cases ph L) as (a & mid' & b & _ & Ea & Eb & _ & _ & La' & Lb' & D). destruct (psrc_opp ph L) as [O1 O2].
  constructor.
  - exact P.
  - intros Z. rewrite Z in E. discriminate.
  - rewrite E. exact N.
  - exact F1.
  - exact F2.
  - rewrite <- Ea, <- Eb. auto.
  - rewrite E. exact M.
  - intros _. split; [apply (m_halfedge _ _ _ _ _ _ _ ME ph L)|]. intros o EO. rewrite <- O1, <- O2 in EO. rewrite (m_halfedge _ _ _ _ _ _ _ ME (opp ph)) in EO by (rewrite edge_opp'; exact L). congruence.
  - intros L3. rewrite (s_several _ _ _ _ _ _ _ _ _ _ _ _ _ SP _ L). rewrite <- (hs_length ph L). destruct (Nat.leb_spec 4 (S (length (hs ph)))); [|lia]. destruct (hs_follows ph L) as [_ [-> | X]]; [left; reflexivity|right]. rewrite X, rev_involutive. reflexivity.
Qed.
Lemma phs_edges ph ph' : In ph phs -> In ph' phs -> edge ph = edge ph' -> ph = ph'.
Proof.
  intros I I' E. destruct (f_face _ _ _ _ _ _ FA ph I) as (L & F1 & F2). destruct (f_face _ _ _ _ _ _ FA ph' I') as (L' & F1' & F2'). destruct (ClipProofs.halfedge_cases ph) as [H|H]; destruct (ClipProofs.halfedge_cases ph') as [H'|H']; rewrite <- E in H'; try congruence; exfalso.
  - rewrite H', <- opp_even, <- H in F1'. congruence.
  - rewrite H', <- opp_odd, <- H in F1'. congruence.
Qed.
Lemma NoDup_flat_map (g : nat -> list nat) (l : list nat) : NoDup l -> (forall x, In x l -> NoDup (g x)) -> (forall x y v, In x l -> In y l -> In v (g x) -> In v (g y) -> x = y) -> NoDup (flat_map g l).
Proof.
  induction l as [|x l IH]; intros N H D; [constructor|]. inversion_clear N as [|? ? N1 N2]. cbn [flat_map].
  assert (R : NoDup (flat_map g l)) by (apply IH; [exact N2|intros; apply H; right; assumption|intros y z v Y Z; apply D; right; assumption]).
  assert (X : forall v, In v (g x) -> ~ In v (flat_map g l)). { intros v V I. apply in_flat_map in I. destruct I as (y & Y & I). apply N1. rewrite (D x y v (or_introl eq_refl) (or_intror Y) V I). exact Y. }
  pose proof (H x (or_introl eq_refl)) as G'. clear - R X G'. induction (g x) as [|v q IH]; [exact R|]. inversion_clear G' as [|? ? N1 N2]. cbn. constructor; [|apply IH; [intros; apply X; right; assumption|exact N2]]. rewrite in_app_iff. intros [I|I]; [exact (N1 I)|]. exact (X v (or_introl eq_refl) I).
Qed.
Lemma phs_nodup : NoDup phs.
Proof. apply (NoDup_map_inv psrc), (f_simple _ _ _ _ _ _ FA). Qed.
Lemma map_concat_hs (g : nat -> nat) : map g (concat (map hs phs)) = flat_map (fun ph => map g (hs ph)) phs.
Proof. rewrite concat_map, map_map, flat_map_concat_map. reflexivity. Qed.
Lemma psrc_inj ph ph' : In ph phs -> In ph' phs -> psrc ph = psrc ph' -> ph = ph'.
Proof.
  pose proof (f_simple _ _ _ _ _ _ FA) as N. clear - N. revert N. induction phs as [|x l IH]; intros N I I' E; [destruct I|]. cbn in N. inversion_clear N as [|? ? N1 N2].
  destruct I as [X|I]; destruct I' as [X'|I']; try congruence; [exfalso; apply N1; rewrite X, E; apply in_map, I'|exfalso; apply N1; rewrite X', <- E; apply in_map, I|apply IH; assumption].
Qed.
Lemma around_ring : ring src tgt (concat (map hs phs)).
Proof.
  assert (LE : forall ph, In ph phs -> edge ph < n) by (intros ph I; apply (f_face _ _ _ _ _ _ FA ph I)). pose proof (f_3 _ _ _ _ _ _ FA) as L3.
  split; [|split].
  - destruct phs as [|ph l]; [cbn in L3; lia|]. destruct (hs_src ph (LE ph (or_introl eq_refl))) as (mid & E & _). cbn [map concat]. destruct (hs ph); discriminate.
  - destruct (f_ring _ _ _ _ _ _ FA) as (a & P). exists a. revert P. generalize a at 1 3. clear L3. clear FA. induction phs as [|ph l IH]; intros c P; [exact P|]. cbn [path] in P. destruct P as [E P]. cbn [map concat]. apply path_app. exists (ptgt ph). split; [|apply IH; [intros; apply LE; right; assumption|exact P]].
    destruct (hs_src ph (LE ph (or_introl eq_refl))) as (mid & _ & _ & _ & _ & X). rewrite <- E. exact X.
  - rewrite map_concat_hs. apply NoDup_flat_map; [apply phs_nodup|intros ph I; destruct (hs_src ph (LE ph I)) as (mid & E & N & _); rewrite E; exact N|].
    intros x y v X Y. destruct (hs_src x (LE x X)) as (mx & EX & _ & CX & LX & _). destruct (hs_src y (LE y Y)) as (my & EY & _ & CY & LY & _). rewrite EX, EY. intros [A|A] [B|B].
    + apply psrc_inj; congruence.
    + apply CY in B. destruct B as [B _]. lia.
    + apply CX in A. destruct A as [A _]. lia.
    + apply CX in A. apply CY in B. destruct A as (_ & g & A). destruct B as (_ & g' & B). apply phs_edges; congruence.
Qed.
Notation on := (fun e => existsb (Nat.eqb f) (faces psf e)).
Lemma on_iff e : e < n -> (on e = true <-> exists ph, In ph phs /\ edge ph = e).
Proof.
  intros L. assert (X : on e = true <-> pface (2 * e) = Some f \/ pface (2 * e + 1) = Some f).
  { rewrite existsb_exists. unfold faces. rewrite (m_faces _ _ _ _ _ _ _ ME e L). cbn [fst snd]. split.
    - intros (g & I & E). apply Nat.eqb_eq in E. subst g. apply in_app_iff in I. destruct I as [I|I]; [destruct (pface (2 * e)); [|destruct I]; destruct I as [-> |[]]; left; reflexivity|destruct (pface (2 * e + 1)); [|destruct I]; destruct I as [-> |[]]; right; reflexivity].
    - intros H. exists f. split; [|apply Nat.eqb_refl]. apply in_app_iff. destruct H as [-> | ->]; [left|right]; left; reflexivity. }
  rewrite X. split.
  - intros [E|E]; [exists (2 * e)|exists (2 * e + 1)]; (split; [apply (f_all _ _ _ _ _ _ FA); [|exact E]|]; rewrite ?edge_even, ?edge_odd; auto).
  - intros (ph & I & <-). destruct (f_face _ _ _ _ _ _ FA ph I) as (_ & E & _). destruct (ClipProofs.halfedge_cases ph) as [H|H]; [left|right]; rewrite <- H; exact E.
Qed.
Lemma order_lt e : In e order <-> e < n.
Proof. pose proof (s_order _ _ _ _ _ _ _ _ _ _ _ _ _ SP) as P. split; [intros I; apply (Permutation_in _ P), in_seq in I; lia|intros L; apply (Permutation_in _ (Permutation_sym P)), in_seq; lia]. Qed.
Lemma sides_perm : Permutation (flat_map pieces (filter on order)) (map edge (concat (map hs phs))).
Proof.
  assert (P : Permutation (filter on order) (map edge phs)).
  { apply NoDup_Permutation.
    - apply NoDup_filter. eapply Permutation_NoDup; [symmetry; exact (s_order _ _ _ _ _ _ _ _ _ _ _ _ _ SP)|apply seq_NoDup].
    - pose proof phs_nodup as N. assert (D : forall x y, In x phs -> In y phs -> edge x = edge y -> x = y) by apply phs_edges. revert N D. clear. induction phs as [|x l IH]; intros N D; [constructor|]. inversion_clear N as [|? ? N1 N2]. cbn. constructor; [|apply IH; [exact N2|intros; apply D; try right; assumption]]. intros I. apply in_map_iff in I. destruct I as (y & E & I). apply N1. rewrite (D x y); [exact I|left; reflexivity|right; exact I|congruence].
    - intros e. rewrite filter_In, order_lt, in_map_iff. split; [intros [L H]; apply (on_iff e L) in H; destruct H as (ph & I & E); exists ph; auto|]. intros (ph & E & I). assert (L : e < n) by (rewrite <- E; apply (f_face _ _ _ _ _ _ FA ph I)). split; [exact L|]. apply (on_iff e L). exists ph. auto. }
  rewrite map_concat_hs. transitivity (flat_map pieces (map edge phs)); [apply Permutation_flat_map, P|]. assert (H : forall ph, In ph phs -> Permutation (pieces (edge ph)) (map edge (hs ph))).
  { intros ph I. destruct (hs_follows ph) as [_ [-> | ->]]; [apply (f_face _ _ _ _ _ _ FA ph I)|reflexivity|apply Permutation_rev]. }
  clear - H. induction phs as [|x l IH]; [constructor|]. cbn [map flat_map]. apply Permutation_app; [apply H; left; reflexivity|apply IH; intros; apply H; right; assumption].
Qed.

Lemma edges_nodup es : lookup (iface s) f = Some es -> NoDup es -> (forall e, In e es -> e < length (edges s)) -> NoDup (es ++ flat_map pieces (filter on order)).
Proof.
  intros E N L. assert (S : NoDup (flat_map pieces order)) by (rewrite <- (s_all _ _ _ _ _ _ _ _ _ _ _ _ _ SP); apply seq_NoDup). assert (M : forall x, In x (flat_map pieces order) -> length (edges s) <= x) by (intros x I; rewrite <- (s_all _ _ _ _ _ _ _ _ _ _ _ _ _ SP) in I; apply in_seq in I; lia).
  assert (S' : NoDup (flat_map pieces (filter on order)) /\ forall x, In x (flat_map pieces (filter on order)) -> In x (flat_map pieces order)).
  { clear - S. induction order as [|e l IH]; [split; [constructor|intros x []]|]. cbn [flat_map] in S. apply NoDup_app3 in S. destruct S as (S1 & S2 & S3). destruct (IH S2) as [I1 I2]. cbn [filter]. destruct (existsb (Nat.eqb f) (faces psf e)); cbn [flat_map]; [|split; [exact I1|intros x I; apply in_app_iff; right; apply I2, I]].
    split; [|intros x; rewrite !in_app_iff; intros [I|I]; [left; exact I|right; apply I2, I]]. assert (X : forall x, In x (pieces e) -> ~ In x (flat_map pieces (filter on l))) by (intros x A B; apply (S3 x A), I2, B). revert S1 X I1. clear. induction (pieces e) as [|v q IH]; intros S X I; [exact I|]. inversion_clear S as [|? ? N1 N2]. cbn. constructor; [|apply IH; [exact N2|intros; apply X; right; assumption|exact I]]. rewrite in_app_iff. intros [A|A]; [exact (N1 A)|exact (X v (or_introl eq_refl) A)]. }
  destruct S' as [S1 S2]. assert (X : forall x, In x es -> ~ In x (flat_map pieces (filter on order))) by (intros x A B; apply L in A; apply S2, M in B; lia). revert N X S1. clear. induction es as [|v q IH]; intros N X S; [exact S|]. inversion_clear N as [|? ? N1 N2]. cbn. constructor; [|apply IH; [exact N2|intros; apply X; right; assumption|exact S]]. rewrite in_app_iff. intros [A|A]; [exact (N1 A)|exact (X v (or_introl eq_refl) A)].
Qed.
Lemma face_divided es cuts mouths polygons : lookup (iface s) f = Some es -> NoDup es -> (forall e, In e es -> e < length (edges s)) -> Permutation es (map edge cuts) ->
  (forall h, In h cuts -> exists e e', crossing registry cnt (src h) e /\ crossing registry cnt (tgt h) e' /\ e <> e') ->
  clipped src tgt opp (concat (map hs phs)) polygons cuts mouths -> (forall P, In P polygons -> 3 <= length P) ->
  divided_face seg psrc ptgt pface ps_halfedge registry cnt (along r) f (map (fun ph => (ph, hs ph)) phs) cuts mouths polygons (es ++ flat_map pieces (filter on order)).
Proof.
  intros E N L PC CC CL P3. assert (MS : map snd (map (fun ph => (ph, hs ph)) phs) = map hs phs) by (rewrite map_map; reflexivity).
  constructor.
  - intros ph h I. apply in_map_iff in I. destruct I as (ph' & X & I). injection X as <- <-. apply hs_divided, I.
  - rewrite map_length. apply (f_3 _ _ _ _ _ _ FA).
  - rewrite MS. apply around_ring.
  - exact CC.
  - rewrite MS. exact CL.
  - exact P3.
  - rewrite MS, map_app. rewrite Permutation_app_comm. apply Permutation_app; [apply sides_perm|exact PC].
  - apply edges_nodup; assumption.
Qed.
Lemma face_list es : lookup (iface s) f = Some es -> lookup (iface r) f = Some (es ++ flat_map pieces (filter on order)).
Proof. intros E. rewrite (s_faces _ _ _ _ _ _ _ _ _ _ _ _ _ SP f), E. reflexivity. Qed.
(** The list ends with the pieces of a side with at most one point, if there is one. *)
Lemma ends_with ph : In ph phs -> length (way (edge ph)) <= 3 -> exists q Z, filter on order = Z ++ [edge q] /\ In q phs /\ length (hs q) <= 2.
Proof.
  intros I L. destruct (s_several_first _ _ _ _ _ _ _ _ _ _ _ _ _ SP) as (os & os' & EO & H1 & H2). assert (LE : edge ph < n) by apply (f_face _ _ _ _ _ _ FA ph I).
  assert (J : In (edge ph) (filter on os')). { apply filter_In. split; [|apply (on_iff _ LE); exists ph; auto]. apply order_lt in LE. rewrite EO in LE. apply in_app_iff in LE. destruct LE as [X|X]; [apply H1 in X; lia|exact X]. }
  rewrite EO, filter_app. destruct (@exists_last _ (filter on os')) as (Z & e & EZ); [intros X; rewrite X in J; destruct J|]. assert (K : In e (filter on os')) by (rewrite EZ; apply in_app_iff; right; left; reflexivity). apply filter_In in K. destruct K as [K1 K2].
  assert (LN : e < n) by (apply order_lt; rewrite EO; apply in_app_iff; right; exact K1). apply (on_iff e LN) in K2. destruct K2 as (q & Iq & Eq). exists q, (filter on os ++ Z). split; [rewrite EZ, app_assoc, Eq; reflexivity|]. split; [exact Iq|]. pose proof (hs_length q) as HL. rewrite Eq in HL. specialize (HL LN). apply H2 in K1. lia.
Qed.
Lemma both_clip es cuts mouths polygons ph : lookup (iface s) f = Some es -> NoDup es -> (forall e, In e es -> e < length (edges s)) -> 2 <= length es -> Permutation es (map edge cuts) ->
  (forall h, In h cuts -> exists e e', crossing registry cnt (src h) e /\ crossing registry cnt (tgt h) e' /\ e <> e') ->
  clipped src tgt opp (concat (map hs phs)) polygons cuts mouths -> (forall P, In P polygons -> 3 <= length P) -> In ph phs -> length (way (edge ph)) <= 3 ->
  exists out, clip seg psrc pface ps_halfedge registry cnt (along r) gnu_partition f (es ++ flat_map pieces (filter on order)) = Some out /\ same_polygons polygons out.
Proof.
  intros E N L L2 PC CC CL P3 I LW. pose proof (face_divided es cuts mouths polygons E N L PC CC CL P3) as DF. destruct (ends_with ph I LW) as (q & Z & EF & Iq & Lq). pose proof sides_perm as SPM. rewrite EF in *. rewrite flat_map_app in *. cbn [flat_map] in *. rewrite app_nil_r in *.
  assert (LE : edge q < n) by apply (f_face _ _ _ _ _ _ FA q Iq). destruct (hs_follows q LE) as [_ HE]. destruct (hs_src q LE) as (mid & HS & _).
  assert (Iside : In (q, hs q) (map (fun ph => (ph, hs ph)) phs)) by (apply in_map_iff; exists q; auto).
  assert (R3 : 3 <= length (flat_map pieces Z ++ pieces (edge q))). { apply Permutation_length in SPM. rewrite SPM, map_length. pose proof (around_3 _ _ _ _ _ _ _ _ _ _ _ _ _ _ DF) as A3. rewrite map_map in A3. exact A3. }
  destruct es as [|i1 [|i2 es]]; [cbn in L2; lia|cbn in L2; lia|]. assert (I1 : In i1 (map edge cuts)) by (eapply Permutation_in; [exact PC|left; reflexivity]). assert (I2 : In i2 (map edge cuts)) by (eapply Permutation_in; [exact PC|right; left; reflexivity]).
  assert (LP : length (pieces (edge q)) = length (hs q)) by (rewrite <- (map_length edge (hs q)); destruct HE as [-> | ->]; [reflexivity|symmetry; apply rev_length]).
  rewrite app_length in R3. destruct (hs q) as [|k [|k' [|]]] eqn:HQ; [discriminate|..|cbn in Lq; lia].
  - destruct (pieces (edge q)) as [|y [|]] eqn:PQ; try discriminate LP. cbn in HE. destruct (@exists_last _ (flat_map pieces Z)) as (Z' & y2 & EZ); [intros X; rewrite X in R3; cbn in R3; lia|]. rewrite EZ in *.
    apply (C68_gnu seg psrc ptgt pface ps_halfedge registry cnt (along r) f _ cuts mouths polygons _ i1 i2 (es ++ Z') y2 y DF); [cbn; rewrite <- !app_assoc; reflexivity|exact I1|exact I2|]. left. exists q, k. split; [exact Iside|]. destruct HE as [X|X]; injection X as X; congruence.
  - destruct (pieces (edge q)) as [|y [|y' [|]]] eqn:PQ; try discriminate LP. cbn in HE.
    apply (C68_gnu seg psrc ptgt pface ps_halfedge registry cnt (along r) f _ cuts mouths polygons _ i1 i2 (es ++ flat_map pieces Z) y y' DF); [cbn; rewrite <- !app_assoc; reflexivity|exact I1|exact I2|]. right. exists q, k, k'. split; [exact Iside|]. destruct HE as [X|X]; injection X as X X'; [left|right]; split; congruence.
Qed.
End Both.

(** The edges are divided, then the faces are clipped, with exact arithmetic and the std::partition of libstdc++: a face with two or more edges inside it and a side with at most one point is divided into the polygons.
    (The sides of the face are what the edges of the result make of its sides; [map src hs] are the points on the side.) *)
Theorem C70_clipped n psrc ptgt pface ps_halfedge pends psf points cnt registry s position sort shuffle way blocks master :
  mesh n psrc ptgt pface ps_halfedge pends psf ->
  given n pends psf points cnt s -> sorting sort -> iteration shuffle -> concat blocks ++ master = seq 0 n ->
  (forall e, e < n -> on_edge pends points e (way e) /\ (3 < length (way e) -> straight position (way e))) ->
  (forall e l v, In (e, l) points -> In v l -> crossing registry cnt v e) -> NoDup (concat (map snd points)) ->
  exists r, divide_edges (fun x => x) sort position pends psf points cnt shuffle blocks master s = Some r /\
    let src := src (seg_of r) in let tgt := tgt (seg_of r) in
    forall f phs es ph, face_of n psrc ptgt pface f phs -> lookup (iface s) f = Some es -> NoDup es -> (forall e, In e es -> e < length (edges s)) -> 2 <= length es ->
      In ph phs -> length (way (edge ph)) <= 3 ->
      exists sides l, lookup (iface r) f = Some l /\ map fst sides = phs /\
        (forall q hs, In (q, hs) sides -> map src hs = removelast (side_way way q) /\ map tgt hs = tl (side_way way q)) /\
        forall cuts mouths polygons, Permutation es (map edge cuts) ->
          (forall h, In h cuts -> exists e e', crossing registry cnt (src h) e /\ crossing registry cnt (tgt h) e' /\ e <> e') ->
          clipped src tgt opp (concat (map snd sides)) polygons cuts mouths -> (forall P, In P polygons -> 3 <= length P) ->
          exists out, clip (seg_of r) psrc pface ps_halfedge registry cnt (along r) gnu_partition f l = Some out /\ same_polygons polygons out.
Proof.
  intros ME G SO SH CB H RG PD. destruct (C70_divided n pends psf points cnt s position sort shuffle way blocks master G SO SH CB H) as (r & ER & order & pieces & SP). exists r. split; [exact ER|]. cbn zeta. intros f phs es ph FA E N L L2 I LW.
  assert (W : forall e, e < n -> on_edge pends points e (way e)) by (intros e K; apply H, K). exists (map (fun q => (q, hs r way pieces q)) phs), (es ++ flat_map pieces (filter (fun e => existsb (Nat.eqb f) (faces psf e)) order)).
  split; [exact (face_list _ _ _ _ _ _ _ SP f es E)|]. split; [rewrite map_map; apply map_id|]. split.
  - intros q k J. apply in_map_iff in J. destruct J as (q' & X & J). injection X as <- <-. eapply hs_follows; try eassumption. apply (f_face _ _ _ _ _ _ FA q' J).
  - intros cuts mouths polygons PC CC CL P3. rewrite map_map in CL. cbn [snd] in CL. eapply both_clip with (phs := phs) (ph := ph); eassumption.
Qed.
