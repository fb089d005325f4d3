(** Proofs about CutModel: what is inferred about the cut paths. *)
From Coq Require Import List Arith Bool Lia Permutation Relations.
From Verif Require Import CutModel CutSpec CutProofs CutProps.
Import ListNotations.

Section Info.
Variable ends : nat -> nat * nat.
Variable psf : nat -> option nat * option nat.
Variable registry : list (nat * nat).
Variables cnt sm : nat.
Notation terminal := (terminal_vertices psf registry cnt).

Lemma terminal_lookup v : lookup terminal v = if Nat.ltb v cnt then None else match nth_error registry (v - cnt) with Some (e, _) => if is_border psf e then Some e else None | None => None end.
Proof.
  unfold terminal_vertices. assert (H : forall (r : list (nat * nat)) k, lookup (flat_map (fun p : nat * (nat * nat) => if is_border psf (fst (snd p)) then [(cnt + fst p, fst (snd p))] else []) (combine (List.seq k (length r)) r)) v =
    if Nat.ltb v (cnt + k) then None else match nth_error r (v - (cnt + k)) with Some (e, _) => if is_border psf e then Some e else None | None => None end).
  { induction r as [|[e f] r IH]; intros k; [cbn [length List.seq combine flat_map lookup]; destruct (v - (cnt + k)); destruct (Nat.ltb v (cnt + k)); reflexivity|].
    cbn [length List.seq combine flat_map fst snd]. specialize (IH (S k)). destruct (Nat.ltb_spec v (cnt + k)) as [L|L].
    - destruct (Nat.ltb_spec v (cnt + S k)) as [_|L']; [|lia]. destruct (is_border psf e); cbn [app lookup]; [|exact IH]. destruct (Nat.eqb_spec v (cnt + k)); [lia|exact IH].
    - destruct (Nat.eq_dec v (cnt + k)) as [->|D].
      + rewrite Nat.sub_diag. cbn [nth_error]. destruct (is_border psf e); cbn [app lookup]; [rewrite Nat.eqb_refl; reflexivity|]. rewrite IH. destruct (Nat.ltb_spec (cnt + k) (cnt + S k)); [reflexivity|lia].
      + replace (v - (cnt + k)) with (S (v - (cnt + S k))) by lia. cbn [nth_error]. destruct (Nat.ltb_spec v (cnt + S k)) as [L'|L']; [lia|]. destruct (is_border psf e); cbn [app lookup]; [|exact IH]. destruct (Nat.eqb_spec v (cnt + k)); [lia|exact IH]. }
  specialize (H registry 0). rewrite Nat.add_0_r in H. exact H.
Qed.
Lemma entry_terminal v pe pf : entry cnt registry v (pe, pf) -> lookup terminal v = if is_border psf pe then Some pe else None.
Proof.
  intros (i & -> & E). rewrite terminal_lookup. destruct (Nat.ltb_spec (cnt + i) cnt); [lia|]. replace (cnt + i - cnt) with i by lia. rewrite E. reflexivity.
Qed.
Lemma border_iff pe : (exists f, fst (psf pe) = Some f \/ snd (psf pe) = Some f) -> is_border psf pe = true <-> border_edge psf pe.
Proof.
  unfold is_border, border_edge. intros (f & F). destruct (psf pe) as [[x|] [y|]]; cbn in F; split; intros H; try reflexivity; try discriminate; try (destruct F; discriminate).
  - destruct H as (z & [H|H]); discriminate.
  - exists x. left. reflexivity.
  - exists y. right. reflexivity.
Qed.

Section Path.
Variable edges : list nat.
Hypothesis G : curves ends edges.
Hypothesis R : recorded ends psf cnt registry edges.

Lemma terminal_iff e v : In e edges -> meets ends e v -> mem terminal v = true <-> length (incident ends edges v) = 1.
Proof.
  intros I M. destruct (R e v I M) as (pe & pf & E & F & D). rewrite mem_In, <- lookup_mem, (entry_terminal v pe pf E), D, <- (border_iff pe F).
  destruct (is_border psf pe); split; try reflexivity; try discriminate; [exists pe; reflexivity|intros [a X]; discriminate].
Qed.
Lemma from_src e v : In e edges -> meets ends e v -> length (incident ends edges v) = 1 -> exists b, from_src_mesh psf registry cnt sm v = Some b /\ (b = true <-> on_source psf sm cnt registry v).
Proof.
  intros I M L. destruct (R e v I M) as (pe & pf & E & F & D). apply D in L. unfold from_src_mesh. rewrite (entry_terminal v pe pf E). rewrite (proj2 (border_iff pe F) L). cbn [bind].
  assert (U : forall f, (psf pe = (Some f, None) \/ psf pe = (None, Some f)) -> on_source psf sm cnt registry v <-> f < sm).
  { intros f K. split.
    - intros (pe' & pf' & E' & g & Fg & Lg). destruct E as (i & -> & E), E' as (j & Ej & E'). assert (i = j) by lia. subst j. rewrite E in E'. injection E' as <- <-. destruct K as [K|K]; rewrite K in Fg; cbn in Fg; destruct Fg as [Fg|Fg]; try discriminate; injection Fg as <-; exact Lg.
    - intros Lf. exists pe, pf. split; [exact E|]. exists f. split; [|exact Lf]. destruct K as [K|K]; rewrite K; auto. }
  unfold ps_is_cutmesh_face. destruct L as (f & K). specialize (U f K). exists (negb (Nat.leb sm f)). split; [destruct K as [K|K]; rewrite K; reflexivity|]. rewrite U. rewrite negb_true_iff, Nat.leb_gt. reflexivity.
Qed.

Lemma inner_not_terminal ws1 v ws2 s : chain ends (ws1 ++ v :: ws2) s -> ws1 <> [] -> ws2 <> [] -> incl s edges -> NoDup s -> mem terminal v = false.
Proof.
  intros C N1 N2 I N. destruct (chain_inner ends _ _ _ _ C N1 N2) as (s1 & x & y & s2 & E & Mx & My).
  assert (Ix : In x edges) by (apply I; rewrite E; apply in_or_app; right; left; reflexivity). assert (Iy : In y edges) by (apply I; rewrite E; apply in_or_app; right; right; left; reflexivity).
  destruct (mem terminal v) eqn:MT; [|reflexivity]. exfalso. apply (terminal_iff x v Ix Mx) in MT. pose proof (degree1 ends edges v x y MT Ix Iy Mx My) as ->. rewrite E in N. apply NoDup_remove_2 in N. apply N, in_or_app. right. left. reflexivity.
Qed.

Lemma properties_closed s a ws : closed_curve ends s a ws -> incl s edges -> NoDup s -> properties ends psf registry cnt sm s = Some (false, true, true).
Proof.
  intros CC I N. pose proof (closed_ends ends s a ws CC N) as (x & s' & y & E & Mx & My). destruct CC as (C & NW & K).
  assert (T : forall v, In v (a :: ws) -> mem terminal v = false).
  { intros v [<-|Iv].
    - assert (Ix : In x edges) by (apply I; rewrite E; left; reflexivity). assert (Iy : In y edges) by (apply I; rewrite E; right; apply in_or_app; right; left; reflexivity).
      destruct (mem terminal a) eqn:MT; [|reflexivity]. exfalso. apply (terminal_iff x a Ix Mx) in MT. pose proof (degree1 ends edges a x y MT Ix Iy Mx My) as ->. rewrite E in N. inversion_clear N as [|? ? Z _]. apply Z, in_or_app. right. left. reflexivity.
    - destruct (in_split _ _ Iv) as (l1 & l2 & ->). apply (inner_not_terminal (a :: l1) v (l2 ++ [a]) s); auto; [|discriminate|destruct l2; discriminate]. cbn [app]. rewrite <- app_assoc in C. exact C. }
  assert (TV : forall v, meets ends x v -> mem terminal v = false).
  { intros v Mv. apply T. assert (Iv : In v (a :: ws ++ [a])) by (eapply chain_vertex; [exact C|rewrite E; left; reflexivity|exact Mv]). destruct Iv as [<-|Iv]; [left; reflexivity|]. apply in_app_or in Iv. destruct Iv as [Iv|[<-|[]]]; [right; exact Iv|left; reflexivity]. }
  rewrite E. unfold properties. rewrite (TV (v0 ends x)) by (left; reflexivity). rewrite (TV (v1 ends x)) by (right; reflexivity). reflexivity.
Qed.

Lemma properties_open s a ws b : open_curve ends edges s a ws b -> incl s edges -> NoDup s ->
  exists hole severing, properties ends psf registry cnt sm s = Some (true, hole, severing) /\
    (hole = true <-> ~ on_source psf sm cnt registry a /\ ~ on_source psf sm cnt registry b) /\
    (severing = true <-> on_source psf sm cnt registry a /\ on_source psf sm cnt registry b).
Proof.
  intros (C & NW & La & Lb) I N.
  destruct s as [|x s]; [destruct ws; destruct C|]. assert (Ix : In x edges) by (apply I; left; reflexivity).
  destruct (exists_last (l := x :: s)) as (s' & y & Ey); [discriminate|]. assert (Iy : In y edges) by (apply I; rewrite Ey; apply in_elt).
  assert (Ma : meets ends x a) by (destruct ws; apply (joins_meets _ _ _ _ (proj1 C))).
  assert (Mb : meets ends y b). { destruct (exists_last (l := a :: ws)) as (l & z & E); [discriminate|]. change (a :: ws ++ [b]) with ((a :: ws) ++ [b]) in C. rewrite E, <- app_assoc in C. destruct (chain_last _ _ _ _ _ C) as (s2 & y2 & E2 & J). rewrite Ey in E2. apply app_inj_tail in E2. destruct E2 as [_ <-]. apply (joins_meets _ _ _ _ J). }
  destruct (from_src x a Ix Ma La) as (ba & Ea & Sa). destruct (from_src y b Iy Mb Lb) as (bb & Eb & Sb).
  assert (Ta : mem terminal a = true) by (apply (terminal_iff x a Ix Ma); exact La). assert (Tb : mem terminal b = true) by (apply (terminal_iff y b Iy Mb); exact Lb).
  assert (LAST : last (x :: s) x = y) by (rewrite Ey; apply last_last).
  assert (FIN : forall p q, (p = ba /\ q = bb) \/ (p = bb /\ q = ba) -> exists hole severing, Some (true, negb q && negb p, p && q) = Some (true, hole, severing) /\
    (hole = true <-> ~ on_source psf sm cnt registry a /\ ~ on_source psf sm cnt registry b) /\ (severing = true <-> on_source psf sm cnt registry a /\ on_source psf sm cnt registry b)).
  { intros p q PQ. eexists _, _. split; [reflexivity|]. rewrite <- Sa, <- Sb. destruct PQ as [[-> ->]|[-> ->]]; destruct ba, bb; cbn; intuition discriminate. }
  destruct ws as [|w ws].
  - (* a single edge *)
    destruct s as [|z s]; [|destruct C as [_ C]; destruct C]. cbn in C. destruct C as [J _]. assert (EY : y = x) by (destruct s' as [|? s']; cbn in Ey; [congruence|destruct s'; discriminate]). clear LAST. subst y.
    unfold properties. cbn [last]. rewrite Nat.eqb_refl. pose proof J as J'. unfold CutModel.v0, CutModel.v1. destruct J as [J|J]; rewrite J; cbn [fst snd].
    + rewrite Ta. cbn [negb]. rewrite Ea. cbn [bind]. rewrite Nat.eqb_refl, Eb. cbn [bind]. apply FIN. auto.
    + rewrite Tb. cbn [negb]. rewrite Eb. cbn [bind]. rewrite Nat.eqb_refl, Ea. cbn [bind]. apply FIN. auto.
  - assert (Jx : joins ends x a w) by apply C.
    assert (Tw : mem terminal w = false) by (apply (inner_not_terminal [a] w (ws ++ [b]) (x :: s)); auto; [discriminate|destruct ws; discriminate]).
    destruct (exists_last (l := w :: ws)) as (l & z & E); [discriminate|]. 
    assert (C2 : chain ends ((a :: l) ++ [z; b]) (x :: s)). { cbn [app] in C |- *. rewrite app_comm_cons, E, <- app_assoc in C. exact C. }
    destruct (chain_last _ _ _ _ _ C2) as (s2 & y2 & E2 & Jy). rewrite Ey in E2. apply app_inj_tail in E2. destruct E2 as [_ <-].
    assert (Tz : mem terminal z = false) by (apply (inner_not_terminal (a :: l) z [b] (x :: s)); auto; discriminate).
    assert (Dxy : Nat.eqb y x = false).
    { apply Nat.eqb_neq. intros ->. assert (Z : meets ends x a /\ meets ends x w) by (apply (joins_meets _ _ _ _ Jx)). destruct (joins_only _ _ _ _ a Jy (proj1 Z)) as [-> | ->]; [congruence|]. cbn in NW. inversion_clear NW as [|? ? NI _]. apply NI. apply in_cons. apply in_or_app. right. left. reflexivity. }
    unfold properties. rewrite LAST, Dxy.
    assert (F1 : (if mem terminal (v0 ends x) then true else mem terminal (v1 ends x)) = true /\ (if mem terminal (v0 ends x) then v0 ends x else v1 ends x) = a).
    { unfold CutModel.v0, CutModel.v1. destruct Jx as [J|J]; rewrite J; cbn [fst snd]; [rewrite Ta; auto|rewrite Tw, Ta; auto]. }
    assert (F2 : (if mem terminal (v0 ends y) then v0 ends y else v1 ends y) = b).
    { unfold CutModel.v0, CutModel.v1. destruct Jy as [J|J]; rewrite J; cbn [fst snd]; [rewrite Tz; auto|rewrite Tb; auto]. }
    destruct F1 as [F1 F1']. rewrite F1, F1', F2. cbn [negb]. rewrite Ea. cbn [bind]. rewrite Eb. cbn [bind]. apply FIN. auto.
Qed.
End Path.
End Info.
