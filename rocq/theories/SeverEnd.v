(** The polygons of m1. *)
From Coq Require Import List Arith Bool Lia.
From Verif Require Import CutModel ClipModel PatchModel SeverModel SeverSpec SeverProofs SeverWalk.
Import ListNotations.

(** ** Lists *)
Lemma all_nth {A B} (f : A -> option B) l r : all f l = Some r -> length r = length l /\ forall k y, nth_error r k = Some y -> exists x, nth_error l k = Some x /\ f x = Some y.
Proof.
  revert r. induction l as [|x l IH]; cbn; intros r E; [injection E as <-; split; [reflexivity|intros [|k]; discriminate]|].
  destruct (f x) as [y|] eqn:F; [|discriminate]. destruct (all f l) as [r'|]; [|discriminate]. cbn in E. injection E as <-. destruct (IH r' eq_refl) as [L N]. split; [cbn; congruence|].
  intros [|k] z; cbn; [intros Q; injection Q as <-; exists x; auto|apply N].
Qed.
Lemma all_app {A B} (f : A -> option B) l l' r r' : all f l = Some r -> all f l' = Some r' -> all f (l ++ l') = Some (r ++ r').
Proof.
  revert r. induction l as [|x l IH]; cbn; intros r E E'; [injection E as <-; exact E'|]. destruct (f x); [|discriminate]. destruct (all f l) as [q|]; [|discriminate]. cbn in *. injection E as <-. rewrite (IH q); auto.
Qed.
Lemma all_concat {A B} (f : A -> option B) ls rs : all (all f) ls = Some rs -> all f (concat ls) = Some (concat rs).
Proof.
  revert rs. induction ls as [|l ls IH]; cbn; intros rs E; [injection E as <-; reflexivity|]. destruct (all f l) as [r|] eqn:F; [|discriminate]. destruct (all (all f) ls) as [q|]; [|discriminate]. cbn in E. injection E as <-. cbn. apply all_app; auto.
Qed.
Lemma all_NoDup {A B} (f : A -> option B) l r : all f l = Some r -> NoDup l -> (forall x y b, In x l -> In y l -> f x = Some b -> f y = Some b -> x = y) -> NoDup r.
Proof.
  intros E N J. destruct (all_nth f l r E) as [L P]. rewrite NoDup_nth_error in *. intros i j I Q. destruct (nth_error r i) as [b|] eqn:Ei; [|apply nth_error_None in Ei; lia]. symmetry in Q.
  destruct (P _ _ Ei) as (x & X & Fx). destruct (P _ _ Q) as (y & Y & Fy). apply N; [lia|]. rewrite X, Y. f_equal. eapply J; eauto using nth_error_In.
Qed.
Lemma lookup_app {A} (m m' : list (nat * A)) k : lookup (m ++ m') k = match lookup m k with Some a => Some a | None => lookup m' k end.
Proof. induction m as [|[k' a] m IH]; cbn; [reflexivity|]. destruct (Nat.eqb k k'); auto. Qed.

Section Class0.
Variable seg : nat -> nat * nat.
Variable cnt : nat.
Notation src := (src seg).
Notation tgt := (tgt seg).
Definition lsrc (l : list (nat * nat)) : nat -> nat := ClipModel.src (fun e => nth e l (0, 0)).
Definition ltgt (l : list (nat * nat)) : nat -> nat := ClipModel.tgt (fun e => nth e l (0, 0)).
Record copied (r : list (nat * nat) * list (nat * nat)) (k : nat) : Prop := {
  c_range : forall h m, lookup (snd r) h = Some m -> edge h < k /\ edge m < length (fst r);
  c_ends : forall h m, lookup (snd r) h = Some m -> lsrc (fst r) m = src h /\ ltgt (fst r) m = tgt h;
  c_plain : forall h m, lookup (snd r) h = Some m -> ihalfedge seg cnt h = false;
  c_opp : forall h m, lookup (snd r) h = Some m -> lookup (snd r) (opp h) = Some (opp m);
  c_inj : forall h m h' m', lookup (snd r) h = Some m -> lookup (snd r) h' = Some m' -> edge m = edge m' -> edge h = edge h' }.
Lemma ends_app l x m : edge m < length l -> lsrc (l ++ [x]) m = lsrc l m /\ ltgt (l ++ [x]) m = ltgt l m.
Proof. intros L. unfold lsrc, ltgt, ClipModel.tgt, ClipModel.src. rewrite edge_opp, app_nth1 by exact L. auto. Qed.
Lemma ends_last l a b : lsrc (l ++ [(a, b)]) (2 * length l) = a /\ ltgt (l ++ [(a, b)]) (2 * length l) = b /\ lsrc (l ++ [(a, b)]) (2 * length l + 1) = b /\ ltgt (l ++ [(a, b)]) (2 * length l + 1) = a.
Proof. rewrite <- opp_double. unfold ltgt, lsrc, ClipModel.tgt. rewrite sopp_opp. unfold ClipModel.src. rewrite even_opp, edge_opp, edge_double, even_double, app_nth2, Nat.sub_diag by lia. auto. Qed.
Lemma copy_step r k : copied r k -> copied (copy_edge seg cnt r k) (S k).
Proof.
  intros [C1 C2 C3 C4 C5]. unfold copy_edge. destruct (ivtx cnt (tgt (2 * k)) || ivtx cnt (src (2 * k))) eqn:X.
  { constructor; auto. intros h m E. destruct (C1 h m E). split; lia. }
  assert (T : tgt (2 * k) = src (2 * k + 1)) by (rewrite <- opp_double; reflexivity). assert (T' : tgt (2 * k + 1) = src (2 * k)) by (rewrite <- opp_double; unfold ClipModel.tgt; rewrite sopp_opp; reflexivity).
  set (len := length (fst r)). rewrite opp_double.
  assert (FR : forall h, edge h = k -> lookup (snd r) h = None). { intros h E. destruct (lookup (snd r) h) as [m|] eqn:Q; [|reflexivity]. destruct (C1 h m Q). lia. }
  assert (EK : edge (2 * k) = k /\ edge (2 * k + 1) = k). { split; [apply edge_double|rewrite <- opp_double, edge_opp; apply edge_double]. } destruct EK as [EK1 EK2].
  assert (EL : edge (2 * len) = len /\ edge (2 * len + 1) = len). { split; [apply edge_double|rewrite <- opp_double, edge_opp; apply edge_double]. } destruct EL as [EL1 EL2].
  destruct (ends_last (fst r) (tgt (2 * k)) (src (2 * k))) as (N1 & N2 & N3 & N4). fold len in N1, N2, N3, N4.
  (* the two new entries, in either order *)
  assert (G : exists x y, ((x = 2 * k + 1 /\ y = 2 * k) \/ (x = 2 * k /\ y = 2 * k + 1)) /\ src x = tgt (2 * k) /\ tgt x = src (2 * k) /\ src y = src (2 * k) /\ tgt y = tgt (2 * k) /\
    (if Nat.eqb (src (2 * k)) (tgt (2 * k)) then snd r ++ [(2 * k, 2 * len); (2 * k + 1, 2 * len + 1)] else snd r ++ [(2 * k + 1, 2 * len); (2 * k, 2 * len + 1)]) = snd r ++ [(x, 2 * len); (y, 2 * len + 1)]).
  { destruct (Nat.eqb_spec (src (2 * k)) (tgt (2 * k))) as [E|E]; [exists (2 * k), (2 * k + 1)|exists (2 * k + 1), (2 * k)]; repeat split; auto; try congruence. }
  destruct G as (x & y & XY & X1 & X2 & Y1 & Y2 & ->).
  assert (OX : opp x = y /\ opp y = x). { destruct XY as [[-> ->]|[-> ->]]; rewrite <- opp_double, sopp_opp; auto. }
  assert (EX : edge x = k /\ edge y = k). { destruct XY as [[-> ->]|[-> ->]]; auto. } destruct EX as [EX EY].
  assert (XNY : x <> y) by (destruct XY as [[-> ->]|[-> ->]]; lia).
  assert (L : forall h m, lookup (snd r ++ [(x, 2 * len); (y, 2 * len + 1)]) h = Some m <-> lookup (snd r) h = Some m \/ (h = x /\ m = 2 * len) \/ (h = y /\ m = 2 * len + 1)).
  { intros h m. rewrite lookup_app. cbn [lookup]. destruct (lookup (snd r) h) as [m'|] eqn:Q.
    - split; [auto|]. intros [E|[[-> _]|[-> _]]]; [exact E| |]; rewrite FR in Q by assumption; discriminate.
    - destruct (Nat.eqb_spec h x) as [->|D]; [|destruct (Nat.eqb_spec h y) as [->|D']].
      + split; [intros E; injection E as <-; auto|intros [E|[[_ ->]|[E _]]]; [discriminate|reflexivity|destruct (XNY E)]].
      + split; [intros E; injection E as <-; auto|intros [E|[[E _]|[_ ->]]]; [discriminate|congruence|reflexivity]].
      + split; [discriminate|]. intros [E|[[E _]|[E _]]]; congruence. }
  assert (LEN : length (fst r ++ [(tgt (2 * k), src (2 * k))]) = S len) by (rewrite app_length; cbn; unfold len; lia).
  constructor; cbn [fst snd]; rewrite ?LEN.
  - intros h m E. apply L in E. destruct E as [E|[[-> ->]|[-> ->]]]; [destruct (C1 _ _ E) as [K1 K2]; fold len in K2; split; lia|split; lia|split; lia].
  - intros h m E. apply L in E. destruct E as [E|[[-> ->]|[-> ->]]].
    + destruct (ends_app (fst r) (tgt (2 * k), src (2 * k)) m (proj2 (C1 _ _ E))) as [-> ->]. auto.
    + rewrite N1, N2. auto.
    + rewrite N3, N4. auto.
  - intros h m E. apply L in E. apply orb_false_iff in X. destruct X as [XA XB]. destruct E as [E|[[-> ->]|[-> ->]]]; [eauto| |]; unfold ihalfedge; rewrite ?X1, ?X2, ?Y1, ?Y2, XA, XB; reflexivity.
  - intros h m E. apply L in E. apply L. destruct OX as [OX OY]. destruct E as [E|[[-> ->]|[-> ->]]]; [left; eauto| |].
    + right. right. rewrite opp_double. auto.
    + right. left. rewrite <- opp_double, sopp_opp. auto.
  - intros h m h' m' E E' Q. apply L in E. apply L in E'. destruct E as [E|[[-> ->]|[-> ->]]], E' as [E'|[[-> ->]|[-> ->]]]; rewrite ?EX, ?EY, ?EL1, ?EL2 in *; auto; try congruence; try (eapply C5; eassumption).
    + pose proof (proj2 (C1 _ _ E)) as K2. fold len in K2. lia.
    + pose proof (proj2 (C1 _ _ E)) as K2. fold len in K2. lia.
    + pose proof (proj2 (C1 _ _ E')) as K2. fold len in K2. lia.
    + pose proof (proj2 (C1 _ _ E')) as K2. fold len in K2. lia.
Qed.
Lemma copied_all n : copied (copied_edges seg cnt n) n.
Proof.
  unfold copied_edges. assert (G : forall k r a, copied r a -> copied (fold_left (copy_edge seg cnt) (seq a k) r) (a + k)).
  { induction k as [|k IH]; cbn [seq fold_left]; intros r a C; [rewrite Nat.add_0_r; exact C|]. replace (a + S k) with (S a + k) by lia. apply IH, copy_step, C. }
  apply (G n _ 0). constructor; cbn; discriminate.
Qed.
End Class0.

Section End_.
Variable polygons : list (list nat).
Variable sm_count c : nat.
Variable seg : nat -> nat * nat.
Variable registry : list (nat * nat).
Variable cnt : nat.
Variables (sm_vtx_cnt sm_face_count : nat).
Variable psf : nat -> option nat * option nat.
Variables (vertices edges : nat).
Variable incoming : list (nat * list nat).
Variable shuffle : list nat -> list nat.
Notation src := (src seg).
Notation tgt := (tgt seg).
Notation sources := (sources polygons sm_count).
Notation cross := (fun v => cnt <= v).
Notation cut := (fun h => h < 2 * c).
Hypothesis OK : sever_input src tgt cross cut vertices (2 * edges) sources (skipn sm_count polygons) (fun v => sm_vtx_cnt <= v) incoming.
Hypothesis SH : forall l h, In h (shuffle l) <-> In h l.
Notation side := (side sources).
Notation linked := (linked polygons sm_count).
Notation n0 := (length (fst (copied_edges seg cnt edges))).

Section State.
Variable s : state.
Hypothesis I : inv polygons sm_count c seg cnt vertices edges s None.
Notation mapped := (mapped seg cnt edges s).
Lemma class0_ends m : edge m < n0 -> msrc s m = lsrc (fst (copied_edges seg cnt edges)) m /\ mtgt s m = ltgt (fst (copied_edges seg cnt edges)) m.
Proof.
  intros L. assert (E : mseg s (edge m) = nth (edge m) (fst (copied_edges seg cnt edges)) (0, 0)).
  { unfold mseg. rewrite <- (i_first _ _ _ _ _ _ _ _ _ I). rewrite <- (firstn_skipn n0 (medges s)) at 1. apply app_nth1. rewrite (i_first _ _ _ _ _ _ _ _ _ I). exact L. }
  unfold msrc, mtgt, lsrc, ltgt, ClipModel.tgt, ClipModel.src. rewrite edge_opp, E. auto.
Qed.
Lemma not_crossing h : ihalfedge seg cnt h = false -> ~ cross (src h) /\ ~ cross (tgt h).
Proof. unfold ihalfedge. intros E. apply orb_false_iff in E. destruct E as [A B]. split; apply ivtx_not; assumption. Qed.
Lemma mapped_place h m : side h -> mapped h = Some m -> place seg cnt s h (msrc s m) (mtgt s m).
Proof.
  intros S E. unfold SeverModel.mapped in E. destruct (ihalfedge seg cnt h) eqn:H; [apply (i_he _ _ _ _ _ _ _ _ _ I _ _ E)|].
  pose proof (copied_all seg cnt edges) as C. destruct (class0_ends m (proj2 (c_range _ _ _ _ C _ _ E))) as [-> ->]. destruct (c_ends _ _ _ _ C _ _ E) as [-> ->].
  destruct (si_range _ _ _ _ _ _ _ _ _ _ OK _ S) as (R1 & R2 & _). repeat split; auto; apply (i_copy _ _ _ _ _ _ _ _ _ I); assumption.
Qed.
Lemma mapped_edge h m h' m' : side h -> mapped h = Some m -> mapped h' = Some m' -> edge m = edge m' -> h' = h \/ (h' = opp h /\ ~ cut h).
Proof.
  intros S E E' Q. unfold SeverModel.mapped in *. pose proof (copied_all seg cnt edges) as C. destruct (ihalfedge seg cnt h) eqn:H, (ihalfedge seg cnt h') eqn:H'.
  - exact (i_edge _ _ _ _ _ _ _ _ _ I _ _ _ _ E E' Q).
  - exfalso. destruct (i_he _ _ _ _ _ _ _ _ _ I _ _ E) as (_ & _ & _ & L & _). pose proof (proj2 (c_range _ _ _ _ C _ _ E')). lia.
  - exfalso. destruct (i_he _ _ _ _ _ _ _ _ _ I _ _ E') as (_ & _ & _ & L & _). pose proof (proj2 (c_range _ _ _ _ C _ _ E)). lia.
  - pose proof (c_inj _ _ _ _ C _ _ _ _ E E' Q) as G. destruct (same_edge h' h (eq_sym G)) as [-> | ->]; [left; reflexivity|right; split; [reflexivity|]].
    intros K. apply (not_crossing h H). apply (si_curve _ _ _ _ _ _ _ _ _ _ OK _ S K).
Qed.
Lemma mapped_opp h m : mapped h = Some m -> ~ cut h -> side (opp h) -> mapped (opp h) = Some (opp m).
Proof.
  intros E U S. unfold SeverModel.mapped in *. assert (HO : ihalfedge seg cnt (opp h) = ihalfedge seg cnt h). { unfold ihalfedge, ClipModel.tgt. rewrite sopp_opp. apply orb_comm. }
  rewrite HO. destruct (ihalfedge seg cnt h); [exact (i_pair _ _ _ _ _ _ _ _ _ I _ _ E U S)|]. exact (c_opp _ _ _ _ (copied_all seg cnt edges) _ _ E).
Qed.
Lemma mapped_join a b m n : linked a b -> mapped a = Some m -> mapped b = Some n -> mtgt s m = msrc s n.
Proof.
  intros L A B. destruct (linked_sides _ _ _ _ L) as [Sa Sb]. destruct (le_lt_dec cnt (tgt a)) as [X|X].
  - unfold SeverModel.mapped in *. assert (Ha : ihalfedge seg cnt a = true). { unfold ihalfedge. apply orb_true_iff. right. apply ivtx_iff, X. }
    assert (Hb : ihalfedge seg cnt b = true). { unfold ihalfedge. apply orb_true_iff. left. apply ivtx_iff. rewrite <- (linked_ends _ _ _ _ _ _ _ _ _ OK _ _ L). exact X. }
    rewrite Ha in A. rewrite Hb in B. exact (i_join _ _ _ _ _ _ _ _ _ I _ _ _ _ A B L).
  - destruct (mapped_place _ _ Sa A) as (_ & _ & _ & P). destruct (mapped_place _ _ Sb B) as (_ & _ & Q & _). pose proof (linked_ends _ _ _ _ _ _ _ _ _ OK _ _ L) as E. rewrite P, Q; [exact E|rewrite <- E; cbv beta; lia|cbv beta; lia].
Qed.
Lemma mapped_inj h h' m : side h -> side h' -> mapped h = Some m -> mapped h' = Some m -> h = h'.
Proof.
  intros S S' E E'. destruct (mapped_edge _ _ _ _ S E E' eq_refl) as [->|[-> U]]; [reflexivity|]. pose proof (mapped_opp _ _ E U S') as Q. rewrite Q in E'. injection E' as E'. destruct (opp_ne m E').
Qed.
End State.

Theorem severed_output fuel s ps : severed polygons sm_count (2 * c) seg registry cnt sm_vtx_cnt sm_face_count psf vertices edges incoming shuffle fuel = Some (s, ps) ->
  sever_output src tgt cross cut sources (nth_error (copies s)) (msrc s) (mtgt s) ps.
Proof.
  unfold severed. intros E. destruct (partition _ _ _ _ _ _ _ _ _ _ _ _ _ _) as [s'|] eqn:P; [|discriminate]. cbn [bind] in E. destruct (all _ sources) as [ps'|] eqn:A; [|discriminate]. cbn [bind] in E. injection E as -> ->.
  apply (partition_inv _ _ _ _ _ _ _ _ _ _ _ _ _ OK SH) in P.
  destruct (all_nth _ _ _ A) as [LA NA].
  assert (B : forall i k h m, becomes sources ps i k h m -> side h /\ mapped seg cnt edges s h = Some m).
  { intros i k h m (p & q & Ep & Eq & Eh & Em). destruct (NA _ _ Eq) as (p' & Ep' & Q). assert (p' = p) by congruence. subst p'. destruct (all_nth _ _ _ Q) as [_ NQ]. destruct (NQ _ _ Em) as (h' & Eh' & M). assert (h' = h) by congruence. subst h'.
    split; [exists p; split; eapply nth_error_In; eassumption|exact M]. }
  constructor.
  - clear -A. revert ps A. induction sources as [|p l IH]; cbn; intros ps A; [injection A as <-; reflexivity|]. destruct (all _ p) as [q|] eqn:Q; [|discriminate]. destruct (all _ l) as [r|]; [|discriminate]. cbn in A. injection A as <-. cbn. rewrite (IH r eq_refl). f_equal. apply (all_nth _ _ _ Q).
  - intros i k h m X. destruct (B _ _ _ _ X) as [S M]. destruct (mapped_place s P h m S M) as (Q1 & Q2 & Q3 & Q4). auto.
  - intros q x y J (k & X & Y). apply In_nth_error in J. destruct J as [i J]. destruct (NA _ _ J) as (p & Ep & Q). destruct (all_nth _ _ _ Q) as [LQ NQ]. destruct (NQ _ _ X) as (a & Ea & Ma). destruct (NQ _ _ Y) as (b & Eb & Mb).
    apply (mapped_join s P a b); auto. exists p. split; [eapply nth_error_In, Ep|]. exists k. rewrite <- LQ. auto.
  - eapply all_NoDup; [apply all_concat, A|apply (si_once _ _ _ _ _ _ _ _ _ _ OK)|]. intros x y m X Y Mx My. apply concat_In in X. apply concat_In in Y. eapply mapped_inj; eauto.
  - intros i k h m i' k' h' m' X X'. destruct (B _ _ _ _ X) as [S M]. destruct (B _ _ _ _ X') as [S' M']. rewrite !reverse_opp. split.
    + intros ->. assert (Q : edge m = edge (opp m)) by (rewrite edge_opp; reflexivity). destruct (mapped_edge s P _ _ _ _ S M M' Q) as [->|R]; [|exact R]. rewrite M in M'. injection M' as M'. destruct (opp_ne m (eq_sym M')).
    + intros [-> U]. pose proof (mapped_opp s P _ _ M U S') as Q. congruence.
Qed.

(** the intersection points *)
Hypothesis PT : sever_points src tgt cross cut sources (fun v => sm_vtx_cnt <= v) incoming (cut_edge_at registry cnt sm_face_count psf).
Hypothesis PO : sever_mouths src tgt cross cut sources.
Lemma all_some {A B} (f : A -> option B) l r k x : all f l = Some r -> nth_error l k = Some x -> exists y, f x = Some y.
Proof.
  revert r k. induction l as [|z l IH]; intros r [|k] E N; try discriminate; cbn in E, N; destruct (f z) as [y|] eqn:F; try discriminate; cbn in E; destruct (all f l) as [r'|] eqn:R; try discriminate.
  - injection N as <-. eauto.
  - eapply IH; eauto.
Qed.
Theorem severed_apart fuel s ps : severed polygons sm_count (2 * c) seg registry cnt sm_vtx_cnt sm_face_count psf vertices edges incoming shuffle fuel = Some (s, ps) ->
  sever_apart tgt cross cut sources (mtgt s) ps.
Proof.
  unfold severed. intros E. destruct (partition _ _ _ _ _ _ _ _ _ _ _ _ _ _) as [s'|] eqn:P; [|discriminate]. cbn [bind] in E. destruct (all _ sources) as [ps'|] eqn:A; [|discriminate]. cbn [bind] in E. injection E as -> ->.
  pose proof P as SP. apply (partition_inv _ _ _ _ _ _ _ _ _ _ _ _ _ OK SH) in P. apply (partition_sep _ _ _ _ _ _ _ _ _ _ _ _ _ OK SH PT PO) in SP.
  destruct (all_nth _ _ _ A) as [LA NA].
  assert (B : forall i k h m, becomes sources ps i k h m -> side h /\ mapped seg cnt edges s h = Some m).
  { intros i k h m (p & q & Ep & Eq & Eh & Em). destruct (NA _ _ Eq) as (p' & Ep' & Q). assert (p' = p) by congruence. subst p'. destruct (all_nth _ _ _ Q) as [_ NQ]. destruct (NQ _ _ Em) as (h' & Eh' & M). assert (h' = h) by congruence. subst h'.
    split; [exists p; split; eapply nth_error_In; eassumption|exact M]. }
  assert (T : forall h, side h -> exists m, mapped seg cnt edges s h = Some m).
  { intros h (p & Ip & Ih). apply In_nth_error in Ip. destruct Ip as [i Ip]. apply In_nth_error in Ih. destruct Ih as [k Ih]. destruct (all_some _ _ _ _ _ A Ip) as [q Q]. exact (all_some _ _ _ _ _ Q Ih). }
  assert (N : forall a a' m m', mapped seg cnt edges s a = Some m -> mapped seg cnt edges s a' = Some m' -> side a' -> beside cut sources a a' -> mtgt s m' = mtgt s m).
  { intros a a' m m' M M' S' (p & b & Ip & F & -> & U). rewrite reverse_opp in *. assert (L : linked a b) by (exists p; auto). destruct (T b (proj2 (linked_sides _ _ _ _ L))) as [n Nn].
    pose proof (mapped_opp s P _ _ Nn U S') as Q. rewrite Q in M'. injection M' as <-. rewrite (mapped_join s P a b m n L M Nn). unfold mtgt, msrc, ClipModel.tgt. rewrite sopp_opp. reflexivity. }
  intros i k a m i' k' a' m' X X' C. destruct (B _ _ _ _ X) as [S M]. destruct (B _ _ _ _ X') as [S' M']. split.
  - intros E. destruct (le_lt_dec cnt (tgt a')) as [C'|C'].
    + assert (AT : forall h n, cross (tgt h) -> mapped seg cnt edges s h = Some n -> at_ polygons sm_count seg cnt s h (mtgt s n)).
      { intros h n Ch Mh. split; [exact Ch|]. left. exists n. split; [|reflexivity]. unfold mapped, ihalfedge in Mh. rewrite (proj2 (ivtx_iff cnt _) Ch), orb_true_r in Mh. exact Mh. }
      pose proof (AT _ _ C M) as Q. pose proof (AT _ _ C' M') as Q'. rewrite E in Q'. destruct (s_same _ _ _ _ _ _ _ _ SP _ _ _ Q' Q) as [R|[(b & L & -> & U)|(b & L & -> & U)]]; [left; exact R| |].
      * right. right. destruct L as (p & Ip & F). exists p, b. rewrite reverse_opp. auto.
      * right. left. destruct L as (p & Ip & F). exists p, b. rewrite reverse_opp. auto.
    + exfalso. destruct (mapped_place s P a m S M) as (_ & Q & _). destruct (mapped_place s P a' m' S' M') as (_ & Q' & _). rewrite E in Q'. cbv beta in C. assert (tgt a = tgt a') by congruence. lia.
  - intros [->|[R|R]]; [congruence|apply (N a a' m m'); auto|symmetry; apply (N a' a m' m); auto].
Qed.
End End_.
