(** Proofs about CutModel: floating polygons. *)
From Coq Require Import List Arith Bool Lia Permutation Relations.
From Verif Require Import CutModel CutSpec CutProofs CutProps CutInfo.
Import ListNotations.

Section Float.
Variable ends : nat -> nat * nat.
Variable registry : list (nat * nat).
Variable cnt : nat.
Notation face := (registry_face registry cnt). Notation loop := (floating_loop ends registry cnt).
Notation v0 := (v0 ends). Notation v1 := (v1 ends). Notation meets := (meets ends). Notation joins := (joins ends). Notation incident := (incident ends). Notation chain := (chain ends).

Definition pick (e : nat) (prev : option nat) : nat := match prev with Some p => if Nat.eqb (v0 e) p then v1 e else v0 e | None => v0 e end.
Lemma pick_meets e prev : meets e (pick e prev).
Proof. unfold pick. destruct prev as [p|]; [destruct (Nat.eqb _ p); [right|left]; reflexivity|left; reflexivity]. Qed.
Lemma loop_true g : forall s ws prev, chain ws s -> (forall w, In w ws -> face w = Some g) -> loop s (Some g) prev = Some (true, Some g).
Proof.
  induction s as [|e s IH]; intros ws prev C F; [reflexivity|]. cbn [floating_loop]. fold (pick e prev). rewrite (F (pick e prev)) by (eapply chain_vertex; [exact C|left; reflexivity|apply pick_meets]). cbn [bind]. rewrite Nat.eqb_refl.
  destruct ws as [|a ws]; [destruct C|]. destruct ws as [|b ws]; [destruct C|]. destruct C as [_ C]. apply (IH (b :: ws)); [exact C|]. intros w I. apply F. right. exact I.
Qed.
Lemma far_all g : forall s a ws r, chain (a :: ws) s -> (forall e, In e s -> v0 e <> v1 e) -> loop s (Some g) (Some a) = Some (true, r) -> r = Some g /\ forall w, In w ws -> face w = Some g.
Proof.
  induction s as [|e s IH]; intros a ws r C D E.
  - destruct ws; [|destruct C]. injection E as <-. split; [reflexivity|intros w []].
  - destruct ws as [|b ws]; [destruct C|]. destruct C as [J C]. cbn [floating_loop] in E. fold (pick e (Some a)) in E. assert (P : pick e (Some a) = b).
    { unfold pick, CutModel.v0, CutModel.v1. pose proof (D e (or_introl eq_refl)) as De. unfold CutModel.v0, CutModel.v1 in De. destruct J as [J|J]; rewrite J in *; cbn [fst snd] in *; [rewrite Nat.eqb_refl; reflexivity|]. destruct (Nat.eqb_spec b a); congruence. }
    rewrite P in E. destruct (face b) as [f|] eqn:F; [|discriminate]. cbn [bind] in E. destruct (Nat.eqb_spec g f) as [->|]; [|discriminate].
    destruct (IH b ws r C (fun x I => D x (or_intror I)) E) as [R W]. split; [exact R|]. intros w [<-|I]; [exact F|apply W, I].
Qed.
Lemma near_most g : forall s ws prev r, chain ws s -> (forall e, In e s -> v0 e <> v1 e) -> loop s (Some g) prev = Some (true, r) -> r = Some g /\ exists x, forall w, In w ws -> w <> x -> face w = Some g.
Proof.
  induction s as [|e s IH]; intros ws prev r C D E.
  - destruct ws as [|a [|b ws]]; try (destruct C; fail). injection E as <-. split; [reflexivity|]. exists a. intros w [<-|[]] N. congruence.
  - destruct ws as [|a [|b ws]]; try (destruct C; fail). destruct C as [J C]. cbn [floating_loop] in E. fold (pick e prev) in E.
    pose proof (pick_meets e prev) as M. destruct (joins_only _ _ _ _ _ J M) as [P|P]; rewrite P in E.
    + destruct (face a) as [f|] eqn:F; [|discriminate]. cbn [bind] in E. destruct (Nat.eqb_spec g f) as [->|]; [|discriminate].
      destruct (IH (b :: ws) (Some a) r C (fun y I => D y (or_intror I)) E) as [R (x & X)]. split; [exact R|]. exists x. intros w [<-|I] N; [exact F|apply X; assumption].
    + destruct (face b) as [f|] eqn:F; [|discriminate]. cbn [bind] in E. destruct (Nat.eqb_spec g f) as [->|]; [|discriminate].
      destruct (far_all f s b ws r C (fun y I => D y (or_intror I)) E) as [R W]. split; [exact R|]. exists a. intros w [<-|[<-|I]] N; [congruence|exact F|apply W, I].
Qed.
Lemma loop_defined : forall s ws sh prev, chain ws s -> (forall w, In w ws -> exists f, face w = Some f) -> exists b r, loop s sh prev = Some (b, r) /\ (sh = None -> s <> [] -> b = true -> exists f, r = Some f).
Proof.
  induction s as [|e s IH]; intros ws sh prev C F; [exists true, sh; split; [reflexivity|congruence]|]. cbn [floating_loop]. fold (pick e prev).
  destruct (F (pick e prev)) as [f Ff]; [eapply chain_vertex; [exact C|left; reflexivity|apply pick_meets]|]. rewrite Ff. cbn [bind].
  destruct ws as [|a [|b ws]]; try (destruct C; fail). destruct C as [_ C]. assert (F' : forall w, In w (b :: ws) -> exists f, face w = Some f) by (intros w I; apply F; right; exact I).
  destruct sh as [g|].
  - destruct (Nat.eqb g f); [|exists false, (Some g); split; [reflexivity|discriminate]]. destruct (IH (b :: ws) (Some g) (Some (pick e prev)) C F') as (x & r & E & _). exists x, r. split; [exact E|discriminate].
  - destruct (IH (b :: ws) (Some f) (Some (pick e prev)) C F') as (x & r & E & _). exists x, r. split; [exact E|]. intros _ _ ->. 
    clear -E. exists f. revert E. generalize (Some (pick e prev)). induction s as [|y s IH]; intros prev' E; cbn in E; [injection E as <-; reflexivity|]. destruct (registry_face registry cnt _) as [h|]; [|discriminate]. cbn in E. destruct (Nat.eqb f h); [|discriminate]. exact (IH _ E).
Qed.

(** The test for one closed path *)
Lemma floating_closed s a ws : closed_curve ends s a ws -> (forall e, In e s -> v0 e <> v1 e) -> (forall w, In w (a :: ws) -> exists f, face w = Some f) ->
  (forall f v, In v (a :: ws) -> (forall w, In w (a :: ws) -> w <> v -> face w = Some f) -> face v = Some f) ->
  exists b r, loop s None None = Some (b, r) /\ (b = true -> exists f, r = Some f /\ forall w, In w (a :: ws) -> face w = Some f) /\ (forall f, (forall w, In w (a :: ws) -> face w = Some f) -> b = true /\ r = Some f).
Proof.
  intros (C & NW & K) D F EV.
  assert (SUB : forall w, In w (a :: ws ++ [a]) -> In w (a :: ws)). { intros w [<-|I]; [left; reflexivity|]. apply in_app_or in I. destruct I as [I|[<-|[]]]; [right; exact I|left; reflexivity]. }
  assert (F' : forall w, In w (a :: ws ++ [a]) -> exists f, face w = Some f) by (intros w I; apply F, SUB, I).
  destruct (loop_defined s _ None None C F') as (b & r & E & _). exists b, r. split; [exact E|].
  destruct s as [|e s]; [destruct ws; destruct C|]. cbn [floating_loop] in E. fold (pick e None) in E.
  assert (IP : In (pick e None) (a :: ws)) by (apply SUB; eapply chain_vertex; [exact C|left; reflexivity|apply pick_meets]). destruct (F _ IP) as [g Fg]. rewrite Fg in E. cbn [bind] in E.
  destruct ws as [|w0 ws]; [congruence|]. cbn [app] in C. destruct C as [J C]. split.
  - intros ->. 
    assert (X : exists x, r = Some g /\ forall w, In w (a :: (w0 :: ws) ++ [a]) -> w <> x -> face w = Some g).
    { destruct (joins_only _ _ _ _ _ J (pick_meets e None)) as [P|P].
      - destruct (near_most g s _ _ _ C (fun y I => D y (or_intror I)) E) as [R (x & X)]. exists x. split; [exact R|]. intros w [<-|I] N; [rewrite <- P; exact Fg|apply X; assumption].
      - rewrite P in E. destruct (far_all g s w0 (ws ++ [a]) r C (fun y I => D y (or_intror I)) E) as [R W]. exists a. split; [exact R|]. intros w [<-|[<-|I]] N; [congruence|rewrite <- P; exact Fg|apply W, I]. }
    destruct X as (x & -> & X). exists g. split; [reflexivity|].
    assert (Y : forall w, In w (a :: w0 :: ws) -> w <> x -> face w = Some g). { intros w I N. apply X; [|exact N]. destruct I as [<-|I]; [left; reflexivity|right; apply in_or_app; left; exact I]. }
    intros w I. destruct (Nat.eq_dec w x) as [->|N]; [apply EV; assumption|apply Y; assumption].
  - intros f A. assert (f = g) by (rewrite (A _ IP) in Fg; congruence). subst f. rewrite (loop_true g s (w0 :: ws ++ [a]) _ C) in E; [injection E as <- <-; split; reflexivity|]. intros w I. apply A, SUB. right. exact I.
Qed.

(** ** The polygon *)
Variable shuffle : list (nat * list nat) -> list (nat * list nat).
Hypothesis shuffled : forall m, Permutation (shuffle m) m.
Lemma chain_end_edge l c es e : chain (l ++ [c]) es -> NoDup (l ++ [c]) -> In e es -> meets e c -> exists es', es = es' ++ [e].
Proof.
  revert es. induction l as [|a l IH]; intros es C N I M.
  - destruct es; [destruct I|destruct C].
  - destruct es as [|x es]; [destruct I|]. destruct l as [|b l].
    + cbn in C. destruct C as [J C]. destruct es; [|destruct C]. destruct I as [->|[]]. exists []. reflexivity.
    + cbn [app] in *. destruct C as [J C]. inversion_clear N as [|? ? Na N']. destruct I as [->|I].
      * exfalso. destruct (joins_only _ _ _ _ _ J M) as [->|E]; [apply Na; right; apply in_or_app; right; left; reflexivity|]. subst c. inversion_clear N' as [|? ? Nb _]. apply Nb, in_or_app. right. left. reflexivity.
      * destruct (IH es C N' I M) as [es' ->]. exists (x :: es'). reflexivity.
Qed.
Lemma chain_hd_edge a ws e es : chain (a :: ws) (e :: es) -> meets e a.
Proof. intros C. destruct ws; [destruct C|]. apply (joins_meets _ _ _ _ (proj1 C)). Qed.

Section Ring.
Variable s : list nat.
Variables (a : nat) (ws : list nat).
Hypothesis CC : closed_curve ends s a ws.
Hypothesis CS : curves ends s.
Lemma ring_meets v : In v (a :: ws) <-> exists e, In e s /\ meets e v.
Proof.
  destruct CC as (C & NW & K). assert (NS : s <> []) by (intros ->; destruct ws; destruct C). split.
  - intros I. apply (chain_meets ends _ _ v C NS). destruct I as [<-|I]; [left; reflexivity|right; apply in_or_app; left; exact I].
  - intros (e & Ie & Me). pose proof (chain_vertex ends _ _ v e C Ie Me) as I. destruct I as [<-|I]; [left; reflexivity|]. apply in_app_or in I. destruct I as [I|[<-|[]]]; [right; exact I|left; reflexivity].
Qed.
Lemma ring_length : length s = length (a :: ws).
Proof. destruct CC as (C & _ & _). apply chain_length in C. cbn in *. rewrite app_length in C. cbn in C. lia. Qed.
Lemma ring_degree v e : In e s -> meets e v -> exists e', e' <> e /\ In e' s /\ meets e' v /\ (incident s v = [e; e'] \/ incident s v = [e'; e]).
Proof.
  intros I M. apply (two_of ends s CS e v I M). intros L.
  assert (Iv : In v (a :: ws)) by (apply ring_meets; exists e; auto). assert (NS : NoDup s) by apply CS.
  destruct Iv as [<-|Iv].
  - destruct (closed_ends ends s a ws CC NS) as (x & s' & y & E & Mx & My). assert (x = y) by (apply (degree1 ends s a x y L); auto; rewrite E; [left; reflexivity|right; apply in_or_app; right; left; reflexivity]). subst y. rewrite E in NS. inversion_clear NS as [|? ? Z _]. apply Z, in_or_app. right. left. reflexivity.
  - destruct CC as (C & NW & K). destruct (in_split _ _ Iv) as (l1 & l2 & E). rewrite E in C. rewrite <- app_assoc in C. destruct (chain_inner ends (a :: l1) v (l2 ++ [a]) s C ltac:(discriminate) ltac:(destruct l2; discriminate)) as (s1 & x & y & s2 & Es & Mx & My).
    assert (x = y) by (apply (degree1 ends s v x y L); auto; rewrite Es; apply in_or_app; right; cbn; auto). subst y. rewrite Es in NS. apply NoDup_remove_2 in NS. apply NS, in_or_app. right. left. reflexivity.
Qed.

(** once the chain has come back, it has used all edges *)
Lemma ring_all b ws' es : chain (b :: ws' ++ [b]) es -> incl es s -> NoDup es -> NoDup (b :: ws') -> ws' <> [] -> Permutation es s.
Proof.
  intros C I N NW NZ. apply NoDup_Permutation; [exact N|apply CS|]. intros x. split; [apply I|]. revert x.
  destruct es as [|e es]; [destruct ws'; destruct C|]. destruct CC as (C0 & _ & _). apply (chain_closed ends (fun x => In x (e :: es)) _ s C0).
  - intros x y v Ix Iy Mx My Ex. assert (Iv : In v (b :: ws')). { pose proof (chain_vertex ends _ _ v x C Ex Mx) as Iv. destruct Iv as [<-|Iv]; [left; reflexivity|]. apply in_app_or in Iv. destruct Iv as [Iv|[<-|[]]]; [right; exact Iv|left; reflexivity]. }
    apply (closed_full ends s CS (e :: es) b ws' v y (conj C (conj NW NZ)) I N Iv Iy My).
  - exists e. split; [apply I; left; reflexivity|left; reflexivity].
Qed.

Lemma polygon_loop_spec : forall fuel acc cur es, chain (acc ++ [cur]) es -> NoDup (acc ++ [cur]) -> incl es s -> NoDup es -> (exists e, In e s /\ meets e cur) -> length acc < length s -> length s < fuel + length acc ->
  (acc = [] \/ es <> []) ->
  exists p s', polygon_loop ends fuel (bins ends s) (length s) cur (match es with [] => None | x :: _ => Some (last es x) end) acc = Some p /\
   exists x l, p = x :: l /\ closed_curve ends s' x l /\ Permutation s' s.
Proof.
  induction fuel as [|fuel IH]; intros acc cur es C N I Ne MC LA FU SH; [cbn in FU; lia|].
  assert (D : forall e, In e s -> v0 e <> v1 e) by apply CS. destruct (bins_spec ends s D) as [_ BL].
  cbn [polygon_loop]. set (prev := match es with [] => None | x :: _ => Some (last es x) end).
  assert (LE : length es = length acc) by (apply chain_length in C; rewrite app_length in C; cbn in C; lia).
  (* the edge that leaves cur *)
  assert (X : exists e, In e s /\ meets e cur /\ ~ In e es /\ find (fun e => match prev with None => true | Some p => negb (Nat.eqb e p) end) (incident s cur) = Some e).
  { destruct MC as (e & Ie & Me). destruct (ring_degree cur e Ie Me) as (e' & D' & Ie' & Me' & INC). destruct es as [|x0 es0].
    - subst prev. destruct INC as [-> | ->]; [exists e|exists e']; (split; [assumption|split; [assumption|split; [intros []|reflexivity]]]).
    - assert (LX : In (last (x0 :: es0) x0) (x0 :: es0) /\ meets (last (x0 :: es0) x0) cur).
      { assert (NA : acc <> []) by (intros ->; cbn in LE; lia). destruct (exists_last NA) as (acc' & z & ->). rewrite <- app_assoc in C. destruct (chain_last _ _ _ _ _ C) as (s' & y & E & J). rewrite E, last_last. split; [apply in_elt|apply (joins_meets _ _ _ _ J)]. }
      destruct LX as [LX LM]. set (p := last (x0 :: es0) x0) in *. subst prev.
      assert (OUT : forall y, In y (x0 :: es0) -> meets y cur -> y = p). { intros y Iy My. destruct (chain_end_edge acc cur _ y C N Iy My) as [es' E]. unfold p. rewrite E, last_last. reflexivity. }
      assert (Pe : p = e \/ p = e'). { assert (IN : In p (incident s cur)) by (apply In_incident; split; [apply I, LX|exact LM]). destruct INC as [E|E]; rewrite E in IN; cbn in IN; intuition. }
      destruct Pe as [Pe|Pe].
      + exists e'. split; [exact Ie'|]. split; [exact Me'|]. split; [intros K; apply D'; rewrite (OUT e' K Me'), Pe; reflexivity|]. destruct INC as [-> | ->]; cbn [find]; rewrite Pe, ?Nat.eqb_refl; cbn [negb]; destruct (Nat.eqb_spec e' e); try congruence; reflexivity.
      + exists e. split; [exact Ie|]. split; [exact Me|]. split; [intros K; apply D'; rewrite (OUT e K Me), Pe; reflexivity|]. destruct INC as [-> | ->]; cbn [find]; rewrite Pe, ?Nat.eqb_refl; cbn [negb]; destruct (Nat.eqb_spec e e'); try congruence; reflexivity. }
  destruct X as (e & Ie & Me & Ee & FE).
  set (nv := if Nat.eqb (v0 e) cur then v1 e else v0 e).
  assert (J : joins e cur nv). { unfold nv, CutModel.v0, CutModel.v1. destruct Me as [M|M]; destruct (ends e) as [p q] eqn:EE; cbn [fst snd] in *; [subst; rewrite Nat.eqb_refl; left; exact EE|]. destruct (Nat.eqb_spec p cur) as [->|_]; [left; rewrite EE; reflexivity|right; rewrite EE, M; reflexivity]. }
  pose proof (joins_ne ends s CS e cur nv Ie J) as Dn. destruct (joins_meets _ _ _ _ J) as [_ Mn].
  assert (C' : chain (acc ++ [cur; nv]) (es ++ [e])) by (apply chain_snoc; assumption).
  assert (N' : NoDup (es ++ [e])). { apply (Permutation_NoDup (Permutation_cons_append _ _)). constructor; assumption. }
  assert (I' : incl (es ++ [e]) s) by (apply incl_app; [exact I|intros y [<-|[]]; exact Ie]).
  (* the next vertex is new or closes the ring *)
  assert (NV : ~ In nv (acc ++ [cur]) \/ (exists l, acc ++ [cur] = nv :: l /\ l <> [])).
  { destruct (in_dec Nat.eq_dec nv (acc ++ [cur])) as [IN|NI]; [right|left; exact NI]. apply in_app_or in IN. destruct IN as [IN|[E|[]]]; [|congruence].
    destruct acc as [|w acc]; [destruct IN|]. destruct IN as [->|IN]; [exists (acc ++ [cur]); split; [reflexivity|destruct acc; discriminate]|]. exfalso.
    destruct (in_split _ _ IN) as (l1 & l2 & E). assert (C'' : chain ((w :: l1) ++ nv :: (l2 ++ [cur])) es) by (cbn [app]; cbn [app] in C; rewrite E, <- app_assoc in C; exact C).
    destruct (chain_inner ends _ _ _ _ C'' ltac:(discriminate) ltac:(destruct l2; discriminate)) as (s1 & x & y & s2 & Es & Mx & My).
    assert (Ix : In x es) by (rewrite Es; apply in_or_app; right; left; reflexivity). assert (Iy : In y es) by (rewrite Es; apply in_or_app; right; right; left; reflexivity).
    apply (three ends s CS x y e nv); auto; try (intros ->; contradiction). intros ->. rewrite Es in Ne. apply NoDup_remove_2 in Ne. apply Ne, in_or_app. right. left. reflexivity. }
  assert (RING : forall l, acc ++ [cur] = nv :: l -> l <> [] -> closed_curve ends (es ++ [e]) nv l /\ Permutation (es ++ [e]) s).
  { intros l E NL. assert (CR : closed_curve ends (es ++ [e]) nv l). { split; [|split; [rewrite <- E; exact N|exact NL]]. change (nv :: l ++ [nv]) with ((nv :: l) ++ [nv]). rewrite <- E, <- app_assoc. exact C'. } split; [exact CR|]. destruct CR as (R1 & R2 & R3). exact (ring_all nv l _ R1 I' N' R2 R3). }
  rewrite app_length. cbn [length].
  destruct (match prev with None => true | Some _ => false end || Nat.ltb (length acc + 1) (length s)) eqn:GO.
  - (* go on *)
    assert (BLc : lookup (bins ends s) cur = Some (incident s cur)). { rewrite BL. assert (IN : In e (incident s cur)) by (apply In_incident; auto). destruct (incident s cur); [destruct IN|reflexivity]. }
    rewrite BLc. cbn [bind]. rewrite FE. cbn [bind]. fold nv.
    assert (MM : mem (bins ends s) nv = true). { apply mem_In, lookup_mem. rewrite BL. assert (IN : In e (incident s nv)) by (apply In_incident; auto). destruct (incident s nv); [destruct IN|eexists; reflexivity]. }
    rewrite MM. destruct NV as [NV|(l & E & NL)].
    + assert (LS : length acc + 1 < length s).
      { assert (NB : NoDup ((acc ++ [cur]) ++ [nv])) by (apply (Permutation_NoDup (Permutation_cons_append _ _)); constructor; assumption).
        assert (INC : incl ((acc ++ [cur]) ++ [nv]) (a :: ws)). { intros v Iv. apply ring_meets. rewrite <- app_assoc in Iv. assert (NZ : es ++ [e] <> []) by (destruct es; discriminate). destruct (chain_meets ends _ _ v C' NZ Iv) as (y & Iy & My). exists y. split; [apply I', Iy|exact My]. }
        pose proof (NoDup_incl_length NB INC) as L. rewrite !app_length in L. rewrite <- ring_length in L. cbn [length] in L. lia. }
      assert (PV : Some e = match es ++ [e] with [] => None | x :: _ => Some (last (es ++ [e]) x) end) by (destruct es as [|x es]; [reflexivity|cbn [app]; rewrite app_comm_cons, last_last; reflexivity]).
      rewrite PV. apply IH.
      * rewrite <- app_assoc. exact C'.
      * apply (Permutation_NoDup (Permutation_cons_append _ _)). constructor; assumption.
      * exact I'.
      * exact N'.
      * exists e. auto.
      * rewrite app_length. cbn. lia.
      * rewrite app_length. cbn. lia.
      * right. destruct es; discriminate.
    + exfalso. destruct (RING l E NL) as [_ P]. apply Permutation_length in P. rewrite app_length in P. cbn in P.
      apply orb_true_iff in GO. destruct GO as [GO|GO]; [|apply Nat.ltb_lt in GO; lia]. destruct es as [|x es]; [|discriminate GO]. cbn in LE. destruct acc; [|discriminate LE]. cbn in E. injection E as _ <-. congruence.
  - (* the last vertex *)
    apply orb_false_iff in GO. destruct GO as [_ GO]. apply Nat.ltb_ge in GO. assert (LS : length s = length acc + 1) by lia.
    destruct NV as [NV|(l & E & NL)].
    + exfalso. assert (NB : NoDup ((acc ++ [cur]) ++ [nv])) by (apply (Permutation_NoDup (Permutation_cons_append _ _)); constructor; assumption).
      assert (INC : incl ((acc ++ [cur]) ++ [nv]) (a :: ws)). { intros v Iv. apply ring_meets. rewrite <- app_assoc in Iv. assert (NZ : es ++ [e] <> []) by (destruct es; discriminate). destruct (chain_meets ends _ _ v C' NZ Iv) as (y & Iy & My). exists y. split; [apply I', Iy|exact My]. }
      pose proof (NoDup_incl_length NB INC) as L. rewrite !app_length in L. rewrite <- ring_length in L. cbn [length] in L. lia.
    + exists (acc ++ [cur]), (es ++ [e]). split; [reflexivity|]. exists nv, l. split; [exact E|]. apply RING; assumption.
Qed.
Lemma polygon_spec : exists p s', polygon_vertices ends shuffle s = Some p /\ exists x l, p = x :: l /\ closed_curve ends s' x l /\ Permutation s' s.
Proof.
  assert (D : forall e, In e s -> v0 e <> v1 e) by apply CS. destruct (bins_spec ends s D) as [BN BL]. unfold polygon_vertices.
  assert (NS : s <> []) by (destruct CC as (C & _ & _); intros ->; destruct ws; destruct C). destruct s as [|e s0] eqn:ES; [congruence|]. rewrite <- ES in *.
  destruct (shuffle (bins ends s)) as [|[start es] m] eqn:SH.
  - exfalso. assert (IN : In e (incident s (v0 e))) by (apply In_incident; split; [rewrite ES; left; reflexivity|left; reflexivity]). assert (B : lookup (bins ends s) (v0 e) <> None) by (rewrite BL; destruct (incident s (v0 e)); [destruct IN|discriminate]).
    pose proof (shuffled (bins ends s)) as P. rewrite SH in P. apply Permutation_nil in P. rewrite P in B. apply B. reflexivity.
  - assert (IN : In (start, es) (bins ends s)) by (apply (Permutation_in _ (shuffled (bins ends s))); rewrite SH; left; reflexivity). apply (In_lookup _ _ _ BN) in IN. rewrite BL in IN.
    apply (polygon_loop_spec (S (length s)) [] start []); auto.
    + exact I.
    + constructor; [intros []|constructor].
    + intros x [].
    + constructor.
    + destruct (incident s start) as [|y l] eqn:E; [discriminate|]. exists y. apply In_incident. rewrite E. left. reflexivity.
    + rewrite ES. cbn. lia.
    + cbn. lia.
Qed.
End Ring.
End Float.
