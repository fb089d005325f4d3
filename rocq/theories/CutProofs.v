(** Proofs about CutModel: the cut paths. *)
From Coq Require Import List Arith Bool Lia Permutation Relations.
From Verif Require Import CutModel CutSpec.
Import ListNotations.

(** Maps *)
Section MapLemmas.
Context {A : Type}.
Implicit Types (m : list (nat * A)) (k : nat).
Lemma mem_In m k : mem m k = true <-> In k (map fst m).
Proof. unfold mem. rewrite existsb_exists. split; [intros (x & I & E); apply Nat.eqb_eq in E; subst; exact I|intros I; exists k; split; [exact I|apply Nat.eqb_refl]]. Qed.
Lemma mem_false m k : mem m k = false <-> ~ In k (map fst m).
Proof. rewrite <- mem_In. destruct (mem m k); intuition congruence. Qed.
Lemma set_new m k a : ~ In k (map fst m) -> set m k a = m ++ [(k, a)].
Proof. induction m as [|[k' a'] m IH]; [reflexivity|]. cbn. intros N. destruct (Nat.eqb_spec k k') as [->|D]; [exfalso; apply N; left; reflexivity|]. rewrite IH by (intros I; apply N; right; exact I). reflexivity. Qed.
Lemma lookup_In m k a : lookup m k = Some a -> In (k, a) m.
Proof. induction m as [|[k' a'] m IH]; [discriminate|]. cbn. destruct (Nat.eqb_spec k k') as [->|D]; [intros E; injection E as ->; left; reflexivity|intros E; right; apply IH, E]. Qed.
Lemma In_lookup m k a : NoDup (map fst m) -> In (k, a) m -> lookup m k = Some a.
Proof.
  induction m as [|[k' a'] m IH]; [intros _ []|]. cbn. intros N. inversion_clear N as [|? ? N1 N2]. intros [E|I]; [injection E as -> ->; rewrite Nat.eqb_refl; reflexivity|].
  destruct (Nat.eqb_spec k k') as [->|D]; [exfalso; apply N1; change k' with (fst (k', a)); apply in_map, I|apply IH; assumption].
Qed.
Lemma lookup_mem m k : (exists a, lookup m k = Some a) <-> In k (map fst m).
Proof.
  induction m as [|[k' a'] m IH]; cbn; [split; [intros [a E]; discriminate|intros []]|]. destruct (Nat.eqb_spec k k') as [->|D]; [split; [left; reflexivity|exists a'; reflexivity]|]. rewrite IH. split; [right; assumption|intros [E|I]; [congruence|exact I]].
Qed.
End MapLemmas.

Section Proofs.
Variable ends : nat -> nat * nat.
Variable shuffle : list (nat * list nat) -> list (nat * list nat).
Hypothesis shuffled : forall m, Permutation (shuffle m) m.
Notation v0 := (v0 ends). Notation v1 := (v1 ends). Notation bins := (bins ends). Notation meets := (meets ends). Notation joins := (joins ends). Notation incident := (incident ends). Notation chain := (chain ends).

(** ** The bins *)
Lemma push_keys m k e : map fst (push m k e) = if mem m k then map fst m else map fst m ++ [k].
Proof.
  induction m as [|[k' es] m IH]; [reflexivity|]. cbn. unfold mem in *. cbn. destruct (Nat.eqb_spec k k') as [->|D]; [reflexivity|]. cbn. rewrite IH. destruct (existsb _ _); reflexivity.
Qed.
Lemma push_lookup m k e k' : lookup (push m k e) k' = if Nat.eqb k' k then Some (match lookup m k with Some es => es | None => [] end ++ [e]) else lookup m k'.
Proof.
  induction m as [|[q es] m IH]; cbn; [destruct (Nat.eqb_spec k' k); reflexivity|]. destruct (Nat.eqb_spec k q) as [->|D]; cbn.
  - destruct (Nat.eqb_spec k' q) as [E|D']; reflexivity.
  - destruct (Nat.eqb_spec k' q) as [E|D']; [destruct (Nat.eqb_spec k' k) as [E'|]; [congruence|reflexivity]|]. exact IH.
Qed.
Lemma push_NoDup m k e : NoDup (map fst m) -> NoDup (map fst (push m k e)).
Proof. intros N. rewrite push_keys. destruct (mem m k) eqn:M; [exact N|]. apply mem_false in M. apply (Permutation_NoDup (Permutation_cons_append _ _)). constructor; assumption. Qed.
Definition opt_list (l : list nat) : option (list nat) := match l with [] => None | _ => Some l end.
Lemma bins_spec edges : (forall e, In e edges -> v0 e <> v1 e) -> NoDup (map fst (bins edges)) /\ forall v, lookup (bins edges) v = opt_list (incident edges v).
Proof.
  induction edges as [|e edges IH] using rev_ind; intros D; [split; [constructor|reflexivity]|].
  destruct IH as [N L]; [intros x I; apply D, in_or_app; left; exact I|]. unfold CutModel.bins. rewrite fold_left_app. cbn [fold_left]. change (fold_left _ edges []) with (bins edges).
  split; [apply push_NoDup, push_NoDup, N|]. intros v. assert (De : v0 e <> v1 e) by (apply D, in_or_app; right; left; reflexivity).
  rewrite !push_lookup, !L. unfold CutSpec.incident. rewrite filter_app. cbn [filter]. fold (CutModel.v0 ends e). fold (CutModel.v1 ends e). 
  destruct (Nat.eqb_spec v (v1 e)) as [->|D1].
  - destruct (Nat.eqb_spec (v1 e) (v0 e)) as [E|_]; [congruence|]. rewrite Nat.eqb_refl, orb_true_r. unfold opt_list. destruct (filter _ edges); reflexivity.
  - destruct (Nat.eqb_spec v (v0 e)) as [->|D0].
    + rewrite Nat.eqb_refl. cbn [orb]. unfold opt_list. destruct (filter _ edges); reflexivity.
    + destruct (Nat.eqb_spec (v0 e) v) as [E|_]; [congruence|]. destruct (Nat.eqb_spec (v1 e) v) as [E|_]; [congruence|]. cbn [orb]. rewrite app_nil_r. reflexivity.
Qed.
Lemma In_incident edges v e : In e (incident edges v) <-> In e edges /\ meets e v.
Proof. unfold CutSpec.incident. rewrite filter_In, orb_true_iff, !Nat.eqb_eq. reflexivity. Qed.

(** ** Chains *)
Lemma joins_meets e a b : joins e a b -> meets e a /\ meets e b.
Proof. unfold CutSpec.joins, CutSpec.meets. intros [-> | ->]; cbn; auto. Qed.
Lemma joins_only e a b v : joins e a b -> meets e v -> v = a \/ v = b.
Proof. unfold CutSpec.joins, CutSpec.meets. intros [-> | ->]; cbn; intuition. Qed.
Lemma chain_snoc ws a s e b : chain (ws ++ [a]) s -> joins e a b -> chain (ws ++ [a; b]) (s ++ [e]).
Proof.
  revert s. induction ws as [|x ws IH]; intros s C J.
  - cbn in C. destruct s as [|y s]; [cbn; auto|cbn in C; destruct C].
  - destruct s as [|y s]; [destruct ws; destruct C|]. destruct ws as [|x' ws]; cbn [app] in *.
    + cbn in C. destruct C as [C1 C2]. destruct s; [|destruct C2]. cbn. auto.
    + destruct C as [C1 C2]. split; [exact C1|]. apply (IH s); assumption.
Qed.
Lemma chain_length ws s : chain ws s -> length ws = S (length s).
Proof.
  revert s. induction ws as [|a ws IH]; intros s C; [destruct C|]. destruct ws as [|b ws], s as [|e s]; try (destruct C; fail); [reflexivity|]. destruct C as [_ C]. apply IH in C. cbn [length] in *. lia.
Qed.
Lemma chain_edge ws s e : chain ws s -> In e s -> exists a b, In a ws /\ In b ws /\ joins e a b.
Proof.
  revert s. induction ws as [|a ws IH]; intros s C I; [destruct C|]. destruct ws as [|b ws], s as [|x s]; try (destruct C; fail); [destruct I|]. destruct C as [J C]. destruct I as [->|I].
  - exists a, b. split; [left; reflexivity|split; [right; left; reflexivity|exact J]].
  - destruct (IH s C I) as (p & q & P & Q & J'). exists p, q. split; [right; exact P|split; [right; exact Q|exact J']].
Qed.
Lemma chain_vertex ws s v e : chain ws s -> In e s -> meets e v -> In v ws.
Proof. intros C I M. destruct (chain_edge ws s e C I) as (a & b & Ia & Ib & J). destruct (joins_only e a b v J M) as [-> | ->]; assumption. Qed.
Lemma chain_meets ws s v : chain ws s -> s <> [] -> In v ws -> exists e, In e s /\ meets e v.
Proof.
  revert s. induction ws as [|a ws IH]; intros s C N I; [destruct C|]. destruct ws as [|b ws], s as [|x s]; try (destruct C; fail); [congruence|]. destruct C as [J C]. destruct (joins_meets _ _ _ J) as [Ma Mb]. destruct I as [->|I].
  - exists x. split; [left; reflexivity|exact Ma].
  - destruct s as [|y s].
    + destruct ws; [|destruct C]. destruct I as [->|[]]. exists x. split; [left; reflexivity|exact Mb].
    + destruct (IH (y :: s) C ltac:(discriminate) I) as (e & Ie & Me). exists e. split; [right; exact Ie|exact Me].
Qed.
(** An inner vertex of a chain lies on two different edges. *)
Lemma chain_inner ws1 a ws2 s : chain (ws1 ++ a :: ws2) s -> ws1 <> [] -> ws2 <> [] -> exists s1 e e' s2, s = s1 ++ e :: e' :: s2 /\ meets e a /\ meets e' a.
Proof.
  revert s. induction ws1 as [|x ws1 IH]; intros s C N1 N2; [congruence|]. destruct s as [|y s]; [destruct ws1; destruct C|]. destruct ws1 as [|x' ws1]; cbn [app] in C.
  - destruct C as [J C]. destruct ws2 as [|b ws2]; [congruence|]. destruct s as [|z s]; [destruct C|]. destruct C as [J' C]. exists [], y, z, s. split; [reflexivity|]. split; [apply (joins_meets _ _ _ J)|apply (joins_meets _ _ _ J')].
  - destruct C as [J C]. destruct (IH s C ltac:(discriminate) N2) as (s1 & e & e' & s2 & -> & M & M'). exists (y :: s1), e, e', s2. split; [reflexivity|split; assumption].
Qed.
Lemma chain_closed (P : nat -> Prop) ws s : chain ws s -> (forall e e' v, In e s -> In e' s -> meets e v -> meets e' v -> P e -> P e') -> (exists e, In e s /\ P e) -> forall e, In e s -> P e.
Proof.
  revert s. induction ws as [|a ws IH]; intros s C H; [destruct C|]. destruct ws as [|b ws], s as [|x s]; try (destruct C; fail); [intros (e & [] & _)|]. destruct C as [J C].
  destruct (joins_meets _ _ _ J) as [_ Mb]. destruct s as [|y s].
  - intros (e & [<-|[]] & Pe) e' [<-|[]]. exact Pe.
  - assert (My : meets y b). { destruct ws as [|c ws]; [destruct C|]. apply (joins_meets _ _ _ (proj1 C)). }
    assert (IH' := IH (y :: s) C (fun e e' v I I' => H e e' v (or_intror I) (or_intror I'))). intros (e & I & Pe).
    assert (Py : P y). { destruct I as [<-|I]; [apply (H x y b); cbn; auto|]. apply IH'; [exists e; split; assumption|left; reflexivity]. }
    intros e' [<-|I']; [apply (H y x b); cbn; auto|]. apply IH'; [exists y; split; [left; reflexivity|exact Py]|exact I'].
Qed.

Section Graph.
Variable edges : list nat.
Hypothesis G : curves ends edges.
Let nodup : NoDup edges. Proof. apply G. Qed.
Let dist : forall e, In e edges -> v0 e <> v1 e. Proof. apply G. Qed.
Lemma joins_ne e a b : In e edges -> joins e a b -> a <> b.
Proof. intros I [E|E]; pose proof (dist e I) as D; unfold CutModel.v0, CutModel.v1 in D; rewrite E in D; cbn in D; congruence. Qed.
Lemma three e1 e2 e3 v : In e1 edges -> In e2 edges -> In e3 edges -> meets e1 v -> meets e2 v -> meets e3 v -> e1 <> e2 -> e1 <> e3 -> e2 <> e3 -> False.
Proof.
  intros I1 I2 I3 M1 M2 M3 D1 D2 D3. assert (L : length (incident edges v) <= 2) by apply G. assert (N : NoDup [e1; e2; e3]) by (repeat constructor; cbn; intuition congruence).
  apply (NoDup_incl_length (l' := incident edges v)) in N; [cbn in N; lia|]. intros x [<-|[<-|[<-|[]]]]; apply In_incident; auto.
Qed.
Lemma two_of e v : In e edges -> meets e v -> length (incident edges v) <> 1 -> exists e', e' <> e /\ In e' edges /\ meets e' v /\ (incident edges v = [e; e'] \/ incident edges v = [e'; e]).
Proof.
  intros I M L. assert (L2 : length (incident edges v) <= 2) by apply G. assert (Ie : In e (incident edges v)) by (apply In_incident; auto).
  assert (N : NoDup (incident edges v)) by (apply NoDup_filter, nodup).
  destruct (incident edges v) as [|x [|y [|z l]]] eqn:E; [destruct Ie|cbn in L; lia| |cbn in L2; lia]. inversion_clear N as [|? ? N1 _].
  destruct Ie as [->|[->|[]]].
  - exists y. assert (Iy : In y (incident edges v)) by (rewrite E; cbn; auto). apply In_incident in Iy. split; [intros ->; apply N1; left; reflexivity|]. split; [apply Iy|]. split; [apply Iy|left; reflexivity].
  - exists x. assert (Iy : In x (incident edges v)) by (rewrite E; cbn; auto). apply In_incident in Iy. split; [intros ->; apply N1; left; reflexivity|]. split; [apply Iy|]. split; [apply Iy|right; reflexivity].
Qed.
Lemma next_joins e v : meets e v -> joins e v (if Nat.eqb v (v0 e) then v1 e else v0 e).
Proof.
  unfold CutSpec.meets, CutSpec.joins, CutModel.v0, CutModel.v1. destruct (ends e) as [x y]. cbn. intros M. destruct (Nat.eqb_spec v x) as [->|D]; [left; reflexivity|right]. destruct M as [M|M]; congruence.
Qed.

(** what has been collected in earlier rounds is closed *)
Record done (vm em : list (nat * nat)) : Prop := {
  done_edges : incl (map fst em) edges;
  done_nodup : NoDup (map fst em);
  done_vnodup : NoDup (map fst vm);
  done_v : forall v e, In v (map fst vm) -> In e edges -> meets e v -> In e (map fst em);
  done_e : forall v e, In e (map fst em) -> meets e v -> In v (map fst vm)
}.
Definition tag (i : nat) (l : list nat) : list (nat * nat) := map (fun x => (x, i)) l.
Lemma tag_keys i l : map fst (tag i l) = l. Proof. unfold tag. rewrite map_map. cbn. apply map_id. Qed.

Lemma tag_app i l l' : tag i (l ++ l') = tag i l ++ tag i l'. Proof. apply map_app. Qed.

(** The inner loop.  ws are the vertices before the current one. *)
Lemma walk_spec vm em idx u : done vm em ->
  (length (incident edges u) = 1 \/ forall v, length (incident edges v) = 1 -> In v (map fst vm)) ->
  forall fuel ws a e seq, chain (ws ++ [a]) seq -> hd a ws = u -> NoDup (ws ++ [a]) -> NoDup (seq ++ [e]) -> incl (seq ++ [e]) edges -> meets e a ->
  (forall w, In w (ws ++ [a]) -> ~ In w (map fst vm)) ->
  length edges < fuel + length seq ->
  exists s ws' vm', walk ends fuel (bins edges) idx a e seq (vm ++ tag idx ws) (em ++ tag idx seq) = Some (s, vm', em ++ tag idx s) /\ incl s edges /\ NoDup s /\ s <> [] /\
    (exists l, s = seq ++ e :: l) /\ (exists l, ws' = ws ++ a :: l) /\
    ((exists b, open_curve ends edges s u (tl ws') b /\ hd a ws' = u /\ vm' = vm ++ tag idx (ws' ++ [b]) /\ forall w, In w (ws' ++ [b]) -> ~ In w (map fst vm)) \/
     (closed_curve ends s u (tl ws') /\ hd a ws' = u /\ vm' = vm ++ tag idx ws' /\ forall w, In w ws' -> ~ In w (map fst vm))).
Proof.
  intros DN ST. induction fuel as [|fuel IH]; intros ws a e seq C Hu NW NS IS M FR FU.
  { exfalso. pose proof (NoDup_incl_length NS IS) as L. rewrite app_length in L. cbn in L. lia. }
  cbn [walk]. cbv zeta.
  assert (Na : ~ In a (map fst (vm ++ tag idx ws))). { rewrite map_app, tag_keys, in_app_iff. intros [I|I]; [revert I; apply FR, in_or_app; right; left; reflexivity|]. apply (Permutation_NoDup (Permutation_app_comm _ _)) in NW. cbn in NW. inversion NW; contradiction. }
  assert (Ie : In e edges) by (apply IS, in_or_app; right; left; reflexivity).
  assert (Ee : ~ In e (map fst em)) by (intros I; apply (FR a); [apply in_or_app; right; left; reflexivity|]; eapply done_e; eassumption).
  assert (Ne : ~ In e (map fst (em ++ tag idx seq))). { rewrite map_app, tag_keys, in_app_iff. intros [I|I]; [exact (Ee I)|]. apply (Permutation_NoDup (Permutation_app_comm _ _)) in NS. cbn in NS. inversion NS; contradiction. }
  rewrite (set_new _ _ _ Na), (set_new _ _ _ Ne). rewrite <- !app_assoc. change [(a, idx)] with (tag idx [a]). change [(e, idx)] with (tag idx [e]). rewrite <- !tag_app.
  set (b := if Nat.eqb a (v0 e) then v1 e else v0 e). pose proof (next_joins e a M) as J. fold b in J. pose proof (joins_ne e a b Ie J) as Dab. destruct (joins_meets _ _ _ J) as [_ Mb].
  assert (Is : incl seq edges) by (intros x I; apply IS, in_or_app; left; exact I).
  assert (Ns : ~ In e seq) by (intros I; apply Ne; rewrite map_app, tag_keys; apply in_or_app; right; exact I).
  assert (C' : chain (ws ++ [a; b]) (seq ++ [e])) by (apply chain_snoc; assumption).
  destruct (mem (vm ++ tag idx (ws ++ [a])) b) eqn:MB.
  - (* back at a vertex of this path *)
    apply mem_In in MB. rewrite map_app, tag_keys, in_app_iff in MB. destruct MB as [MB|MB]; [exfalso; apply Ee; eapply done_v; eassumption|].
    apply in_app_or in MB. destruct MB as [MB|[E|[]]]; [|exfalso; apply Dab; exact E].
    destruct ws as [|w ws]; [destruct MB|]. cbn [hd] in Hu. subst w. destruct MB as [E|MB].
    + exists (seq ++ [e]), ((u :: ws) ++ [a]), (vm ++ tag idx ((u :: ws) ++ [a])). split; [reflexivity|]. split; [exact IS|]. split; [exact NS|]. split; [destruct seq; discriminate|]. split; [exists []; reflexivity|]. split; [exists []; reflexivity|].
      right. split; [|split; [reflexivity|split; [reflexivity|exact FR]]]. split; [|split]; [|exact NW|cbn; destruct ws; discriminate]. cbn [tl app]. rewrite <- app_assoc. cbn [app]. rewrite E at 2. exact C'.
    + exfalso. destruct (in_split _ _ MB) as (l1 & l2 & E). assert (C'' : chain ((u :: l1) ++ b :: (l2 ++ [a])) seq) by (cbn; cbn in C; rewrite E, <- app_assoc in C; exact C).
      destruct (chain_inner _ _ _ _ C'' ltac:(discriminate) ltac:(destruct l2; discriminate)) as (s1 & x & y & s2 & Es & Mx & My).
      assert (Ix : In x seq) by (rewrite Es; apply in_or_app; right; left; reflexivity). assert (Iy : In y seq) by (rewrite Es; apply in_or_app; right; right; left; reflexivity).
      apply (three x y e b); auto; try (intros ->; contradiction). intros ->. rewrite Es in NS. rewrite <- app_assoc in NS. apply NoDup_remove_2 in NS. apply NS. apply in_or_app. right. left. reflexivity.
  - apply mem_false in MB. rewrite map_app, tag_keys, in_app_iff in MB. assert (B1 : ~ In b (map fst vm)) by tauto. assert (B2 : ~ In b (ws ++ [a])) by tauto.
    destruct (bins_spec edges dist) as [_ BL]. rewrite BL. assert (Ib : In e (incident edges b)) by (apply In_incident; auto).
    assert (OL : opt_list (incident edges b) = Some (incident edges b)) by (destruct (incident edges b); [destruct Ib|reflexivity]). rewrite OL. cbn [bind].
    assert (NB : NoDup ((ws ++ [a]) ++ [b])). { apply (Permutation_NoDup (Permutation_cons_append _ _)). constructor; assumption. }
    destruct (Nat.eqb_spec (length (incident edges b)) 1) as [L1|L1].
    + (* the end of an open curve *)
      assert (SB : ~ In b (map fst (vm ++ tag idx (ws ++ [a])))) by (rewrite map_app, tag_keys, in_app_iff; tauto). rewrite (set_new _ _ _ SB).
      exists (seq ++ [e]), (ws ++ [a]), (vm ++ tag idx ((ws ++ [a]) ++ [b])). split; [rewrite (tag_app idx (ws ++ [a]) [b]), app_assoc; reflexivity|]. split; [exact IS|]. split; [exact NS|]. split; [destruct seq; discriminate|]. split; [exists []; reflexivity|]. split; [exists []; reflexivity|].
      left. exists b. assert (Hh : hd a (ws ++ [a]) = u) by (destruct ws; exact Hu). assert (E : u :: tl (ws ++ [a]) = ws ++ [a]) by (destruct ws; cbn in Hu |- *; rewrite Hu; reflexivity).
      split; [|split; [exact Hh|split; [reflexivity|]]].
      * split; [|split; [|split; [|exact L1]]].
        -- change (u :: tl (ws ++ [a]) ++ [b]) with ((u :: tl (ws ++ [a])) ++ [b]). rewrite E, <- app_assoc. exact C'.
        -- change (u :: tl (ws ++ [a]) ++ [b]) with ((u :: tl (ws ++ [a])) ++ [b]). rewrite E. exact NB.
        -- destruct ST as [ST|ST]; [exact ST|]. exfalso. exact (B1 (ST b L1)).
      * intros w I. apply in_app_or in I. destruct I as [I|[<-|[]]]; [apply FR, I|exact B1].
    + (* on to the other edge *)
      destruct (two_of e b Ie Mb L1) as (o & No & Io & Mo & Eo). 
      assert (X : exists e0 l, incident edges b = e0 :: l /\ (if Nat.eqb e e0 then last (incident edges b) e0 else e0) = o).
      { destruct Eo as [Eo|Eo]; rewrite Eo; eexists _, _; (split; [reflexivity|]); [rewrite Nat.eqb_refl; reflexivity|]. destruct (Nat.eqb_spec e o) as [->|_]; [congruence|reflexivity]. }
      destruct X as (e0 & l & -> & ->).
      assert (Xe : ~ In o (map fst em)) by (intros I; apply B1; eapply done_e; eassumption).
      assert (Xs : ~ In o seq) by (intros I; apply B2; eapply chain_vertex; eassumption).
      assert (XM : mem (em ++ tag idx (seq ++ [e])) o = false). { apply mem_false. rewrite map_app, tag_keys, !in_app_iff. cbn. intuition. }
      rewrite XM. destruct (IH (ws ++ [a]) b o (seq ++ [e])) as (s & ws' & vm' & E & I1 & I2 & I3 & (l1 & L1') & (l2 & L2') & R).
      * rewrite <- app_assoc. exact C'.
      * destruct ws; exact Hu.
      * exact NB.
      * apply (Permutation_NoDup (Permutation_cons_append _ _)). constructor; [|exact NS]. rewrite in_app_iff. cbn. intuition.
      * intros x I. apply in_app_or in I. destruct I as [I|[<-|[]]]; [apply IS, I|exact Io].
      * exact Mo.
      * intros w I. apply in_app_or in I. destruct I as [I|[<-|[]]]; [apply FR, I|exact B1].
      * rewrite app_length. cbn. lia.
      * exists s, ws', vm'. split; [exact E|]. split; [exact I1|]. split; [exact I2|]. split; [exact I3|]. split; [exists (o :: l1); rewrite L1', <- app_assoc; reflexivity|]. split; [exists (b :: l2); rewrite L2', <- app_assoc; reflexivity|].
        assert (HH : forall x, hd x ws' = hd a ws') by (intros x; rewrite L2'; destruct ws; reflexivity). rewrite (HH b) in R. exact R.
Qed.

Lemma chain_last ws a b s : chain (ws ++ [a; b]) s -> exists s' e, s = s' ++ [e] /\ joins e a b.
Proof.
  revert s. induction ws as [|x ws IH]; intros s C.
  - destruct s as [|e [|y s]]; cbn in C; try tauto. exists [], e. split; [reflexivity|apply C].
  - destruct s as [|e s]; [destruct ws; destruct C|]. destruct ws as [|x' ws]; cbn [app] in *; destruct C as [_ C]; destruct (IH s C) as (s' & e' & -> & J); exists (e :: s'), e'; split; try reflexivity; exact J.
Qed.
Lemma degree1 v e e' : length (incident edges v) = 1 -> In e edges -> In e' edges -> meets e v -> meets e' v -> e = e'.
Proof.
  intros L I I' M M'. assert (A : In e (incident edges v)) by (apply In_incident; auto). assert (A' : In e' (incident edges v)) by (apply In_incident; auto).
  destruct (incident edges v) as [|x [|y l]]; cbn in L; try lia. destruct A as [<-|[]], A' as [<-|[]]. reflexivity.
Qed.
Lemma pair_of v x y e : In x edges -> In y edges -> In e edges -> meets x v -> meets y v -> meets e v -> x <> y -> e = x \/ e = y.
Proof. intros. destruct (Nat.eq_dec e x); [auto|]. destruct (Nat.eq_dec e y); [auto|]. exfalso. apply (three x y e v); auto. Qed.
(** all the edges at a vertex of a curve belong to it *)
Lemma inner_full ws1 v ws2 s e : chain (ws1 ++ v :: ws2) s -> ws1 <> [] -> ws2 <> [] -> incl s edges -> NoDup s -> In e edges -> meets e v -> In e s.
Proof.
  intros C N1 N2 I N Ie M. destruct (chain_inner _ _ _ _ C N1 N2) as (s1 & x & y & s2 & E & Mx & My).
  assert (Ix : In x s) by (rewrite E; apply in_or_app; right; left; reflexivity). assert (Iy : In y s) by (rewrite E; apply in_or_app; right; right; left; reflexivity).
  destruct (pair_of v x y e) as [-> | ->]; auto. intros ->. rewrite E in N. apply NoDup_remove_2 in N. apply N, in_or_app. right. left. reflexivity.
Qed.
Lemma open_full s a ws b v e : open_curve ends edges s a ws b -> incl s edges -> NoDup s -> In v (a :: ws ++ [b]) -> In e edges -> meets e v -> In e s.
Proof.
  intros (C & N & L & L') I Ns Iv Ie M.
  assert (K : v = a \/ v = b \/ In v ws) by (destruct Iv as [<-|Iv]; [auto|apply in_app_or in Iv; destruct Iv as [Iv|[<-|[]]]; auto]).
  destruct K as [-> |[-> |K]].
  - destruct s as [|x s]; [destruct ws; destruct C|]. assert (Mx : meets x a) by (destruct ws; apply (joins_meets _ _ _ (proj1 C))). rewrite (degree1 a e x L Ie (I x (or_introl eq_refl)) M Mx). left. reflexivity.
  - destruct (exists_last (l := a :: ws)) as (l & z & E); [discriminate|]. change (a :: ws ++ [b]) with ((a :: ws) ++ [b]) in C. rewrite E, <- app_assoc in C. destruct (chain_last _ _ _ _ C) as (s' & x & -> & J).
    rewrite (degree1 b e x L' Ie (I x (in_elt x s' [])) M (proj2 (joins_meets _ _ _ J))). apply in_or_app. right. left. reflexivity.
  - destruct (in_split _ _ K) as (l1 & l2 & ->). apply (inner_full (a :: l1) v (l2 ++ [b]) s e); auto; [|discriminate|destruct l2; discriminate]. cbn [app]. rewrite <- app_assoc in C. exact C.
Qed.
Lemma closed_ends s a ws : closed_curve ends s a ws -> NoDup s -> exists x s' y, s = x :: s' ++ [y] /\ meets x a /\ meets y a.
Proof.
  intros (C & N & K) Ns. destruct s as [|x s]; [destruct ws; destruct C|]. destruct ws as [|w ws]; [congruence|]. assert (Mx : meets x a) by (apply (joins_meets _ _ _ (proj1 C))).
  destruct (exists_last (l := w :: ws)) as (l & z & E); [discriminate|]. change (a :: (w :: ws) ++ [a]) with ((a :: w :: ws) ++ [a]) in C. assert (C' := C). rewrite E in C'. change (a :: l ++ [z]) with ((a :: l) ++ [z]) in C'. rewrite <- app_assoc in C'. destruct (chain_last _ _ _ _ C') as (s' & y & E' & J).
  destruct s' as [|x' s']; cbn in E'; [injection E' as -> ->; destruct C as [_ C]; destruct ws; destruct C|]. injection E' as <- ->. exists x, s', y. split; [reflexivity|]. split; [exact Mx|apply (joins_meets _ _ _ J)].
Qed.
Lemma closed_full s a ws v e : closed_curve ends s a ws -> incl s edges -> NoDup s -> In v (a :: ws) -> In e edges -> meets e v -> In e s.
Proof.
  intros CC I Ns Iv Ie M. destruct (closed_ends s a ws CC Ns) as (x & s' & y & E & Mx & My). destruct CC as (C & N & K). destruct Iv as [<-|Iv].
  - assert (Ix : In x s) by (rewrite E; left; reflexivity). assert (Iy : In y s) by (rewrite E; right; apply in_or_app; right; left; reflexivity).
    destruct (pair_of a x y e) as [-> | ->]; auto. intros ->. rewrite E in Ns. inversion_clear Ns as [|? ? Z _]. apply Z, in_or_app. right. left. reflexivity.
  - destruct (in_split _ _ Iv) as (l1 & l2 & ->). apply (inner_full (a :: l1) v (l2 ++ [a]) s e); auto; [|discriminate|destruct l2; discriminate]. cbn [app]. rewrite <- app_assoc in C. exact C.
Qed.

Definition is_curve (s : list nat) : Prop := (exists a ws b, open_curve ends edges s a ws b) \/ (exists a ws, closed_curve ends s a ws).
Record state (seqs : list (list nat)) (vm em : list (nat * nat)) : Prop := {
  st_done : done vm em;
  st_edges : map fst em = concat seqs;
  st_curves : Forall is_curve seqs;
  st_map : forall v i, In (v, i) vm <-> exists s e, nth_error seqs i = Some s /\ In e s /\ meets e v
}.
Lemma state_start : state [] [] [].
Proof. constructor; [constructor; cbn; try constructor; try tauto; intros x []|reflexivity|constructor|]. intros v i. split; [intros []|]. intros (s & e & E & _). destruct i; discriminate. Qed.

Lemma state_step seqs vm em s us : state seqs vm em -> incl s edges -> NoDup s -> (forall e, In e s -> ~ In e (map fst em)) -> is_curve s -> NoDup us -> (forall w, In w us -> ~ In w (map fst vm)) ->
  (forall v e, In v us -> In e edges -> meets e v -> In e s) -> (forall v, In v us <-> exists e, In e s /\ meets e v) ->
  state (seqs ++ [s]) (vm ++ tag (length seqs) us) (em ++ tag (length seqs) s).
Proof.
  intros [DN SE SC SM] IS NS NE CU NU NV FU UM. constructor.
  - destruct DN as [d1 d2 d3 d4 d5]. constructor; rewrite ?map_app, ?tag_keys.
    + apply incl_app; assumption.
    + assert (NA : forall (l l' : list nat), NoDup l -> NoDup l' -> (forall x, In x l' -> ~ In x l) -> NoDup (l ++ l')). { induction l as [|x l IHl]; intros l' A B D; [exact B|]. inversion_clear A. cbn. constructor; [rewrite in_app_iff; intros [?|Q]; [contradiction|apply (D x Q); left; reflexivity]|]. apply IHl; auto. intros y Y Y'. apply (D y Y). right. exact Y'. }
      apply NA; assumption.
    + assert (NA : forall (l l' : list nat), NoDup l -> NoDup l' -> (forall x, In x l' -> ~ In x l) -> NoDup (l ++ l')). { induction l as [|x l IHl]; intros l' A B D; [exact B|]. inversion_clear A. cbn. constructor; [rewrite in_app_iff; intros [?|Q]; [contradiction|apply (D x Q); left; reflexivity]|]. apply IHl; auto. intros y Y Y'. apply (D y Y). right. exact Y'. }
      apply NA; assumption.
    + intros v e I Ie M. rewrite in_app_iff in *. destruct I as [I|I]; [left; eapply d4; eassumption|right; eapply FU; eassumption].
    + intros v e I M. rewrite in_app_iff in *. destruct I as [I|I]; [left; eapply d5; eassumption|right]. apply UM. exists e. split; assumption.
  - rewrite map_app, tag_keys, SE, concat_app. cbn. rewrite app_nil_r. reflexivity.
  - apply Forall_app. split; [exact SC|]. constructor; [exact CU|constructor].
  - intros v i. rewrite in_app_iff, SM. unfold tag. rewrite in_map_iff. split.
    + intros [(t & e & E & I & M)|(x & E & I)].
      * exists t, e. split; [rewrite nth_error_app1; [exact E|apply nth_error_Some; congruence]|split; assumption].
      * injection E as -> <-. apply UM in I. destruct I as (e & I & M). exists s, e. split; [rewrite nth_error_app2 by lia; rewrite Nat.sub_diag; reflexivity|split; assumption].
    + intros (t & e & E & I & M). destruct (Nat.lt_ge_cases i (length seqs)) as [L|L].
      * rewrite nth_error_app1 in E by exact L. left. exists t, e. auto.
      * rewrite nth_error_app2 in E by exact L. destruct (i - length seqs) as [|k] eqn:K; cbn in E; [|destruct k; discriminate]. injection E as <-. right. exists v. split; [f_equal; lia|]. apply UM. exists e. auto.
Qed.

Lemma find_start_spec vm : match find_start shuffle (bins edges) vm with
  | Some (u, es) => ~ In u (map fst vm) /\ es = incident edges u /\ es <> [] /\ (length (incident edges u) = 1 \/ forall v, length (incident edges v) = 1 -> In v (map fst vm))
  | None => forall e v, In e edges -> meets e v -> In v (map fst vm)
  end.
Proof.
  destruct (bins_spec edges dist) as [BN BL]. pose proof (shuffled (bins edges)) as P.
  assert (B : forall u es, In (u, es) (shuffle (bins edges)) <-> es = incident edges u /\ es <> []).
  { intros u es. split.
    - intros I. apply (Permutation_in _ P) in I. apply (In_lookup _ _ _ BN) in I. rewrite BL in I. destruct (incident edges u); [discriminate|]. injection I as <-. split; [reflexivity|discriminate].
    - intros [-> N]. apply (Permutation_in _ (Permutation_sym P)). apply lookup_In. rewrite BL. destruct (incident edges u); [congruence|reflexivity]. }
  unfold find_start. destruct (find _ (shuffle (bins edges))) as [[u es]|] eqn:F1.
  - apply find_some in F1. destruct F1 as [I F1]. cbn in F1. apply andb_prop in F1. destruct F1 as [F1 F2]. apply negb_true_iff, mem_false in F1. apply Nat.eqb_eq in F2. apply B in I. destruct I as [-> N]. auto.
  - pose proof (find_none _ _ F1) as H1. cbn beta in H1. clear F1.
    assert (T : forall v, length (incident edges v) = 1 -> In v (map fst vm)).
    { intros v L. assert (NE : incident edges v <> []) by (intros Z; rewrite Z in L; discriminate L). specialize (H1 (v, incident edges v)). rewrite B in H1. specialize (H1 (conj eq_refl NE)). cbn in H1. rewrite L in H1. cbn in H1. rewrite andb_true_r in H1. apply negb_false_iff, mem_In in H1. exact H1. }
    destruct (find _ (shuffle (bins edges))) as [[u es]|] eqn:F2.
    + apply find_some in F2. destruct F2 as [I F2]. cbn in F2. apply negb_true_iff, mem_false in F2. apply B in I. destruct I as [-> N]. auto.
    + intros e v Ie M. assert (Iv : In e (incident edges v)) by (apply In_incident; auto). assert (NE : incident edges v <> []) by (intros Z; rewrite Z in Iv; destruct Iv). pose proof (find_none _ _ F2 (v, incident edges v)) as H2. rewrite B in H2. specialize (H2 (conj eq_refl NE)). cbn in H2. apply negb_false_iff, mem_In in H2. exact H2.
Qed.

Lemma paths_spec fuel : forall seqs vm em, state seqs vm em -> length edges < fuel + length em ->
  exists seqs' vm' em', paths ends shuffle fuel edges seqs vm em = Some (seqs', vm') /\ state seqs' vm' em' /\ incl edges (map fst em').
Proof.
  induction fuel as [|fuel IH]; intros seqs vm em S FU.
  { exfalso. destruct S as [[d1 d2 d3 d4 d5] _ _ _]. pose proof (NoDup_incl_length d2 d1) as L. rewrite map_length in L. cbn in FU. lia. }
  cbn [paths]. pose proof (find_start_spec vm) as FS. destruct (find_start shuffle (bins edges) vm) as [[u es]|].
  2:{ exists seqs, vm, em. split; [reflexivity|]. split; [exact S|]. intros e Ie. destruct S as [[d1 d2 d3 d4 d5] _ _ _]. assert (M : meets e (v0 e)) by (left; reflexivity). exact (d4 (v0 e) e (FS e (v0 e) Ie M) Ie M). }
  destruct FS as (Nu & -> & NZ & ST). destruct S as [DN SE SC SM] eqn:ES. clear ES. 
  assert (X : exists e0, In e0 edges /\ meets e0 u /\ find (fun e => negb (mem em e)) (incident edges u) = Some e0).
  { destruct (incident edges u) as [|x l] eqn:E; [congruence|]. assert (Ix : In x (incident edges u)) by (rewrite E; left; reflexivity). apply In_incident in Ix. destruct Ix as [Ix Mx]. exists x. split; [exact Ix|]. split; [exact Mx|]. cbn.
    assert (M : mem em x = false) by (apply mem_false; intros I; apply Nu; eapply done_e; eassumption). rewrite M. reflexivity. }
  destruct X as (e0 & Ie0 & Me0 & ->). cbn [bind].
  destruct (walk_spec vm em (length seqs) u DN ST (Datatypes.S (length edges)) [] u e0 []) as (s & ws' & vm' & E & I1 & I2 & I3 & (l1 & L1) & (l2 & L2) & R).
  - exact I.
  - reflexivity.
  - constructor; [intros []|constructor].
  - constructor; [intros []|constructor].
  - intros x [<-|[]]. exact Ie0.
  - exact Me0.
  - intros w [<-|[]]. exact Nu.
  - cbn. lia.
  - change (tag (length seqs) []) with (@nil (nat * nat)) in E. rewrite !app_nil_r in E. rewrite E. cbn [bind].
    assert (S' : exists us, vm' = vm ++ tag (length seqs) us /\ state (seqs ++ [s]) (vm ++ tag (length seqs) us) (em ++ tag (length seqs) s)).
    { assert (NE : forall us, (forall w, In w us -> ~ In w (map fst vm)) -> (forall v, In v us <-> exists e, In e s /\ meets e v) -> forall e, In e s -> ~ In e (map fst em)).
      { intros us A B e Ie K. assert (Iu : In (v0 e) us) by (apply B; exists e; split; [exact Ie|left; reflexivity]). apply (A _ Iu). eapply done_e; [exact DN|exact K|left; reflexivity]. }
      destruct R as [(b & O & Hh & -> & F)|(CC & Hh & -> & F)].
      - assert (EU : u :: tl ws' = ws') by (rewrite L2 in *; reflexivity). exists (ws' ++ [b]). split; [reflexivity|].
        assert (UM : forall v, In v (ws' ++ [b]) <-> exists e, In e s /\ meets e v).
        { intros v. rewrite <- EU. split; [intros Iv; apply (chain_meets _ _ v (proj1 O) I3 Iv)|intros (e & Ie & Me); exact (chain_vertex _ _ v e (proj1 O) Ie Me)]. }
        apply state_step; auto; [eapply NE; eauto|left; exists u, (tl ws'), b; exact O|rewrite <- EU; apply O|]. intros v e Iv Ie Me. rewrite <- EU in Iv. exact (open_full s u (tl ws') b v e O I1 I2 Iv Ie Me).
      - assert (EU : u :: tl ws' = ws') by (rewrite L2 in *; reflexivity). exists ws'. split; [reflexivity|].
        assert (UM : forall v, In v ws' <-> exists e, In e s /\ meets e v).
        { intros v. rewrite <- EU. split.
          - intros Iv. apply (chain_meets _ _ v (proj1 CC) I3). destruct Iv as [<-|Iv]; [left; reflexivity|right; apply in_or_app; left; exact Iv].
          - intros (e & Ie & Me). pose proof (chain_vertex _ _ v e (proj1 CC) Ie Me) as Iv. destruct Iv as [<-|Iv]; [left; reflexivity|]. apply in_app_or in Iv. destruct Iv as [Iv|[<-|[]]]; [right; exact Iv|left; reflexivity]. }
        apply state_step; auto; [eapply NE; eauto|right; exists u, (tl ws'); exact CC|rewrite <- EU; apply CC|]. intros v e Iv Ie Me. rewrite <- EU in Iv. exact (closed_full s u (tl ws') v e CC I1 I2 Iv Ie Me). }
    destruct S' as (us & -> & S'). destruct (Nat.eqb_spec (length (em ++ tag (length seqs) s)) (length edges)) as [EL|NL].
    + eexists _, _, _. split; [reflexivity|]. split; [exact S'|]. destruct S' as [[d1 d2 d3 d4 d5] _ _ _]. apply NoDup_length_incl; [exact d2|rewrite map_length; lia|exact d1].
    + apply IH; [exact S'|]. rewrite app_length. unfold tag. rewrite map_length. destruct s; [congruence|cbn; lia].
Qed.
End Graph.
End Proofs.
