(** Lemmas about PointsModel: the tables. *)
From Coq Require Import List Arith Bool Lia Permutation Sorting.
From Verif Require Import CutModel CutProofs SplitModel SplitProofs PointsModel PointsSpec.
Import ListNotations.

(** ** Numbers of the points with a property *)
Fixpoint numbers {X} (P : X -> bool) (b : nat) (h : list X) : list nat :=
  match h with [] => [] | x :: r => (if P x then [b] else []) ++ numbers P (S b) r end.
Lemma numbers_app {X} (P : X -> bool) b h h' : numbers P b (h ++ h') = numbers P b h ++ numbers P (b + length h) h'.
Proof. revert b. induction h as [|x h IH]; intros b; cbn; [rewrite Nat.add_0_r; reflexivity|]. rewrite IH, <- app_assoc. do 3 f_equal. lia. Qed.
Lemma numbers_shift {X} (P : X -> bool) b c h : numbers P (b + c) h = map (fun j => b + j) (numbers P c h).
Proof. revert c. induction h as [|x h IH]; intros c; [reflexivity|]. cbn. rewrite map_app, <- IH. replace (b + S c) with (S (b + c)) by lia. destruct (P x); reflexivity. Qed.
Lemma numbers_In {X} (P : X -> bool) b h v : In v (numbers P b h) <-> b <= v /\ exists x, nth_error h (v - b) = Some x /\ P x = true.
Proof.
  revert b. induction h as [|x h IH]; intros b; cbn [numbers]; [split; [intros []|intros (_ & y & E & _); destruct (v - b); discriminate]|].
  rewrite in_app_iff, IH. split.
  - intros [I|(L & y & E & Py)].
    + destruct (P x) eqn:Px; [|destruct I]. destruct I as [<-|[]]. split; [lia|]. exists x. rewrite Nat.sub_diag. auto.
    + split; [lia|]. exists y. split; [|exact Py]. replace (v - b) with (S (v - S b)) by lia. exact E.
  - intros (L & y & E & Py). destruct (Nat.eq_dec v b) as [->|N].
    + left. rewrite Nat.sub_diag in E. injection E as <-. rewrite Py. left. reflexivity.
    + right. split; [lia|]. exists y. split; [|exact Py]. replace (v - b) with (S (v - S b)) in E by lia. exact E.
Qed.
Lemma numbers_sorted {X} (P : X -> bool) b h : StronglySorted lt (numbers P b h).
Proof.
  revert b. induction h as [|x h IH]; intros b; cbn [numbers]; [constructor|]. destruct (P x); cbn [app]; [|apply IH]. constructor; [apply IH|]. apply Forall_forall. intros v I. apply numbers_In in I. lia.
Qed.
Lemma numbers_range {X} (P : X -> bool) b h v : In v (numbers P b h) -> b <= v < b + length h.
Proof. intros I. apply numbers_In in I. destruct I as (L & x & E & _). assert (v - b < length h) by (apply nth_error_Some; congruence). lia. Qed.
Lemma numbers_none {X} (P : X -> bool) b h : (forall x, In x h -> P x = false) -> numbers P b h = [].
Proof. intros H. destruct (numbers P b h) as [|v l] eqn:E; [reflexivity|]. assert (I : In v (numbers P b h)) by (rewrite E; left; reflexivity). apply numbers_In in I. destruct I as (_ & x & N & Px). apply nth_error_In in N. rewrite (H x N) in Px. discriminate. Qed.
Lemma sorted_NoDup l : StronglySorted lt l -> NoDup l.
Proof. induction 1 as [|x l SS IH F]; constructor; [|exact IH]. intros I. rewrite Forall_forall in F. specialize (F x I). lia. Qed.

(** ** Tables *)
Section Tables.
Context {K : Type} (eqb : K -> K -> bool) (eqb_eq : forall a b, eqb a b = true <-> a = b).
Notation find := (find eqb). Notation append := (append eqb).
Definition got (m : list (K * list nat)) (k : K) : list nat := match find m k with Some l => l | None => [] end.
Lemma eqb_refl k : eqb k k = true. Proof. apply eqb_eq. reflexivity. Qed.
Lemma find_append m k x k' : find (append m k x) k' = if eqb k' k then Some (got m k ++ [x]) else find m k'.
Proof.
  unfold got. induction m as [|[k0 l] m IH]; cbn; [destruct (eqb k' k); reflexivity|]. destruct (eqb k k0) eqn:E; cbn.
  - apply eqb_eq in E. subst k0. destruct (eqb k' k); reflexivity.
  - destruct (eqb k' k0) eqn:E'; [|exact IH]. destruct (eqb k' k) eqn:E''; [|reflexivity]. apply eqb_eq in E', E''. subst. rewrite eqb_refl in E. discriminate.
Qed.
Lemma find_None m k : find m k = None <-> ~ In k (map fst m).
Proof.
  induction m as [|[k0 l] m IH]; cbn; [tauto|]. destruct (eqb k k0) eqn:E; [apply eqb_eq in E; subst; split; [discriminate|tauto]|]. rewrite IH. split; [intros H [->|H']; [rewrite eqb_refl in E; discriminate|tauto]|tauto].
Qed.
Lemma find_In m k l : NoDup (map fst m) -> (find m k = Some l <-> In (k, l) m).
Proof.
  induction m as [|[k0 l0] m IH]; cbn; [split; [discriminate|intros []]|]. intros N. inversion_clear N as [|? ? N1 N2]. specialize (IH N2). destruct (eqb k k0) eqn:E.
  - apply eqb_eq in E. subst k0. split; [intros [= ->]; auto|intros [[= ->]|I]; [reflexivity|]]. exfalso. apply N1, in_map_iff. exists (k, l). auto.
  - rewrite IH. split; [auto|intros [[= -> ->]|I]; [rewrite eqb_refl in E; discriminate|exact I]].
Qed.
Lemma append_keys m k x k' : In k' (map fst (append m k x)) <-> k' = k \/ In k' (map fst m).
Proof.
  induction m as [|[k0 l] m IH]; cbn; [firstorder congruence|]. destruct (eqb k k0) eqn:E; cbn; [apply eqb_eq in E; subst; firstorder congruence|]. rewrite IH. firstorder.
Qed.
Lemma append_NoDup m k x : NoDup (map fst m) -> NoDup (map fst (append m k x)).
Proof.
  induction m as [|[k0 l] m IH]; cbn; intros N; [repeat constructor; intros []|]. inversion_clear N as [|? ? N1 N2]. destruct (eqb k k0) eqn:E; cbn; constructor; auto. rewrite append_keys. intros [->|I]; [rewrite eqb_refl in E; discriminate|auto].
Qed.
(** *** several keys *)
Lemma append_all ks x : forall m, NoDup ks -> forall k, find (fold_left (fun m k => append m k x) ks m) k = if existsb (eqb k) ks then Some (got m k ++ [x]) else find m k.
Proof.
  induction ks as [|k0 ks IH]; intros m N k; [reflexivity|]. inversion_clear N as [|? ? N1 N2]. cbn [fold_left existsb]. rewrite IH by exact N2. unfold got. rewrite find_append.
  destruct (eqb k k0) eqn:E; cbn [orb].
  - apply eqb_eq in E. subst k0. replace (existsb (eqb k) ks) with false; [reflexivity|]. symmetry. apply not_true_iff_false. intros H. apply existsb_exists in H. destruct H as (y & I & E). apply eqb_eq in E. subst. auto.
  - destruct (existsb (eqb k) ks); reflexivity.
Qed.
Lemma append_all_NoDup ks x m : NoDup (map fst m) -> NoDup (map fst (fold_left (fun m k => append m k x) ks m)).
Proof. revert m. induction ks as [|k ks IH]; intros m N; [exact N|]. apply IH, append_NoDup, N. Qed.
(** *** one entry *)
Lemma appends_got l base m k : l <> [] -> forall k', find (fold_left (fun m j => append m k (base + j)) l m) k' = if eqb k' k then Some (got m k ++ map (fun j => base + j) l) else find m k'.
Proof.
  intros N k'. assert (G : forall l m, find (fold_left (fun m j => append m k (base + j)) l m) k' = if eqb k' k then match l with [] => find m k' | _ => Some (got m k ++ map (fun j => base + j) l) end else find m k').
  { clear - eqb_eq. induction l as [|j l IH]; intros m; cbn [fold_left]; [destruct (eqb k' k); reflexivity|]. rewrite IH. unfold got. rewrite !find_append, eqb_refl. destruct (eqb k' k); [|reflexivity]. cbn [map]. destruct l; [reflexivity|]. rewrite <- app_assoc. reflexivity. }
  rewrite G. destruct l; [congruence|reflexivity].
Qed.
Definition merge_one (base : nat) (probe : nat -> nat) k (m : list (K * list nat)) (j : nat) :=
  match find m k with Some present => if existsb (Nat.eqb (probe j)) present then m else append m k (base + j) | None => append m k (base + j) end.
Lemma merge_fresh base k l : forall m, NoDup l -> (forall v, In v (got m k) -> v < base \/ exists j, v = base + j /\ ~ In j l) ->
  fold_left (merge_one base (fun j => base + j) k) l m = fold_left (fun m j => append m k (base + j)) l m.
Proof.
  induction l as [|j l IH]; intros m N H; [reflexivity|]. inversion_clear N as [|? ? N1 N2]. cbn [fold_left].
  assert (E : merge_one base (fun j => base + j) k m j = append m k (base + j)).
  { unfold merge_one, got in *. destruct (find m k) as [p|] eqn:F; [|reflexivity]. replace (existsb (Nat.eqb (base + j)) p) with false; [reflexivity|]. symmetry. apply not_true_iff_false. intros X. apply existsb_exists in X. destruct X as (v & I & X). apply Nat.eqb_eq in X. subst v. destruct (H _ I) as [L|(j' & E & NI)]; [lia|]. apply NI. left. lia. }
  rewrite E. apply IH; [exact N2|]. intros v I. unfold got in I. rewrite find_append, eqb_refl in I. apply in_app_iff in I. destruct I as [I|[<-|[]]]; [|right; exists j; auto]. destruct (H v I) as [L|(j' & E' & NI)]; [left; exact L|right; exists j'; split; [exact E'|]]. intros X. apply NI. right. exact X.
Qed.
Definition harmless (base : nat) (probe : nat -> nat) (m : list (K * list nat)) (k : K) : Prop :=
  find m k = None \/ (probe = fun j => base + j) /\ forall v, In v (got m k) -> v < base.
Lemma merge_entry_spec base probe m k l : l <> [] -> NoDup l -> harmless base probe m k ->
  forall k', find (merge_entry eqb probe base m (k, l)) k' = if eqb k' k then Some (got m k ++ map (fun j => base + j) l) else find m k'.
Proof.
  intros N D H k'. unfold merge_entry. destruct (find m k) as [p|] eqn:F; [|apply appends_got, N]. destruct H as [H|[-> H]]; [congruence|].
  change (fold_left _ l m) with (fold_left (merge_one base (fun j => base + j) k) l m). rewrite merge_fresh; [apply appends_got, N|exact D|]. intros v I. left. apply H, I.
Qed.
Lemma merge_entry_NoDup base probe m e : NoDup (map fst m) -> NoDup (map fst (merge_entry eqb probe base m e)).
Proof.
  destruct e as [k l]. unfold merge_entry. intros N. destruct (find m k).
  - clear - N eqb_eq. revert m N. induction l as [|j l IH]; intros m N; [exact N|]. cbn [fold_left]. apply IH. destruct (find m k) as [p|]; [destruct (existsb _ p); [exact N|]|]; apply append_NoDup, N.
  - clear - N eqb_eq. revert m N. induction l as [|j l IH]; intros m N; [exact N|]. cbn [fold_left]. apply IH, append_NoDup, N.
Qed.
(** *** all entries *)
Lemma merge_all base probe L : forall m, NoDup (map fst m) -> NoDup (map fst L) -> (forall k l, In (k, l) L -> l <> [] /\ NoDup l /\ harmless base probe m k) ->
  NoDup (map fst (fold_left (merge_entry eqb probe base) L m)) /\
  forall k, find (fold_left (merge_entry eqb probe base) L m) k = match find L k with Some l => Some (got m k ++ map (fun j => base + j) l) | None => find m k end.
Proof.
  induction L as [|[k0 l0] L IH]; intros m N NL H; [split; [exact N|reflexivity]|]. cbn [fold_left]. inversion_clear NL as [|? ? N1 N2].
  destruct (H k0 l0 (or_introl eq_refl)) as (A & B & C). pose proof (merge_entry_spec base probe m k0 l0 A B C) as S0.
  destruct (IH (merge_entry eqb probe base m (k0, l0))) as [I1 I2].
  - apply merge_entry_NoDup, N.
  - exact N2.
  - intros k l I. destruct (H k l (or_intror I)) as (A' & B' & C'). split; [exact A'|]. split; [exact B'|]. unfold harmless, got in *. rewrite S0. destruct (eqb k k0) eqn:E; [|exact C']. exfalso. apply eqb_eq in E. subst k0. apply N1, in_map_iff. exists (k, l). auto.
  - split; [exact I1|]. intros k. rewrite I2. cbn [PointsModel.find]. unfold got. rewrite S0. destruct (eqb k k0) eqn:E; [|reflexivity].
    apply eqb_eq in E. subst k0. replace (find L k) with (@None (list nat)); [reflexivity|]. symmetry. apply find_None, N1.
Qed.
(** *** the table of a property *)
Definition TI {X} (P : K -> X -> bool) (b : nat) (h : list X) (m : list (K * list nat)) : Prop := NoDup (map fst m) /\ forall k, find m k = opt_list (numbers (P k) b h).
Lemma opt_got {X} (P : K -> X -> bool) b h m k : TI P b h m -> got m k = numbers (P k) b h.
Proof. intros [_ H]. unfold got. rewrite H. destruct (numbers (P k) b h); reflexivity. Qed.
Lemma TI_nil {X} (P : K -> X -> bool) b : TI P b [] []. Proof. split; [constructor|reflexivity]. Qed.
Lemma opt_app l x : Some (l ++ [x]) = opt_list (l ++ [x]). Proof. destruct l; reflexivity. Qed.
Lemma TI_add {X} (P : K -> X -> bool) b h m x ks : TI P b h m -> NoDup ks -> (forall k, P k x = existsb (eqb k) ks) -> TI P b (h ++ [x]) (fold_left (fun m k => append m k (b + length h)) ks m).
Proof.
  intros T N E. split; [apply append_all_NoDup, T|]. intros k. rewrite append_all by exact N. rewrite numbers_app. cbn [numbers]. rewrite E. destruct (existsb (eqb k) ks); cbn [app]; [|rewrite app_nil_r; apply T]. rewrite (opt_got P b h m k T). apply opt_app.
Qed.
Lemma TI_merge {X} (P : K -> X -> bool) b h m h' f L probe : TI P b h m -> TI P 0 h' f -> Permutation L f -> probe = (fun j => b + length h + j) \/ (forall k, find m k = None \/ find f k = None) ->
  TI P b (h ++ h') (fold_left (merge_entry eqb probe (b + length h)) L m).
Proof.
  intros T T' PL D. pose proof T as [T1 T2]. pose proof T' as [T1' T2']. assert (NL : NoDup (map fst L)) by (eapply Permutation_NoDup; [apply Permutation_map, Permutation_sym, PL|exact T1']).
  assert (FL : forall k, find L k = find f k). { intros k. destruct (find f k) as [l|] eqn:F; [apply (find_In L k l NL); eapply Permutation_in; [apply Permutation_sym, PL|]; apply (find_In f k l T1'), F|]. apply find_None. apply find_None in F. intros I. apply F. eapply Permutation_in; [apply Permutation_map, PL|exact I]. }
  destruct (merge_all (b + length h) probe L m T1 NL) as [R1 R2].
  { intros k l I. apply (find_In L k l NL) in I. pose proof I as F. rewrite FL, T2' in I. destruct (numbers (P k) 0 h') as [|x r] eqn:E; [discriminate|]. injection I as <-. split; [discriminate|]. split; [rewrite <- E; apply sorted_NoDup, numbers_sorted|].
    destruct D as [->|D]; [right; split; [reflexivity|]; intros v V; rewrite (opt_got P b h m k T) in V; apply numbers_range in V; lia|]. left. destruct (D k) as [D'|D']; [exact D'|]. rewrite FL in F. congruence. }
  split; [exact R1|]. intros k. rewrite R2, FL, T2', (opt_got P b h m k T), numbers_app. assert (X0 : numbers (P k) (b + length h) h' = map (fun j => b + length h + j) (numbers (P k) 0 h')) by (rewrite <- numbers_shift; f_equal; lia). rewrite X0.
  destruct (numbers (P k) 0 h') as [|x r]; [cbn [opt_list map]; rewrite app_nil_r; apply T2|]. destruct (numbers (P k) b h); reflexivity.
Qed.
Lemma TI_shift {X} (P : K -> X -> bool) b h m : TI P 0 h m -> TI P b h (shift b m).
Proof.
  intros [T1 T2]. split; [unfold shift; rewrite map_map; exact T1|]. intros k. replace b with (b + 0) at 2 by lia. rewrite numbers_shift. specialize (T2 k).
  assert (E : find (shift b m) k = option_map (map (fun j => b + j)) (find m k)). { clear. induction m as [|[k0 l] m IH]; [reflexivity|]. cbn. destruct (eqb k k0); [reflexivity|exact IH]. }
  rewrite E, T2. destruct (numbers (P k) 0 h); reflexivity.
Qed.
Lemma TI_lists {X} (P : K -> X -> bool) (Q : nat -> K -> Prop) b h m : TI P b h m -> (forall v k, Q v k <-> b <= v /\ exists x, nth_error h (v - b) = Some x /\ P k x = true) -> lists (find m) Q.
Proof.
  intros [_ T] H k. rewrite T. destruct (numbers (P k) b h) as [|x r] eqn:E; cbn [opt_list].
  - intros v V. apply H in V. apply numbers_In in V. rewrite E in V. exact V.
  - split; [discriminate|]. rewrite <- E. split; [apply numbers_sorted|]. intros v. rewrite numbers_In, H. reflexivity.
Qed.
End Tables.
Lemma pair_eqb_eq p q : pair_eqb p q = true <-> p = q.
Proof. destruct p as [a b], q as [c d]. unfold pair_eqb. cbn. rewrite andb_true_iff, !Nat.eqb_eq. split; [intros [-> ->]; reflexivity|intros [= -> ->]; auto]. Qed.
Lemma find_lookup m k : find Nat.eqb m k = lookup m k. Proof. induction m as [|[k0 l] m IH]; [reflexivity|]. cbn. rewrite IH. reflexivity. Qed.

(** ** The pairs *)
Definition SS (l : list nat) := StronglySorted lt l.
Lemma insert_sorted_spec x l : SS l -> SS (insert_sorted x l) /\ forall v, In v (insert_sorted x l) <-> v = x \/ In v l.
Proof.
  induction 1 as [|y l SO IH F]; cbn [insert_sorted]; [split; [repeat constructor|firstorder]|]. destruct IH as [I1 I2]. destruct (Nat.ltb_spec y x) as [L|L].
  - split; [|intros v; cbn [In]; specialize (I2 v); tauto]. constructor; [exact I1|]. apply Forall_forall. intros v I. apply I2 in I. destruct I as [->|I]; [exact L|]. rewrite Forall_forall in F. apply F, I.
  - destruct (Nat.eqb_spec y x) as [->|N]; [split; [constructor; assumption|cbn; firstorder congruence]|]. split; [|intros v; cbn; firstorder]. constructor; [constructor; assumption|]. constructor; [lia|]. eapply Forall_impl; [|exact F]. cbn. lia.
Qed.
Lemma insert_all_spec xs : forall l, SS l -> SS (insert_all l xs) /\ forall v, In v (insert_all l xs) <-> In v xs \/ In v l.
Proof.
  induction xs as [|x xs IH]; intros l S; [split; [exact S|cbn; tauto]|]. cbn. destruct (insert_sorted_spec x l S) as [S1 S2]. destruct (IH _ S1) as [I1 I2]. split; [exact I1|]. intros v. rewrite I2, S2. cbn [In]. split; [intros [A|[A|A]]; auto|intros [[A|A]|A]; auto].
Qed.
Lemma sorted_strict l : NoDup l -> Sorted le l -> SS l.
Proof.
  intros N S. apply Sorted_StronglySorted in S; [|exact Nat.le_trans]. induction S as [|x l S IH F]; [constructor|]. inversion_clear N as [|? ? N1 N2]. constructor; [apply IH, N2|]. apply Forall_forall. intros y I. rewrite Forall_forall in F. specialize (F y I). assert (x <> y) by (intros ->; auto). lia.
Qed.

Section Pairs.
Variables (around : nat -> list nat) (sort : list nat -> list nat) (shuffle : forall A, list (nat * A) -> list (nat * A)).
Hypothesis SO : sorts sort.
Hypothesis SH : forall A (m : list (nat * A)), Permutation (shuffle A m) m.
(** D: the pairs (edge, candidates) done so far *)
Definition PInv (D : list (nat * list nat)) (m : list (nat * list nat)) : Prop :=
  NoDup (map fst m) /\ forall e, match lookup m e with
    | Some l => SS l /\ (exists o, In (e, o) D) /\ forall g, In g l <-> exists o, In (e, o) D /\ In g o
    | None => forall o, ~ In (e, o) D end.
Lemma PInv_nil : PInv [] []. Proof. split; [constructor|]. intros e. cbn. auto. Qed.
Lemma sort_candidates o : NoDup o -> let l := if Nat.ltb 1 (length o) then sort o else o in SS l /\ forall g, In g l <-> In g o.
Proof.
  intros N l. unfold l. destruct (Nat.ltb_spec 1 (length o)).
  - destruct (SO o) as [P S]. split; [apply sorted_strict; [eapply Permutation_NoDup; [apply Permutation_sym, P|exact N]|exact S]|]. intros g. split; apply Permutation_in; [exact P|apply Permutation_sym, P].
  - split; [|tauto]. destruct o as [|x [|y o]]; [constructor|repeat constructor|cbn in *; lia].
Qed.
Lemma PInv_set D m e o l : PInv D m -> SS l -> (forall g, In g l <-> In g o \/ exists o', In (e, o') D /\ In g o') -> PInv (D ++ [(e, o)]) (set m e l).
Proof.
  intros [N H] S G. split; [apply set_NoDup, N|]. intros e'. rewrite set_lookup. destruct (Nat.eqb_spec e' e) as [E|NE].
  - rewrite E. split; [exact S|]. split; [exists o; apply in_app_iff; right; left; reflexivity|]. intros g. rewrite G. split.
    + intros [I|(o' & I & J)]; [exists o; split; [apply in_app_iff; right; left; reflexivity|exact I]|exists o'; split; [apply in_app_iff; left; exact I|exact J]].
    + intros (o' & I & J). apply in_app_iff in I. destruct I as [I|[[= <-]|[]]]; [right; exists o'; auto|left; exact J].
  - specialize (H e'). assert (X : forall o', In (e', o') (D ++ [(e, o)]) <-> In (e', o') D) by (intros o'; rewrite in_app_iff; cbn; split; [intros [I|[[= X _]|[]]]; [exact I|congruence]|auto]).
    destruct (lookup m e') as [l'|]; [|intros o' I; apply X in I; exact (H o' I)]. destruct H as (H1 & (o' & H2) & H3). split; [exact H1|]. split; [exists o'; apply X, H2|]. intros g. rewrite H3. split; intros (q & I & J); exists q; split; try exact J; apply X, I.
Qed.
Lemma add_candidates_spec D m o e : NoDup o -> PInv D m -> PInv (D ++ [(e, o)]) (add_candidates sort o m e).
Proof.
  intros N H. pose proof (proj2 H e) as L. unfold add_candidates. destruct (sort_candidates o N) as [S1 S2]. destruct (lookup m e) as [[|x l]|].
  - destruct L as (_ & _ & L). apply PInv_set; [exact H|exact S1|]. intros g. rewrite S2. split; [auto|intros [I|(o' & I & J)]; [exact I|]]. destruct (proj2 (L g)); exists o'; auto.
  - destruct L as (L1 & _ & L). destruct (insert_all_spec o (x :: l) L1) as [I1 I2]. apply PInv_set; [exact H|exact I1|]. intros g. rewrite I2, L. reflexivity.
  - apply PInv_set; [exact H|exact S1|]. intros g. rewrite S2. split; [auto|intros [I|(o' & I & J)]; [exact I|]]. destruct (L o' I).
Qed.
Definition edges_with (p : nat * list nat) : list (nat * list nat) := map (fun e => (e, snd p)) (around (fst p)).
Lemma pairs_of_block_spec block : (forall p, In p block -> NoDup (snd p)) -> PInv (flat_map edges_with block) (pairs_of_block around sort block).
Proof.
  intros H. unfold pairs_of_block. assert (G : forall D m, PInv D m -> PInv (D ++ flat_map edges_with block) (fold_left (fun m p => fold_left (add_candidates sort (snd p)) (around (fst p)) m) block m)); [|apply (G [] []), PInv_nil].
  induction block as [|p block IH]; intros D m I; cbn [flat_map fold_left]; [rewrite app_nil_r; exact I|]. rewrite app_assoc. apply IH; [intros; apply H; right; assumption|].
  assert (N : NoDup (snd p)) by (apply H; left; reflexivity). unfold edges_with. clear - I N SO. revert D m I. induction (around (fst p)) as [|e es IH]; intros D m I; [rewrite app_nil_r; exact I|]. cbn [map fold_left].
  replace (D ++ (e, snd p) :: map (fun e0 => (e0, snd p)) es) with ((D ++ [(e, snd p)]) ++ map (fun e0 => (e0, snd p)) es) by (rewrite <- app_assoc; reflexivity). apply IH, add_candidates_spec; assumption.
Qed.
Lemma merge_pairs_spec D m D' f : PInv D m -> PInv D' f -> PInv (D ++ D') (merge_pairs shuffle m f).
Proof.
  intros H [N' H']. unfold merge_pairs. set (L := shuffle _ f). assert (NL : NoDup (map fst L)) by (eapply Permutation_NoDup; [apply Permutation_map, Permutation_sym, SH|exact N']).
  assert (FL : forall e, lookup L e = lookup f e) by (intros e; apply lookup_perm; [apply SH|exact NL]).
  (* the pairs of the keys done *)
  assert (G : forall L' L0 D0 m0, L = L0 ++ L' -> PInv D0 m0 -> (forall e o, In (e, o) D0 <-> In (e, o) D \/ In e (map fst L0) /\ In (e, o) D') ->
    exists D1, PInv D1 (fold_left (fun m p => match lookup m (fst p) with None => set m (fst p) (snd p) | Some l => set m (fst p) (insert_all l (snd p)) end) L' m0) /\ forall e o, In (e, o) D1 <-> In (e, o) D \/ In e (map fst L) /\ In (e, o) D').
  { induction L' as [|[e l] L' IH]; intros L0 D0 m0 E I HD; [exists D0; split; [exact I|]; rewrite E, app_nil_r; exact HD|]. cbn [fold_left fst snd].
    assert (EL : lookup f e = Some l) by (rewrite <- FL; apply In_lookup; [exact NL|rewrite E; apply in_app_iff; right; left; reflexivity]). pose proof (H' e) as HE. rewrite EL in HE. destruct HE as (S1 & S2 & S3).
    assert (NE : ~ In e (map fst L0)). { rewrite E, map_app in NL. cbn in NL. apply NoDup_remove_2 in NL. rewrite in_app_iff in NL. tauto. }
    set (DE := filter (fun p => Nat.eqb (fst p) e) D'). assert (INE : forall e0 o, In (e0, o) DE <-> e0 = e /\ In (e, o) D'). { intros e0 o. unfold DE. rewrite filter_In. cbn. rewrite Nat.eqb_eq. split; [intros [A ->]; auto|intros [-> A]; auto]. }
    assert (ST : forall l1, SS l1 -> (forall g, In g l1 <-> In g l \/ exists o, In (e, o) D0 /\ In g o) -> PInv (D0 ++ DE) (set m0 e l1)).
    { intros l1 SL HL. destruct I as [I1 I2]. split; [apply set_NoDup, I1|]. intros e'. rewrite set_lookup. destruct (Nat.eqb_spec e' e) as [EE|NEE].
      - rewrite EE. split; [exact SL|]. split; [destruct S2 as (o & S2); exists o; apply in_app_iff; right; apply INE; auto|]. intros g. rewrite HL, S3. split.
        + intros [(o & A & B)|(o & A & B)]; exists o; split; try exact B; apply in_app_iff; [right; apply INE; auto|left; exact A].
        + intros (o & A & B). apply in_app_iff in A. destruct A as [A|A]; [right; exists o; auto|left; apply INE in A; exists o; split; [apply A|exact B]].
      - specialize (I2 e'). assert (X : forall o', In (e', o') (D0 ++ DE) <-> In (e', o') D0) by (intros o'; rewrite in_app_iff, INE; split; [intros [A|[A _]]; [exact A|congruence]|auto]).
        destruct (lookup m0 e') as [l'|]; [|intros o' A; apply X in A; exact (I2 o' A)]. destruct I2 as (H1 & (o' & H2) & H3). split; [exact H1|]. split; [exists o'; apply X, H2|]. intros g. rewrite H3. split; intros (q & A & B); exists q; split; try exact B; apply X, A. }
    assert (HD' : forall e0 o, In (e0, o) (D0 ++ DE) <-> In (e0, o) D \/ In e0 (map fst (L0 ++ [(e, l)])) /\ In (e0, o) D').
    { intros e0 o. rewrite in_app_iff, INE, HD, map_app, in_app_iff. cbn. split; [intros [[A|[A B]]|[-> A]]; tauto|intros [A|[[A|[<-|[]]] B]]; tauto]. }
    apply (IH (L0 ++ [(e, l)]) (D0 ++ DE)); [rewrite <- app_assoc; exact E| |exact HD'].
    pose proof (proj2 I e) as Q. destruct (lookup m0 e) as [l1|].
    - destruct Q as (Q1 & _ & Q3). destruct (insert_all_spec l l1 Q1) as [J1 J2]. apply ST; [exact J1|]. intros g. rewrite J2, Q3. reflexivity.
    - apply ST; [exact S1|]. intros g. split; [auto|intros [A|(o & A & _)]; [exact A|]]. destruct (Q o A). }
  destruct (G L [] D m eq_refl H) as (D1 & I & HD); [intros e o; cbn; tauto|].
  assert (X : forall e o, In (e, o) D1 <-> In (e, o) (D ++ D')). { intros e o. rewrite HD, in_app_iff. split; [tauto|intros [A|A]; [auto|right; split; [|exact A]]]. specialize (H' e). apply lookup_mem. rewrite FL. destruct (lookup f e) as [l|]; [eauto|]. destruct (H' o A). }
  destruct I as [I1 I2]. split; [exact I1|]. intros e. specialize (I2 e). destruct (lookup _ e) as [l|]; [|intros o A; apply X in A; exact (I2 o A)]. destruct I2 as (H1 & (o' & H2) & H3). split; [exact H1|]. split; [exists o'; apply X, H2|]. intros g. rewrite H3. split; intros (q & A & B); exists q; split; try exact B; apply X, A.
Qed.
Lemma all_pairs_spec blocks master : (forall p, In p (master ++ concat blocks) -> NoDup (snd p)) -> PInv (flat_map edges_with (master ++ concat blocks)) (all_pairs around sort shuffle blocks master).
Proof.
  intros H. unfold all_pairs. assert (G : forall bs D m, (forall p, In p (concat bs) -> NoDup (snd p)) -> PInv D m -> PInv (D ++ flat_map edges_with (concat bs)) (fold_left (merge_pairs shuffle) (map (pairs_of_block around sort) bs) m)).
  { induction bs as [|b bs IH]; intros D m Hb I; cbn [concat flat_map fold_left map]; [rewrite app_nil_r; exact I|]. rewrite flat_map_app', app_assoc. apply IH; [intros; apply Hb; cbn; apply in_app_iff; auto|]. apply merge_pairs_spec; [exact I|]. apply pairs_of_block_spec. intros; apply Hb; cbn; apply in_app_iff; auto. }
  rewrite flat_map_app'. apply G; [intros; apply H, in_app_iff; auto|]. apply pairs_of_block_spec. intros; apply H, in_app_iff; auto.
Qed.
End Pairs.
