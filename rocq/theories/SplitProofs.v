(** Proofs about SplitModel. *)
From Coq Require Import List Arith Bool Lia Permutation Reals.
From Verif Require Import CutModel CutProofs SplitModel SplitSpec.
Import ListNotations.
Open Scope nat_scope.

(** ** Maps to lists *)
Definition get (m : list (nat * list nat)) (k : nat) : list nat := match lookup m k with Some l => l | None => [] end.
Lemma push_get m k e k' : get (push m k e) k' = get m k' ++ (if Nat.eqb k' k then [e] else []).
Proof. unfold get. rewrite push_lookup. destruct (Nat.eqb_spec k' k) as [->|D]; [reflexivity|]. rewrite app_nil_r. reflexivity. Qed.
Lemma push_mem m k e k' : In k' (map fst (push m k e)) <-> k' = k \/ In k' (map fst m).
Proof. rewrite push_keys. destruct (mem m k) eqn:M; [apply mem_In in M; split; [auto|intros [->|I]; assumption]|]. rewrite in_app_iff. cbn. split; intuition. Qed.
Lemma pushes_get l m k k' : get (pushes m k l) k' = get m k' ++ (if Nat.eqb k' k then l else []).
Proof.
  revert m. induction l as [|x l IH]; intros m; cbn; [destruct (Nat.eqb k' k); rewrite app_nil_r; reflexivity|]. unfold pushes in IH. rewrite IH, push_get. destruct (Nat.eqb k' k); rewrite <- app_assoc; reflexivity.
Qed.
Lemma pushes_mem l m k k' : In k' (map fst (pushes m k l)) -> (k' = k /\ l <> []) \/ In k' (map fst m).
Proof.
  revert m. induction l as [|x l IH]; intros m; cbn; [auto|]. intros I. apply IH in I. destruct I as [[-> N]|I]; [left; split; [reflexivity|discriminate]|]. apply push_mem in I. destruct I as [->|I]; [left; split; [reflexivity|discriminate]|right; exact I].
Qed.
Lemma pushes_incl l m k k' : In k' (map fst m) -> In k' (map fst (pushes m k l)).
Proof. revert m. induction l as [|x l IH]; intros m; cbn; [auto|]. intros I. apply IH. apply push_mem. right. exact I. Qed.
Lemma pushes_NoDup l m k : NoDup (map fst m) -> NoDup (map fst (pushes m k l)).
Proof. revert m. induction l as [|x l IH]; intros m N; cbn; [exact N|]. apply IH. apply push_NoDup, N. Qed.
Lemma fold_push_get fs m e f : get (fold_left (fun m f => push m f e) fs m) f = get m f ++ repeat e (count_occ Nat.eq_dec fs f).
Proof.
  revert m. induction fs as [|g fs IH]; intros m; cbn [fold_left count_occ repeat]; [rewrite app_nil_r; reflexivity|]. rewrite IH, push_get, <- app_assoc. f_equal. destruct (Nat.eq_dec g f) as [->|D]; [rewrite Nat.eqb_refl; reflexivity|]. destruct (Nat.eqb_spec f g) as [->|]; [congruence|]. reflexivity.
Qed.
Lemma lookup_perm {A} (m m' : list (nat * A)) k : Permutation m m' -> NoDup (map fst m) -> lookup m k = lookup m' k.
Proof.
  intros P N. assert (N' : NoDup (map fst m')) by (eapply Permutation_NoDup; [apply Permutation_map, P|exact N]).
  destruct (lookup m k) as [a|] eqn:E.
  - symmetry. apply In_lookup; [exact N'|]. eapply Permutation_in; [exact P|]. apply lookup_In, E.
  - destruct (lookup m' k) as [a|] eqn:E'; [|reflexivity]. apply lookup_In in E'. apply (Permutation_in _ (Permutation_sym P)) in E'. apply (In_lookup _ _ _ N) in E'. congruence.
Qed.
Lemma set_lookup {A} (m : list (nat * A)) k a k' : lookup (set m k a) k' = if Nat.eqb k' k then Some a else lookup m k'.
Proof.
  induction m as [|[q b] m IH]; cbn; [destruct (Nat.eqb_spec k' k); reflexivity|]. destruct (Nat.eqb_spec k q) as [->|D]; cbn; [destruct (Nat.eqb k' q); reflexivity|]. rewrite IH. destruct (Nat.eqb_spec k' q) as [->|]; [destruct (Nat.eqb_spec q k); [congruence|reflexivity]|reflexivity].
Qed.
Lemma set_NoDup {A} (m : list (nat * A)) k a : NoDup (map fst m) -> NoDup (map fst (set m k a)).
Proof.
  intros N. destruct (in_dec Nat.eq_dec k (map fst m)) as [I|I]; [|rewrite (set_new _ _ _ I), map_app; apply (Permutation_NoDup (Permutation_cons_append _ _)); constructor; assumption].
  replace (map fst (set m k a)) with (map fst m); [exact N|]. clear N. induction m as [|[q b] m IH]; [destruct I|]. cbn. destruct (Nat.eqb_spec k q) as [->|D]; [reflexivity|]. cbn. f_equal. apply IH. destruct I as [E|I]; [cbn in E; congruence|exact I].
Qed.
Lemma mapM_some {A B} (g : A -> option B) (g' : A -> B) l : (forall x, In x l -> g x = Some (g' x)) -> mapM g l = Some (map g' l).
Proof. intros H. induction l as [|x l IH]; [reflexivity|]. cbn. rewrite (H x) by (left; reflexivity). cbn. rewrite IH by (intros y I; apply H; right; exact I). reflexivity. Qed.
Lemma nth_seq b n i : i < n -> nth_error (seq b n) i = Some (b + i).
Proof. revert b i. induction n as [|n IH]; intros b i L; [lia|]. destruct i as [|i]; cbn; [f_equal; lia|]. rewrite IH by lia. f_equal. lia. Qed.

(** merging a map of lists *)
Lemma fold_pushes (g : nat -> option nat) (g' : nat -> nat) L m : NoDup (map fst L) -> (forall k l x, In (k, l) L -> In x l -> g x = Some (g' x)) ->
  exists r, fold_left (fun m p => let* m := m in let* es := mapM g (snd p) in Some (pushes m (fst p) es)) L (Some m) = Some r /\
    (forall k, get r k = get m k ++ map g' (get L k)) /\ (forall k, In k (map fst r) -> In k (map fst m) \/ In k (map fst L)) /\ (forall k, In k (map fst m) -> In k (map fst r)) /\ (NoDup (map fst m) -> NoDup (map fst r)).
Proof.
  revert m. induction L as [|[k l] L IH]; intros m N H; [exists m; cbn; repeat split; auto; intros; change (get [] k) with (@nil nat); cbn; rewrite app_nil_r; reflexivity|].
  cbn in N. inversion_clear N as [|? ? N1 N2]. cbn [fold_left fst snd bind]. rewrite (mapM_some g g' l) by (intros x I; eapply H; [left; reflexivity|exact I]). cbn [bind].
  destruct (IH (pushes m k (map g' l)) N2 ltac:(intros; eapply H; [right; eassumption|assumption])) as (r & E & G & K & K' & ND). exists r. split; [exact E|]. split; [|split; [|split]].
  - intros q. rewrite G, pushes_get, <- app_assoc. f_equal. unfold get at 2. cbn. destruct (Nat.eqb_spec q k) as [->|D]; [|reflexivity]. unfold get. destruct (lookup L k) eqn:EL; [exfalso; apply N1; apply lookup_mem; eauto|]. cbn. rewrite app_nil_r. reflexivity.
  - intros q I. apply K in I. destruct I as [I|I]; [|right; right; exact I]. apply pushes_mem in I. destruct I as [[-> _]|I]; [right; left; reflexivity|left; exact I].
  - intros q I. apply K', pushes_incl, I.
  - intros N. apply ND, pushes_NoDup, N.
Qed.
Lemma fold_sets (g : nat -> option nat) (g' : nat -> nat) L m : NoDup (map fst L) -> (forall k x, In (k, x) L -> g x = Some (g' x)) ->
  exists r, fold_left (fun m p => let* m := m in let* e := g (snd p) in Some (set m (fst p) e)) L (Some m) = Some r /\
    (forall k, lookup r k = match lookup L k with Some x => Some (g' x) | None => lookup m k end) /\ (NoDup (map fst m) -> NoDup (map fst r)).
Proof.
  revert m. induction L as [|[k l] L IH]; intros m N H; [exists m; cbn; auto|].
  cbn in N. inversion_clear N as [|? ? N1 N2]. cbn [fold_left fst snd bind]. rewrite (H k l) by (left; reflexivity). cbn [bind].
  destruct (IH (set m k (g' l)) N2 ltac:(intros; eapply H; right; eassumption)) as (r & E & G & ND). exists r. split; [exact E|]. split; [|intros M; apply ND, set_NoDup, M].
  intros q. rewrite G, set_lookup. cbn. destruct (Nat.eqb_spec q k) as [->|D]; [|reflexivity]. destruct (lookup L k) eqn:EL; [exfalso; apply N1; apply lookup_mem; eauto|reflexivity].
Qed.

Lemma flat_map_app' {A B} (g : A -> list B) l l' : flat_map g (l ++ l') = flat_map g l ++ flat_map g l'.
Proof. induction l as [|x l IH]; cbn; [reflexivity|]. rewrite IH, app_assoc. reflexivity. Qed.
Lemma map_flat_map {A B C} (h : B -> C) (g : A -> list B) l : map h (flat_map g l) = flat_map (fun x => map h (g x)) l.
Proof. induction l as [|x l IH]; cbn; [reflexivity|]. rewrite map_app, IH. reflexivity. Qed.
Lemma flat_map_map {A B C} (h : A -> B) (g : B -> list C) l : flat_map g (map h l) = flat_map (fun x => g (h x)) l.
Proof. induction l as [|x l IH]; cbn; [reflexivity|]. rewrite IH. reflexivity. Qed.
Lemma combine_app {A B} (a a' : list A) (b b' : list B) : length a = length b -> combine (a ++ a') (b ++ b') = combine a b ++ combine a' b'.
Proof. revert b. induction a as [|x a IH]; intros [|y b] E; cbn in *; try lia; [reflexivity|]. rewrite IH by lia. reflexivity. Qed.

Section Proofs.
Variable rnd : R -> R.
Variable sort : list (nat * R) -> list (nat * R).
Variable position : nat -> vec.
Variable pends : nat -> nat * nat.
Variable psf : nat -> option nat * option nat.
Variable points : list (nat * list nat).
Variable cnt : nat.
Variable shuffle : forall A, list (nat * A) -> list (nat * A).
Variable way : nat -> list nat.
Variable key : nat -> bool.
Variable n : nat.
Notation faces := (faces psf).
Notation many := (many points).
Definition points_of (e : nat) : list nat := match lookup points e with Some l => l | None => [] end.

Hypothesis shuffled : forall A (m : list (nat * A)), Permutation (shuffle A m) m.
Hypothesis points_nodup : NoDup (map fst points).
Hypothesis sorted : forall e, In e (map fst many) -> sorted_vertices rnd sort position pends (e, points_of e) = Some (way e).
Hypothesis points_edges : forall e, In e (map fst points) -> e < n.
Hypothesis way_ends : forall e, e < n -> exists mid, way e = fst (pends e) :: mid ++ [snd (pends e)] /\ Permutation mid (points_of e).
Hypothesis ends_old : forall e, e < n -> fst (pends e) < cnt /\ snd (pends e) < cnt.
Hypothesis points_new : forall e v, In v (points_of e) -> cnt <= v.
Hypothesis faces_nodup : forall e, e < n -> NoDup (faces e).
Hypothesis faces_key : forall e f, points_of e <> [] -> In f (faces e) -> key f = true.

Fixpoint pairs (vs : list nat) : list (nat * nat) := match vs with v :: ((w :: _) as vs') => (v, w) :: pairs vs' | _ => [] end.
Definition segs (e : nat) : list (nat * nat) := match points_of e with [] => [(snd (pends e), fst (pends e))] | _ => pairs (way e) end.
(** the edges and the numbers of the pieces *)
Fixpoint table (b : nat) (os : list nat) : list (nat * list nat) := match os with [] => [] | o :: os' => (o, seq b (length (segs o))) :: table (b + length (segs o)) os' end.
Definition total (os : list nat) : nat := length (concat (map segs os)).
Definition on (f : nat) (p : nat * list nat) : bool := existsb (Nat.eqb f) (faces (fst p)).
Definition side_edges (f b : nat) (os : list nat) : list nat := flat_map snd (filter (on f) (table b os)).
Definition halves (v b : nat) (sg : list (nat * nat)) : list nat := if Nat.leb cnt v then flat_map (ending_at v) (combine (seq b (length sg)) sg) else [].

Lemma total_cons o os : total (o :: os) = length (segs o) + total os.
Proof. unfold total. cbn. rewrite app_length. reflexivity. Qed.
Lemma total_app os os' : total (os ++ os') = total os + total os'.
Proof. unfold total. rewrite map_app, concat_app, app_length. reflexivity. Qed.
Lemma table_app b os os' : table b (os ++ os') = table b os ++ table (b + total os) os'.
Proof. revert b. induction os as [|o os IH]; intros b; [cbn; rewrite Nat.add_0_r; reflexivity|]. cbn [app table]. rewrite IH, total_cons, Nat.add_assoc. reflexivity. Qed.
Lemma table_shift b x os : table (b + x) os = map (fun p => (fst p, map (fun i => b + i) (snd p))) (table x os).
Proof.
  revert x. induction os as [|o os IH]; intros x; [reflexivity|]. cbn [table map fst snd]. rewrite <- Nat.add_assoc, IH. f_equal. f_equal. clear. generalize (length (segs o)). intros m. revert x. induction m as [|m IH]; intros x; [reflexivity|]. cbn. f_equal. rewrite <- IH. f_equal. lia.
Qed.
Lemma table_range b os o es k : In (o, es) (table b os) -> In k es -> b <= k < b + total os.
Proof. revert b. induction os as [|p os IH]; intros b; [intros []|]. cbn [table]. rewrite total_cons. intros [E|I] K; [injection E as <- <-; apply in_seq in K; lia|apply (IH _ I) in K; lia]. Qed.
Lemma table_keys b os : map fst (table b os) = os.
Proof. revert b. induction os as [|p os IH]; intros b; cbn; [reflexivity|]. rewrite IH. reflexivity. Qed.
Lemma table_concat b os : flat_map snd (table b os) = seq b (total os).
Proof. revert b. induction os as [|p os IH]; intros b; [reflexivity|]. cbn [table flat_map snd]. rewrite IH, total_cons, seq_app. reflexivity. Qed.
Lemma side_app f b os os' : side_edges f b (os ++ os') = side_edges f b os ++ side_edges f (b + total os) os'.
Proof. unfold side_edges. rewrite table_app, filter_app, flat_map_app'. reflexivity. Qed.
Lemma side_shift f b os : side_edges f b os = map (fun i => b + i) (side_edges f 0 os).
Proof.
  unfold side_edges. rewrite map_flat_map. replace (table b os) with (table (b + 0) os) by (f_equal; lia). rewrite (table_shift b 0). induction (table 0 os) as [|p t IH]; [reflexivity|]. cbn [map filter]. change (on f (fst p, map (fun i => b + i) (snd p))) with (on f p). destruct (on f p); cbn [flat_map snd]; [rewrite IH; reflexivity|exact IH].
Qed.
Lemma side_range f b os k : In k (side_edges f b os) -> b <= k < b + total os.
Proof. unfold side_edges. rewrite in_flat_map. intros ([o es] & I & K). apply filter_In in I. eapply table_range; [exact (proj1 I)|exact K]. Qed.
Lemma halves_app v b sg sg' : halves v b (sg ++ sg') = halves v b sg ++ halves v (b + length sg) sg'.
Proof. unfold halves. destruct (Nat.leb cnt v); [|reflexivity]. rewrite app_length, seq_app, combine_app by apply seq_length. apply flat_map_app'. Qed.
Lemma ending_shift v b i sg : ending_at v (b + i, sg) = map (fun h => 2 * b + h) (ending_at v (i, sg)).
Proof. unfold ending_at. cbn [fst snd]. rewrite map_app. f_equal; [destruct (Nat.eqb (snd sg) v)|destruct (Nat.eqb (fst sg) v)]; cbn [map]; try reflexivity; f_equal; lia. Qed.
Lemma halves_shift v b x sg : halves v (b + x) sg = map (fun h => 2 * b + h) (halves v x sg).
Proof.
  unfold halves. destruct (Nat.leb cnt v); [|reflexivity]. revert x. induction sg as [|s sg IH]; intros x; [reflexivity|]. cbn [length seq combine flat_map]. rewrite map_app, <- ending_shift. f_equal. replace (S (b + x)) with (b + S x) by lia. apply IH.
Qed.
Lemma halves_range v b sg h : In h (halves v b sg) -> 2 * b <= h < 2 * (b + length sg).
Proof.
  unfold halves. destruct (Nat.leb cnt v); [|intros []]. rewrite in_flat_map. intros ([i p] & I & H). apply in_combine_l in I. apply in_seq in I. unfold ending_at in H. cbn [fst snd] in H. apply in_app_iff in H. destruct H as [H|H]; [destruct (Nat.eqb (snd p) v)|destruct (Nat.eqb (fst p) v)]; cbn [In] in H; intuition lia.
Qed.

(** ** The state after the edges os have been divided *)
Record Inv (E0 : list (nat * nat)) (F0 I0 : nat -> list nat) (os : list nat) (st : state) : Prop := {
  i_edges : edges st = E0 ++ concat (map segs os);
  i_iface : forall f, get (iface st) f = F0 f ++ (if key f then side_edges f (length E0) os else []);
  i_key : forall f, In f (map fst (iface st)) -> key f = true;
  i_incoming : forall v, get (incoming st) v = I0 v ++ halves v (length E0) (concat (map segs os));
  i_same : forall e k, lookup (same st) e = Some k <-> points_of e = [] /\ In (e, [k]) (table (length E0) os);
  i_n1 : NoDup (map fst (iface st)); i_n2 : NoDup (map fst (incoming st)); i_n3 : NoDup (map fst (same st)) }.

Lemma merge_inv E0 F0 I0 os st os' loc : Inv E0 F0 I0 os st -> Inv [] (fun _ => []) (fun _ => []) os' loc -> NoDup (os ++ os') ->
  exists r, merge shuffle st loc = Some r /\ Inv E0 F0 I0 (os ++ os') r /\ along r = along st /\ (forall f, In f (map fst (iface st)) -> In f (map fst (iface r))).
Proof.
  intros S L ND. unfold merge. pose proof (i_edges _ _ _ _ _ S) as ES. pose proof (i_edges _ _ _ _ _ L) as EL. cbn [app] in EL.
  assert (LS : length (edges st) = length E0 + total os) by (rewrite ES, app_length; reflexivity). assert (LL : length (edges loc) = total os') by (rewrite EL; reflexivity).
  assert (IN : forall k l, In (k, l) (iface loc) -> l = get (iface loc) k) by (intros k l I; unfold get; rewrite (In_lookup _ _ _ (i_n1 _ _ _ _ _ L) I); reflexivity).
  assert (IC : forall k l, In (k, l) (incoming loc) -> l = get (incoming loc) k) by (intros k l I; unfold get; rewrite (In_lookup _ _ _ (i_n2 _ _ _ _ _ L) I); reflexivity).
  assert (SN : forall A (m : list (nat * A)), NoDup (map fst m) -> NoDup (map fst (shuffle A m))) by (intros A m N; eapply Permutation_NoDup; [apply Permutation_map; symmetry; apply shuffled|exact N]).
  destruct (fold_sets (nth_error (seq (length (edges st)) (length (edges loc)))) (fun i => length (edges st) + i) (shuffle _ (same loc)) (same st)) as (sm & E1 & G1 & ND1); [apply SN, (i_n3 _ _ _ _ _ L)| |].
  { intros k x I. apply nth_seq. rewrite LL. apply (Permutation_in _ (shuffled _ _)) in I. apply (In_lookup _ _ _ (i_n3 _ _ _ _ _ L)) in I. apply (i_same _ _ _ _ _ L) in I. destruct I as [_ I]. apply (table_range _ _ _ _ x) in I; [cbn in I; lia|left; reflexivity]. }
  rewrite E1. cbn [bind].
  destruct (fold_pushes (nth_error (seq (length (edges st)) (length (edges loc)))) (fun i => length (edges st) + i) (shuffle _ (iface loc)) (iface st)) as (fm & E2 & G2 & K2 & K2' & ND2); [apply SN, (i_n1 _ _ _ _ _ L)| |].
  { intros k l x I J. apply nth_seq. rewrite LL. apply (Permutation_in _ (shuffled _ _)) in I. rewrite (IN _ _ I), (i_iface _ _ _ _ _ L) in J. cbn [app] in J. destruct (key k); [|destruct J]. apply side_range in J. cbn in J. lia. }
  rewrite E2. cbn [bind].
  destruct (fold_pushes (fun h => let* e := nth_error (seq (length (edges st)) (length (edges loc))) (Nat.div2 h) in Some (2 * e + (if Nat.even h then 0 else 1))) (fun h => 2 * length (edges st) + h) (shuffle _ (incoming loc)) (incoming st)) as (im & E3 & G3 & K3 & K3' & ND3); [apply SN, (i_n2 _ _ _ _ _ L)| |].
  { intros k l x I J. apply (Permutation_in _ (shuffled _ _)) in I. rewrite (IC _ _ I), (i_incoming _ _ _ _ _ L) in J. cbn [app] in J. apply halves_range in J. change (length []) with 0 in J. unfold total in LL. rewrite <- EL in J.
    rewrite nth_seq by (pose proof (Nat.div2_odd x); destruct (Nat.odd x); cbn [Nat.b2n] in *; lia). cbn [bind]. f_equal.
    pose proof (Nat.div2_odd x) as D. rewrite <- Nat.negb_even in D. destruct (Nat.even x); cbn [negb Nat.b2n] in D; lia. }
  rewrite E3. cbn [bind]. eexists. split; [reflexivity|]. split; [|split; [reflexivity|exact K2']].
  assert (PG : forall m k, NoDup (map fst m) -> get (shuffle _ m) k = get m k) by (intros m k N; unfold get; rewrite (lookup_perm _ _ k (shuffled _ m) (SN _ _ N)); reflexivity).
  constructor; cbn [edges iface incoming same].
  - rewrite ES, EL, map_app, concat_app, app_assoc. reflexivity.
  - intros f. rewrite G2, (PG _ _ (i_n1 _ _ _ _ _ L)), (i_iface _ _ _ _ _ S), (i_iface _ _ _ _ _ L), <- app_assoc. f_equal. cbn [app]. destruct (key f); [|reflexivity]. rewrite side_app. f_equal. rewrite (side_shift f (length E0 + total os)), LS. reflexivity.
  - intros f I. apply K2 in I. destruct I as [I|I]; [apply (i_key _ _ _ _ _ S f I)|]. apply (i_key _ _ _ _ _ L f). eapply Permutation_in; [apply Permutation_map, shuffled|exact I].
  - intros v. rewrite G3, (PG _ _ (i_n2 _ _ _ _ _ L)), (i_incoming _ _ _ _ _ S), (i_incoming _ _ _ _ _ L), <- app_assoc. f_equal. cbn [app length]. rewrite map_app, concat_app, halves_app. f_equal. rewrite LS. rewrite <- halves_shift. f_equal. unfold total. lia.
  - intros e k. rewrite G1, (lookup_perm _ _ e (shuffled _ (same loc)) (SN _ _ (i_n3 _ _ _ _ _ L))), table_app, in_app_iff.
    assert (T : table (length E0 + total os) os' = map (fun p => (fst p, map (fun i => length E0 + total os + i) (snd p))) (table 0 os')) by (rewrite <- table_shift; f_equal; lia).
    destruct (lookup (same loc) e) as [x|] eqn:LX.
    + apply (i_same _ _ _ _ _ L) in LX. destruct LX as [P0 LX]. assert (I1 : In e os') by (rewrite <- (table_keys (length (@nil (nat * nat))) os'); apply (in_map fst) in LX; exact LX). rewrite T.
      assert (TN : NoDup (map fst (table 0 os'))). { rewrite table_keys. clear - ND. induction os as [|o os IH]; [exact ND|]. cbn in ND. inversion_clear ND. auto. }
      assert (NI : forall es, ~ In (e, es) (table (length E0) os)). { intros es I. apply (in_map fst) in I. rewrite table_keys in I. cbn in I. clear - ND I I1. induction os as [|o os IH]; [destruct I|]. cbn in ND. inversion_clear ND as [|? ? N1 N2]. destruct I as [->|I]; [apply N1, in_app_iff; right; exact I1|apply IH; assumption]. }
      split.
      * intros E. injection E as <-. split; [exact P0|right]. apply in_map_iff. exists (e, [x]). rewrite LS. split; [reflexivity|exact LX].
      * intros [_ [I|I]]; [exfalso; exact (NI _ I)|]. apply in_map_iff in I. destruct I as ([e' es] & E & I). cbn [fst snd] in E. injection E as -> E. apply (In_lookup _ _ _ TN) in LX. apply (In_lookup _ _ _ TN) in I. rewrite LX in I. injection I as <-. cbn in E. injection E as <-. rewrite LS. reflexivity.
    + rewrite (i_same _ _ _ _ _ S). split; [intuition|]. intros [P0 [I|I]]; [auto|]. exfalso. rewrite T in I. apply in_map_iff in I. destruct I as ([e' es] & E & I). cbn [fst snd] in E. injection E as -> E.
      destruct es as [|x [|y es]]; cbn in E; try discriminate. assert (lookup (same loc) e = Some x) as X by (apply (i_same _ _ _ _ _ L); split; [exact P0|exact I]). congruence.
  - apply ND2, (i_n1 _ _ _ _ _ S).
  - apply ND3, (i_n2 _ _ _ _ _ S).
  - apply ND1, (i_n3 _ _ _ _ _ S).
Qed.

(** ** Part 2, one edge *)
Lemma fold_pushes_get (es : nat -> list nat) fs m f : NoDup fs -> get (fold_left (fun m g => pushes m g (es g)) fs m) f = get m f ++ (if existsb (Nat.eqb f) fs then es f else []).
Proof.
  revert m. induction fs as [|g fs IH]; intros m N; [cbn; rewrite app_nil_r; reflexivity|]. inversion_clear N as [|? ? N1 N2]. cbn [fold_left existsb]. rewrite (IH _ N2), pushes_get, <- app_assoc. f_equal. destruct (Nat.eqb_spec f g) as [->|D]; [|reflexivity]. cbn [orb].
  assert (existsb (Nat.eqb g) fs = false) as ->; [|apply app_nil_r]. apply not_true_is_false. intros X. apply existsb_exists in X. destruct X as (y & I & E). apply Nat.eqb_eq in E. subst. exact (N1 I).
Qed.
Lemma fold_pushes_mem (es : nat -> list nat) fs m f : In f (map fst (fold_left (fun m g => pushes m g (es g)) fs m)) -> In f (map fst m) \/ (In f fs /\ es f <> []).
Proof. revert m. induction fs as [|g fs IH]; intros m I; [left; exact I|]. cbn in I. apply IH in I. destruct I as [I|[I E]]; [|right; split; [right; exact I|exact E]]. apply pushes_mem in I. destruct I as [[-> E]|I]; [right; split; [left; reflexivity|exact E]|left; exact I]. Qed.
Lemma fold_pushes_incl (es : nat -> list nat) fs m f : In f (map fst m) -> In f (map fst (fold_left (fun m g => pushes m g (es g)) fs m)).
Proof. revert m. induction fs as [|g fs IH]; intros m I; [exact I|]. cbn. apply IH, pushes_incl, I. Qed.
Lemma fold_pushes_NoDup (es : nat -> list nat) fs m : NoDup (map fst m) -> NoDup (map fst (fold_left (fun m g => pushes m g (es g)) fs m)).
Proof. revert m. induction fs as [|g fs IH]; intros m N; [exact N|]. cbn. apply IH, pushes_NoDup, N. Qed.
Lemma fold_left_ext {A B} (g h : A -> B -> A) l a : (forall a b, g a b = h a b) -> fold_left g l a = fold_left h l a.
Proof. intros E. revert a. induction l as [|x l IH]; intros a; [reflexivity|]. cbn. rewrite E. apply IH. Qed.

Lemma many_lookup e : In e (map fst many) <-> 1 < length (points_of e).
Proof.
  unfold SplitModel.many, points_of. split.
  - intros I. apply in_map_iff in I. destruct I as ([e' l] & <- & I). apply filter_In in I. destruct I as [I L]. cbn in *. rewrite (In_lookup _ _ _ points_nodup I). apply Nat.ltb_lt, L.
  - destruct (lookup points e) as [l|] eqn:E; [|cbn; lia]. intros L. apply in_map_iff. exists (e, l). split; [reflexivity|]. apply filter_In. split; [apply lookup_In, E|apply Nat.ltb_lt, L].
Qed.
Lemma side_one f b e : side_edges f b [e] = if existsb (Nat.eqb f) (faces e) then seq b (length (segs e)) else [].
Proof. unfold side_edges, table. cbn [filter]. unfold on. cbn [fst]. destruct (existsb (Nat.eqb f) (faces e)); cbn; [apply app_nil_r|reflexivity]. Qed.

Lemma table_unique b os e es : In (e, es) (table b os) -> In e os.
Proof. intros I. apply (in_map fst) in I. rewrite table_keys in I. exact I. Qed.

Lemma local_step has_face os s e : (forall f, has_face f = key f) -> Inv [] (fun _ => []) (fun _ => []) os s -> e < n -> ~ In e os -> ~ In e (map fst many) ->
  exists s', local_edge pends psf points cnt has_face s e = Some s' /\ Inv [] (fun _ => []) (fun _ => []) (os ++ [e]) s'.
Proof.
  intros HF S EN NI NM. unfold local_edge. assert (M : mem many e = false) by (apply mem_false, NM). rewrite M. rewrite many_lookup in NM. fold (points_of e).
  pose proof (i_edges _ _ _ _ _ S) as ES. cbn [app] in ES. assert (LS : length (edges s) = total os) by (rewrite ES; reflexivity).
  destruct (way_ends e EN) as (mid & EW & PM). destruct (ends_old e EN) as [O1 O2].
  destruct (points_of e) as [|x [|y l]] eqn:EP; [| |cbn in NM; lia]; cbn [app].
  - assert (SG : segs e = [(snd (pends e), fst (pends e))]) by (unfold segs; rewrite EP; reflexivity).
    eexists. split; [reflexivity|]. constructor; cbn [edges iface incoming same].
    + rewrite ES, map_app, concat_app. cbn [app map concat]. rewrite SG. reflexivity.
    + intros f. rewrite (fold_left_ext _ (fun m g => pushes m g (if has_face g then [length (edges s)] else []))) by (intros a b; destruct (has_face b); reflexivity).
      rewrite fold_pushes_get by apply faces_nodup, EN. rewrite (i_iface _ _ _ _ _ S), HF. cbn [app length]. rewrite side_app, side_one, SG, LS. cbn [length seq]. destruct (key f); [|destruct (existsb _ _); reflexivity]. f_equal.
    + intros f I. rewrite (fold_left_ext _ (fun m g => pushes m g (if has_face g then [length (edges s)] else []))) in I by (intros a b; destruct (has_face b); reflexivity). apply fold_pushes_mem in I. destruct I as [I|[_ I]]; [apply (i_key _ _ _ _ _ S f I)|]. rewrite HF in I. destruct (key f); [reflexivity|congruence].
    + intros v. rewrite (i_incoming _ _ _ _ _ S). cbn [app length]. rewrite map_app, concat_app, halves_app. rewrite <- app_nil_r at 1. f_equal. cbn [map concat]. rewrite SG. unfold halves. destruct (Nat.leb_spec cnt v) as [L|L]; [|reflexivity]. unfold ending_at. cbn. destruct (Nat.eqb_spec (fst (pends e)) v); [lia|]. destruct (Nat.eqb_spec (snd (pends e)) v); [lia|]. reflexivity.
    + intros e' k. rewrite set_lookup, table_app, in_app_iff. cbn [length]. cbn [table In]. rewrite SG. cbn [length seq]. destruct (Nat.eqb_spec e' e) as [->|D].
      * split; [intros E; injection E as <-; split; [exact EP|right; left; rewrite LS; reflexivity]|]. intros [_ [I|[E|[]]]]; [apply table_unique in I; contradiction|]. injection E as <-. rewrite LS. reflexivity.
      * rewrite (i_same _ _ _ _ _ S). cbn [length]. split; [intuition|]. intros [P [I|[E|[]]]]; [auto|congruence].
    + rewrite (fold_left_ext _ (fun m g => pushes m g (if has_face g then [length (edges s)] else []))) by (intros a b; destruct (has_face b); reflexivity). apply fold_pushes_NoDup, (i_n1 _ _ _ _ _ S).
    + apply (i_n2 _ _ _ _ _ S).
    + apply set_NoDup, (i_n3 _ _ _ _ _ S).
  - assert (mid = [x]) as -> by (apply Permutation_sym, Permutation_length_1_inv in PM; exact PM).
    assert (SG : segs e = [(fst (pends e), x); (x, snd (pends e))]) by (unfold segs; rewrite EP, EW; reflexivity).
    assert (X : cnt <= x) by (apply (points_new e); rewrite EP; left; reflexivity).
    assert (I1 : ivtx cnt (fst (pends e)) = false) by (apply Nat.leb_gt; lia). assert (I2 : ivtx cnt (snd (pends e)) = false) by (apply Nat.leb_gt; lia).
    rewrite I1, I2. cbn [negb]. eexists. split; [reflexivity|]. constructor; cbn [edges iface incoming same].
    + rewrite ES, map_app, concat_app. cbn [app map concat]. rewrite SG. reflexivity.
    + intros f. change (fun m g => push (push m g (length (edges s))) g (length (edges s) + 1)) with (fun m g => pushes m g [length (edges s); length (edges s) + 1]). rewrite (fold_pushes_get (fun _ => [length (edges s); length (edges s) + 1])) by apply faces_nodup, EN.
      rewrite (i_iface _ _ _ _ _ S). cbn [app length]. rewrite side_app, side_one, SG, LS. cbn [length seq]. destruct (key f) eqn:K; [f_equal; rewrite Nat.add_1_r; reflexivity|].
      destruct (existsb (Nat.eqb f) (faces e)) eqn:EX; [|reflexivity]. apply existsb_exists in EX. destruct EX as (g & I & E). apply Nat.eqb_eq in E. subst g. rewrite (faces_key e f) in K; [discriminate|rewrite EP; discriminate|exact I].
    + intros f I. change (fun m g => push (push m g (length (edges s))) g (length (edges s) + 1)) with (fun m g => pushes m g [length (edges s); length (edges s) + 1]) in I. apply (fold_pushes_mem (fun _ => [length (edges s); length (edges s) + 1])) in I. destruct I as [I|[I _]]; [apply (i_key _ _ _ _ _ S f I)|]. apply (faces_key e f); [rewrite EP; discriminate|exact I].
    + intros v. rewrite !push_get, (i_incoming _ _ _ _ _ S), <- app_assoc. cbn [app length]. rewrite map_app, concat_app, halves_app. f_equal. cbn [map concat]. rewrite SG. unfold halves. cbn [app length seq combine flat_map]. fold (total os). rewrite LS.
      destruct (Nat.leb_spec cnt v) as [L|L]; [|destruct (Nat.eqb_spec v x); [lia|reflexivity]]. unfold ending_at. cbn [fst snd]. destruct (Nat.eqb_spec (fst (pends e)) v); [lia|]. destruct (Nat.eqb_spec (snd (pends e)) v); [lia|]. rewrite (Nat.eqb_sym x v). destruct (Nat.eqb v x); [|reflexivity]. cbn [app]. do 2 f_equal. lia.
    + intros e' k. rewrite (i_same _ _ _ _ _ S), table_app, in_app_iff. cbn [table In length]. rewrite SG. cbn [length seq]. split; [intuition|]. intros [P [I|[E|[]]]]; [auto|discriminate].
    + change (fun m g => push (push m g (length (edges s))) g (length (edges s) + 1)) with (fun m g => pushes m g [length (edges s); length (edges s) + 1]). apply (fold_pushes_NoDup (fun _ => [length (edges s); length (edges s) + 1])), (i_n1 _ _ _ _ _ S).
    + apply push_NoDup, push_NoDup, (i_n2 _ _ _ _ _ S).
    + apply (i_n3 _ _ _ _ _ S).
Qed.

Definition few (e : nat) : bool := negb (mem many e).
Lemma local_all has_face es : (forall f, has_face f = key f) -> (forall e, In e es -> e < n) -> NoDup es ->
  exists s', local_edges pends psf points cnt has_face es = Some s' /\ Inv [] (fun _ => []) (fun _ => []) (filter few es) s'.
Proof.
  intros HF EN ND. unfold local_edges. assert (G : forall os s, Inv [] (fun _ => []) (fun _ => []) os s -> NoDup (os ++ filter few es) ->
    exists s', fold_left (fun s e => let* s := s in local_edge pends psf points cnt has_face s e) es (Some s) = Some s' /\ Inv [] (fun _ => []) (fun _ => []) (os ++ filter few es) s').
  { clear ND. induction es as [|e es IH]; intros os s S ND; [exists s; cbn; rewrite app_nil_r; auto|]. cbn [fold_left bind filter] in *. unfold few at 1 in ND. unfold few at 1. destruct (mem many e) eqn:M; cbn [negb] in *.
    - assert (local_edge pends psf points cnt has_face s e = Some s) as -> by (unfold local_edge; rewrite M; reflexivity). apply IH; try assumption. intros; apply EN; right; assumption.
    - apply mem_false in M. assert (EN' : forall e, In e es -> e < n) by (intros; apply EN; right; assumption). assert (NI : ~ In e os). { intros I. apply NoDup_remove_2 in ND. apply ND, in_app_iff. left. exact I. } destruct (local_step has_face os s e HF S (EN e (or_introl eq_refl)) NI M) as (s' & -> & S'). replace (os ++ e :: filter few es) with ((os ++ [e]) ++ filter few es) in * by (rewrite <- app_assoc; reflexivity). apply IH; assumption. }
  apply (G []); [|apply NoDup_filter, ND]. constructor; cbn [edges iface incoming same nothing map fst]; [reflexivity|intros f; destruct (key f); reflexivity|intros f []| | |apply NoDup_nil|apply NoDup_nil|apply NoDup_nil].
  - intros v. unfold halves. destruct (Nat.leb cnt v); reflexivity.
  - intros e k. split; [discriminate|intros [_ []]].
Qed.

(** ** Part 1, one edge *)
Lemma add_piece_spec e first last s a c : e < n ->
  let s' := add_piece psf e first last s a c in let k := length (edges s) in
  edges s' = edges s ++ [(a, c)] /\ same s' = same s /\ (forall q, lookup (along s') q = if Nat.eqb q e then Some (get (along s) e ++ [k]) else lookup (along s) q) /\
  (forall f, get (iface s') f = get (iface s) f ++ if existsb (Nat.eqb f) (faces e) then [k] else []) /\
  (forall f, In f (map fst (iface s')) -> In f (map fst (iface s)) \/ In f (faces e)) /\ (forall f, In f (map fst (iface s)) -> In f (map fst (iface s'))) /\
  (NoDup (map fst (iface s)) -> NoDup (map fst (iface s'))) /\ (NoDup (map fst (incoming s)) -> NoDup (map fst (incoming s'))) /\
  (forall v, get (incoming s') v = get (incoming s) v ++ (if Nat.eqb v c && (first || negb last) then [2 * k] else []) ++ (if Nat.eqb v a && negb first then [2 * k + 1] else [])).
Proof.
  intros EN. cbn zeta. unfold add_piece. cbn [edges iface incoming same along]. change (fun m f => push m f (length (edges s))) with (fun m g => pushes m g [length (edges s)]).
  split; [reflexivity|]. split; [reflexivity|]. split; [intros q; apply push_lookup|]. split; [intros f; apply (fold_pushes_get (fun _ => [length (edges s)])), faces_nodup, EN|].
  split; [intros f I; apply (fold_pushes_mem (fun _ => [length (edges s)])) in I; tauto|]. split; [intros f I; apply (fold_pushes_incl (fun _ => [length (edges s)])), I|]. split; [apply (fold_pushes_NoDup (fun _ => [length (edges s)]))|].
  split; [intros N; destruct first, last; try apply push_NoDup; try apply push_NoDup; exact N|].
  intros v. destruct first, last; cbn [orb negb]; rewrite !push_get; rewrite ?andb_true_r, ?andb_false_r, ?app_nil_r, <- ?app_assoc; reflexivity.
Qed.
Lemma halves_one v k a c : halves v k [(a, c)] = (if Nat.eqb v c && Nat.leb cnt c then [2 * k] else []) ++ (if Nat.eqb v a && Nat.leb cnt a then [2 * k + 1] else []).
Proof.
  unfold halves, ending_at. cbn [length seq combine flat_map fst snd]. rewrite app_nil_r, (Nat.eqb_sym c v), (Nat.eqb_sym a v). destruct (Nat.leb_spec cnt v) as [L|L].
  - f_equal; [destruct (Nat.eqb_spec v c) as [->|]|destruct (Nat.eqb_spec v a) as [->|]]; cbn [andb]; try reflexivity; rewrite (proj2 (Nat.leb_le _ _) L); reflexivity.
  - assert (Z : forall x, (Nat.eqb v x && Nat.leb cnt x) = false) by (intros x; destruct (Nat.eqb_spec v x) as [E|]; [rewrite <- E, (proj2 (Nat.leb_gt _ _) L)|]; reflexivity). rewrite !Z. reflexivity.
Qed.
Record Grown (e : nat) (sg : list (nat * nat)) (s s' : state) : Prop := {
  g_edges : edges s' = edges s ++ sg;
  g_same : same s' = same s;
  g_along : forall q, lookup (along s') q = if Nat.eqb q e then Some (get (along s) e ++ seq (length (edges s)) (length sg)) else lookup (along s) q;
  g_iface : forall f, get (iface s') f = get (iface s) f ++ if existsb (Nat.eqb f) (faces e) then seq (length (edges s)) (length sg) else [];
  g_key : forall f, In f (map fst (iface s')) -> In f (map fst (iface s)) \/ In f (faces e);
  g_key' : forall f, In f (map fst (iface s)) -> In f (map fst (iface s'));
  g_n1 : NoDup (map fst (iface s)) -> NoDup (map fst (iface s'));
  g_n2 : NoDup (map fst (incoming s)) -> NoDup (map fst (incoming s'));
  g_incoming : forall v, get (incoming s') v = get (incoming s) v ++ halves v (length (edges s)) sg }.
Lemma grown_one e first last s a c : e < n -> (first = true -> a < cnt) -> (first = false -> cnt <= a) -> (last = true -> c < cnt) -> (last = false -> cnt <= c) -> (first && last = false) -> Grown e [(a, c)] s (add_piece psf e first last s a c).
Proof.
  intros EN F1 F2 L1 L2 FL. destruct (add_piece_spec e first last s a c EN) as (H1 & H2 & H3 & H4 & H5 & H5' & H6 & H7 & H8). constructor; [exact H1|exact H2|exact H3|exact H4|exact H5|exact H5'|exact H6|exact H7|].
  intros v. rewrite H8, halves_one. f_equal. f_equal.
  - replace (first || negb last) with (Nat.leb cnt c); [reflexivity|]. destruct last; [specialize (L1 eq_refl); rewrite (proj2 (Nat.leb_gt _ _) L1); destruct first; [discriminate|reflexivity]|specialize (L2 eq_refl); rewrite (proj2 (Nat.leb_le _ _) L2); destruct first; reflexivity].
  - replace (negb first) with (Nat.leb cnt a); [reflexivity|]. destruct first; [specialize (F1 eq_refl); rewrite (proj2 (Nat.leb_gt _ _) F1); reflexivity|specialize (F2 eq_refl); rewrite (proj2 (Nat.leb_le _ _) F2); reflexivity].
Qed.
Lemma grown_trans e sg sg' s s' s'' : Grown e sg s s' -> Grown e sg' s' s'' -> Grown e (sg ++ sg') s s''.
Proof.
  intros A B. pose proof (g_edges _ _ _ _ A) as EA. assert (LA : length (edges s') = length (edges s) + length sg) by (rewrite EA, app_length; reflexivity). constructor.
  - rewrite (g_edges _ _ _ _ B), EA, app_assoc. reflexivity.
  - rewrite (g_same _ _ _ _ B). apply (g_same _ _ _ _ A).
  - intros q. rewrite (g_along _ _ _ _ B). unfold get at 1. rewrite !(g_along _ _ _ _ A), Nat.eqb_refl, LA, app_length, seq_app, <- app_assoc. destruct (Nat.eqb q e); reflexivity.
  - intros f. rewrite (g_iface _ _ _ _ B), (g_iface _ _ _ _ A), LA, app_length, seq_app, <- app_assoc. destruct (existsb _ _); reflexivity.
  - intros f I. apply (g_key _ _ _ _ B) in I. destruct I as [I|I]; [apply (g_key _ _ _ _ A), I|right; exact I].
  - intros f I. apply (g_key' _ _ _ _ B), (g_key' _ _ _ _ A), I.
  - intros N. apply (g_n1 _ _ _ _ B), (g_n1 _ _ _ _ A), N.
  - intros N. apply (g_n2 _ _ _ _ B), (g_n2 _ _ _ _ A), N.
  - intros v. rewrite (g_incoming _ _ _ _ B), (g_incoming _ _ _ _ A), LA, halves_app, app_assoc. reflexivity.
Qed.
Lemma add_pieces_cons e first s x y l : add_pieces psf e first s (x :: y :: l) = add_pieces psf e false (add_piece psf e first (match l with [] => true | _ => false end) s x y) (y :: l).
Proof. reflexivity. Qed.
Lemma pairs_cons x y l : pairs (x :: y :: l) = [(x, y)] ++ pairs (y :: l).
Proof. reflexivity. Qed.
Lemma pieces_rest e mid b : e < n -> forall x s, cnt <= x -> (forall v, In v mid -> cnt <= v) -> b < cnt -> Grown e (pairs (x :: mid ++ [b])) s (add_pieces psf e false s (x :: mid ++ [b])).
Proof.
  intros EN. induction mid as [|y mid IH]; intros x s X M B.
  - cbn [app add_pieces pairs]. apply grown_one; try discriminate; intros; auto.
  - change ((y :: mid) ++ [b]) with (y :: mid ++ [b]). rewrite pairs_cons, add_pieces_cons. assert (Y : cnt <= y) by (apply M; left; reflexivity).
    eapply grown_trans; [|apply IH; [exact Y|intros v I; apply M; right; exact I|exact B]]. destruct (mid ++ [b]) eqn:E; [destruct mid; discriminate|]. apply grown_one; try discriminate; intros; auto.
Qed.
Lemma pieces_all e a mid b s : e < n -> a < cnt -> mid <> [] -> (forall v, In v mid -> cnt <= v) -> b < cnt -> Grown e (pairs (a :: mid ++ [b])) s (add_pieces psf e true s (a :: mid ++ [b])).
Proof.
  intros EN A N M B. destruct mid as [|y mid]; [congruence|]. change ((y :: mid) ++ [b]) with (y :: mid ++ [b]). rewrite pairs_cons, add_pieces_cons. assert (Y : cnt <= y) by (apply M; left; reflexivity).
  eapply grown_trans; [|apply pieces_rest; [exact EN|exact Y|intros v I; apply M; right; exact I|exact B]]. destruct (mid ++ [b]) eqn:E; [destruct mid; discriminate|]. apply grown_one; try discriminate; intros; auto.
Qed.

Definition Inv1 E0 F0 I0 os st : Prop := Inv E0 F0 I0 os st /\ forall e, lookup (along st) e = lookup (table (length E0) os) e.
Lemma lookup_app {A} (m m' : list (nat * A)) k : lookup (m ++ m') k = match lookup m k with Some a => Some a | None => lookup m' k end.
Proof. induction m as [|[q a] m IH]; [reflexivity|]. cbn. destruct (Nat.eqb k q); [reflexivity|exact IH]. Qed.
Lemma part1_step E0 F0 I0 os st e : Inv1 E0 F0 I0 os st -> ~ In e os -> In e (map fst many) ->
  Inv1 E0 F0 I0 (os ++ [e]) (add_pieces psf e true st (way e)) /\ (forall f, In f (map fst (iface st)) -> In f (map fst (iface (add_pieces psf e true st (way e))))).
Proof.
  intros [S SA] NI M. pose proof M as M'. rewrite many_lookup in M'. assert (EN : e < n). { apply points_edges. apply in_map_iff in M. destruct M as (q & <- & M). apply in_map. apply filter_In in M. exact (proj1 M). } destruct (way_ends e EN) as (mid & EW & PM). destruct (ends_old e EN) as [O1 O2].
  assert (NP : points_of e <> []) by (intros Z; rewrite Z in M'; cbn in M'; lia).
  assert (NM : mid <> []) by (intros ->; apply Permutation_nil in PM; contradiction).
  assert (SG : segs e = pairs (way e)) by (unfold segs; destruct (points_of e); [congruence|reflexivity]).
  assert (G : Grown e (segs e) st (add_pieces psf e true st (way e))). { rewrite SG, EW. apply pieces_all; [exact EN|exact O1|exact NM| |exact O2]. intros v I. apply (points_new e). eapply Permutation_in; [exact PM|exact I]. }
  assert (LS : length (edges st) = length E0 + total os) by (rewrite (i_edges _ _ _ _ _ S), app_length; reflexivity).
  split; [|apply (g_key' _ _ _ _ G)]. split; [constructor|].
  - rewrite (g_edges _ _ _ _ G), (i_edges _ _ _ _ _ S), map_app, concat_app, <- app_assoc. cbn [map concat]. rewrite app_nil_r. reflexivity.
  - intros f. rewrite (g_iface _ _ _ _ G), (i_iface _ _ _ _ _ S), side_app, side_one, LS, <- app_assoc. f_equal. destruct (key f) eqn:K; [reflexivity|]. destruct (existsb (Nat.eqb f) (faces e)) eqn:EX; [|reflexivity].
    apply existsb_exists in EX. destruct EX as (g & I & E). apply Nat.eqb_eq in E. subst g. rewrite (faces_key e f NP I) in K. discriminate.
  - intros f I. apply (g_key _ _ _ _ G) in I. destruct I as [I|I]; [apply (i_key _ _ _ _ _ S f I)|apply (faces_key e f NP I)].
  - intros v. rewrite (g_incoming _ _ _ _ G), (i_incoming _ _ _ _ _ S), map_app, concat_app, halves_app, LS, <- app_assoc. cbn [map concat]. rewrite app_nil_r. reflexivity.
  - intros q k. rewrite (g_same _ _ _ _ G), (i_same _ _ _ _ _ S), table_app, in_app_iff. split; [intuition|]. intros [P [I|[E|[]]]]; [auto|]. injection E as -> E. congruence.
  - apply (g_n1 _ _ _ _ G), (i_n1 _ _ _ _ _ S).
  - apply (g_n2 _ _ _ _ G), (i_n2 _ _ _ _ _ S).
  - rewrite (g_same _ _ _ _ G). apply (i_n3 _ _ _ _ _ S).
  - intros q. rewrite (g_along _ _ _ _ G), table_app, lookup_app, <- SA. cbn [table lookup]. assert (X : lookup (along st) e = None). { rewrite SA. destruct (lookup (table (length E0) os) e) eqn:E; [|reflexivity]. apply lookup_In, table_unique in E. contradiction. }
    destruct (Nat.eqb_spec q e) as [->|D]; [unfold get; rewrite X, LS; reflexivity|]. destruct (lookup (along st) q); reflexivity.
Qed.
Lemma filter_keys {A} (g : nat * A -> bool) m : NoDup (map fst m) -> NoDup (map fst (filter g m)).
Proof.
  intros N. induction m as [|p m IH]; [constructor|]. cbn [map filter] in *. inversion_clear N as [|? ? N1 N2]. destruct (g p); [|apply IH, N2]. cbn [map]. constructor; [|apply IH, N2]. intros I. apply N1. apply in_map_iff in I. destruct I as (q & E & I). apply filter_In in I. apply in_map_iff. exists q. tauto.
Qed.
Lemma part1_all E0 F0 I0 s : Inv1 E0 F0 I0 [] s -> exists s', part1 rnd sort position pends psf points shuffle s = Some s' /\ Inv1 E0 F0 I0 (map fst (shuffle _ many)) s' /\ (forall f, In f (map fst (iface s)) -> In f (map fst (iface s'))).
Proof.
  intros S. unfold part1. assert (MN : NoDup (map fst many)) by (apply filter_keys, points_nodup).
  assert (IM : forall p, In p (shuffle _ many) -> In (fst p) (map fst many) /\ p = (fst p, points_of (fst p))).
  { intros [e l] I. apply (Permutation_in _ (shuffled _ _)) in I. split; [apply in_map, I|]. cbn [fst]. unfold points_of. apply filter_In in I. rewrite (In_lookup _ _ _ points_nodup (proj1 I)). reflexivity. }
  assert (ND : NoDup (map fst (shuffle _ many))) by (eapply Permutation_NoDup; [apply Permutation_map; symmetry; apply shuffled|exact MN]).
  assert (G : forall L os s, Inv1 E0 F0 I0 os s -> NoDup (os ++ map fst L) -> (forall p, In p L -> In (fst p) (map fst many) /\ p = (fst p, points_of (fst p))) ->
    exists s', fold_left (fun s p => let* s := s in let* vs := sorted_vertices rnd sort position pends p in Some (add_pieces psf (fst p) true s vs)) L (Some s) = Some s' /\ Inv1 E0 F0 I0 (os ++ map fst L) s' /\ (forall f, In f (map fst (iface s)) -> In f (map fst (iface s')))).
  { clear S ND IM s. induction L as [|p L IH]; intros os s S ND IM; [exists s; cbn; rewrite app_nil_r; auto|]. destruct (IM p (or_introl eq_refl)) as [M EP]. cbn [fold_left bind map] in *. assert (sorted_vertices rnd sort position pends p = Some (way (fst p))) as -> by (rewrite EP at 1; apply sorted, M). cbn [bind].
    assert (NI : ~ In (fst p) os) by (intros I; apply NoDup_remove_2 in ND; apply ND, in_app_iff; left; exact I). destruct (part1_step _ _ _ _ _ _ S NI M) as [S' K].
    replace (os ++ fst p :: map fst L) with ((os ++ [fst p]) ++ map fst L) in * by (rewrite <- app_assoc; reflexivity). destruct (IH _ _ S' ND ltac:(intros; apply IM; right; assumption)) as (s' & E & S'' & K'). exists s'. split; [exact E|]. split; [exact S''|]. intros f I. apply K', K, I. }
  apply (G _ [] s S ND IM).
Qed.
Lemma part2_all E0 F0 I0 os s blocks master : Inv1 E0 F0 I0 os s -> (forall f, mem (iface s) f = key f) -> NoDup (os ++ filter few (master ++ concat blocks)) -> (forall b, In b (master :: blocks) -> NoDup b /\ forall e, In e b -> e < n) ->
  exists s', part2 pends psf points cnt shuffle blocks master s = Some s' /\ Inv E0 F0 I0 (os ++ filter few (master ++ concat blocks)) s' /\ along s' = along s /\ (forall f, In f (map fst (iface s)) -> In f (map fst (iface s'))).
Proof.
  intros [S _] K ND NB. unfold part2. revert NB. change (master ++ concat blocks) with (concat (master :: blocks)) in *. generalize (master :: blocks) as L, (mem (iface s)) as hf, K, S, ND. clear K S ND. intros L hf HF. revert os s.
  induction L as [|b L IH]; intros os s S ND NB; [exists s; cbn; rewrite app_nil_r; auto|]. cbn [fold_left bind concat] in *. destruct (local_all hf b HF (proj2 (NB b (or_introl eq_refl))) (proj1 (NB b (or_introl eq_refl)))) as (l & -> & SL). cbn [bind]. rewrite filter_app, app_assoc in ND.
  assert (ND' : NoDup (os ++ filter few b)). { clear - ND. induction (os ++ filter few b) as [|x X IH]; [constructor|]. cbn in ND. inversion_clear ND as [|? ? N1 N2]. constructor; [intros I; apply N1, in_app_iff; left; exact I|apply IH, N2]. }
  destruct (merge_inv _ _ _ _ _ _ _ S SL ND') as (r & -> & S' & AR & KR).
  destruct (IH _ _ S' ND ltac:(intros; apply NB; right; assumption)) as (s' & E & S'' & AR' & KR'). exists s'. rewrite filter_app, app_assoc. split; [exact E|]. split; [exact S''|]. split; [congruence|]. intros f I. apply KR', KR, I.
Qed.
End Proofs.
