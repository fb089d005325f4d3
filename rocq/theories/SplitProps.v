(** C70: dividing the edges at the intersection points. *)
From Coq Require Import List Arith Bool Lia Permutation Reals Sorting.
From Verif Require Import CutModel CutProofs SplitModel SplitSpec SplitProofs SplitGeo.
Import ListNotations.
Open Scope nat_scope.

(** What is given: n edges with their ends and the faces beside them, the table [points] of the intersection points on them.  Vertices below cnt are vertices of the input meshes, the others
    intersection points.  The faces beside an edge with points are in the table of the faces that are cut. *)
Record given (n : nat) (pends : nat -> nat * nat) (psf : nat -> option nat * option nat) (points : list (nat * list nat)) (cnt : nat) (s : state) : Prop := {
  gv_points : NoDup (map fst points);
  gv_edges : forall e l, In (e, l) points -> e < n /\ forall v, In v l -> cnt <= v;
  gv_ends : forall e, e < n -> fst (pends e) < cnt /\ snd (pends e) < cnt;
  gv_faces : forall e, e < n -> NoDup (faces psf e);
  gv_cut : forall e l f, In (e, l) points -> l <> [] -> In f (faces psf e) -> In f (map fst (iface s));
  gv_maps : NoDup (map fst (iface s)) /\ NoDup (map fst (incoming s)) /\ same s = [] /\ along s = [] }.
(** what an unordered_map is iterated over *)
Definition iteration (shuffle : forall A, list (nat * A) -> list (nat * A)) : Prop := forall A (m : list (nat * A)), Permutation (shuffle A m) m.
(** The vertices on the edge, from its first end to its second. *)
Definition on_edge (pends : nat -> nat * nat) (points : list (nat * list nat)) (e : nat) (way : list nat) : Prop :=
  exists mid, way = fst (pends e) :: mid ++ [snd (pends e)] /\ Permutation mid (match lookup points e with Some l => l | None => [] end).
Definition outcome (n : nat) (way : nat -> list nat) (psf : nat -> option nat * option nat) (s r : state) : Prop :=
  exists order pieces, split n way (faces psf) (edges s) (edges r) (lookup (iface s)) (lookup (iface r)) (get (incoming s)) (get (incoming r)) (lookup (along r)) (lookup (same r)) order pieces.

Lemma pairs_in vs p : In p (pairs vs) -> In (fst p) vs /\ In (snd p) vs.
Proof. induction vs as [|v [|w vs] IH]; [intros []|intros []|]. cbn [pairs]. intros [<-|I]; [split; [left; reflexivity|right; left; reflexivity]|]. apply IH in I. destruct I as [A B]. split; right; assumption. Qed.
Lemma joined_pairs after vs k : vs <> [] -> (forall i, i < length (pairs vs) -> nth_error after (k + i) = nth_error (pairs vs) i) -> joined after vs (seq k (length (pairs vs))).
Proof.
  revert k. induction vs as [|v [|w vs] IH]; intros k N H; [congruence|exact Logic.I|]. cbn [pairs length seq joined] in *. split; [left; rewrite <- (Nat.add_0_r k); apply (H 0); lia|]. apply (IH (S k)); [discriminate|]. intros i L. replace (S k + i) with (k + S i) by lia. apply (H (S i)). lia.
Qed.
Lemma table_lookup (t : list (nat * list nat)) (g : nat -> bool) : NoDup (map fst t) -> flat_map (fun e => match lookup t e with Some l => l | None => [] end) (filter g (map fst t)) = flat_map snd (filter (fun p => g (fst p)) t).
Proof.
  intros N. assert (G : forall t', (forall p, In p t' -> In p t) -> flat_map (fun e => match lookup t e with Some l => l | None => [] end) (filter g (map fst t')) = flat_map snd (filter (fun p => g (fst p)) t')); [|apply G; auto].
  induction t' as [|[k l] t' IH]; intros H; [reflexivity|]. cbn [map filter fst]. destruct (g k); cbn [flat_map snd]; [|apply IH; intros; apply H; right; assumption]. rewrite (In_lookup _ _ _ N (H _ (or_introl eq_refl))). f_equal. apply IH. intros; apply H; right; assumption.
Qed.

Section Core.
Variables (rnd : R -> R) (sort : list (nat * R) -> list (nat * R)) (position : nat -> vec) (n : nat) (pends : nat -> nat * nat) (psf : nat -> option nat * option nat) (points : list (nat * list nat)) (cnt : nat).
Variable shuffle : forall A, list (nat * A) -> list (nat * A).
Variables (s : state) (way : nat -> list nat).
Hypothesis G : given n pends psf points cnt s.
Hypothesis SH : iteration shuffle.
Hypothesis W : forall e, e < n -> on_edge pends points e (way e).
Hypothesis SV : forall e l, In (e, l) points -> 1 < length l -> sorted_vertices rnd sort position pends (e, l) = Some (way e).

Lemma core blocks master : concat blocks ++ master = seq 0 n ->
  exists r, divide_edges rnd sort position pends psf points cnt shuffle blocks master s = Some r /\ outcome n way psf s r.
Proof.
  intros CB. pose proof (gv_points _ _ _ _ _ _ G) as GP. destruct (gv_maps _ _ _ _ _ _ G) as (GM1 & GM2 & GM3 & GM4).
  set (key := mem (iface s)). set (po := points_of points).
  assert (PO : forall e l, In (e, l) points -> po e = l) by (intros e l I; unfold po, points_of; rewrite (In_lookup _ _ _ GP I); reflexivity).
  assert (PI : forall e, po e <> [] -> In (e, po e) points) by (intros e N; unfold po, points_of in *; destruct (lookup points e) eqn:E; [apply lookup_In, E|congruence]).
  assert (H1 : forall e, In e (map fst (many points)) -> sorted_vertices rnd sort position pends (e, po e) = Some (way e)).
  { intros e I. apply (many_lookup points GP) in I. fold po in I. apply SV; [|exact I]. apply PI. intros Z. rewrite Z in I. cbn in I. lia. }
  assert (H2 : forall e, In e (map fst points) -> e < n) by (intros e I; apply in_map_iff in I; destruct I as ([e' l] & <- & I); apply (gv_edges _ _ _ _ _ _ G) in I; exact (proj1 I)).
  assert (H4 : forall e v, In v (po e) -> cnt <= v). { intros e v I. assert (J : In (e, po e) points) by (apply PI; intros Z; rewrite Z in I; destruct I). apply (gv_edges _ _ _ _ _ _ G) in J. apply (proj2 J), I. }
  assert (H5 : forall e f, po e <> [] -> In f (faces psf e) -> key f = true) by (intros e f N I; apply mem_In, (gv_cut _ _ _ _ _ _ G e (po e) f); [apply PI, N|exact N|exact I]).
  pose proof (gv_ends _ _ _ _ _ _ G) as GE. pose proof (gv_faces _ _ _ _ _ _ G) as GF.
  assert (I0 : Inv1 pends psf points cnt way key (edges s) (get (iface s)) (get (incoming s)) [] s).
  { split; [constructor|]; cbn [map concat].
    - rewrite app_nil_r. reflexivity.
    - intros f. destruct (key f); cbn; rewrite app_nil_r; reflexivity.
    - intros f I. apply mem_In, I.
    - intros v. unfold halves. cbn. destruct (Nat.leb cnt v); rewrite app_nil_r; reflexivity.
    - intros e k. rewrite GM3. split; [discriminate|intros [_ []]].
    - exact GM1.
    - exact GM2.
    - rewrite GM3. constructor.
    - intros e. rewrite GM4. reflexivity. }
  destruct (part1_all rnd sort position pends psf points cnt shuffle way key n SH GP H1 H2 W GE H4 GF H5 _ _ _ s I0) as (s1 & E1 & S1 & K1).
  set (os := map fst (shuffle _ (many points))) in *.
  assert (OS : forall e, In e os <-> In e (map fst (many points))). { intros e. split; apply Permutation_in; [apply Permutation_map, SH|apply Permutation_map, Permutation_sym, SH]. }
  assert (NOS : NoDup os). { eapply Permutation_NoDup; [apply Permutation_map, Permutation_sym, SH|]. apply filter_keys, GP. }
  assert (MB : Permutation (master ++ concat blocks) (seq 0 n)) by (rewrite <- CB; apply Permutation_app_comm). set (es := master ++ concat blocks) in *.
  assert (NES : NoDup es) by (eapply Permutation_NoDup; [symmetry; exact MB|apply seq_NoDup]).
  assert (OE : forall e, In e os -> e < n). { intros e I. apply H2. apply OS in I. apply in_map_iff in I. destruct I as (p & <- & I). apply filter_In in I. apply in_map. exact (proj1 I). }
  set (order := os ++ filter (few points) es).
  assert (NO : NoDup order). { unfold order. clear - NOS NES OS. assert (D : forall e, In e os -> ~ In e (filter (few points) es)) by (intros e I J; apply filter_In in J; destruct J as [_ J]; apply OS, mem_In in I; unfold few in J; rewrite I in J; discriminate).
    clear OS. induction os as [|x os IH]; [apply NoDup_filter, NES|]. inversion_clear NOS as [|? ? N1 N2]. cbn. constructor; [|apply IH; [exact N2|intros; apply D; right; assumption]]. rewrite in_app_iff. intros [I|I]; [exact (N1 I)|]. exact (D x (or_introl eq_refl) I). }
  assert (OP : Permutation order (seq 0 n)). { apply NoDup_Permutation; [exact NO|apply seq_NoDup|]. intros e. unfold order. rewrite in_app_iff, filter_In. split; [intros [I|[I _]]; [apply in_seq; apply OE in I; lia|eapply Permutation_in; [exact MB|exact I]]|]. intros I. destruct (mem (many points) e) eqn:M; [left; apply OS, mem_In, M|right]. split; [eapply Permutation_in; [symmetry; exact MB|exact I]|]. unfold few. rewrite M. reflexivity. }
  assert (KE : forall f, mem (iface s1) f = key f). { intros f. destruct (key f) eqn:K; [apply mem_In, K1, mem_In, K|]. apply mem_false. intros I. apply (i_key _ _ _ _ _ _ _ _ _ _ _ (proj1 S1)) in I. congruence. }
  assert (NB : forall b, In b (master :: blocks) -> NoDup b /\ forall e, In e b -> e < n).
  { intros b I. assert (X : exists A B, es = A ++ b ++ B). { destruct I as [<-|I]; [exists [], (concat blocks); reflexivity|]. apply in_split in I. destruct I as (L & R & ->). exists (master ++ concat L), (concat R). unfold es. rewrite concat_app, <- app_assoc. reflexivity. }
    destruct X as (A & B & X). split; [|intros e J; cut (In e (seq 0 n)); [rewrite in_seq; lia|]; eapply Permutation_in; [exact MB|]; rewrite X, !in_app_iff; auto].
    rewrite X in NES. clear - NES. induction A as [|x A IH]; [|cbn in NES; inversion_clear NES; auto]. cbn in NES. induction b as [|x b IH]; [constructor|]. cbn in NES. inversion_clear NES as [|? ? N1 N2]. constructor; [intros J; apply N1, in_app_iff; left; exact J|auto]. }
  destruct (part2_all pends psf points cnt shuffle way key n SH GP W GE H4 GF H5 _ _ _ os s1 blocks master S1 KE NO NB) as (r & E2 & S2 & AR & K2).
  exists r. unfold divide_edges. rewrite E1. cbn [bind]. split; [exact E2|]. fold es order in S2.
  set (b := length (edges s)) in *. set (t := table pends points way b order) in *.
  assert (TK : map fst t = order) by apply table_keys. assert (TN : NoDup (map fst t)) by (rewrite TK; exact NO).
  set (pieces := fun e => match lookup t e with Some l => l | None => [] end).
  pose proof (i_edges _ _ _ _ _ _ _ _ _ _ _ S2) as ER. set (sg := concat (map (segs pends points way) order)) in *.
  assert (LR : length (edges r) - b = total pends points way order) by (rewrite ER, app_length; unfold total; fold sg; unfold b; lia).
  assert (SK : skipn b (edges r) = sg) by (rewrite ER; unfold b; rewrite skipn_app, skipn_all, Nat.sub_diag; reflexivity).
  assert (WL : forall e, e < n -> length (way e) = S (S (length (po e)))). { intros e L. destruct (W e L) as (mid & -> & P). cbn. rewrite app_length, (Permutation_length P). cbn. unfold po, points_of. lia. }
  assert (TE : forall e, e < n -> exists k, In (e, seq k (length (segs pends points way e))) t /\ forall i, i < length (segs pends points way e) -> nth_error (edges r) (k + i) = nth_error (segs pends points way e) i).
  { intros e L. assert (I : In e order) by (eapply Permutation_in; [symmetry; exact OP|apply in_seq; lia]). apply in_split in I. destruct I as (A & B & EO). unfold t, sg in *. rewrite EO in ER |- *. exists (b + total pends points way A). rewrite table_app. split; [apply in_app_iff; right; left; reflexivity|].
    intros i Li. rewrite ER, map_app, concat_app. cbn [map concat]. rewrite nth_error_app2 by (unfold b; lia). rewrite nth_error_app2 by (unfold total; fold b; lia). rewrite nth_error_app1 by (unfold total; fold b; lia). f_equal. unfold total. fold b. lia. }
  assert (PE : forall e, e < n -> exists k, pieces e = seq k (length (segs pends points way e)) /\ forall i, i < length (segs pends points way e) -> nth_error (edges r) (k + i) = nth_error (segs pends points way e) i).
  { intros e L. destruct (TE e L) as (k & I & H). exists k. split; [unfold pieces; rewrite (In_lookup _ _ _ TN I); reflexivity|exact H]. }
  assert (MO : forall e, In e os <-> 1 < length (po e)) by (intros e; rewrite OS; apply (many_lookup points GP)).
  exists order, pieces. constructor.
  - intros e L. destruct (PE e L) as (k & -> & H). unfold segs in *. fold po in H |- *. destruct (po e) as [|x l] eqn:EP.
    + destruct (W e L) as (mid & EW & P). fold (points_of points e) in P. fold po in P. rewrite EP in P. apply Permutation_sym, Permutation_nil in P. subst mid. rewrite EW. cbn. split; [|exact Logic.I]. right. rewrite <- (Nat.add_0_r k). apply (H 0). cbn. lia.
    + apply joined_pairs; [|exact H]. destruct (W e L) as (mid & -> & _). discriminate.
  - exact OP.
  - exists os, (filter (few points) es). split; [reflexivity|]. split.
    + intros e I. rewrite (WL e (OE e I)). apply MO in I. lia.
    + intros e I. assert (L : e < n) by (cut (In e (seq 0 n)); [rewrite in_seq; lia|]; eapply Permutation_in; [exact OP|]; apply in_app_iff; right; exact I). rewrite (WL e L). apply filter_In in I. destruct I as [_ I]. unfold few in I. apply negb_true_iff, mem_false in I. rewrite (many_lookup points GP) in I. fold po in I. lia.
  - rewrite ER. rewrite firstn_app, firstn_all, Nat.sub_diag. cbn. apply app_nil_r.
  - fold b. rewrite LR, <- (table_concat pends points way b order). fold t. rewrite <- TK at 1. pose proof (table_lookup t (fun _ => true) TN) as X. assert (FT : forall A (l : list A), filter (fun _ => true) l = l) by (intros A l; induction l as [|x l IH]; [reflexivity|cbn; rewrite IH; reflexivity]). rewrite !FT in X. rewrite TK in X. symmetry. rewrite TK. exact X.
  - intros f. pose proof (i_iface _ _ _ _ _ _ _ _ _ _ _ S2 f) as X. fold b in X.
    assert (Y : flat_map pieces (filter (fun e => existsb (Nat.eqb f) (faces psf e)) order) = side_edges pends psf points way f b order) by (pose proof (table_lookup t (fun e => existsb (Nat.eqb f) (faces psf e)) TN) as Y; rewrite TK in Y; exact Y).
    unfold get in X. destruct (lookup (iface s) f) as [l|] eqn:EL; cbn [option_map].
    + assert (KF : key f = true) by (apply mem_In, lookup_mem; eauto). rewrite KF in X. rewrite Y. assert (Z : In f (map fst (iface r))) by (apply K2, K1, mem_In, KF). apply lookup_mem in Z. destruct Z as (l' & Z). rewrite Z in X |- *. rewrite X. reflexivity.
    + destruct (lookup (iface r) f) as [l'|] eqn:Z; [|reflexivity]. exfalso. assert (KF : key f = true) by (apply (i_key _ _ _ _ _ _ _ _ _ _ _ S2), lookup_mem; eauto). apply mem_In, lookup_mem in KF. destruct KF as (? & KF). congruence.
  - intros v e L I. rewrite (i_incoming _ _ _ _ _ _ _ _ _ _ _ S2). fold b sg. f_equal. unfold halves. destruct (W e L) as (mid & EW & P). rewrite EW in I. cbn [tl] in I. rewrite removelast_last in I.
    assert (C : cnt <= v) by (apply (H4 e); eapply Permutation_in; [exact P|exact I]). rewrite (proj2 (Nat.leb_le _ _) C), SK, LR. reflexivity.
  - intros v H. rewrite (i_incoming _ _ _ _ _ _ _ _ _ _ _ S2). fold b sg. rewrite <- app_nil_r. f_equal. unfold halves. destruct (Nat.leb_spec cnt v) as [C|C]; [|reflexivity].
    assert (Z : forall p, In p sg -> fst p <> v /\ snd p <> v).
    { intros p I. unfold sg in I. apply in_concat in I. destruct I as (q & J & I). apply in_map_iff in J. destruct J as (e & <- & J). assert (L : e < n) by (cut (In e (seq 0 n)); [rewrite in_seq; lia|]; eapply Permutation_in; [exact OP|exact J]). destruct (GE e L) as [A1 A2].
      assert (Y : In (fst p) (way e) /\ In (snd p) (way e)). { destruct (W e L) as (mid & EW & P). unfold segs in I. destruct (points_of points e); [|apply pairs_in, I]. destruct I as [<-|[]]. rewrite EW. cbn. rewrite in_app_iff. cbn. auto. }
      assert (V : forall x, In x (way e) -> x <> v). { intros x X <-. specialize (H e L). destruct (W e L) as (mid & EW & P). rewrite EW in H, X. cbn [tl] in H. rewrite removelast_last in H. destruct X as [<-|X]; [lia|]. apply in_app_iff in X. destruct X as [X|[<-|[]]]; [exact (H X)|lia]. }
      split; apply V; tauto. }
    clear - Z. generalize b. induction sg as [|p sg IH]; intros k; [reflexivity|]. cbn [length seq combine flat_map]. rewrite IH by (intros; apply Z; right; assumption). unfold ending_at. cbn [fst snd]. destruct (Z p (or_introl eq_refl)) as [Z1 Z2]. destruct (Nat.eqb_spec (snd (snd (k, p))) v) as [X|_]; [cbn in X; congruence|]. destruct (Nat.eqb_spec (snd p) v); [congruence|]. destruct (Nat.eqb_spec (fst p) v); [congruence|]. reflexivity.
  - intros e L. rewrite AR, (proj2 S1). fold b. rewrite (WL e L).
    assert (TA : t = table pends points way b os ++ table pends points way (b + total pends points way os) (filter (few points) es)) by apply table_app.
    destruct (Nat.leb_spec 4 (S (S (length (po e))))) as [C|C].
    + assert (I : In e os) by (apply MO; lia). assert (J : In e (map fst (table pends points way b os))) by (rewrite table_keys; exact I). apply lookup_mem in J. destruct J as (l & J). unfold pieces. rewrite TA, lookup_app, J. reflexivity.
    + destruct (lookup (table pends points way b os) e) as [l|] eqn:J; [|reflexivity]. apply lookup_In, table_unique, MO in J. lia.
  - intros e L. rewrite (WL e L). destruct (lookup (same r) e) as [k|] eqn:E.
    + apply (i_same _ _ _ _ _ _ _ _ _ _ _ S2) in E. destruct E as [P E]. fold b t in E. fold po in P. rewrite P. split; [reflexivity|]. unfold pieces. rewrite (In_lookup _ _ _ TN E). reflexivity.
    + destruct (po e) as [|x l] eqn:EP; [exfalso|cbn; lia]. destruct (TE e L) as (k & I & _). unfold segs in I. fold po in I. rewrite EP in I. cbn in I. assert (lookup (same r) e = Some k) by (apply (i_same _ _ _ _ _ _ _ _ _ _ _ S2); split; [exact EP|exact I]). congruence.
Qed.
End Core.

(** The edges are divided at their intersection points in the order along the edge, with exact arithmetic. *)
Theorem C70_divided n pends psf points cnt s position sort shuffle way blocks master :
  given n pends psf points cnt s -> sorting sort -> iteration shuffle -> concat blocks ++ master = seq 0 n ->
  (forall e, e < n -> on_edge pends points e (way e) /\ (3 < length (way e) -> straight position (way e))) ->
  exists r, divide_edges (fun x => x) sort position pends psf points cnt shuffle blocks master s = Some r /\ outcome n way psf s r.
Proof.
  intros G SO SH CB H. apply core; [exact G|exact SH|intros e L; apply H, L| |exact CB].
  intros e l I L. pose proof (gv_edges _ _ _ _ _ _ G e l I) as [EN _]. destruct (H e EN) as [(mid & EW & P) ST]. rewrite (In_lookup _ _ _ (gv_points _ _ _ _ _ _ G) I) in P.
  assert (3 < length (way e)) as W3 by (rewrite EW; cbn; rewrite app_length, (Permutation_length P); cbn; lia). destruct (ST W3) as (a & mid' & b & ratio & EW' & N & M & S). rewrite EW in EW'. injection EW' as <- E'. apply app_inj_tail in E'. destruct E' as [<- <-].
  rewrite EW. apply sorted_vertices_way; [exact SO|exact P|]. apply (straight_sorted position _ mid _ ratio N M S).
Qed.
(** With rounding: the same, if the coordinates of the points are monotone on the edge and no two points have the same rounded projection.  (Missing: points whose projections coincide, see SplitTies.) *)
Theorem C70_double_partial rnd n pends psf points cnt s position sort shuffle way blocks master :
  (forall x y, (x <= y)%R -> (rnd x <= rnd y)%R) -> rnd 0%R = 0%R ->
  given n pends psf points cnt s -> sorting sort -> iteration shuffle -> concat blocks ++ master = seq 0 n ->
  (forall e, e < n -> on_edge pends points e (way e) /\ (3 < length (way e) -> monotone position (way e) /\ NoDup (map (fun v => projection rnd (position (fst (pends e))) (position (snd (pends e))) (position v)) (way e)))) ->
  exists r, divide_edges rnd sort position pends psf points cnt shuffle blocks master s = Some r /\ outcome n way psf s r.
Proof.
  intros RL R0 G SO SH CB H. apply core; [exact G|exact SH|intros e L; apply H, L| |exact CB].
  intros e l I L. pose proof (gv_edges _ _ _ _ _ _ G e l I) as [EN _]. destruct (H e EN) as [(mid & EW & P) ST]. rewrite (In_lookup _ _ _ (gv_points _ _ _ _ _ _ G) I) in P.
  assert (3 < length (way e)) as W3 by (rewrite EW; cbn; rewrite app_length, (Permutation_length P); cbn; lia). destruct (ST W3) as (M & N). rewrite EW in M, N |- *. apply sorted_vertices_way; [exact SO|exact P|]. apply (monotone_sorted rnd RL R0 position _ mid _ M N).
Qed.
