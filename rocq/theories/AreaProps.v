(** C75: faces without area. *)
From Coq Require Import List Arith Bool Lia Permutation Reals Lra.
From Verif Require Import CutModel CutProofs SplitProofs PointsModel PointsRun AreaModel AreaSpec.
From Verif Require GeoModel GeoSpec GeoSeg GeoProps.
Import ListNotations.
Open Scope nat_scope.

Section Area.
Context {A : Type}.
Variable properties : nat -> A.
Variable zero : A -> bool.
Variable sm_face_count : nat.
Variable order : list (nat * A) -> list (nat * A).
Hypothesis RO : forall l, Permutation (order l) l.
Variable blocks : list (list nat).
Variable faces : list nat.
(** The blocks are consecutive ranges of the faces, every thread has one. *)
Hypothesis BL : concat blocks = faces.
Hypothesis ND : NoDup faces.
Hypothesis NE : blocks <> [].
Notation n := (length blocks).
Notation step := (step properties zero sm_face_count order blocks).
Notation execute := (execute properties zero sm_face_count order blocks).
Notation degenerate f := (zero (properties f) = true).
Notation planes := (planes properties).

Lemma lookup_app (m m' : list (nat * A)) k : lookup (m ++ m') k = match lookup m k with Some a => Some a | None => lookup m' k end.
Proof. induction m as [|[k' a] m IH]; [reflexivity|]. cbn. destruct (Nat.eqb k k'); [reflexivity|exact IH]. Qed.
Lemma mem_lookup (m : list (nat * A)) k : mem m k = match lookup m k with Some _ => true | None => false end.
Proof. induction m as [|[k' a] m IH]; [reflexivity|]. unfold mem in *. cbn. destruct (Nat.eqb k k'); [reflexivity|exact IH]. Qed.
Lemma planes_table l : table_of properties l (lookup (planes l)).
Proof.
  induction l as [|f l [H1 H2]]; [split; [intros f []|reflexivity]|]. split; intros g I; cbn.
  - destruct (Nat.eqb_spec g f) as [->|N]; [reflexivity|]. destruct I as [I|I]; [congruence|exact (H1 g I)].
  - destruct (Nat.eqb_spec g f) as [->|N]; [exfalso; apply I; left; reflexivity|]. apply H2. intros J. apply I. right. exact J.
Qed.
Lemma insert_table l m l' p : table_of properties l (lookup m) -> Permutation p (planes l') -> table_of properties (l ++ l') (lookup (insert m p)).
Proof.
  intros T P. assert (PP : forall q, In q p -> exists f, In f l' /\ q = (f, properties f)) by (intros q I; apply (Permutation_in _ P), in_map_iff in I; destruct I as (f & <- & I); eauto).
  assert (LL : forall f, In f l' -> In (f, properties f) p) by (intros f I; apply (Permutation_in _ (Permutation_sym P)), in_map_iff; eauto). clear P.
  assert (G : forall p m, (forall f a, lookup m f = Some a -> a = properties f) -> (forall q, In q p -> snd q = properties (fst q)) -> (forall f a, lookup (insert m p) f = Some a -> a = properties f) /\ forall f, lookup (insert m p) f <> None <-> lookup m f <> None \/ In f (map fst p)).
  { clear. induction p as [|[f a] p IH]; intros m M Q; [split; [exact M|]; intros f; cbn; tauto|]. cbn [insert fold_left map fst]. pose proof (Q (f, a) (or_introl eq_refl)) as Qa. cbn in Qa. subst a.
    destruct (mem m f) eqn:E.
    - destruct (IH m M ltac:(intros; apply Q; right; assumption)) as [X Y]. split; [exact X|]. intros g. unfold insert in Y. rewrite Y. rewrite mem_lookup in E. split; [cbn; tauto|]. intros [H|[<-|H]]; auto. left. intros Z. rewrite Z in E. discriminate.
    - destruct (IH (m ++ [(f, properties f)])) as [X Y]; [|intros; apply Q; right; assumption|].
      + intros g a. rewrite lookup_app. destruct (lookup m g) as [b|] eqn:G; [intros [= <-]; apply M, G|]. cbn. destruct (Nat.eqb_spec g f) as [->|]; [intros [= <-]; reflexivity|discriminate].
      + split; [exact X|]. intros g. unfold insert in Y. rewrite Y, lookup_app. cbn. destruct (Nat.eqb_spec g f) as [->|D]; destruct (lookup m _); split; intros [H|H]; auto; try (left; discriminate); try tauto. destruct H as [H|H]; [congruence|auto]. }
  destruct T as [T1 T2]. assert (M : forall f a, lookup m f = Some a -> a = properties f). { intros f a E. destruct (in_dec Nat.eq_dec f l) as [I|I]; [rewrite (T1 f I) in E; congruence|rewrite (T2 f I) in E; discriminate]. }
  destruct (G p m M) as [X Y]; [intros q I; destruct (PP q I) as (f & _ & ->); reflexivity|]. split.
  - intros f I. assert (K : lookup (insert m p) f <> None). { apply Y. apply in_app_iff in I. destruct I as [I|I]; [left; rewrite (T1 f I); discriminate|]. right. apply in_map_iff. exists (f, properties f). auto. }
    destruct (lookup (insert m p) f) as [a|] eqn:E; [|congruence]. rewrite (X f a E). reflexivity.
  - intros f I. destruct (lookup (insert m p) f) eqn:E; [|reflexivity]. exfalso. apply I. apply in_app_iff. assert (K : lookup (insert m p) f <> None) by congruence. apply Y in K. destruct K as [K|K]; [left; destruct (in_dec Nat.eq_dec f l) as [J|J]; [exact J|]; rewrite (T2 f J) in K; congruence|]. right. apply in_map_iff in K. destruct K as (q & <- & K). destruct (PP q K) as (g & J & ->). exact J.
Qed.

(** ** Invariant *)
Notation is_done r i := (done blocks r i = true).
Definition last_faces : list nat := nth (n - 1) blocks [].
Definition caller_ok (r : run) : Prop :=
  match caller r with
  | Busy => True
  | Merging m k st => is_done r (n - 1) /\ k <= n - 1 /\ (forall j, j < k -> is_done r j) /\
      (if st then bad r <> None /\ 1 <= k else table_of properties (last_faces ++ concat (firstn k blocks)) (lookup m))
  | Returned rep => is_done r (n - 1) /\ (exists f, In f faces /\ degenerate f /\ rep = report_of sm_face_count f) /\ (n <= 2 -> forall j, j < n -> is_done r j)
  | Goes_on m => bad r = None /\ (forall j, j < n -> is_done r j) /\ table_of properties faces (lookup m)
  end.
Record Inv (r : run) : Prop := {
  i_length : length (looked r) = n;
  i_bound : forall i b k, nth_error blocks i = Some b -> nth_error (looked r) i = Some k -> k <= length b;
  i_bad : forall f, bad r = Some f -> In f faces /\ degenerate f;
  i_seen : bad r = None -> forall i b k f, nth_error blocks i = Some b -> nth_error (looked r) i = Some k -> In f (firstn k b) -> ~ degenerate f;
  i_caller : caller_ok r }.
Lemma Inv_initial : Inv (initial n).
Proof.
  assert (Z : forall i k, nth_error (repeat 0 n) i = Some k -> k = 0) by (intros i k E; apply nth_error_In in E; apply repeat_spec in E; exact E).
  constructor; cbn; [apply repeat_length|intros i b k _ E; apply Z in E; lia|discriminate|intros _ i b k f _ E; apply Z in E; subst k; intros []|exact I].
Qed.
Lemma done_all r i : Inv r -> is_done r i -> exists b, nth_error blocks i = Some b /\ nth_error (looked r) i = Some (length b).
Proof. intros V D. unfold done in D. destruct (nth_error blocks i) as [b|]; [|discriminate]. destruct (nth_error (looked r) i) as [k|]; [|discriminate]. apply Nat.eqb_eq in D. subst. eauto. Qed.
Lemma concat_split : concat (firstn (n - 1) blocks) ++ last_faces = faces.
Proof.
  unfold last_faces. rewrite <- BL. clear - NE. induction blocks as [|b bs IH]; [congruence|]. destruct bs as [|b' bs]; [cbn; rewrite app_nil_r; reflexivity|]. specialize (IH ltac:(discriminate)). replace (length (b :: b' :: bs) - 1) with (S (length (b' :: bs) - 1)) by (cbn [length]; lia). cbn [firstn concat nth]. rewrite <- app_assoc. f_equal. exact IH.
Qed.
Lemma table_equiv l l' (t : nat -> option A) : (forall f, In f l <-> In f l') -> table_of properties l t -> table_of properties l' t.
Proof. intros E [A1 A2]. split; intros f I; [apply A1, E, I|apply A2; intros J; apply I, E, J]. Qed.
Lemma step_Inv r ev r' : Inv r -> step r ev = Some r' -> Inv r'.
Proof.
  intros V E. pose proof V as V0. destruct V as [V1 V2 V3 V4 V5]. destruct ev as [i| | |]; cbn [AreaModel.step] in E; cbv zeta in E.
  - destruct (nth_error blocks i) as [b|] eqn:B; [|discriminate]. destruct (nth_error (looked r) i) as [k|] eqn:K; [|discriminate]. destruct (nth_error b k) as [f|] eqn:F; [|discriminate]. injection E as <-.
    assert (LI : i < length (looked r)) by (apply nth_error_Some; congruence). assert (LK : k < length b) by (apply nth_error_Some; congruence).
    assert (FI : In f faces) by (rewrite <- BL; apply in_concat; exists b; split; eapply nth_error_In; eassumption).
    assert (DN : forall j, is_done r j -> j <> i) by (intros j D ->; unfold done in D; rewrite B, K in D; apply Nat.eqb_eq in D; lia).
    assert (DK : forall j, is_done r j -> is_done {| bad := if zero (properties f) then Some f else bad r; looked := replace (looked r) i (S k); caller := caller r |} j).
    { intros j D. pose proof (DN j D) as N. unfold done in *. cbn [looked]. rewrite nth_replace by exact LI. destruct (Nat.eqb_spec j i); [congruence|exact D]. }
    constructor; cbn [looked bad].
    + rewrite replace_length; assumption.
    + intros j b' k' B' K'. rewrite nth_replace in K' by exact LI. destruct (Nat.eqb_spec j i) as [->|N]; [|eapply V2; eassumption]. injection K' as <-. rewrite B in B'. injection B' as <-. lia.
    + destruct (zero (properties f)) eqn:Z; [intros g [= <-]; auto|exact V3].
    + destruct (zero (properties f)) eqn:Z; [discriminate|]. intros N j b' k' g B' K'. rewrite nth_replace in K' by exact LI. destruct (Nat.eqb_spec j i) as [->|NJ]; [|eapply V4; eassumption]. injection K' as <-. rewrite B in B'. injection B' as <-.
      assert (FS : firstn (S k) b = firstn k b ++ [f]). { clear - F. revert k F. induction b as [|x b IH]; intros [|k] F; try discriminate; [injection F as ->; reflexivity|]. cbn [firstn app]. f_equal. apply IH, F. }
      rewrite FS. intros I. apply in_app_iff in I. destruct I as [I|[<-|[]]]; [eapply V4; eassumption|]. rewrite Z. discriminate.
    + unfold caller_ok in *. cbn [caller bad]. destruct (caller r) as [|m k' st|rep|m].
      * exact I.
      * destruct V5 as (D & L & J & S0). split; [apply DK, D|]. split; [exact L|]. split; [intros; apply DK; auto|]. destruct st; [|exact S0]. destruct S0 as [S1 S2]. split; [|exact S2]. destruct (zero (properties f)); [discriminate|exact S1].
      * destruct V5 as (D & X & Y). split; [apply DK, D|]. split; [exact X|]. intros N2 j J. apply DK. auto.
      * exfalso. destruct V5 as (_ & D & _). assert (NI : i < n) by (apply nth_error_Some; congruence). apply (DN i (D i NI) eq_refl).
  - destruct (caller r) eqn:C; try discriminate. destruct (done blocks r (n - 1)) eqn:D; [|discriminate]. injection E as <-. constructor; cbn [looked bad]; try assumption. unfold caller_ok. cbn [caller]. change (done blocks _ (n - 1)) with (done blocks r (n - 1)). split; [exact D|]. split; [lia|]. split; [intros; lia|]. cbn [firstn concat]. rewrite app_nil_r. apply planes_table.
  - unfold caller_ok in V5. destruct (caller r) as [|m k st|rep|m] eqn:C; try discriminate. destruct st; [discriminate|]. destruct (Nat.ltb k (n - 1) && done blocks r k) eqn:D; [|discriminate]. apply andb_true_iff in D. destruct D as [L D]. apply Nat.ltb_lt in L. injection E as <-. destruct V5 as (D1 & L1 & J & T).
    assert (J' : forall j, j < S k -> is_done r j) by (intros j H; destruct (Nat.eq_dec j k) as [->|]; [exact D|]; apply J; lia).
    constructor; cbn [looked bad]; try assumption. unfold caller_ok. cbn [caller]. destruct (bad r) as [f|] eqn:BR; (split; [exact D1|]); (split; [lia|]); (split; [exact J'|]).
    + split; [cbn; congruence|lia].
    + destruct (done_all r k V0 D) as (b & B & _). rewrite (nth_error_nth _ _ [] B).
      assert (FS : firstn (S k) blocks = firstn k blocks ++ [b]). { clear - B. revert k B. generalize blocks as bs. induction bs as [|x bs IH]; intros [|k] B; try discriminate; [injection B as ->; reflexivity|]. cbn [firstn app]. f_equal. apply IH, B. }
      rewrite FS, concat_app. cbn [concat]. rewrite app_nil_r, app_assoc. apply insert_table; [exact T|apply RO].
  - unfold caller_ok in V5. destruct (caller r) as [|m k st|rep|m] eqn:C; try discriminate. destruct (st || Nat.eqb k (n - 1)) eqn:D; [|discriminate]. injection E as <-. destruct V5 as (D1 & L1 & J & T). constructor; cbn [looked bad]; try assumption. unfold caller_ok. cbn [caller bad]. destruct (bad r) as [f|] eqn:BR.
    + destruct (V3 f eq_refl) as [F1 F2]. split; [exact D1|]. split; [exists f; auto|]. intros N2 j LJ. assert (K1 : st = true -> 1 <= k) by (intros ->; apply T). apply orb_true_iff in D. assert (KN : n - 1 <= k) by (destruct D as [D|D]; [specialize (K1 D)|apply Nat.eqb_eq in D]; lia). destruct (Nat.eq_dec j (n - 1)) as [->|]; [exact D1|]. apply J. lia.
    + destruct st; [exfalso; apply T; reflexivity|]. cbn in D. apply Nat.eqb_eq in D. subst k. split; [reflexivity|]. split; [intros j LJ; destruct (Nat.eq_dec j (n - 1)) as [->|]; [exact D1|apply J; lia]|]. revert T. apply table_equiv. intros f. rewrite <- concat_split, !in_app_iff. tauto.
Qed.
Lemma execute_app evs evs' : execute (evs ++ evs') = fold_left (fun r ev => let* r := r in step r ev) evs' (execute evs).
Proof. unfold AreaModel.execute. apply fold_left_app. Qed.
Lemma execute_Inv evs : forall r, execute evs = Some r -> Inv r.
Proof.
  induction evs as [|ev evs IH] using rev_ind; intros r E; [injection E as <-; apply Inv_initial|]. rewrite execute_app in E. cbn in E. destruct (execute evs) as [r0|]; [|discriminate]. cbn in E. eapply step_Inv; [apply IH; reflexivity|exact E].
Qed.
Lemma all_seen r : Inv r -> bad r = None -> (forall j, j < n -> is_done r j) -> forall f, In f faces -> ~ degenerate f.
Proof.
  intros V B D f I. rewrite <- BL in I. apply in_concat in I. destruct I as (b & I & F). apply In_nth_error in I. destruct I as (i & I). assert (LI : i < n) by (apply nth_error_Some; congruence). destruct (done_all r i V (D i LI)) as (b' & B1 & B2). rewrite I in B1. injection B1 as <-. apply (i_seen r V B i b (length b)); auto. rewrite firstn_all. exact F.
Qed.

(** Whenever dispatch goes on from here, no face that may intersect is without area, all threads are done, and the tables give the vertices and planes of exactly these faces. *)
Theorem C75_planes : forall evs r m, execute evs = Some r -> caller r = Goes_on m ->
  (forall f, In f faces -> ~ degenerate f) /\ table_of properties faces (lookup m) /\ forall i, step r (Look i) = None.
Proof.
  intros evs r m E C. pose proof (execute_Inv evs r E) as V. pose proof (i_caller r V) as K. unfold caller_ok in K. rewrite C in K. destruct K as (B & D & T). split; [apply (all_seen r V B D)|]. split; [exact T|].
  intros i. cbn. destruct (nth_error blocks i) as [b|] eqn:BI; [|reflexivity]. assert (LI : i < n) by (apply nth_error_Some; congruence). destruct (done_all r i V (D i LI)) as (b' & B1 & B2). rewrite BI in B1. injection B1 as <-. rewrite B2. assert (X : nth_error b (length b) = None) by (apply nth_error_None; lia). rewrite X. reflexivity.
Qed.
(** Whenever dispatch returns here, one of the faces is without area, and the report is about one such face, except for the first face of the cut mesh. *)
Theorem C75_report_partial : forall evs r rep, execute evs = Some r -> caller r = Returned rep ->
  (exists f, In f faces /\ degenerate f) /\
  ((In sm_face_count faces -> ~ degenerate sm_face_count) -> exists f, In f faces /\ degenerate f /\ names sm_face_count (says_cut_mesh rep) (says_face rep) f).
Proof.
  intros evs r rep E C. pose proof (execute_Inv evs r E) as V. pose proof (i_caller r V) as K. unfold caller_ok in K. rewrite C in K. destruct K as (_ & (f & I & D & ->) & _). split; [eauto|]. intros X. exists f. split; [exact I|]. split; [exact D|]. unfold report_of, names. cbv zeta. cbn [says_cut_mesh says_face].
  assert (f <> sm_face_count) by (intros ->; exact (X I D)). destruct (Nat.ltb_spec sm_face_count f); lia.
Qed.
(** If the first face of the cut mesh is the only one without area, the report always says that it is a face of the source mesh, which has no such face. *)
Theorem C75_first_face_refuted : forall evs r rep, (forall f, In f faces -> degenerate f -> f = sm_face_count) -> execute evs = Some r -> caller r = Returned rep ->
  says_cut_mesh rep = false /\ says_face rep = sm_face_count /\ forall f, ~ names sm_face_count (says_cut_mesh rep) (says_face rep) f.
Proof.
  intros evs r rep O E C. pose proof (execute_Inv evs r E) as V. pose proof (i_caller r V) as K. unfold caller_ok in K. rewrite C in K. destruct K as (_ & (f & I & D & ->) & _). rewrite (O f I D). unfold report_of, names. cbv zeta. cbn [says_cut_mesh says_face]. rewrite Nat.ltb_irrefl. split; [reflexivity|]. split; [reflexivity|]. intros g. lia.
Qed.
(** With at most one helper thread, none is at work after dispatch has returned. *)
Theorem C75_finished_partial : forall evs r rep, n <= 2 -> execute evs = Some r -> caller r = Returned rep -> forall i, step r (Look i) = None.
Proof.
  intros evs r rep N2 E C i. pose proof (execute_Inv evs r E) as V. pose proof (i_caller r V) as K. unfold caller_ok in K. rewrite C in K. destruct K as (_ & _ & D). cbn. destruct (nth_error blocks i) as [b|] eqn:BI; [|reflexivity]. assert (LI : i < n) by (apply nth_error_Some; congruence). destruct (done_all r i V (D N2 i LI)) as (b' & B1 & B2). rewrite BI in B1. injection B1 as <-. rewrite B2. assert (X : nth_error b (length b) = None) by (apply nth_error_None; lia). rewrite X. reflexivity.
Qed.

(** ** Every execution can be brought to an end, and none goes on forever *)
Definition ended (r : run (A := A)) : Prop := match caller r with Returned _ | Goes_on _ => True | _ => False end.
Lemma enabled r : Inv r -> ended r \/ exists ev r', step r ev = Some r'.
Proof.
  intros V. unfold ended.
  assert (LK : forall i, i < n -> is_done r i \/ exists r', step r (Look i) = Some r').
  { intros i L. cbn. unfold done. destruct (nth_error blocks i) as [b|] eqn:B; [|apply nth_error_None in B; lia]. destruct (nth_error (looked r) i) as [k|] eqn:K; [|apply nth_error_None in K; rewrite (i_length r V) in K; lia]. pose proof (i_bound r V i b k B K). destruct (Nat.eqb_spec k (length b)); [left; reflexivity|]. right. destruct (nth_error b k) as [f|] eqn:F; [eauto|]. apply nth_error_None in F. lia. }
  assert (NZ : 0 < n) by (destruct blocks; [congruence|cbn; lia]). pose proof (i_caller r V) as C. unfold caller_ok in C. destruct (caller r) as [|m k st|rep|m] eqn:CR; [| |auto|auto]; right.
  - destruct (LK (n - 1) ltac:(lia)) as [D|(r' & E)]; [|exists (Look (n - 1)), r'; exact E]. exists Own. cbn. rewrite CR, D. eauto.
  - destruct C as (D1 & L & J & T). destruct (st || Nat.eqb k (n - 1)) eqn:S0; [exists End; cbn; rewrite CR, S0; eauto|]. apply orb_false_iff in S0. destruct S0 as [-> S0]. apply Nat.eqb_neq in S0. destruct (LK k ltac:(lia)) as [D|(r' & E)]; [|exists (Look k), r'; exact E]. exists Get. cbn [AreaModel.step]. cbv zeta. rewrite CR, D. replace (Nat.ltb k (n - 1)) with true by (symmetry; apply Nat.ltb_lt; lia). cbn. destruct (bad r); eauto.
Qed.
Definition weight (c : main (A := A)) : nat := match c with Busy => 0 | Merging _ k st => S k | Returned _ | Goes_on _ => S n end.
Lemma sum_replace l i k k' : nth_error l i = Some k -> list_sum (replace l i k') + k = list_sum l + k'.
Proof. revert i. induction l as [|x l IH]; intros [|i] E; try discriminate; [injection E as ->; unfold replace; cbn; lia|]. unfold replace in *. cbn [firstn skipn app list_sum fold_right] in *. specialize (IH i E). unfold list_sum in *. cbn [fold_right]. lia. Qed.
Lemma weight_bound r : Inv r -> weight (caller r) <= S n /\ (~ ended r -> weight (caller r) <= n).
Proof. intros V. pose proof (i_caller r V) as C. unfold caller_ok, weight, ended in *. assert (NZ : 0 < n) by (destruct blocks; [congruence|cbn; lia]). destruct (caller r) as [|m k st|rep|m]; [lia|destruct C as (_ & L & _); lia|split; [lia|tauto]|split; [lia|tauto]]. Qed.
Lemma length_bound evs : forall r, execute evs = Some r -> length evs <= list_sum (looked r) + weight (caller r).
Proof.
  induction evs as [|ev evs IH] using rev_ind; intros r E; [cbn; lia|]. rewrite execute_app in E. cbn in E. destruct (execute evs) as [r0|] eqn:E0; [|discriminate]. cbn in E. specialize (IH r0 eq_refl). rewrite app_length. cbn [length]. pose proof (execute_Inv evs r0 E0) as V. pose proof (weight_bound r0 V) as [_ W]. unfold ended in W.
  destruct ev as [i| | |]; cbn [AreaModel.step] in E; cbv zeta in E.
  - destruct (nth_error blocks i) as [b|]; [|discriminate]. destruct (nth_error (looked r0) i) as [k|] eqn:K; [|discriminate]. destruct (nth_error b k); [|discriminate]. injection E as <-. cbn [looked caller]. pose proof (sum_replace _ i k (S k) K). lia.
  - destruct (caller r0); try discriminate. destruct (done _ _ _); [|discriminate]. injection E as <-. cbn [looked caller weight] in *. lia.
  - destruct (caller r0) as [|m k st|rep|m]; try discriminate. destruct st; [discriminate|]. destruct (_ && _); [|discriminate]. injection E as <-. cbn [looked caller]. cbn [weight] in *. destruct (bad r0); cbn [weight]; lia.
  - destruct (caller r0) as [|m k st|rep|m]; try discriminate. destruct (_ || _); [|discriminate]. injection E as <-. cbn [looked caller]. cbn [weight] in *. specialize (W (fun x => x)). destruct (bad r0); cbn [weight]; lia.
Qed.
Lemma looked_bound r : Inv r -> list_sum (looked r) <= length faces.
Proof.
  intros V. rewrite <- BL. pose proof (i_length r V) as L. pose proof (i_bound r V) as B. clear - L B. revert L B. generalize blocks as bs. generalize (looked r) as l. induction l as [|k l IH]; intros [|b bs] L B; try discriminate; [cbn; lia|]. cbn [concat]. rewrite app_length. unfold list_sum in *. cbn [fold_right]. pose proof (B 0 b k eq_refl eq_refl). assert (fold_right Nat.add 0 l <= length (concat bs)); [|lia]. apply IH; [injection L; auto|]. intros i b' k' E F. exact (B (S i) b' k' E F).
Qed.
(** No execution is longer than the number of faces and threads allows, and every one that is not at its end can go on, whatever the threads do. *)
Theorem C75_ends : forall evs r, execute evs = Some r -> length evs <= length faces + n + 1 /\ (ended r \/ exists ev r', execute (evs ++ [ev]) = Some r').
Proof.
  intros evs r E. pose proof (execute_Inv evs r E) as V. split.
  - pose proof (length_bound evs r E). pose proof (looked_bound r V). pose proof (weight_bound r V). lia.
  - destruct (enabled r V) as [D|(ev & r' & S0)]; [auto|]. right. exists ev, r'. rewrite execute_app, E. exact S0.
Qed.
(** ** A helper thread that is still at work after dispatch has returned *)
Notation run_from := (fold_left (fun r ev => let* r := r in step r ev)).
Lemma look_block i b : nth_error blocks i = Some b -> forall k r, nth_error (looked r) i = Some (length b - k) -> k <= length b -> exists r', run_from (repeat (Look i) k) (Some r) = Some r' /\
  caller r' = caller r /\ looked r' = replace (looked r) i (length b) /\ (bad r <> None -> bad r' <> None) /\ ((exists f, In f (skipn (length b - k) b) /\ degenerate f) -> bad r' <> None).
Proof.
  intros B. induction k as [|k IH]; intros r K L.
  - exists r. split; [reflexivity|]. split; [reflexivity|]. split; [|split; [auto|]].
    + rewrite Nat.sub_0_r in K. clear - K. revert i K. generalize (looked r) as l. induction l as [|x l IH]; intros [|i] K; try discriminate; [injection K as ->; reflexivity|]. unfold replace in *. cbn [firstn skipn app]. f_equal. apply IH, K.
    + intros (f & I & _). rewrite Nat.sub_0_r, skipn_all in I. destruct I.
  - destruct (nth_error b (length b - S k)) as [f|] eqn:F; [|apply nth_error_None in F; lia]. cbn [repeat fold_left bind]. cbn [AreaModel.step]. cbv zeta. rewrite B, K, F.
    set (r1 := {| bad := if zero (properties f) then Some f else bad r; looked := replace (looked r) i (S (length b - S k)); caller := caller r |}).
    assert (LI : i < length (looked r)) by (apply nth_error_Some; congruence).
    destruct (IH r1) as (r' & E & C & LK & M1 & M2); [cbn [looked r1]; rewrite nth_replace, Nat.eqb_refl by exact LI; f_equal; lia|lia|]. exists r'. split; [exact E|]. split; [exact C|]. split.
    + rewrite LK. cbn [looked r1]. unfold replace. rewrite firstn_app, firstn_firstn, Nat.min_id, firstn_length. replace (i - Nat.min i (length (looked r))) with 0 by lia. cbn [firstn]. rewrite app_nil_r. f_equal. f_equal. rewrite skipn_app, skipn_all2 by (rewrite firstn_length; lia). rewrite firstn_length. replace (S i - Nat.min i (length (looked r))) with 1 by lia. reflexivity.
    + split; [intros X; apply M1; cbn [bad r1]; destruct (zero (properties f)); [discriminate|exact X]|]. intros (g & I & D).
      assert (SK : skipn (length b - S k) b = f :: skipn (length b - k) b). { clear - F L. replace (length b - k) with (S (length b - S k)) by lia. clear L. revert F. generalize (length b - S k) as q. intros q F. revert q F. induction b as [|x b IH]; intros [|q] F; try discriminate; [injection F as ->; reflexivity|]. change (skipn q b = f :: skipn (S q) b). apply IH, F. }
      rewrite SK in I. destruct I as [<-|I]; [apply M1; cbn [bad r1]; rewrite D; discriminate|]. apply M2. eauto.
Qed.
(** If there are two helper threads or more, the first has a face without area and the second has anything to do, dispatch may return while the second is at work: the calling thread breaks off the loop over the futures. The helper then uses variables of dispatch that do not exist any more. *)
Theorem C75_running_refuted : forall b0 b1 f, 3 <= n -> nth_error blocks 0 = Some b0 -> nth_error blocks 1 = Some b1 -> In f b0 -> degenerate f -> b1 <> [] ->
  exists evs r, execute evs = Some r /\ (exists rep, caller r = Returned rep) /\ nth_error (looked r) 1 = Some 0 /\ exists r', step r (Look 1) = Some r'.
Proof.
  intros b0 b1 f N B0 B1 F D B1N. destruct (nth_error blocks (n - 1)) as [bl|] eqn:BN; [|apply nth_error_None in BN; lia].
  assert (R0 : forall i, i < n -> nth_error (repeat 0 n) i = Some 0) by (intros i L; rewrite (nth_error_nth' _ 0) by (rewrite repeat_length; exact L); rewrite nth_repeat; reflexivity).
  destruct (look_block 0 b0 B0 (length b0) (initial n)) as (r1 & E1 & C1 & L1 & _ & M1); [rewrite Nat.sub_diag; apply R0; lia|lia|]. rewrite Nat.sub_diag in M1. cbn [looked initial] in L1.
  destruct (look_block (n - 1) bl BN (length bl) r1) as (r2 & E2 & C2 & L2 & M2 & _); [rewrite Nat.sub_diag, L1, nth_replace by (rewrite repeat_length; lia); destruct (Nat.eqb_spec (n - 1) 0); [lia|]; apply R0; lia|lia|].
  assert (LL : length (looked r1) = n) by (rewrite L1, replace_length; rewrite repeat_length; lia).
  assert (BD : bad r2 <> None) by (apply M2, M1; exists f; auto). assert (D2 : done blocks r2 (n - 1) = true) by (unfold done; rewrite BN, L2, nth_replace by lia; rewrite Nat.eqb_refl; apply Nat.eqb_refl).
  assert (D0 : done blocks r2 0 = true) by (unfold done; rewrite B0, L2, nth_replace by lia; destruct (Nat.eqb_spec 0 (n - 1)); [lia|]; rewrite L1, nth_replace by (rewrite repeat_length; lia); cbn; apply Nat.eqb_refl).
  assert (K2 : nth_error (looked r2) 1 = Some 0) by (rewrite L2, nth_replace by lia; destruct (Nat.eqb_spec 1 (n - 1)); [lia|]; rewrite L1, nth_replace by (rewrite repeat_length; lia); cbn [Nat.eqb]; apply R0; lia).
  destruct (bad r2) as [g|] eqn:G; [|congruence].
  exists (repeat (Look 0) (length b0) ++ repeat (Look (n - 1)) (length bl) ++ [Own; Get; End]), {| bad := Some g; looked := looked r2; caller := Returned (report_of sm_face_count g) |}. split.
  - set (m := planes (nth (n - 1) blocks [])).
    assert (S1 : step r2 Own = Some {| bad := Some g; looked := looked r2; caller := Merging m 0 false |}) by (cbn [AreaModel.step]; cbv zeta; rewrite C2, C1, D2, G; reflexivity).
    assert (S2 : step {| bad := Some g; looked := looked r2; caller := Merging m 0 false |} Get = Some {| bad := Some g; looked := looked r2; caller := Merging m 1 true |}).
    { cbn [AreaModel.step caller bad looked]. cbv zeta. change (done blocks {| bad := Some g; looked := looked r2; caller := Merging m 0 false |} 0) with (done blocks r2 0). rewrite D0. replace (Nat.ltb 0 (n - 1)) with true by (symmetry; apply Nat.ltb_lt; lia). reflexivity. }
    unfold AreaModel.execute. rewrite !fold_left_app, E1, E2. cbn [fold_left bind]. rewrite S1. cbn [bind]. rewrite S2. reflexivity.
  - split; [eexists; reflexivity|]. split; [exact K2|]. cbn [AreaModel.step]. cbv zeta. cbn [looked]. rewrite B1, K2. destruct b1 as [|x b1]; [congruence|]. cbn [nth_error]. eauto.
Qed.
(** Without helper threads the result is the same. *)
Theorem C75_sequential : match sequential properties zero sm_face_count [] faces with
  | Goes_on m => (forall f, In f faces -> ~ degenerate f) /\ table_of properties faces (lookup m)
  | Returned rep => exists f, In f faces /\ degenerate f /\ rep = report_of sm_face_count f
  | _ => False
  end.
Proof.
  clear BL ND. assert (G : forall l m, match sequential properties zero sm_face_count (planes m) l with Goes_on t => (forall f, In f l -> ~ degenerate f) /\ t = planes (m ++ l) | Returned rep => exists f, In f l /\ degenerate f /\ rep = report_of sm_face_count f | _ => False end).
  { induction l as [|f l IH]; intros m; cbn [sequential]; [split; [intros f []|rewrite app_nil_r; reflexivity]|]. destruct (zero (properties f)) eqn:Z; [exists f; cbn; auto|]. specialize (IH (m ++ [f])). unfold AreaModel.planes in IH. rewrite map_app in IH. cbn [map] in IH. unfold AreaModel.planes. destruct (sequential _ _ _ _ l) as [| |rep|t]; [exact IH|exact IH|destruct IH as (g & I & D & X); exists g; cbn; auto|]. destruct IH as [I1 ->]. rewrite <- app_assoc. split; [|reflexivity]. intros g [<-|I]; [congruence|apply I1, I]. }
  specialize (G faces []). cbn [AreaModel.planes map] in G. destruct (sequential _ _ _ [] faces) as [| |rep|m]; auto. destruct G as [G1 ->]. split; [exact G1|]. apply planes_table.
Qed.
End Area.

(** The hypotheses are met: an execution that goes on, one that returns (another face than the first of the cut mesh), and one where the first face of the cut mesh is the only one without area. *)
Theorem C75_case : let blocks := [[0]; [1; 2]; [3]] in
  (exists evs r, execute (fun f => f) (fun f => false) 2 (fun l => rev l) blocks evs = Some r /\ exists m, caller r = Goes_on m /\ map fst m = [3; 0; 2; 1]) /\
  (exists evs r, execute (fun f => f) (fun f => Nat.eqb f 3) 2 (fun l => l) blocks evs = Some r /\ caller r = Returned {| says_cut_mesh := true; says_face := 1 |}) /\
  (exists evs r, execute (fun f => f) (fun f => Nat.eqb f 2) 2 (fun l => l) blocks evs = Some r /\ caller r = Returned {| says_cut_mesh := false; says_face := 2 |}) /\
  concat blocks = [0; 1; 2; 3] /\ NoDup [0; 1; 2; 3] /\ 3 <= length blocks.
Proof.
  split; [exists [Look 2; Look 1; Own; Look 0; Get; Look 1; Get; End]; eexists; split; [vm_compute; reflexivity|]; eexists; split; reflexivity|].
  split; [exists [Look 2; Look 1; Own; Look 0; Get; End]; eexists; split; [vm_compute; reflexivity|]; reflexivity|].
  split; [exists [Look 1; Look 1; Look 2; Own; Look 0; Get; End]; eexists; split; [vm_compute; reflexivity|]; reflexivity|]. split; [reflexivity|]. split; [repeat constructor; cbn; lia|cbn; lia].
Qed.

(** ** Triangles without area *)
Section Triangle.
Open Scope R_scope.
Import GeoModel GeoSpec GeoSeg GeoProps.
(** kernel.cpp:2212-2218, with the functions of GeoModel: the length of the normal vector is zero *)
Definition no_area (ps : list vec3) : Prop := exists n dc c, plane_coefficients ps = Some (n, dc, c) /\ dot3 n n = 0.
(** In exact arithmetic a triangle is found to be without area exactly if its vertices are on a line. *)
Theorem C75_triangle : forall a b d : vec3, no_area [a; b; d] <-> on_a_line a b d.
Proof.
  intros a b d. destruct (C63_triangle a b d) as [E N]. split.
  - intros (n & dc & c & E' & Z). pose proof (eq_trans (eq_sym E) E') as X. injection X as X _ _. destruct (Classical_Prop.classic (on_a_line a b d)) as [L|L]; [exact L|]. exfalso. apply (N L). rewrite X. clear - Z. destruct n as [[x y] z]. cbn in Z. assert (x = 0 /\ y = 0 /\ z = 0) as (-> & -> & ->); [|reflexivity]. repeat split; nra.
  - intros L. eexists. eexists. eexists. split; [exact E|]. destruct a as [[a1 a2] a3], b as [[b1 b2] b3], d as [[d1 d2] d3]. destruct L as [L|(t & L)].
    + injection L as <- <- <-. cbn. ring.
    + cbn in L. injection L as -> -> ->. cbn. ring.
Qed.
End Triangle.
