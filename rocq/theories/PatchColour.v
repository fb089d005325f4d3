(** Seeds, the adjacency matrix and the colouring: proofs. *)
From Coq Require Import List Arith Bool Lia Permutation Relations.
From Verif Require Import CutModel CutProofs ClipModel ClipProofs SplitProofs PatchModel PatchSpec PatchProofs.
Import ListNotations.
Open Scope nat_scope.

(** ** Matrices *)
Definition square (n : nat) (m : matrix) : Prop := rows m = n /\ cols m = n /\ length (entries m) = n * n.
Lemma pos_lt n i j : i < n -> j < n -> i * n + j < n * n.
Proof. intros I J. assert (S i * n <= n * n) by (apply Nat.mul_le_mono_r; lia). cbn in H. lia. Qed.
Lemma pos_inj n i j i' j' : j < n -> j' < n -> i * n + j = i' * n + j' -> i = i' /\ j = j'.
Proof.
  intros J J' E. assert (D : forall i j, j < n -> (i * n + j) / n = i) by (intros a b B; rewrite Nat.div_add_l by lia; rewrite Nat.div_small by exact B; lia). pose proof (D i j J) as D1. pose proof (D i' j' J') as D2. rewrite E in D1. assert (i = i') by congruence. subst i'. lia.
Qed.
Lemma zeroes_square n : square n (zeroes n n). Proof. repeat split; cbn. apply repeat_length. Qed.
Lemma zeroes_entry n i j : entry (zeroes n n) i j = 0.
Proof. unfold entry, zeroes. cbn [entries cols]. generalize (n * n). intros k. generalize (i * n + j). intros p. revert p. induction k as [|k IH]; intros [|p]; cbn; auto. Qed.
Lemma put_square n m i j x : square n m -> i < n -> j < n -> square n (put m i j x).
Proof. intros (R & C & L) I J. unfold square, put. cbn [rows cols entries]. split; [exact R|]. split; [exact C|]. pose proof (pos_lt n i j I J). rewrite C, app_length. cbn [length]. rewrite firstn_length, skipn_length. rewrite L. lia. Qed.
Lemma put_entry n m i j x i' j' : square n m -> i < n -> j < n -> i' < n -> j' < n -> entry (put m i j x) i' j' = if Nat.eqb i i' && Nat.eqb j j' then x else entry m i' j'.
Proof.
  intros (R & C & L) I J I' J'. unfold entry, put. cbn [cols entries]. rewrite C. pose proof (pos_lt n i j I J) as B. pose proof (pos_lt n i' j' I' J') as B'. set (k := i * n + j) in *. set (k' := i' * n + j') in *.
  assert (LF : length (firstn k (entries m)) = k) by (rewrite firstn_length; lia).
  destruct (Nat.eqb_spec i i') as [Ei|Ei]; [destruct (Nat.eqb_spec j j') as [Ej|Ej]|]; cbn [andb].
  - assert (k' = k) as -> by (unfold k, k'; congruence). rewrite app_nth2 by lia. rewrite LF, Nat.sub_diag. reflexivity.
  - assert (N : k' <> k) by (intros X; apply (pos_inj n i' j' i j J' J) in X; destruct X; congruence). destruct (Nat.lt_ge_cases k' k) as [K|K].
    + rewrite app_nth1 by lia. rewrite <- (firstn_skipn k (entries m)) at 2. rewrite app_nth1 by lia. reflexivity.
    + rewrite app_nth2 by lia. rewrite LF. destruct (k' - k) as [|d] eqn:D; [lia|]. cbn [nth]. rewrite <- (firstn_skipn (S k) (entries m)) at 2. rewrite app_nth2; rewrite firstn_length; [|lia]. f_equal. lia.
  - assert (N : k' <> k) by (intros X; apply (pos_inj n i' j' i j J' J) in X; destruct X; congruence). destruct (Nat.lt_ge_cases k' k) as [K|K].
    + rewrite app_nth1 by lia. rewrite <- (firstn_skipn k (entries m)) at 2. rewrite app_nth1 by lia. reflexivity.
    + rewrite app_nth2 by lia. rewrite LF. destruct (k' - k) as [|d] eqn:D; [lia|]. cbn [nth]. rewrite <- (firstn_skipn (S k) (entries m)) at 2. rewrite app_nth2; rewrite firstn_length; [|lia]. f_equal. lia.
Qed.
Lemma nth_flat_map (f : nat -> list nat) w n k i j : (forall i, length (f i) = w) -> i < n -> j < w -> nth (i * w + j) (flat_map f (seq k n)) 0 = nth j (f (k + i)) 0.
Proof.
  intros L. revert k i. induction n as [|n IH]; intros k i I J; [lia|]. cbn [seq flat_map]. destruct i as [|i].
  - cbn [Nat.mul Nat.add]. rewrite app_nth1 by (rewrite L; exact J). rewrite Nat.add_0_r. reflexivity.
  - rewrite app_nth2 by (rewrite L; cbn; lia). rewrite L. replace (S i * w + j - w) with (i * w + j) by (cbn; lia). rewrite IH by lia. f_equal. f_equal. lia.
Qed.
Lemma product_entry n m i j : square n m -> i < n -> j < n -> (0 < entry (product m m) i j <-> exists k, k < n /\ 0 < entry m i k /\ 0 < entry m k j).
Proof.
  intros (R & C & L) I J. unfold entry at 1, product. cbn [cols entries]. rewrite C, R. rewrite (nth_flat_map _ n n 0 i j); [|intros; rewrite map_length, seq_length; reflexivity|exact I|exact J]. cbn [Nat.add].
  set (g := fun j => fold_left (fun s k => s + entry m i k * entry m k j) (seq 0 n) 0). assert (E : nth j (map g (seq 0 n)) 0 = g j). { rewrite (nth_indep _ 0 (g 0)) by (rewrite map_length, seq_length; exact J). rewrite map_nth, seq_nth by exact J. reflexivity. }
  rewrite E. unfold g. assert (G : forall l s, 0 < fold_left (fun s k => s + entry m i k * entry m k j) l s <-> 0 < s \/ exists k, In k l /\ 0 < entry m i k /\ 0 < entry m k j).
  { induction l as [|k l IH]; intros s; cbn [fold_left]; [split; [auto|intros [H|(k & [] & _)]; exact H]|]. rewrite IH. split.
    - intros [H|(k' & H & H')]; [|right; exists k'; split; [right; exact H|exact H']]. destruct (Nat.eq_dec s 0) as [->|N]; [|left; lia]. right. exists k. split; [left; reflexivity|]. destruct (entry m i k), (entry m k j); cbn in H; lia.
    - intros [H|(k' & [<-|H] & A & B)]; [left; lia|left; assert (0 < entry m i k * entry m k j) by (apply Nat.mul_pos_pos; assumption); lia|right; exists k'; auto]. }
  rewrite G. split; [intros [H|(k & K & A)]; [lia|exists k; apply in_seq in K; split; [lia|exact A]]|intros (k & K & A); right; exists k; split; [apply in_seq; lia|exact A]].
Qed.
(** The adjacency matrix. *)
Lemma matrix_ok shuffle n (adj : list (nat * list nat)) : (forall A (m : list (nat * A)), Permutation (shuffle A m) m) -> (forall k l x, In (k, l) adj -> In x l -> k < n /\ x < n) ->
  square n (adjacency_matrix shuffle n adj) /\ forall i j, i < n -> j < n -> (0 < entry (adjacency_matrix shuffle n adj) i j <-> i <> j /\ exists l, In (i, l) adj /\ In j l).
Proof.
  intros SH H. unfold adjacency_matrix.
  assert (IN : forall k l m, k < n -> (forall x, In x l -> x < n) -> square n m -> let m' := fold_left (fun m col => if Nat.eqb k col then m else put m k col 1) l m in square n m' /\ forall i j, i < n -> j < n -> (0 < entry m' i j <-> 0 < entry m i j \/ i = k /\ i <> j /\ In j l)).
  { intros k l. induction l as [|x l IH]; intros m K L S; cbn zeta; [split; [exact S|]; intros i j _ _; cbn; tauto|]. cbn [fold_left]. assert (X : x < n) by (apply L; left; reflexivity). assert (L' : forall y, In y l -> y < n) by (intros; apply L; right; assumption).
    destruct (Nat.eqb_spec k x) as [E|E].
    - destruct (IH m K L' S) as [S' E']. split; [exact S'|]. intros i j I J. rewrite (E' i j I J). cbn. split; [intros [A|(A & B & C)]; auto|]. intros [A|(A & B & [C|C])]; [auto|exfalso; congruence|auto].
    - destruct (IH (put m k x 1) K L' (put_square n m k x 1 S K X)) as [S' E']. split; [exact S'|]. intros i j I J. rewrite (E' i j I J), (put_entry n m k x 1 i j S K X I J). cbn [In]. destruct (Nat.eqb_spec k i) as [Ei|Ei]; [destruct (Nat.eqb_spec x j) as [Ej|Ej]|]; cbn [andb].
      + split; [intros _; right; split; [congruence|]; split; [congruence|auto]|left; lia].
      + split; [intros [A|(A & B & C)]; auto|intros [A|(A & B & [C|C])]; [auto|congruence|auto]].
      + split; [intros [A|(A & B & C)]; auto|intros [A|(A & B & C)]; [auto|congruence]]. }
  assert (H' : forall k l x, In (k, l) (shuffle _ adj) -> In x l -> k < n /\ x < n) by (intros k l x I; apply (H k l x), (Permutation_in _ (SH _ adj)), I).
  assert (G : forall L m, (forall k l x, In (k, l) L -> In x l -> k < n /\ x < n) -> square n m -> let m' := fold_left (fun m p => fold_left (fun m col => if Nat.eqb (fst p) col then m else put m (fst p) col 1) (snd p) m) L m in square n m' /\ forall i j, i < n -> j < n -> (0 < entry m' i j <-> 0 < entry m i j \/ i <> j /\ exists l, In (i, l) L /\ In j l)).
  { induction L as [|[k l] L IH]; intros m HL S; cbn zeta; [split; [exact S|]; intros i j _ _; split; [auto|intros [A|(_ & l & [] & _)]; exact A]|]. cbn [fold_left fst snd].
    assert (HL' : forall k l x, In (k, l) L -> In x l -> k < n /\ x < n) by (intros k' l' x I; apply (HL k' l' x); right; exact I).
    destruct l as [|x0 l0].
    - cbn [fold_left]. destruct (IH m HL' S) as [S' E']. split; [exact S'|]. intros i j I J. rewrite (E' i j I J). split; [intros [A|(A & l & B & C)]; [auto|right; split; [exact A|]; exists l; split; [right; exact B|exact C]]|]. intros [A|(A & l & [B|B] & C)]; [auto|injection B as <- <-; destruct C|right; eauto].
    - assert (K : k < n) by (apply (HL k (x0 :: l0) x0); left; reflexivity). assert (LL : forall x, In x (x0 :: l0) -> x < n) by (intros x X; apply (HL k (x0 :: l0) x); [left; reflexivity|exact X]). destruct (IN k (x0 :: l0) m K LL S) as [S1 E1]. cbn zeta in *. set (m1 := fold_left _ (x0 :: l0) m) in *. destruct (IH m1 HL' S1) as [S2 E2]. split; [exact S2|]. intros i j I J. rewrite (E2 i j I J), (E1 i j I J). split.
      + intros [[A|(A & B & C)]|(A & l & B & C)]; [auto|right; split; [exact B|]; exists (x0 :: l0); split; [left; congruence|exact C]|right; split; [exact A|]; exists l; split; [right; exact B|exact C]].
      + intros [A|(A & l & [B|B] & C)]; [auto|injection B as <- <-; auto|right; eauto]. }
  destruct (G (shuffle _ adj) (zeroes n n) H' (zeroes_square n)) as [S E]. split; [exact S|]. intros i j I J. cbn zeta in E. rewrite (E i j I J), zeroes_entry. split.
  - intros [A|(A & l & B & C)]; [lia|]. split; [exact A|]. exists l. split; [apply (Permutation_in _ (SH _ adj)), B|exact C].
  - intros (A & l & B & C). right. split; [exact A|]. exists l. split; [apply (Permutation_in _ (Permutation_sym (SH _ adj))), B|exact C].
Qed.

(** ** The colouring *)
Section Colour.
Variables (n : nat) (sq : matrix).
Hypothesis SC : cols sq = n.
Definition two (i j : nat) : Prop := j < n /\ i <> j /\ 0 < entry sq i j.
Record cinv (queue red : list nat) : Prop := {
  ci_nodup : NoDup (red ++ queue);
  ci_reach : forall p, In p (red ++ queue) -> p < n /\ clos_refl_trans nat two 0 p;
  ci_closed : forall p q, In p red -> two p q -> In q (red ++ queue);
  ci_0 : In 0 (red ++ queue) }.
Lemma colour_all fuel queue red : cinv queue red -> queue <> [] -> n < fuel + length red -> exists red', colour fuel sq queue red = Some (red ++ red') /\ cinv [] (red ++ red').
Proof.
  revert queue red. induction fuel as [|fuel IH]; intros queue red C NQ L.
  - exfalso. assert (B : length (red ++ queue) <= n). { rewrite <- (seq_length n 0). apply NoDup_incl_length; [apply (ci_nodup _ _ C)|]. intros p I. apply in_seq. apply (ci_reach _ _ C) in I. lia. } rewrite app_length in B. lia.
  - destruct queue as [|row queue]; [congruence|]. clear NQ. destruct C as [C1 C2 C3 C4]. cbn [colour]. rewrite SC.
    assert (G : forall l q, incl l (seq 0 n) -> exists new, fold_left (fun q col => if Nat.eqb row col then q else if Nat.ltb 0 (entry sq row col) && negb (existsb (Nat.eqb col) (red ++ [row])) && negb (existsb (Nat.eqb col) q) then q ++ [col] else q) l q = q ++ new /\ NoDup new /\ (forall x, In x new -> two row x /\ ~ In x (red ++ [row]) /\ ~ In x q) /\ (forall x, In x l -> two row x -> In x ((red ++ [row]) ++ q ++ new))).
    { induction l as [|x l IHl]; intros q IL; [exists []; rewrite app_nil_r; split; [reflexivity|]; split; [constructor|]; split; [intros x []|intros x []]|]. cbn [fold_left]. assert (IL' : incl l (seq 0 n)) by (intros y Y; apply IL; right; exact Y). assert (XN : x < n) by (specialize (IL x (or_introl eq_refl)); apply in_seq in IL; lia).
      destruct (Nat.eqb_spec row x) as [E|E].
      - destruct (IHl q IL') as (new & E1 & E2 & E3 & E4). exists new. split; [exact E1|]. split; [exact E2|]. split; [exact E3|]. intros y [<-|Y] T; [destruct T as (_ & T & _); congruence|apply E4; assumption].
      - destruct (Nat.ltb_spec 0 (entry sq row x)) as [P|P]; cbn [andb].
        + destruct (existsb (Nat.eqb x) (red ++ [row])) eqn:ER; cbn [negb andb]; [|destruct (existsb (Nat.eqb x) q) eqn:EQ; cbn [negb andb]].
          * destruct (IHl q IL') as (new & E1 & E2 & E3 & E4). exists new. split; [exact E1|]. split; [exact E2|]. split; [exact E3|]. intros y [<-|Y] T; [apply existsb_In in ER; apply in_app_iff; left; exact ER|apply E4; assumption].
          * destruct (IHl q IL') as (new & E1 & E2 & E3 & E4). exists new. split; [exact E1|]. split; [exact E2|]. split; [exact E3|]. intros y [<-|Y] T; [apply existsb_In in EQ; rewrite !in_app_iff; auto|apply E4; assumption].
          * apply existsb_nIn in ER. apply existsb_nIn in EQ. destruct (IHl (q ++ [x]) IL') as (new & E1 & E2 & E3 & E4). exists (x :: new). split; [rewrite E1, <- app_assoc; reflexivity|]. split; [constructor; [intros I; apply E3 in I; destruct I as (_ & _ & I); apply I, in_app_iff; right; left; reflexivity|exact E2]|].
            split; [intros y [<-|Y]; [repeat split; auto|apply E3 in Y; destruct Y as (Y1 & Y2 & Y3); split; [exact Y1|]; split; [exact Y2|]; intros Z; apply Y3, in_app_iff; left; exact Z]|].
            intros y [<-|Y] T; [rewrite !in_app_iff; cbn; auto|specialize (E4 y Y T); rewrite !in_app_iff in *; cbn in *; tauto].
        + destruct (IHl q IL') as (new & E1 & E2 & E3 & E4). exists new. split; [exact E1|]. split; [exact E2|]. split; [exact E3|]. intros y [<-|Y] T; [destruct T as (_ & _ & T); lia|apply E4; assumption]. }
    destruct (G (seq 0 n) (row :: queue) (incl_refl _)) as (new & E1 & E2 & E3 & E4). rewrite E1. cbn [app tl]. assert (IR : In row (red ++ row :: queue)) by (apply in_app_iff; right; left; reflexivity).
    assert (C' : cinv (queue ++ new) (red ++ [row])).
    { constructor.
      - assert (D : forall x, In x new -> ~ In x (red ++ row :: queue)) by (intros x X; apply E3 in X; destruct X as (_ & X2 & X3); intros Z; apply in_app_iff in Z; destruct Z as [Z|Z]; [apply X2, in_app_iff; left; exact Z|exact (X3 Z)]).
        rewrite <- app_assoc. cbn. assert (PM : Permutation (red ++ row :: queue ++ new) (new ++ red ++ row :: queue)) by (rewrite app_comm_cons, app_assoc; apply Permutation_app_comm). eapply Permutation_NoDup; [symmetry; exact PM|]. clear - E2 D C1. induction new as [|a new IH]; [exact C1|]. inversion_clear E2 as [|? ? N1 N2]. cbn. constructor; [|apply IH; [exact N2|intros; apply D; right; assumption]]. rewrite in_app_iff. intros [I|I]; [exact (N1 I)|exact (D a (or_introl eq_refl) I)].
      - intros p I. assert (J : In p (red ++ row :: queue) \/ In p new) by (rewrite !in_app_iff in *; cbn in *; tauto). destruct J as [J|J]; [apply C2, J|]. apply E3 in J. destruct J as (J & _). split; [apply J|]. eapply rt_trans; [apply (C2 row IR)|apply rt_step, J].
      - intros p q I T. apply in_app_iff in I. destruct I as [I|[<-|[]]]; [specialize (C3 p q I T); rewrite !in_app_iff in *; cbn in *; tauto|]. specialize (E4 q ltac:(apply in_seq; destruct T; lia) T). rewrite !in_app_iff in *. cbn in *. tauto.
      - rewrite !in_app_iff in *. cbn in *. tauto. }
    destruct (queue ++ new) as [|a l] eqn:EQ; [exists [row]; split; [reflexivity|exact C']|]. destruct (IH (a :: l) (red ++ [row]) C') as (red' & X1 & X2); [discriminate|rewrite app_length; cbn; lia|]. exists (row :: red'). rewrite <- app_assoc in X1, X2. split; [exact X1|exact X2].
Qed.
Lemma colour_ok : 0 < n -> exists red, colour (S n) sq [0] [] = Some red /\ NoDup red /\ forall p, In p red <-> clos_refl_trans nat two 0 p.
Proof.
  intros P. assert (C : cinv [0] []) by (constructor; cbn; [constructor; [intros []|constructor]|intros p [<-|[]]; split; [exact P|apply rt_refl]|intros p q []|auto]).
  destruct (colour_all (S n) [0] [] C) as (red & E & C'); [discriminate|cbn; lia|]. cbn [app] in *. exists red. split; [exact E|]. destruct C' as [C1 C2 C3 C4]. rewrite app_nil_r in *. split; [exact C1|]. intros p. split; [intros I; apply C2, I|].
  intros T. apply clos_rt_rt1n in T. assert (G : forall z y, clos_refl_trans_1n nat two z y -> In z red -> In y red) by (intros z y H; induction H as [|a b d H1 H2 IH]; [auto|intros I; apply IH, (C3 a b I H1)]). exact (G 0 p T C4).
Qed.
End Colour.
