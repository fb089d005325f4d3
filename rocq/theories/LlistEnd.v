(** Proofs for C78: the order of the calls of one thread; the number of steps; a thread that can go on. *)
From Coq Require Import List Arith Bool Lia.
From Verif Require Import LlistModel LlistSpec LlistBelt LlistInv LlistStep.
Import ListNotations.

Section end_.
Context {T : Type}.
Notation state := (state T). Notation pc := (pc T).

(** ** Order *)
Definition waiting (p : pc) : list (op T) := match p with PushNew v _ | PushHeld v _ | PushMoved v _ => [Push v] | Start o => [o] | _ => [] end.
(** What a step does to the threads and to the order. *)
Record shape (st st' : state) (t : nat) : Prop := {
  s_thr : forall u, u <> t -> threads st' u = threads st u;
  s_todo : todo (threads st t) = todo (threads st' t) /\ at_ st t <> Ready \/ at_ st t = Ready /\ exists o, todo (threads st t) = o :: todo (threads st' t) /\ (waiting (at_ st' t) = [o]) /\ op_of (at_ st' t) = None /\ order st' = order st;
  s_ord : order st' = order st /\ (at_ st t = Ready \/ waiting (at_ st' t) = waiting (at_ st t)) \/ exists o, order st' = order st ++ [(t, o)] /\ waiting (at_ st t) = [o] /\ waiting (at_ st' t) = [] /\ at_ st t <> Ready /\ at_ st' t <> Ready }.
Ltac ats := unfold at_; cbn -[upd]; rewrite ?upd_eq; cbn -[upd].
Lemma step_shape (st st' : state) t fresh : step st t fresh = Go st' -> shape st st' t.
Proof.
  unfold step, lock, note, go, set_next, get_next, unlock. fold (at_ st t). intros G.
  destruct (at_ st t) eqn:E; repeat match type of G with context [match ?x with _ => _ end] => destruct x eqn:? end; try discriminate; cbn -[upd] in *;
    repeat (match goal with H : Some _ = Some _ |- _ => injection H as H; subst | H : Go _ = Go _ |- _ => injection H as H; subst | H : match ?x with _ => _ end = Some _ |- _ => destruct x eqn:?; try discriminate | H : match ?x with _ => _ end = Go _ |- _ => destruct x eqn:?; try discriminate end; cbn -[upd] in *); try discriminate;
    (constructor; [intros u U; cbn -[upd]; rewrite ?upd_ne by exact U; reflexivity|
      rewrite E; ats; first [left; split; [reflexivity|discriminate] | right; split; [reflexivity|]; eexists; split; [eassumption|auto]]|
      rewrite E; ats; first [left; split; [reflexivity|auto] | right; eexists; split; [reflexivity|]; repeat split; discriminate]]).
Qed.

Ltac cases G E := destruct (at_ _ _) eqn:E in G; repeat match type of G with context [match ?x with _ => _ end] => destruct x eqn:? end; try discriminate; cbn -[upd] in *;
    repeat (match goal with H : Some _ = Some _ |- _ => injection H as H; subst | H : Go _ = Go _ |- _ => injection H as H; subst | H : match ?x with _ => _ end = Some _ |- _ => destruct x eqn:?; try discriminate | H : match ?x with _ => _ end = Go _ |- _ => destruct x eqn:?; try discriminate end; cbn -[upd] in *); try discriminate.
Lemma step_heap (st st' : state) t fresh x : step st t fresh = Go st' -> heap st' x <> None -> heap st x <> None \/ x = fresh.
Proof.
  unfold step, lock, note, go, set_next, get_next, unlock. fold (at_ st t). intros G. cases G E; intros H; cbn -[upd] in *; auto; unfold upd in *;
    repeat match goal with H : context [Nat.eqb ?a ?b] |- _ => destruct (Nat.eqb_spec a b); subst end; auto; left; congruence.
Qed.
Definition pc_next (p p' : pc) : Prop :=
  match p, p' with
  | Ready, PushNew _ _ | Ready, Start _ | PushNew _ _, PushHeld _ _ | PushHeld _ _, PushMoved _ _ | PushMoved _ _, PushLinked | PushLinked, Ready | Start _, At _ _ _ | At _ _ _, Want _ _ _ _ | At _ _ _, Return _ _
  | Want _ _ _ _, Both _ _ _ _ | Both _ _ _ _, Cut _ _ _ | Both _ _ _ _, At _ _ _ | Both _ _ _ _, One _ _ _ | One _ _ _, Return _ _ | One _ _ _, At _ _ _ | Cut _ _ _, Drop _ _ _ | Drop _ _ _, Delete _ _ _ | Delete _ _ _, At _ _ _ | Return _ _, Ready => True
  | _, _ => False
  end.
Lemma step_pcs (st st' : state) t fresh : step st t fresh = Go st' -> pc_next (at_ st t) (at_ st' t).
Proof.
  unfold step, lock, note, go, set_next, get_next, unlock. fold (at_ st t). intros G. destruct (at_ st t) eqn:E; repeat match type of G with context [match ?x with _ => _ end] => destruct x eqn:? end; try discriminate; cbn -[upd] in *;
    repeat (match goal with H : Some _ = Some _ |- _ => injection H as H; subst | H : Go _ = Go _ |- _ => injection H as H; subst | H : match ?x with _ => _ end = Some _ |- _ => destruct x eqn:?; try discriminate | H : match ?x with _ => _ end = Go _ |- _ => destruct x eqn:?; try discriminate end; cbn -[upd] in *); try discriminate; ats; exact Logic.I.
Qed.

Lemma of_thread_cons {A} t u (a : A) l : of_thread t ((u, a) :: l) = if Nat.eqb u t then a :: of_thread t l else of_thread t l.
Proof. unfold of_thread. cbn. destruct (Nat.eqb u t); reflexivity. Qed.
Lemma prog_order progs k (st : state) : steps progs k st -> forall t, nth t progs [] = of_thread t (order st) ++ waiting (at_ st t) ++ todo (threads st t).
Proof.
  induction 1 as [|k st st' t fresh H IH G]; intros u; [reflexivity|]. destruct (step_shape _ _ _ _ G) as [S1 S2 S3]. rewrite IH. destruct (Nat.eq_dec u t) as [-> | U].
  - destruct S3 as [(O & W) | (o & O & W & W' & NR & NR')].
    + rewrite O. apply f_equal. destruct S2 as [(Td & R) | (R & o & Td & W2 & _)].
      * destruct W as [W | W]; [contradiction|]. rewrite W, Td. reflexivity.
      * rewrite W2, Td, R. reflexivity.
    + rewrite O, of_app, W, W', <- app_assoc. apply f_equal. rewrite of_thread_cons, Nat.eqb_refl. destruct S2 as [(Td & R) | (R & _)]; [rewrite Td; reflexivity|contradiction].
  - replace (at_ st' u) with (at_ st u) by (unfold at_; rewrite S1 by exact U; reflexivity). rewrite (S1 u U). apply f_equal2; [|reflexivity]. destruct S3 as [(O & _) | (o & O & _)]; rewrite O; [reflexivity|]. rewrite of_app, of_thread_cons. destruct (Nat.eqb_spec t u); [congruence|]. symmetry. apply app_nil_r.
Qed.
Lemma of_results t (l : list (nat * op T)) s : length (of_thread t (fst (one_by_one l s))) = length (of_thread t l).
Proof. revert s. induction l as [|[u o] l IH]; intros s; [reflexivity|]. cbn [one_by_one fst]. rewrite !of_thread_cons. destruct (Nat.eqb u t); cbn; rewrite IH; reflexivity. Qed.

Lemma outside progs k (st : state) t : steps progs k st -> length progs <= t -> at_ st t = Ready /\ todo (threads st t) = [].
Proof.
  intros H L. pose proof (prog_order _ _ _ H t) as P. rewrite nth_overflow in P by exact L. symmetry in P. apply app_eq_nil in P. destruct P as [P1 P2]. apply app_eq_nil in P2. destruct P2 as [P2 P3]. split; [|exact P3].
  destruct (reach_inv _ _ _ H) as (B & I). pose proof (i_res _ _ I t) as R. assert (Z : of_thread t (result_list st) = []) by (apply length_zero_iff_nil; unfold result_list; rewrite of_results, P1; reflexivity). rewrite Z in R. symmetry in R. apply app_eq_nil in R. destruct R as [_ R].
  destruct (at_ st t); cbn in *; try discriminate. reflexivity.
Qed.

(** ** Number of steps *)
Definition sum (f : nat -> nat) (n : nat) : nat := list_sum (map f (seq 0 n)).
Lemma sum_S f n : sum f (S n) = sum f n + f n.
Proof. unfold sum. rewrite seq_S, map_app, list_sum_app. cbn. lia. Qed.
Lemma sum_ext f g n : (forall t, t < n -> f t = g t) -> sum f n = sum g n.
Proof. induction n as [|n IH]; intros H; [reflexivity|]. rewrite !sum_S, IH, H by (auto; intros; apply H; lia). reflexivity. Qed.
Lemma sum_le f g n : (forall t, t < n -> f t <= g t) -> sum f n <= sum g n.
Proof. induction n as [|n IH]; intros H; [apply Nat.le_refl|]. rewrite !sum_S. pose proof (H n (Nat.lt_succ_diag_r n)). assert (sum f n <= sum g n) by (apply IH; intros; apply H; lia). lia. Qed.
Lemma sum_lt f g n t : t < n -> f t < g t -> (forall u, u < n -> f u <= g u) -> sum f n < sum g n.
Proof.
  induction n as [|n IH]; intros Ht L H; [lia|]. rewrite !sum_S. destruct (Nat.eq_dec t n) as [-> | Tn].
  - assert (sum f n <= sum g n) by (apply sum_le; intros; apply H; lia). lia.
  - assert (sum f n < sum g n) by (apply IH; [lia|exact L|intros; apply H; lia]). pose proof (H n (Nat.lt_succ_diag_r n)). lia.
Qed.
Lemma sum_add f g n t : t < n -> f t = S (g t) -> (forall u, u <> t -> f u = g u) -> sum f n = S (sum g n).
Proof.
  induction n as [|n IH]; intros Ht L H; [lia|]. rewrite !sum_S. destruct (Nat.eq_dec t n) as [-> | Tn].
  - rewrite (sum_ext f g n) by (intros u U; apply H; lia). lia.
  - rewrite IH, (H n) by (try exact L; try exact H; lia). lia.
Qed.
Lemma sum_nth {A} (f : A -> nat) d l : sum (fun t => f (nth t l d)) (length l) = list_sum (map f l).
Proof.
  induction l as [|a l IH] using rev_ind; [reflexivity|]. rewrite app_length, Nat.add_1_r, sum_S, map_app, list_sum_app. cbn [map list_sum]. rewrite app_nth2, Nat.sub_diag by lia. cbn. rewrite <- IH. rewrite (sum_ext _ (fun t => f (nth t l d))); [lia|]. intros t Ht. rewrite app_nth1 by exact Ht. reflexivity.
Qed.


Lemma npush_sum (l : list (nat * op T)) n : (forall t o, In (t, o) l -> t < n) -> npush l = sum (fun t => length (filter is_push (of_thread t l))) n.
Proof.
  induction l as [|[t o] l IH]; intros H.
  - change (0 = sum (fun _ => 0) n). clear H. induction n as [|n IHn]; [reflexivity|]. rewrite sum_S, <- IHn. reflexivity.
  - assert (IH' : npush l = sum (fun t => length (filter is_push (of_thread t l))) n) by (apply IH; intros; apply (H t0 o0); right; assumption). unfold npush in *. cbn [filter snd]. destruct o as [v|p|p|]; cbn [length]; rewrite IH'.
    + symmetry. apply sum_add with t; [apply (H t (Push v)); left; reflexivity|rewrite of_thread_cons, Nat.eqb_refl; reflexivity|]. intros u U. rewrite of_thread_cons. destruct (Nat.eqb_spec t u); [congruence|reflexivity].
    + apply sum_ext. intros u _. rewrite of_thread_cons. destruct (Nat.eqb t u); reflexivity.
    + apply sum_ext. intros u _. rewrite of_thread_cons. destruct (Nat.eqb t u); reflexivity.
    + apply sum_ext. intros u _. rewrite of_thread_cons. destruct (Nat.eqb t u); reflexivity.
Qed.
Lemma npush_le progs k (st : state) : steps progs k st -> npush (order st) <= pushes progs.
Proof.
  intros H. rewrite (npush_sum _ (length progs)).
  - unfold pushes. rewrite <- (sum_nth (fun l => length (filter is_push l)) []). apply sum_le. intros t _. rewrite (prog_order _ _ _ H t), filter_app, app_length. lia.
  - intros t o X. destruct (le_lt_dec (length progs) t) as [L | L]; [|exact L]. exfalso. pose proof (prog_order _ _ _ H t) as P. rewrite nth_overflow in P by exact L. symmetry in P. apply app_eq_nil in P. destruct P as [P _].
    assert (In o (of_thread t (order st))) as Y by (unfold of_thread; apply in_map_iff; exists (t, o); split; [reflexivity|]; apply filter_In; split; [exact X|apply Nat.eqb_refl]). rewrite P in Y. contradiction.
Qed.

Definition left_of (t : nat) (B : list item) : nat := length (nodes (after t B)).
Definition cost (P : nat) (p : pc) (m : nat) : nat :=
  match p with
  | Ready => 0 | PushNew _ _ => 4 | PushHeld _ _ => 3 | PushMoved _ _ => 2 | PushLinked => 1 | Return _ _ => 1
  | Start _ => 6 * P + 4
  | At _ _ _ => 6 * m + 2 | Want _ _ _ _ => 6 * m + 1 | Both _ _ _ _ => 6 * m | One _ _ _ => 6 * m - 1 | Cut _ _ _ => 6 * m - 1 | Drop _ _ _ => 6 * m + 4 | Delete _ _ _ => 6 * m + 3
  end.
Lemma cost_mono P p m m' : m <= m' -> cost P p m <= cost P p m'. Proof. destruct p; cbn [cost]; lia. Qed.
Lemma after_len t (p q : list item) : ~ In (K t) p -> length (nodes (after t (p ++ q))) = length (nodes (after t q)). Proof. intros H. rewrite after_skip by exact H. reflexivity. Qed.
Lemma nodes_K t B : nodes (K t :: B) = nodes B. Proof. reflexivity. Qed.
Lemma nodes_N x B : nodes (N x :: B) = x :: nodes B. Proof. reflexivity. Qed.
Lemma left_other t kd B B' u : belt_step t kd B B' -> u <> t -> left_of u B' <= left_of u B.
Proof.
  intros S U. unfold left_of. destruct S; try apply Nat.le_refl.
  - cbn. destruct (Nat.eqb_spec t u); [congruence|apply Nat.le_refl].
  - destruct (in_dec item_eq_dec (K u) p) as [X | X].
    + rewrite !after_app by exact X. rewrite !nodes_app, !app_length, ?nodes_K, ?nodes_N, ?nodes_K. cbn [length]. lia.
    + rewrite !after_skip by exact X. cbn. destruct (Nat.eqb_spec t u); [congruence|apply Nat.le_refl].
  - destruct (in_dec item_eq_dec (K u) p) as [X | X].
    + rewrite !after_app by exact X. rewrite !nodes_app, !app_length, ?nodes_K, ?nodes_N, ?nodes_K. cbn [length]. lia.
    + rewrite !after_skip by exact X. cbn. destruct (Nat.eqb_spec t u); [congruence|apply Nat.le_refl].
  - destruct (in_dec item_eq_dec (K u) p) as [X | X].
    + rewrite !after_app by exact X. rewrite !nodes_app, !app_length, ?nodes_K, ?nodes_N, ?nodes_K. cbn [length]. lia.
    + rewrite !after_skip by exact X. cbn. destruct (Nat.eqb_spec t u); [congruence|apply Nat.le_refl].
Qed.
Lemma nodup_before (p : list item) i q : NoDup (p ++ i :: q) -> ~ In i p.
Proof. intros ND X. apply NoDup_remove_2 in ND. apply ND, in_or_app. left. exact X. Qed.
Lemma left_swap t B B' : NoDup B -> NoDup B' -> belt_step t KSwap B B' -> left_of t B = S (left_of t B').
Proof.
  intros ND ND' S. inversion S; subst. unfold left_of. rewrite after_here by (apply nodup_before with (N n :: q); exact ND). replace (p ++ N n :: K t :: q) with ((p ++ [N n]) ++ K t :: q) in * by (rewrite <- app_assoc; reflexivity). rewrite after_here by (apply nodup_before with q; exact ND'). reflexivity.
Qed.
Lemma left_del t B B' : NoDup B -> belt_step t KDel B B' -> left_of t B = S (left_of t B').
Proof. intros ND S. inversion S; subst. unfold left_of. assert (X := nodup_before _ _ _ ND). rewrite !after_here by exact X. reflexivity. Qed.
Lemma left_enter t B B' : belt_step t KEnter B B' -> S (left_of t B') = length (nodes B).
Proof. intros S. inversion S; subst. unfold left_of. cbn. rewrite Nat.eqb_refl. reflexivity. Qed.
Lemma left_adj (st : state) B t n : Inv st B -> adj B (K t) (N n) -> 1 <= left_of t B.
Proof. intros I A. unfold left_of. rewrite (after_adj _ _ _ _ I A). cbn. lia. Qed.

Definition weight (P : nat) (st : state) (B : list item) (t : nat) : nat := length (todo (threads st t)) * (6 * P + 5) + cost P (at_ st t) (left_of t B).
Lemma weight_t P (st st' : state) B B' t fresh : Inv st B -> Inv st' B' -> step st t fresh = Go st' -> belt_step t (kind_of (at_ st t) (at_ st' t)) B B' -> npush (order st) <= P -> weight P st' B' t < weight P st B t.
Proof.
  intros I I' G S NP. pose proof (step_pcs _ _ _ _ G) as PN. destruct (step_shape _ _ _ _ G) as [_ S2 _]. pose proof (i_thr _ _ I t) as Ok. pose proof (i_size _ _ I) as SZ. pose proof (i_nodup _ _ I) as ND. pose proof (i_nodup _ _ I') as ND'. unfold weight.
  assert (TD : at_ st t <> Ready -> length (todo (threads st t)) = length (todo (threads st' t))) by (intros NR; destruct S2 as [(E & _) | (E & _)]; [rewrite E; reflexivity|contradiction]).
  destruct (at_ st t) eqn:E.
  - destruct S2 as [(_ & X) | (_ & o & X & _)]; [congruence|]. rewrite X. cbn [length]. destruct (at_ st' t); try contradiction; cbn [cost]; lia.
  - rewrite TD by discriminate. destruct (at_ st' t); try contradiction; cbn [cost]; lia.
  - rewrite TD by discriminate. destruct (at_ st' t); try contradiction; cbn [cost]; lia.
  - rewrite TD by discriminate. destruct (at_ st' t); try contradiction; cbn [cost]; lia.
  - rewrite TD by discriminate. destruct (at_ st' t); try contradiction; cbn [cost]; lia.
  - rewrite TD by discriminate. destruct (at_ st' t); try contradiction; cbn [cost kind_of] in *. pose proof (left_enter _ _ _ S). lia.
  - rewrite TD by discriminate. destruct (at_ st' t); try contradiction; cbn [cost kind_of] in *; [inversion S; subst; lia|lia].
  - rewrite TD by discriminate. destruct (at_ st' t); try contradiction; cbn [cost kind_of] in *; inversion S; subst; lia.
  - rewrite TD by discriminate. cbn [okpc] in Ok. pose proof (left_adj _ _ _ _ I (proj2 Ok)) as L1. destruct (at_ st' t); try contradiction; cbn [cost kind_of] in *; [pose proof (left_swap _ _ _ ND ND' S); lia|inversion S; subst; lia|inversion S; subst; lia].
  - rewrite TD by discriminate. cbn [okpc] in Ok. pose proof (left_adj _ _ _ _ I (proj1 Ok)) as L1. destruct (at_ st' t); try contradiction; cbn [cost kind_of] in *; [pose proof (left_swap _ _ _ ND ND' S); lia|lia].
  - rewrite TD by discriminate. cbn [okpc] in Ok. destruct Ok as (_ & A & _). pose proof (left_adj _ _ _ _ I A) as L1. destruct (at_ st' t); try contradiction; cbn [cost kind_of] in *. pose proof (left_del _ _ _ ND S). lia.
  - rewrite TD by discriminate. destruct (at_ st' t); try contradiction; cbn [cost kind_of] in *; inversion S; subst; lia.
  - rewrite TD by discriminate. destruct (at_ st' t); try contradiction; cbn [cost kind_of] in *; inversion S; subst; lia.
  - rewrite TD by discriminate. destruct (at_ st' t); try contradiction; cbn [cost]; lia.
Qed.

Theorem bounded progs k (st : state) : steps progs k st -> exists B, Inv st B /\ k + sum (weight (pushes progs) st B) (length progs) <= calls progs * (6 * pushes progs + 5).
Proof.
  induction 1 as [|k st st' t fresh H (B & I & L) G].
  - exists [N 0]. split; [apply start_inv|]. unfold calls. rewrite <- (sum_nth (@length (op T)) []). cbn [Nat.add]. apply Nat.eq_le_incl. rewrite Nat.mul_comm. generalize (length progs) as n. induction n as [|n IH]; [cbn; lia|]. rewrite !sum_S, IH. unfold weight, at_. cbn [start threads todo here cost]. lia.
  - destruct (step_inv st B t fresh I) as [_ S]. destruct (S st' G) as (B' & I' & BS). exists B'. split; [exact I'|]. destruct (step_shape _ _ _ _ G) as [S1 _ _].
    assert (Ht : t < length progs).
    { destruct (le_lt_dec (length progs) t) as [Le | Lt]; [|exact Lt]. exfalso. destruct (outside _ _ _ _ H Le) as [O1 O2]. revert G. unfold step. fold (at_ st t). rewrite O1, O2. discriminate. }
    assert (W : sum (weight (pushes progs) st' B') (length progs) < sum (weight (pushes progs) st B) (length progs)).
    { assert (WT : weight (pushes progs) st' B' t < weight (pushes progs) st B t) by (apply weight_t with fresh; try assumption; apply npush_le with k; exact H). apply sum_lt with t; [exact Ht|exact WT|].
      intros u _. destruct (Nat.eq_dec u t) as [-> | U]; [lia|]. unfold weight, at_. rewrite (S1 u U). apply Nat.add_le_mono_l, cost_mono. apply left_other with t (kind_of (at_ st t) (at_ st' t)); assumption. }
    lia.
Qed.

(** ** A thread that can go on *)
Lemma room progs k (st : state) : steps progs k st -> exists M, forall x, M <= x -> heap st x = None.
Proof.
  induction 1 as [|k st st' t fresh H (M & IH) G]; [exists 1; intros x X; cbn; destruct x; [lia|reflexivity]|]. exists (Nat.max M (S fresh)). intros x X. destruct (heap st' x) eqn:E; [|reflexivity]. exfalso. destruct (step_heap _ _ _ _ x G) as [Y | Y]; [rewrite E; discriminate|apply Y, IH; lia|lia].
Qed.
Definition can (st : state) (t : nat) : bool :=
  match at_ st t with
  | Ready => match todo (threads st t) with [] => false | _ => true end
  | PushNew _ _ | Start _ | Want _ _ _ _ => false
  | _ => true
  end.
Lemma not_wait (st : state) B t fresh : Inv st B -> step st t fresh <> Wait -> exists st', step st t fresh = Go st'.
Proof. intros I W. destruct (step_inv st B t fresh I) as [F _]. destruct (step st t fresh) as [| |st'] eqn:E; [contradiction|contradiction|exists st'; reflexivity]. Qed.
Lemma can_step (st : state) t fresh : heap st fresh = None -> can st t = true -> step st t fresh <> Wait.
Proof.
  intros F C. unfold can in C. unfold step, note, go. fold (at_ st t). rewrite F. destruct (at_ st t); try discriminate; repeat match goal with |- context [match ?x with _ => _ end] => destruct x eqn:? end; try discriminate; try congruence; destruct (set_next st 0 (Some x)); discriminate.
Qed.
Lemma search (P : nat -> bool) n : (exists t, t < n /\ P t = true) \/ forall t, t < n -> P t = false.
Proof.
  induction n as [|n IH]; [right; intros; lia|]. destruct IH as [(t & L & E) | IH]; [left; exists t; split; [lia|exact E]|]. destruct (P n) eqn:E; [left; exists n; split; [lia|exact E]|]. right. intros t L. destruct (Nat.eq_dec t n) as [-> | N]; [exact E|apply IH; lia].
Qed.
Lemma last_token B : (exists p w q, B = p ++ K w :: q /\ forall u, ~ In (K u) q) \/ forall u, ~ In (K u) B.
Proof.
  induction B as [|i B IH]; [right; intros u []|]. destruct IH as [(p & w & q & -> & H) | H]; [left; exists (i :: p), w, q; split; [reflexivity|exact H]|]. destruct i as [x|w]; [right; intros u [X | X]; [discriminate|exact (H u X)]|]. left. exists [], w, B. split; [reflexivity|exact H].
Qed.
Theorem goes_on progs k (st : state) : steps progs k st -> (exists t fresh st', step st t fresh = Go st') \/ forall t, at_ st t = Ready /\ todo (threads st t) = [].
Proof.
  intros H. destruct (reach_inv _ _ _ H) as (B & I). destruct (room _ _ _ H) as (M & HM). assert (F : heap st M = None) by (apply HM; lia).
  destruct (search (can st) (length progs)) as [(t & _ & C) | NC]; [left; exists t, M; apply (not_wait st B t M I), can_step; assumption|].
  assert (NC' : forall t, can st t = false) by (intros t; destruct (le_lt_dec (length progs) t) as [L | L]; [destruct (outside _ _ _ _ H L) as [O1 O2]; unfold can; rewrite O1, O2; reflexivity|apply NC, L]).
  assert (HH : forall x, In (N x) B -> heap st x <> None) by (intros x X; apply (i_data _ _ I), X).
  destruct (last_token B) as [(p & w & q & EB & LQ) | NT].
  - left. exists w, M. apply (not_wait st B w M I). assert (IW : In (K w) B) by (rewrite EB; apply in_or_app; right; left; reflexivity). apply (on_belt _ _ _ I) in IW. pose proof (NC' w) as C. pose proof (i_thr _ _ I w) as Ok. unfold can in C. unfold step. fold (at_ st w).
    destruct (at_ st w) eqn:E; try discriminate; cbn in IW; try congruence. clear IW C. cbn [okpc] in Ok. destruct Ok as [A S]. unfold lock. destruct (heap st nx) as [e|] eqn:Fn; [|discriminate]. destruct (owner st nx) as [u|] eqn:O; [|discriminate]. exfalso.
    destruct A as (p' & q' & EB'). assert (ND := i_nodup _ _ I). assert (E2 : p' ++ [N cur] = p /\ q' = q).
    { assert (X : p ++ K w :: q = (p' ++ [N cur]) ++ K w :: q') by (rewrite <- app_assoc; cbn; congruence). rewrite EB in ND. destruct (nodup_split _ _ _ _ _ ND X) as [-> ->]. auto. }
    destruct E2 as [<- ->]. assert (S' : hd_error (nodes q) = Some nx) by (rewrite EB' in S, ND; rewrite succ_belt in S by exact ND; exact S). assert (InX : In (N nx) q) by (apply nodes_in; destruct (nodes q); [discriminate|]; injection S' as ->; left; reflexivity).
    apply (i_lock _ _ I) in O. pose proof (NC' u) as C. pose proof (i_thr _ _ I u) as Ok. unfold can in C. destruct (at_ st u) eqn:Eu; try discriminate; cbn in O; try contradiction. destruct O as [-> | []]. cbn [okpc] in Ok. destruct Ok as [A _].
    destruct A as (a & b & EA). assert (ND2 := ND). destruct (in_split _ _ InX) as (q1 & q2 & EQ). rewrite EB', EQ in EA, ND2. replace (p' ++ N cur :: K w :: q1 ++ N nx :: q2) with ((p' ++ N cur :: K w :: q1) ++ N nx :: q2) in EA, ND2 by (rewrite <- app_assoc; reflexivity).
    destruct (nodup_split _ _ _ _ _ ND2 EA) as [_ EQ2]. apply (LQ u). rewrite EQ, EQ2. apply in_or_app. right. right. left. reflexivity.
  - assert (F0 : owner st 0 = None).
    { destruct (owner st 0) as [u|] eqn:O; [|reflexivity]. exfalso. apply (i_lock _ _ I) in O. pose proof (NC' u) as C. unfold can in C. assert (NO := NT u). rewrite (on_belt _ _ _ I) in NO. destruct (at_ st u); try discriminate; cbn in *; try contradiction. apply NO. discriminate. }
    assert (H0 : heap st 0 <> None) by (apply HH, (head_in _ _ I)).
    destruct (search (fun t => match at_ st t with PushNew _ _ | Start _ => true | _ => false end) (length progs)) as [(t & _ & C) | NS].
    + left. exists t, M. apply (not_wait st B t M I). unfold step, note, lock. fold (at_ st t). destruct (heap st 0); [|contradiction]. rewrite F0. destruct (at_ st t); discriminate.
    + right. intros t. destruct (le_lt_dec (length progs) t) as [L | L]; [apply (outside _ _ _ _ H L)|]. pose proof (NS t L) as C1. pose proof (NC' t) as C2. unfold can in C2. assert (NO := NT t). rewrite (on_belt _ _ _ I) in NO. destruct (at_ st t); try discriminate; [|exfalso; apply NO; discriminate]. split; [reflexivity|]. destruct (todo (threads st t)); [reflexivity|discriminate].
Qed.
End end_.
