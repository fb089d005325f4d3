(** Proofs for C78: what holds in every state. *)
From Coq Require Import List Arith Bool Lia.
From Verif Require Import LlistModel LlistSpec LlistBelt.
Import ListNotations.

Fixpoint succ (l : list nat) (c : nat) : option nat :=
  match l with
  | [] => None
  | a :: l => if Nat.eqb a c then hd_error l else succ l c
  end.
Lemma succ_at p c q : ~ In c p -> succ (p ++ c :: q) c = hd_error q.
Proof. induction p as [|a p IH]; intros H; cbn; [rewrite Nat.eqb_refl; reflexivity|]. destruct (Nat.eqb_spec a c) as [E|]; [exfalso; apply H; left; exact E|]. apply IH. intros I. apply H. right. exact I. Qed.
Lemma succ_none l c : ~ In c l -> succ l c = None.
Proof. induction l as [|a l IH]; intros H; cbn; [reflexivity|]. destruct (Nat.eqb_spec a c) as [E|]; [exfalso; apply H; left; exact E|]. apply IH. intros I. apply H. right. exact I. Qed.
(** A node taken out or put in between: only its predecessor has another successor. *)
Lemma succ_del p a n q c : NoDup (p ++ a :: n :: q) -> c <> a -> c <> n -> succ (p ++ a :: q) c = succ (p ++ a :: n :: q) c.
Proof.
  intros ND A Nn. induction p as [|b p IH]; cbn.
  - destruct (Nat.eqb_spec a c); [congruence|]. destruct (Nat.eqb_spec n c); [congruence|]. reflexivity.
  - cbn in ND. inversion ND; subst. destruct (Nat.eqb_spec b c); [|apply IH; assumption]. destruct p; reflexivity.
Qed.

Section inv.
Context {T : Type}.
Notation state := (state T). Notation pc := (pc T).
Definition locks_ (p : pc) : list nat :=
  match p with
  | PushHeld _ _ | PushMoved _ _ | PushLinked => [0]
  | At _ c _ | Want _ c _ _ | Delete _ c _ => [c]
  | Both _ c n _ | Cut _ c n | Drop _ c n => [c; n]
  | One _ n _ => [n]
  | Return _ x => [x]
  | _ => []
  end.
Definition op_of (p : pc) : option (op T) :=
  match p with
  | At o _ _ | Want o _ _ _ | Both o _ _ _ | One o _ _ | Cut o _ _ | Drop o _ _ | Delete o _ _ => Some o
  | _ => None
  end.
Definition seen_of (p : pc) : list T := match p with At _ _ s | Want _ _ _ s | Both _ _ _ s | One _ _ s => s | _ => [] end.
Definition priv (p : pc) : option nat := match p with PushNew _ x | PushHeld _ x | PushMoved _ x | Drop _ _ x | Delete _ _ x => Some x | _ => None end.
Definition hole (p : pc) (c : nat) : Prop := match p with Cut _ c' _ => c = c' | PushMoved _ _ => c = 0 | _ => False end.
Definition at_ (st : state) (t : nat) : pc := here (threads st t).
Definition opof (st : state) (t : nat) : option (op T) := op_of (at_ st t).
Definition outc (o : op T) (seen l : list T) : result T := match o with Find p => Found (find p l) | Each => Seen (seen ++ l) | _ => Done end.
Definition rest_of (st : state) (B : list item) (t : nat) : list T := settle (get_data st) (opof st) (after t B).
Definition pend (st : state) (B : list item) (t : nat) (p : pc) : list (result T) :=
  match p with
  | PushLinked => [Done]
  | Return r _ => [r]
  | _ => match op_of p with Some o => [outc o (seen_of p) (rest_of st B t)] | None => [] end
  end.
Definition okpc (st : state) (B : list item) (t : nat) (p : pc) : Prop :=
  match p with
  | Ready | PushLinked => ~ In (K t) B
  | Start o => ~ In (K t) B /\ (forall v, o <> Push v)
  | PushNew v x | PushHeld v x => ~ In (K t) B /\ heap st x = Some {| data := Some v; nxt := None |}
  | PushMoved v x => ~ In (K t) B /\ heap st x = Some {| data := Some v; nxt := succ (nodes B) 0 |}
  | At o c s => adj B (N c) (K t)
  | Want o c n s => adj B (N c) (K t) /\ succ (nodes B) c = Some n
  | Both o c n s => adj B (N c) (K t) /\ adj B (K t) (N n)
  | One o n s => adj B (K t) (N n) /\ (forall p, o <> Remove p)
  | Cut o c n => adj B (N c) (K t) /\ adj B (K t) (N n) /\ exists p v, o = Remove p /\ get_data st n = Some v /\ p v = true
  | Drop o c n | Delete o c n => adj B (N c) (K t) /\ exists p, o = Remove p
  | Return r x => ~ In (K t) B /\ In (N x) B
  end.
Definition npush (l : list (nat * op T)) : nat := length (filter (fun p => match snd p with Push _ => true | _ => false end) l).
Definition result_list (st : state) : list (nat * result T) := fst (one_by_one (order st) []).
Definition content (st : state) : list T := snd (one_by_one (order st) []).
Record Inv (st : state) (B : list item) : Prop := {
  i_head : hd_error B = Some (N 0);
  i_nodup : NoDup B;
  i_data : forall c, In (N c) B -> heap st c <> None /\ (get_data st c = None <-> c = 0);
  i_chain : forall c, In (N c) B -> (exists t, hole (at_ st t) c) \/ get_next st c = Some (succ (nodes B) c);
  i_lock : forall x t, owner st x = Some t <-> In x (locks_ (at_ st t));
  i_thr : forall t, okpc st B t (at_ st t);
  i_priv : forall t x, priv (at_ st t) = Some x -> ~ In (N x) B /\ heap st x <> None /\ forall u, priv (at_ st u) = Some x -> u = t;
  i_alloc : forall x, heap st x <> None -> In (N x) B \/ exists t, priv (at_ st t) = Some x;
  i_res : forall t, of_thread t (result_list st) = results (threads st t) ++ pend st B t (at_ st t);
  i_content : content st = settle (get_data st) (opof st) B;
  i_size : length (nodes B) <= S (npush (order st)) }.

Lemma hole_locks p c : hole p c -> In c (locks_ p). Proof. destruct p; cbn; try contradiction; intros ->; left; reflexivity. Qed.
Lemma head_in st B : Inv st B -> In (N 0) B.
Proof. intros I. pose proof (i_head _ _ I) as H. destruct B as [|i B]; [discriminate|]. injection H as ->. left. reflexivity. Qed.
Lemma lock_in st B x t : Inv st B -> owner st x = Some t -> In (N x) B \/ priv (at_ st t) = Some x.
Proof.
  intros I O. apply (i_lock _ _ I) in O. pose proof (i_thr _ _ I t) as H. pose proof (head_in _ _ I) as H0. destruct (at_ st t); cbn in *; try contradiction; repeat match goal with | H : _ \/ _ |- _ => destruct H | H : _ /\ _ |- _ => destruct H end; subst; try contradiction; auto;
    repeat match goal with H : adj _ _ _ |- _ => apply adj_in in H; destruct H end; auto.
Qed.
Lemma on_belt st B t : Inv st B -> In (K t) B <-> op_of (at_ st t) <> None.
Proof.
  intros I. pose proof (i_thr _ _ I t) as H. destruct (at_ st t); cbn in *; repeat match goal with H : _ /\ _ |- _ => destruct H end; repeat match goal with H : adj _ _ _ |- _ => apply adj_in in H; destruct H end; split; intros; try congruence; try contradiction; assumption.
Qed.

(** What a step of thread t leaves as it is for the others. *)
Lemma frame st B st' B' t :
  Inv st B ->
  hd_error B' = Some (N 0) -> NoDup B' ->
  (forall u, u <> t -> threads st' u = threads st u) ->
  (forall x u, u <> t -> owner st' x = Some u <-> owner st x = Some u) ->
  (forall x u, u <> t -> owner st x = Some u \/ priv (at_ st u) = Some x -> heap st' x = heap st x) ->
  (forall u c, u <> t -> owner st c = Some u -> adj B (N c) (K u) -> adj B' (N c) (K u)) ->
  (forall u c, u <> t -> owner st c = Some u -> adj B (K u) (N c) -> adj B' (K u) (N c)) ->
  (forall u, u <> t -> In (K u) B' -> In (K u) B) ->
  (forall u c, u <> t -> owner st c = Some u -> In (N c) B -> In (N c) B' /\ succ (nodes B') c = succ (nodes B) c) ->
  (forall u, u <> t -> In (K u) B -> rest_of st' B' u = rest_of st B u) ->
  (forall x, In (N x) B' -> In (N x) B \/ priv (at_ st t) = Some x) ->
  (forall u, u <> t -> of_thread u (result_list st') = of_thread u (result_list st)) ->
  (* and what is to be shown of t *)
  (forall c, In (N c) B' -> heap st' c <> None /\ (get_data st' c = None <-> c = 0)) ->
  (forall c, In (N c) B' -> hole (at_ st' t) c \/ get_next st' c = Some (succ (nodes B') c) \/ (In (N c) B /\ get_next st' c = get_next st c /\ succ (nodes B') c = succ (nodes B) c /\ ~ hole (at_ st t) c)) ->
  (forall x, owner st' x = Some t <-> In x (locks_ (at_ st' t))) ->
  okpc st' B' t (at_ st' t) ->
  (forall x, priv (at_ st' t) = Some x -> ~ In (N x) B' /\ heap st' x <> None /\ forall u, u <> t -> priv (at_ st u) <> Some x) ->
  of_thread t (result_list st') = results (threads st' t) ++ pend st' B' t (at_ st' t) ->
  content st' = settle (get_data st') (opof st') B' ->
  (forall x, heap st' x <> None -> heap st x <> None \/ priv (at_ st' t) = Some x) ->
  (forall x, In (N x) B \/ priv (at_ st t) = Some x -> In (N x) B' \/ priv (at_ st' t) = Some x \/ heap st' x = None) ->
  length (nodes B') <= S (npush (order st')) ->
  Inv st' B'.
Proof.
  intros I Hd ND Thr Own Heap AL AR InB Su Re NB Ord Dat Cha Loc Okp Pri Res Con Al1 Al2 Sz.
  assert (At' : forall u, u <> t -> at_ st' u = at_ st u) by (intros u U; unfold at_; rewrite Thr by exact U; reflexivity).
  assert (GD : forall x u, u <> t -> owner st x = Some u -> get_data st' x = get_data st x) by (intros x u U O; unfold get_data; rewrite (Heap x u U) by (left; exact O); reflexivity).
  assert (LK : forall x u, In x (locks_ (at_ st u)) -> owner st x = Some u) by (intros x u H; apply (i_lock _ _ I); exact H).
  constructor; try assumption.
  - intros c C. destruct (Cha c C) as [H | [H | (InC & G & S & NH)]]; [left; exists t; exact H|right; exact H|].
    destruct (i_chain _ _ I c InC) as [(u & H) | H]; [|right; congruence]. left. exists u. destruct (Nat.eq_dec u t) as [E|U]; [rewrite E in H; contradiction|]. rewrite At' by exact U. exact H.
  - intros x u. destruct (Nat.eq_dec u t) as [E|U]; [rewrite E; apply Loc|]. rewrite At' by exact U. rewrite Own by exact U. apply (i_lock _ _ I).
  - intros u. destruct (Nat.eq_dec u t) as [E|U]; [rewrite E; exact Okp|]. rewrite At' by exact U. pose proof (i_thr _ _ I u) as H. pose proof (LK) as LKu. specialize (fun x => LKu x u).
    assert (H0 := head_in _ _ I).
    assert (PH : forall x, priv (at_ st u) = Some x -> heap st' x = heap st x) by (intros x P; apply (Heap x u U); right; exact P).
    destruct (at_ st u); cbn in *; repeat match goal with H : _ /\ _ |- _ => destruct H end; repeat split; try assumption; try (intros HI; apply InB in HI; [contradiction|exact U]);
      try (rewrite (PH _ eq_refl); assumption);
      try (apply AL; [exact U|apply LKu; auto|assumption]); try (apply AR; [exact U|apply LKu; auto|assumption]).
    + rewrite (PH _ eq_refl). rewrite (proj2 (Su u 0 U (LKu 0 (or_introl eq_refl)) H0)). assumption.
    + match goal with A : adj B (N ?c) _ |- _ => rewrite (proj2 (Su u c U (LKu c (or_introl eq_refl)) (proj1 (adj_in _ _ _ A)))) end. assumption.
    + match goal with E : exists _ _, _ |- _ => destruct E as (q & v & E1 & E2 & E3); exists q, v end. rewrite (GD nx u U) by (apply LKu; auto). auto.
    + exact (proj1 (Su u x U (LKu x (or_introl eq_refl)) H1)).
  - intros u x P. destruct (Nat.eq_dec u t) as [E|U].
    + rewrite E in *. destruct (Pri x P) as (A & A' & D). repeat split; try assumption. intros v V. destruct (Nat.eq_dec v t) as [Ev|Vn]; [exact Ev|]. rewrite At' in V by exact Vn. exfalso. exact (D v Vn V).
    + rewrite At' in P by exact U. destruct (i_priv _ _ I u x P) as (A & A' & D). repeat split.
      * intros X. destruct (NB x X) as [X' | X']; [contradiction|]. apply U. symmetry. apply D, X'.
      * rewrite (Heap x u U) by (right; exact P). exact A'.
      * intros v V. destruct (Nat.eq_dec v t) as [Ev|Vn]; [|apply D; rewrite At' in V by exact Vn; exact V]. rewrite Ev in V. destruct (Pri x V) as (_ & _ & D'). exfalso. exact (D' u U P).
  - intros x X. destruct (Al1 x X) as [X' | X']; [|right; exists t; exact X'].
    assert (F : In (N x) B \/ priv (at_ st t) = Some x -> In (N x) B' \/ exists u, priv (at_ st' u) = Some x) by (intros Q; destruct (Al2 x Q) as [A | [A | A]]; [left; exact A|right; exists t; exact A|contradiction]).
    destruct (i_alloc _ _ I x X') as [A | (u & A)]; [apply F; left; exact A|]. destruct (Nat.eq_dec u t) as [E|U]; [rewrite E in A; apply F; right; exact A|]. right. exists u. rewrite At' by exact U. exact A.
  - intros u. destruct (Nat.eq_dec u t) as [E|U]; [rewrite E; exact Res|]. rewrite Ord, At', Thr by exact U. rewrite (i_res _ _ I u). apply f_equal. unfold pend. destruct (op_of (at_ st u)) as [o|] eqn:EO; [|reflexivity].
    rewrite Re; [reflexivity|exact U|]. apply (on_belt _ _ u I). rewrite EO. discriminate.
Qed.

Lemma at_same st st' t : (forall u, u <> t -> threads st' u = threads st u) -> forall u, u <> t -> opof st u = opof st' u.
Proof. intros H u U. unfold opof, at_. rewrite H by exact U. reflexivity. Qed.
Lemma others_in_B st B x u : Inv st B -> In (N x) B -> priv (at_ st u) <> Some x.
Proof. intros I X P. destruct (i_priv _ _ I u x P) as (H & _). contradiction. Qed.

(** The belt stays as it is. *)
Lemma frame_same st B st' t :
  Inv st B ->
  (forall u, u <> t -> threads st' u = threads st u) ->
  (forall x u, u <> t -> owner st' x = Some u <-> owner st x = Some u) ->
  (forall x u, u <> t -> owner st x = Some u \/ priv (at_ st u) = Some x -> heap st' x = heap st x) ->
  (forall x, In (N x) B -> heap st' x <> None /\ get_data st' x = get_data st x) ->
  order st' = order st ->
  (In (K t) B -> opof st' t = opof st t) ->
  (forall c, In (N c) B -> get_next st' c = get_next st c /\ ~ hole (at_ st t) c \/ hole (at_ st' t) c) ->
  (forall x, owner st' x = Some t <-> In x (locks_ (at_ st' t))) ->
  okpc st' B t (at_ st' t) ->
  (forall x, priv (at_ st' t) = Some x -> priv (at_ st t) = Some x /\ heap st' x <> None \/ heap st x = None /\ heap st' x <> None) ->
  results (threads st' t) ++ pend st' B t (at_ st' t) = results (threads st t) ++ pend st B t (at_ st t) ->
  (forall x, heap st' x <> None -> heap st x <> None \/ priv (at_ st' t) = Some x) ->
  (forall x, priv (at_ st t) = Some x -> priv (at_ st' t) = Some x \/ heap st' x = None) ->
  Inv st' B.
Proof.
  intros I Thr Own Heap Dat Ord Op Nx Loc Okp Pri Res Al1 Al2.
  assert (OP : forall u, In (K u) B -> opof st u = opof st' u) by (intros u U; destruct (Nat.eq_dec u t) as [E|N]; [rewrite E in *; symmetry; apply Op, U|apply at_same with t; assumption]).
  assert (RL : result_list st' = result_list st) by (unfold result_list; rewrite Ord; reflexivity).
  apply (frame st B st' B t); auto.
  - apply (i_head _ _ I).
  - apply (i_nodup _ _ I).
  - intros u U InU. apply settle_ext.
    + intros x X. apply Dat. apply after_in with u. exact X.
    + intros v V. symmetry. apply OP. apply after_in with u. exact V.
  - intros u U. rewrite RL. reflexivity.
  - intros c C. destruct (Dat c C) as [D1 D2]. rewrite D2. split; [exact D1|apply (i_data _ _ I), C].
  - intros c C. destruct (Nx c C) as [[A A'] | A]; [right; right; auto|left; exact A].
  - intros x P. destruct (Pri x P) as [[P' H] | [P' H]].
    + destruct (i_priv _ _ I t x P') as (A & A' & D). repeat split; try assumption. intros u U V. apply U. apply D, V.
    + repeat split; try assumption.
      * intros X. destruct (i_data _ _ I x X). contradiction.
      * intros u U V. destruct (i_priv _ _ I u x V) as (_ & X & _). contradiction.
  - rewrite Res, RL. apply (i_res _ _ I).
  - unfold content. rewrite Ord. change (content st = settle (get_data st') (opof st') B). rewrite (i_content _ _ I). apply settle_ext; [intros x X; symmetry; apply Dat, X|exact OP].
  - intros x [X | X]; [left; exact X|right; apply Al2, X].
  - rewrite Ord. apply (i_size _ _ I).
Qed.

(** A piece of the belt changes. *)
Lemma frame_seg st st' t pre seg seg' rest :
  Inv st (pre ++ seg ++ rest) ->
  seg <> [] -> hd_error (pre ++ seg' ++ rest) = Some (N 0) -> NoDup (pre ++ seg' ++ rest) ->
  (forall i, In i seg \/ In i seg' -> i = K t \/ exists x, i = N x /\ (forall u, u <> t -> owner st x <> Some u) /\ (In (N x) (pre ++ seg ++ rest) \/ priv (at_ st t) = Some x)) ->
  ~ In (K t) (pre ++ rest) ->
  (forall u, u <> t -> threads st' u = threads st u) ->
  (forall x u, u <> t -> owner st' x = Some u <-> owner st x = Some u) ->
  (forall x u, u <> t -> owner st x = Some u \/ priv (at_ st u) = Some x -> heap st' x = heap st x) ->
  (forall x, In (N x) (pre ++ rest) -> heap st' x <> None /\ get_data st' x = get_data st x) ->
  (forall x, In (N x) seg' -> heap st' x <> None /\ (get_data st' x = None <-> x = 0)) ->
  (forall u, u <> t -> of_thread u (result_list st') = of_thread u (result_list st)) ->
  (forall c u, u <> t -> owner st c = Some u -> succ (nodes (pre ++ seg' ++ rest)) c = succ (nodes (pre ++ seg ++ rest)) c) ->
  (pre <> [] -> settle (get_data st) (opof st) (seg ++ rest) = settle (get_data st') (opof st') (seg' ++ rest)) ->
  (forall c, In (N c) (pre ++ seg' ++ rest) -> get_next st' c = Some (succ (nodes (pre ++ seg' ++ rest)) c) \/ (In (N c) (pre ++ seg ++ rest) /\ get_next st' c = get_next st c /\ succ (nodes (pre ++ seg' ++ rest)) c = succ (nodes (pre ++ seg ++ rest)) c /\ ~ hole (at_ st t) c)) ->
  (forall x, owner st' x = Some t <-> In x (locks_ (at_ st' t))) ->
  okpc st' (pre ++ seg' ++ rest) t (at_ st' t) ->
  (forall x, priv (at_ st' t) = Some x -> ~ In (N x) (pre ++ seg' ++ rest) /\ heap st' x <> None /\ forall u, u <> t -> priv (at_ st u) <> Some x) ->
  of_thread t (result_list st') = results (threads st' t) ++ pend st' (pre ++ seg' ++ rest) t (at_ st' t) ->
  content st' = settle (get_data st') (opof st') (pre ++ seg' ++ rest) ->
  (forall x, heap st' x <> None -> heap st x <> None) ->
  (forall x, In (N x) seg \/ priv (at_ st t) = Some x -> In (N x) seg' \/ priv (at_ st' t) = Some x) ->
  length (nodes seg') + npush (order st) <= length (nodes seg) + npush (order st') ->
  Inv st' (pre ++ seg' ++ rest).
Proof.
  intros I NE Hd ND It NT Thr Own Heap Dat DatS Ord Su Se Cha Loc Okp Pri Res Con Al1 Al2 Sz.
  assert (KU : forall u, u <> t -> (~ In (K u) seg) /\ (~ In (K u) seg')) by (intros u U; split; intros H; [destruct (It _ (or_introl H)) as [E | (x & E & _)]|destruct (It _ (or_intror H)) as [E | (x & E & _)]]; congruence).
  assert (NU : forall u c, u <> t -> owner st c = Some u -> (~ In (N c) seg) /\ (~ In (N c) seg')) by (intros u c U O; split; intros H; [destruct (It _ (or_introl H)) as [E | (x & E & D & _)]|destruct (It _ (or_intror H)) as [E | (x & E & D & _)]]; try congruence; injection E as <-; exact (D u U O)).
  apply (frame st (pre ++ seg ++ rest) st' (pre ++ seg' ++ rest) t); auto.
  - intros u c U O A. destruct (adj_mid pre seg rest _ _ NE (proj1 (NU u c U O)) (proj1 (KU u U)) A) as [H | H]; [apply adj_app_l, H|apply adj_app_r, adj_app_r, H].
  - intros u c U O A. destruct (adj_mid pre seg rest _ _ NE (proj1 (KU u U)) (proj1 (NU u c U O)) A) as [H | H]; [apply adj_app_l, H|apply adj_app_r, adj_app_r, H].
  - intros u U. destruct (KU u U) as [K1 K2]. rewrite !in_app_iff. tauto.
  - intros u c U O X. destruct (NU u c U O) as [K1 K2]. split; [|apply Su with u; assumption]. rewrite !in_app_iff in *. tauto.
  - intros u U InU. symmetry. apply settle_mid with t; try apply KU; try assumption.
    + intros x X. symmetry. apply Dat, X.
    + apply at_same, Thr.
    + apply (i_nodup _ _ I).
    + intros InP. apply Se. intros ->. exact InP.
  - intros x X. destruct (in_app_or _ _ _ X) as [X' | X']; [left; apply in_or_app; left; exact X'|]. destruct (in_app_or _ _ _ X') as [X2 | X2]; [|left; rewrite !in_app_iff; auto].
    destruct (It _ (or_intror X2)) as [E | (y & E & _ & H)]; [discriminate|]. injection E as <-. exact H.
  - intros c C. destruct (in_app_or _ _ _ C) as [X' | X']; [|destruct (in_app_or _ _ _ X') as [X2 | X2]; [apply DatS, X2|]].
    + destruct (Dat c) as [D1 D2]; [apply in_or_app; auto|]. rewrite D2. split; [exact D1|]. apply (i_data _ _ I). apply in_or_app. auto.
    + destruct (Dat c) as [D1 D2]; [apply in_or_app; auto|]. rewrite D2. split; [exact D1|]. apply (i_data _ _ I). rewrite !in_app_iff. auto.
  - intros x X. assert (X' : In (N x) (pre ++ rest) \/ (In (N x) seg \/ priv (at_ st t) = Some x)) by (rewrite !in_app_iff in *; tauto). destruct X' as [X' | X']; [left; rewrite !in_app_iff in *; tauto|]. destruct (Al2 x X') as [A | A]; [left; rewrite !in_app_iff; tauto|right; left; exact A].
  - pose proof (i_size _ _ I) as H. rewrite !nodes_app, !app_length in *. lia.
Qed.
End inv.
