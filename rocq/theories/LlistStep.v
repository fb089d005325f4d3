(** Proofs for C78: every step keeps the invariant. *)
From Coq Require Import List Arith Bool Lia.
From Verif Require Import LlistModel LlistSpec LlistBelt LlistInv.
Import ListNotations.

Section step.
Context {T : Type}.
Notation state := (state T). Notation pc := (pc T).

Inductive kind := KSame | KPush | KEnter | KLeave | KSwap | KDel.
Inductive belt_step (t : nat) : kind -> list item -> list item -> Prop :=
| bs_same B : belt_step t KSame B B
| bs_push x r : belt_step t KPush (N 0 :: r) (N 0 :: N x :: r)
| bs_enter r : belt_step t KEnter (N 0 :: r) (N 0 :: K t :: r)
| bs_leave p q : belt_step t KLeave (p ++ K t :: q) (p ++ q)
| bs_swap p n q : belt_step t KSwap (p ++ K t :: N n :: q) (p ++ N n :: K t :: q)
| bs_del p n q : belt_step t KDel (p ++ K t :: N n :: q) (p ++ K t :: q).
Definition kind_of (p p' : pc) : kind :=
  match p, p' with
  | PushMoved _ _, _ => KPush | Start _, _ => KEnter | Cut _ _ _, _ => KDel
  | Both _ _ _ _, At _ _ _ | One _ _ _, At _ _ _ => KSwap
  | At _ _ _, Return _ _ | One _ _ _, Return _ _ => KLeave
  | _, _ => KSame
  end.

Lemma one_app (a b : list (nat * op T)) l : one_by_one (a ++ b) l = (fst (one_by_one a l) ++ fst (one_by_one b (snd (one_by_one a l))), snd (one_by_one b (snd (one_by_one a l)))).
Proof. revert l. induction a as [|[t o] a IH]; intros l; cbn; [destruct (one_by_one b l); reflexivity|]. rewrite IH. reflexivity. Qed.
Lemma of_app {A} t (a b : list (nat * A)) : of_thread t (a ++ b) = of_thread t a ++ of_thread t b.
Proof. unfold of_thread. rewrite filter_app, map_app. reflexivity. Qed.
Lemma noted (st st' : state) t o : order st' = order st ++ [(t, o)] ->
  (forall u, u <> t -> of_thread u (result_list st') = of_thread u (result_list st)) /\
  of_thread t (result_list st') = of_thread t (result_list st) ++ [fst (call o (content st))] /\ content st' = snd (call o (content st)).
Proof.
  intros E. unfold result_list, content. rewrite E, one_app. cbn [fst snd one_by_one]. repeat split.
  - intros u U. rewrite of_app. unfold of_thread at 2. cbn. destruct (Nat.eqb_spec t u); [congruence|]. cbn. apply app_nil_r.
  - rewrite of_app. unfold of_thread at 3. cbn. rewrite Nat.eqb_refl. reflexivity.
Qed.

Lemma upd_eq {A} (f : nat -> A) k a : upd f k a k = a. Proof. unfold upd. rewrite Nat.eqb_refl. reflexivity. Qed.
Lemma upd_ne {A} (f : nat -> A) k a x : x <> k -> upd f k a x = f x. Proof. intros H. unfold upd. destruct (Nat.eqb_spec x k); congruence. Qed.

Ltac ats := unfold at_; cbn -[upd]; rewrite ?upd_eq; reflexivity.
Ltac thr := let u := fresh in let U := fresh in intros u U; cbn -[upd]; rewrite upd_ne by exact U; reflexivity.
Ltac ud := unfold upd in *; repeat match goal with |- context [Nat.eqb ?a ?b] => destruct (Nat.eqb_spec a b) | H : context [Nat.eqb ?a ?b] |- _ => destruct (Nat.eqb_spec a b) end; subst; try congruence.

Lemma unowned (st : state) B x : Inv st B -> heap st x = None -> owner st x = None.
Proof.
  intros I H. destruct (owner st x) as [u|] eqn:E; [|reflexivity]. exfalso. destruct (lock_in _ _ _ _ I E) as [X | X]; [destruct (i_data _ _ I x X); contradiction|]. destruct (i_priv _ _ I u x X) as (_ & Y & _). contradiction.
Qed.
Lemma own_t (st : state) B t x : Inv st B -> In x (locks_ (at_ st t)) -> owner st x = Some t. Proof. intros I H. apply (i_lock _ _ I). exact H. Qed.
Lemma not_hole (st : state) B t c u : Inv st B -> owner st c = Some t -> hole (at_ st u) c -> u = t.
Proof. intros I O H. apply hole_locks in H. apply (i_lock _ _ I) in H. congruence. Qed.
Lemma chain_t (st : state) B t c : Inv st B -> owner st c = Some t -> In (N c) B -> ~ hole (at_ st t) c -> get_next st c = Some (succ (nodes B) c).
Proof. intros I O C H. destruct (i_chain _ _ I c C) as [(u & HU) | E]; [|exact E]. exfalso. apply H. rewrite <- (not_hole _ _ _ _ _ I O HU) at 1. exact HU. Qed.

(** A step that changes no node and no lock, and does not move the thread on the belt. *)
Lemma step_pc (st : state) B t th : Inv st B ->
  let st' := {| heap := heap st; owner := owner st; threads := upd (threads st) t th; order := order st |} in
  op_of (here th) = op_of (at_ st t) -> locks_ (here th) = locks_ (at_ st t) -> (forall c, ~ hole (at_ st t) c) -> okpc st' B t (here th) ->
  priv (here th) = priv (at_ st t) -> results th ++ pend st' B t (here th) = results (threads st t) ++ pend st B t (at_ st t) -> Inv st' B.
Proof.
  intros I st' O L H Ok P R. assert (AT : at_ st' t = here th) by ats. apply (frame_same st B st' t); try rewrite AT; auto.
  - thr.
  - intros x u U. reflexivity.
  - intros x X. split; [apply (i_data _ _ I), X|reflexivity].
  - intros _. unfold opof. rewrite AT. exact O.
  - intros x. rewrite L. apply (i_lock _ _ I).
  - intros x X. rewrite P in X. left. split; [exact X|]. apply (i_priv _ _ I t x X).
  - cbn [threads st']. rewrite upd_eq. exact R.
  - intros x X. left. rewrite P. exact X.
Qed.
Lemma rest_pc (st : state) B t th : op_of (here th) = op_of (at_ st t) ->
  let st' := {| heap := heap st; owner := owner st; threads := upd (threads st) t th; order := order st |} in forall u, rest_of st' B u = rest_of st B u.
Proof.
  intros O st' u. apply settle_ext; [reflexivity|]. intros v _. unfold opof. destruct (Nat.eq_dec v t) as [E|V].
  - rewrite E. unfold st', at_. cbn [threads]. rewrite upd_eq. exact O.
  - unfold st', at_. cbn [threads]. rewrite upd_ne by exact V. reflexivity.
Qed.
(** The same with a lock taken or given back. *)
Lemma step_own (st : state) B t ow th : Inv st B ->
  let st' := {| heap := heap st; owner := ow; threads := upd (threads st) t th; order := order st |} in
  (forall x u, u <> t -> ow x = Some u <-> owner st x = Some u) -> (forall x, ow x = Some t <-> In x (locks_ (here th))) ->
  op_of (here th) = op_of (at_ st t) -> (forall c, ~ hole (at_ st t) c) -> okpc st' B t (here th) ->
  priv (here th) = priv (at_ st t) -> results th ++ pend st' B t (here th) = results (threads st t) ++ pend st B t (at_ st t) -> Inv st' B.
Proof.
  intros I st' OW L O H Ok P R. assert (AT : at_ st' t = here th) by ats. apply (frame_same st B st' t); try rewrite AT; auto.
  - thr.
  - intros x X. split; [apply (i_data _ _ I), X|reflexivity].
  - intros _. unfold opof. rewrite AT. exact O.
  - intros x X. rewrite P in X. left. split; [exact X|]. apply (i_priv _ _ I t x X).
  - cbn [threads st']. rewrite upd_eq. exact R.
  - intros x X. left. rewrite P. exact X.
Qed.
Lemma rest_own (st : state) B t ow th : op_of (here th) = op_of (at_ st t) ->
  let st' := {| heap := heap st; owner := ow; threads := upd (threads st) t th; order := order st |} in forall u, rest_of st' B u = rest_of st B u.
Proof. intros O st' u. exact (rest_pc st B t th O u). Qed.

Lemma pend_pc (st st' : state) B t p p' : op_of p <> None -> op_of p' = op_of p -> seen_of p' = seen_of p -> rest_of st' B t = rest_of st B t -> pend st' B t p' = pend st B t p.
Proof. intros NO O S R. destruct p; cbn in NO; try congruence; destruct p'; cbn in O; try discriminate; cbn in S |- *; injection O as ->; rewrite R, ?S; reflexivity. Qed.

(** Taking and giving back a lock. *)
Lemma own_lock (st : state) t x l l' : owner st x = None -> (forall y, owner st y = Some t <-> In y l) -> (forall y, In y l' <-> y = x \/ In y l) ->
  (forall y u, u <> t -> upd (owner st) x (Some t) y = Some u <-> owner st y = Some u) /\ forall y, upd (owner st) x (Some t) y = Some t <-> In y l'.
Proof.
  intros E L L'. split.
  - intros y u U. destruct (Nat.eq_dec y x) as [-> | Y]; [rewrite upd_eq, E; split; congruence|rewrite upd_ne by exact Y; reflexivity].
  - intros y. rewrite L'. destruct (Nat.eq_dec y x) as [-> | Y]; [rewrite upd_eq; tauto|rewrite upd_ne by exact Y; rewrite L; tauto].
Qed.
Lemma own_unlock (st : state) t x l l' : owner st x = Some t -> (forall y, owner st y = Some t <-> In y l) -> (forall y, In y l' <-> y <> x /\ In y l) ->
  (forall y u, u <> t -> upd (owner st) x None y = Some u <-> owner st y = Some u) /\ forall y, upd (owner st) x None y = Some t <-> In y l'.
Proof.
  intros E L L'. split.
  - intros y u U. destruct (Nat.eq_dec y x) as [-> | Y]; [rewrite upd_eq, E; split; congruence|rewrite upd_ne by exact Y; reflexivity].
  - intros y. rewrite L'. destruct (Nat.eq_dec y x) as [-> | Y]; [rewrite upd_eq; split; [discriminate|tauto]|rewrite upd_ne by exact Y; rewrite L; tauto].
Qed.
Lemma unlock_some (st : state) B t x : Inv st B -> owner st x = Some t -> unlock st t x = Some {| heap := heap st; owner := upd (owner st) x None; threads := threads st; order := order st |}.
Proof. intros I O. unfold unlock. rewrite O, Nat.eqb_refl. destruct (heap st x) eqn:E; [reflexivity|]. rewrite (unowned _ _ _ I E) in O. discriminate. Qed.

(** ** The steps. *)
Lemma case_alloc (st : state) B t v fresh rest : Inv st B -> at_ st t = Ready -> heap st fresh = None ->
  Inv {| heap := upd (heap st) fresh (Some {| data := Some v; nxt := None |}); owner := owner st; threads := upd (threads st) t {| todo := rest; here := PushNew v fresh; results := results (threads st t) |}; order := order st |} B.
Proof.
  intros I E F. set (st' := {| heap := _ |}). assert (AT : at_ st' t = PushNew v fresh) by ats. pose proof (i_thr _ _ I t) as Ok. rewrite E in Ok. cbn in Ok.
  assert (NF : forall x, heap st x <> None -> heap st' x = heap st x) by (intros x X; cbn; apply upd_ne; congruence).
  assert (HB : forall x, In (N x) B -> heap st' x = heap st x) by (intros x X; apply NF, (i_data _ _ I), X).
  apply (frame_same st B st' t); try rewrite AT; auto.
  - thr.
  - intros x u U. reflexivity.
  - intros x u U [O | P]; apply NF; [intros X; rewrite (unowned _ _ _ I X) in O; discriminate|apply (i_priv _ _ I u x P)].
  - intros x X. split; [rewrite HB by exact X; apply (i_data _ _ I), X|unfold get_data; rewrite HB by exact X; reflexivity].
  - contradiction.
  - intros c C. left. split; [unfold get_next; rewrite HB by exact C; reflexivity|rewrite E; exact (fun x => x)].
  - intros x. cbn [owner st']. rewrite (i_lock _ _ I), E. reflexivity.
  - split; [exact Ok|]. cbn. apply upd_eq.
  - intros x X. injection X as <-. right. split; [exact F|]. cbn. rewrite upd_eq. discriminate.
  - rewrite E. cbn [threads st']. rewrite upd_eq. reflexivity.
  - intros y Y. destruct (Nat.eq_dec y fresh) as [-> | Yf]; [right; reflexivity|left]. intros Z. apply Y. cbn -[upd]. rewrite upd_ne by exact Yf. exact Z.
  - rewrite E. discriminate.
Qed.
Lemma case_start (st : state) B t o rest : Inv st B -> at_ st t = Ready -> (forall v, o <> Push v) ->
  Inv {| heap := heap st; owner := owner st; threads := upd (threads st) t {| todo := rest; here := Start o; results := results (threads st t) |}; order := order st |} B.
Proof.
  intros I E F. pose proof (i_thr _ _ I t) as Ok. rewrite E in Ok. apply step_pc; rewrite ?E; auto.
  - split; [exact Ok|exact F].
Qed.
Lemma case_push_lock (st : state) B t v x : Inv st B -> at_ st t = PushNew v x -> owner st 0 = None ->
  Inv (with_pc {| heap := heap st; owner := upd (owner st) 0 (Some t); threads := threads st; order := order st |} t (PushHeld v x)) B.
Proof.
  intros I E F. pose proof (i_thr _ _ I t) as Ok. rewrite E in Ok. destruct (own_lock st t 0 [] [0] F) as [W1 W2].
  - intros y. rewrite (i_lock _ _ I), E. reflexivity.
  - intros y. cbn. intuition congruence.
  - unfold with_pc; cbn [heap owner threads order]. apply (step_own st B t); rewrite ?E; auto.
Qed.
Lemma case_push_move (st : state) B t v x e : Inv st B -> at_ st t = PushHeld v x -> heap st 0 = Some e -> x <> 0 ->
  Inv (with_pc {| heap := upd (upd (heap st) 0 (Some {| data := data e; nxt := None |})) x (Some {| data := Some v; nxt := nxt e |}); owner := owner st; threads := threads st; order := order st |} t (PushMoved v x)) B.
Proof.
  intros I E F NX. set (st' := with_pc _ _ _). assert (AT : at_ st' t = PushMoved v x) by ats. pose proof (i_thr _ _ I t) as Ok. rewrite E in Ok. destruct Ok as [Ok1 Ok2].
  assert (P : priv (at_ st t) = Some x) by (rewrite E; reflexivity). destruct (i_priv _ _ I t x P) as (P1 & P2 & P3). assert (O : owner st 0 = Some t) by (apply (own_t _ _ _ _ I); rewrite E; left; reflexivity).
  assert (NF : forall y, y <> x -> y <> 0 -> heap st' y = heap st y) by (intros y Y Y'; cbn; rewrite !upd_ne by assumption; reflexivity).
  assert (H0 : heap st' 0 = Some {| data := data e; nxt := None |}) by (cbn; rewrite upd_ne by auto; apply upd_eq).
  assert (XB : forall c, In (N c) B -> c <> x) by (intros c C ->; contradiction).
  assert (GN : get_next st 0 = Some (succ (nodes B) 0)) by (apply chain_t with t; try assumption; [apply (head_in _ _ I)|rewrite E; exact (fun x => x)]).
  apply (frame_same st B st' t); try rewrite AT; auto.
  - thr.
  - intros y u U. reflexivity.
  - intros y u U H. apply NF.
    + intros ->. destruct H as [H | H]; [destruct (lock_in _ _ _ _ I H) as [H' | H']; [contradiction|]; apply U, P3, H'|apply U, P3, H].
    + intros ->. destruct H as [H | H]; [congruence|apply (others_in_B _ _ _ u I (head_in _ _ I) H)].
  - intros y Y. destruct (Nat.eq_dec y 0) as [-> | Y0].
    + rewrite H0. split; [discriminate|]. unfold get_data. rewrite H0, F. reflexivity.
    + unfold get_data. rewrite NF by auto. split; [apply (i_data _ _ I), Y|reflexivity].
  - contradiction.
  - intros c C. destruct (Nat.eq_dec c 0) as [-> | C0]; [right; reflexivity|left]. split; [unfold get_next; rewrite NF by auto; reflexivity|rewrite E; exact (fun x => x)].
  - intros y. cbn [owner st' with_pc]. rewrite (i_lock _ _ I), E. reflexivity.
  - split; [exact Ok1|]. cbn [heap st' with_pc]. rewrite upd_eq. unfold get_next in GN. rewrite F in GN. cbn in GN. injection GN as ->. reflexivity.
  - intros y Y. injection Y as <-. left. split; [exact P|]. cbn [heap st' with_pc]. rewrite upd_eq. discriminate.
  - rewrite E. cbn [threads st' with_pc]. rewrite upd_eq. reflexivity.
  - intros y Y. left. destruct (Nat.eq_dec y x) as [-> | Yx]; [exact P2|]. destruct (Nat.eq_dec y 0) as [-> | Y0]; [congruence|]. rewrite NF in Y by assumption. exact Y.
  - rewrite E. auto.
Qed.

Lemma nodup_nodes B : NoDup B -> NoDup (nodes B).
Proof.
  induction 1 as [|i B H ND IH]; [constructor|]. destruct i as [x|u]; [|exact IH]. change (NoDup (x :: nodes B)). constructor; [|exact IH]. rewrite nodes_in. exact H.
Qed.
Lemma succ_belt p c t q : NoDup (p ++ N c :: K t :: q) -> succ (nodes (p ++ N c :: K t :: q)) c = hd_error (nodes q).
Proof.
  intros ND. apply nodup_nodes in ND. rewrite nodes_app in *. cbn [nodes flat_map app] in *. fold (nodes q) in *. apply succ_at. intros I. apply NoDup_remove_2 in ND. apply ND, in_or_app. left. exact I.
Qed.
Lemma head_split (st : state) B : Inv st B -> exists r, B = N 0 :: r.
Proof. intros I. pose proof (i_head _ _ I) as H. destruct B as [|i r]; [discriminate|]. injection H as ->. exists r. reflexivity. Qed.
Lemma head_pre p (i : item) q : hd_error (p ++ i :: q) = Some (N 0) -> i <> N 0 -> exists p', p = N 0 :: p'.
Proof. destruct p as [|j p]; cbn; intros E NE; [congruence|]. injection E as ->. exists p. reflexivity. Qed.

Lemma case_push_link (st : state) B t v x e : Inv st B -> at_ st t = PushMoved v x -> heap st 0 = Some e -> x <> 0 ->
  exists B', Inv {| heap := upd (heap st) 0 (Some {| data := data e; nxt := Some x |}); owner := owner st; threads := upd (threads st) t {| todo := todo (threads st t); here := PushLinked; results := results (threads st t) |}; order := order st ++ [(t, Push v)] |} B' /\ belt_step t KPush B B'.
Proof.
  intros I E F NX. destruct (head_split _ _ I) as (r & EB). subst B. exists (N 0 :: N x :: r). split; [|apply bs_push]. set (st' := {| heap := _ |}). assert (AT : at_ st' t = PushLinked) by ats.
  pose proof (i_thr _ _ I t) as Ok. rewrite E in Ok. destruct Ok as [Ok1 Ok2]. assert (P : priv (at_ st t) = Some x) by (rewrite E; reflexivity). destruct (i_priv _ _ I t x P) as (P1 & P2 & P3).
  assert (O : owner st 0 = Some t) by (apply (own_t _ _ _ _ I); rewrite E; left; reflexivity).
  assert (NF : forall y, y <> 0 -> heap st' y = heap st y) by (intros y Y; cbn -[upd]; rewrite upd_ne by assumption; reflexivity).
  assert (H0 : heap st' 0 = Some {| data := data e; nxt := Some x |}) by (cbn -[upd]; apply upd_eq).
  assert (ND := i_nodup _ _ I). assert (N0 : ~ In (N 0) r) by (inversion ND; assumption). assert (Nx : ~ In (N x) r) by (intros X; apply P1; right; exact X).
  assert (SU : forall c, c <> 0 -> c <> x -> succ (0 :: x :: nodes r) c = succ (0 :: nodes r) c) by (intros c C C'; cbn [succ]; destruct (Nat.eqb_spec 0 c); [congruence|]; destruct (Nat.eqb_spec x c); [congruence|]; reflexivity).
  assert (OX : forall u, owner st x <> Some u) by (intros u U; destruct (lock_in _ _ _ _ I U) as [X | X]; [contradiction|]; rewrite (P3 u X) in U; apply (i_lock _ _ I) in U; rewrite E in U; destruct U as [U|[]]; congruence).
  destruct (noted st st' t (Push v) eq_refl) as (Q1 & Q2 & Q3).
  change (N 0 :: N x :: r) with ([] ++ [N 0; N x] ++ r). change (N 0 :: r) with ([] ++ [N 0] ++ r) in I. apply (frame_seg st st' t [] [N 0] [N 0; N x] r I); try rewrite AT; auto.
  - discriminate.
  - cbn [app] in *. inversion ND; subst. constructor; [intros [X|X]; [congruence|contradiction]|]. constructor; assumption.
  - intros i Hi. right. cbn [In] in Hi. assert (Hi' : i = N 0 \/ i = N x) by (destruct Hi as [[Hi|[]] | [Hi|[Hi|[]]]]; auto). destruct Hi' as [-> | ->].
    + exists 0. split; [reflexivity|]. split; [congruence|left; left; reflexivity].
    + exists x. split; [reflexivity|]. split; [intros u _; apply OX|right; exact P].
  - intros X. apply Ok1. right. exact X.
  - thr.
  - intros y u U. reflexivity.
  - intros y u U H. apply NF. intros ->. destruct H as [H | H]; [congruence|apply (others_in_B _ _ _ u I (head_in _ _ I) H)].
  - intros y Y. cbn [app] in Y. assert (y <> 0) by (intros ->; contradiction). unfold get_data. rewrite NF by assumption. split; [apply (i_data _ _ I); right; exact Y|reflexivity].
  - intros y [Y | [Y | []]]; injection Y as <-.
    + split; [rewrite H0; discriminate|]. unfold get_data. rewrite H0. pose proof (i_data _ _ I 0 (head_in _ _ I)) as [_ D]. unfold get_data in D. rewrite F in D. exact D.
    + unfold get_data. rewrite NF by assumption. rewrite Ok2. split; [discriminate|]. cbn. split; congruence.
  - intros c u U OC. apply SU; [congruence|]. intros ->. exact (OX _ OC).
  - contradiction.
  - intros c C. cbn [app nodes flat_map] in *. fold (nodes r). destruct (Nat.eq_dec c 0) as [-> | C0].
    + left. unfold get_next. rewrite H0. reflexivity.
    + destruct (Nat.eq_dec c x) as [-> | CX].
      * left. unfold get_next. rewrite NF by assumption. rewrite Ok2. cbn. fold (nodes r). destruct x; [congruence|]. rewrite Nat.eqb_refl. reflexivity.
      * right. split; [destruct C as [C|[C|C]]; [congruence|congruence|right; exact C]|]. split; [unfold get_next; rewrite NF by assumption; reflexivity|]. split; [apply SU; assumption|]. rewrite E. exact C0.
  - intros y. cbn [owner st']. rewrite (i_lock _ _ I), E. reflexivity.
  - cbn [app] in *. intros [X | [X | X]]; try discriminate. apply Ok1. right. exact X.
  - intros y Y. discriminate.
  - rewrite Q2, (i_res _ _ I t). cbn -[upd]. rewrite upd_eq. cbn [results]. rewrite E. cbn. rewrite app_nil_r. reflexivity.
  - rewrite Q3. cbn [call snd]. rewrite (i_content _ _ I). cbn [app settle].
    assert (D0 : get_data st 0 = None) by (apply (i_data _ _ I 0 (head_in _ _ I)); reflexivity). assert (D0' : get_data st' 0 = None) by (unfold get_data in *; rewrite H0; rewrite F in D0; exact D0). rewrite D0, D0'.
    replace (get_data st' x) with (Some v) by (unfold get_data; rewrite NF by assumption; rewrite Ok2; reflexivity). apply f_equal. apply settle_ext.
    + intros y Y. unfold get_data. rewrite NF; [reflexivity|]. intros ->. contradiction.
    + intros u U. apply at_same with t; [thr|]. intros ->. apply Ok1. right. exact U.
  - intros y Y. destruct (Nat.eq_dec y 0) as [-> | Y0]; [congruence|]. rewrite NF in Y by assumption. exact Y.
  - rewrite E. intros y [[Y | []] | Y]; left; [left; exact Y|]. injection Y as <-. right. left. reflexivity.
  - cbn [order st']. unfold npush. rewrite filter_app, app_length. cbn. lia.
Qed.
Lemma case_push_end (st : state) B t : Inv st B -> at_ st t = PushLinked ->
  Inv (finish {| heap := heap st; owner := upd (owner st) 0 None; threads := threads st; order := order st |} t Done) B.
Proof.
  intros I E. pose proof (i_thr _ _ I t) as Ok. rewrite E in Ok. destruct (own_unlock st t 0 [0] []) as [W1 W2].
  - apply (own_t _ _ _ _ I). rewrite E. left. reflexivity.
  - intros y. rewrite (i_lock _ _ I), E. reflexivity.
  - intros y. cbn. intuition congruence.
  - unfold finish; cbn [heap owner threads order]. apply (step_own st B t); rewrite ?E; auto. cbn. rewrite app_nil_r. reflexivity.
Qed.
Lemma case_return (st : state) B t r x : Inv st B -> at_ st t = Return r x ->
  Inv (finish {| heap := heap st; owner := upd (owner st) x None; threads := threads st; order := order st |} t r) B.
Proof.
  intros I E. pose proof (i_thr _ _ I t) as Ok. rewrite E in Ok. destruct (own_unlock st t x [x] []) as [W1 W2].
  - apply (own_t _ _ _ _ I). rewrite E. left. reflexivity.
  - intros y. rewrite (i_lock _ _ I), E. reflexivity.
  - intros y. cbn. intuition congruence.
  - unfold finish; cbn [heap owner threads order]. apply (step_own st B t); rewrite ?E; auto; [apply Ok|]. cbn. rewrite app_nil_r. reflexivity.
Qed.
Lemma case_enter (st : state) B t o : Inv st B -> at_ st t = Start o -> owner st 0 = None ->
  exists B', Inv {| heap := heap st; owner := upd (owner st) 0 (Some t); threads := upd (threads st) t {| todo := todo (threads st t); here := At o 0 []; results := results (threads st t) |}; order := order st ++ [(t, o)] |} B' /\ belt_step t KEnter B B'.
Proof.
  intros I E F. destruct (head_split _ _ I) as (r & EB). subst B. exists (N 0 :: K t :: r). split; [|apply bs_enter]. set (st' := {| heap := _ |}). assert (AT : at_ st' t = At o 0 []) by ats.
  pose proof (i_thr _ _ I t) as Ok. rewrite E in Ok. destruct Ok as [Ok1 Ok2]. assert (ND := i_nodup _ _ I). assert (Kr : ~ In (K t) r) by (intros X; apply Ok1; right; exact X).
  destruct (noted st st' t o eq_refl) as (Q1 & Q2 & Q3). destruct (own_lock st t 0 [] [0] F) as [W1 W2]; [intros y; rewrite (i_lock _ _ I), E; reflexivity|intros y; cbn; intuition congruence|].
  assert (ST : settle (get_data st) (opof st) r = settle (get_data st') (opof st') r) by (apply settle_ext; [reflexivity|]; intros u U; apply at_same with t; [thr|]; intros ->; contradiction).
  assert (D0 : get_data st 0 = None) by (apply (i_data _ _ I 0 (head_in _ _ I)); reflexivity). assert (CO : content st = settle (get_data st') (opof st') r) by (rewrite (i_content _ _ I); cbn [settle]; rewrite D0; exact ST).
  change (N 0 :: K t :: r) with ([] ++ [N 0; K t] ++ r). change (N 0 :: r) with ([] ++ [N 0] ++ r) in I. apply (frame_seg st st' t [] [N 0] [N 0; K t] r I); try rewrite AT; auto.
  - discriminate.
  - cbn [app] in *. inversion ND; subst. constructor; [intros [X|X]; [congruence|contradiction]|]. constructor; assumption.
  - intros i Hi. cbn [In] in Hi. assert (Hi' : i = N 0 \/ i = K t) by (destruct Hi as [[Hi|[]] | [Hi|[Hi|[]]]]; auto). destruct Hi' as [-> | ->]; [right|left; reflexivity].
    exists 0. split; [reflexivity|]. split; [congruence|left; left; reflexivity].
  - thr.
  - intros y Y. cbn [app] in Y. split; [apply (i_data _ _ I); right; exact Y|reflexivity].
  - intros y [Y | [Y | []]]; [|discriminate]. injection Y as <-. apply (i_data _ _ I). left. reflexivity.
  - contradiction.
  - intros c C. right. split; [destruct C as [C | [C | C]]; [left; exact C|discriminate|right; exact C]|]. split; [reflexivity|]. split; [reflexivity|]. rewrite E. exact (fun x => x).
  - exists [], r. reflexivity.
  - intros y Y. discriminate.
  - rewrite Q2, (i_res _ _ I t), E, CO. replace (results (threads st' t)) with (results (threads st t)) by (cbn -[upd]; rewrite upd_eq; reflexivity). cbn [pend op_of]. rewrite app_nil_r. apply f_equal. unfold rest_of. replace (after t ([] ++ [N 0; K t] ++ r)) with r by (cbn; rewrite Nat.eqb_refl; reflexivity). destruct o; try reflexivity.
  - rewrite Q3, CO. cbn [app settle]. change (get_data st' 0) with (get_data st 0). rewrite D0. unfold opof at 2. rewrite AT. cbn [op_of]. destruct o; try reflexivity. exfalso. exact (Ok2 v eq_refl).
  - rewrite E. intros y [[Y | []] | Y]; [left; left; exact Y|discriminate].
  - cbn [order st']. unfold npush. rewrite filter_app, app_length. cbn. lia.
Qed.

Lemma token_split (st : state) B t : Inv st B -> In (K t) B -> exists p q, B = (N 0 :: p) ++ K t :: q /\ ~ In (K t) (N 0 :: p) /\ ~ In (K t) q.
Proof.
  intros I X. destruct (in_split _ _ X) as (p & q & E). destruct (head_pre p (K t) q) as (p' & ->); [rewrite <- E; apply (i_head _ _ I)|discriminate|]. exists p', q. split; [exact E|].
  assert (ND := i_nodup _ _ I). rewrite E in ND. apply NoDup_remove_2 in ND. split; intros Y; apply ND, in_or_app; auto.
Qed.
Lemma nodup_mid {A} (p s s' q : list A) : NoDup (p ++ s ++ q) -> NoDup s' -> (forall i, In i s' -> In i s) -> NoDup (p ++ s' ++ q).
Proof.
  intros ND N' Sub. induction p as [|a p IH]; cbn in *.
  - assert (ND2 : NoDup q) by (clear -ND; induction s; cbn in *; [exact ND|inversion ND; auto]). assert (D : forall i, In i s -> ~ In i q) by (clear -ND; induction s as [|b s IH]; [contradiction|]; cbn in ND; inversion ND; subst; intros i [-> | Hi]; [intros Q; apply H1, in_or_app; right; exact Q|apply IH; assumption]).
    induction s' as [|b s' IH]; cbn; [exact ND2|]. inversion N'; subst. constructor; [|apply IH; [assumption|intros i Hi; apply Sub; right; exact Hi]]. intros X. apply in_app_or in X. destruct X as [X | X]; [contradiction|]. apply (D b); [apply Sub; left; reflexivity|exact X].
  - inversion ND; subst. constructor; [|apply IH; assumption]. intros X. apply H1. rewrite !in_app_iff in *. destruct X as [X|[X|X]]; auto.
Qed.

(** The thread leaves the belt. *)
Lemma case_leave (st : state) B t o x r : Inv st B -> opof st t = Some o -> In (K t) B -> locks_ (at_ st t) = [x] -> In (N x) B -> (forall c, ~ hole (at_ st t) c) -> pend st B t (at_ st t) = [r] ->
  ((forall p, o <> Remove p) \/ rest_of st B t = []) -> priv (at_ st t) = None ->
  exists B', Inv (with_pc st t (Return r x)) B' /\ belt_step t KLeave B B'.
Proof.
  intros I Op InK L InX NH Pe Rm Pn. destruct (token_split _ _ _ I InK) as (p & q & EB & NP & NQ). subst B. exists ((N 0 :: p) ++ q). split; [|apply bs_leave]. set (st' := with_pc _ _ _). assert (AT : at_ st' t = Return r x) by ats.
  assert (ND := i_nodup _ _ I). assert (ST : settle (get_data st) (opof st) q = settle (get_data st') (opof st') q) by (apply settle_ext; [reflexivity|]; intros u U; apply at_same with t; [thr|]; intros ->; contradiction).
  assert (SK : settle (get_data st) (opof st) ([K t] ++ q) = settle (get_data st') (opof st') ([] ++ q)).
  { cbn [app settle]. rewrite Op, <- ST. unfold rest_of in Rm. rewrite after_here in Rm by exact NP. destruct o; try reflexivity. destruct Rm as [Rm | Rm]; [exfalso; exact (Rm p0 eq_refl)|]. rewrite Rm. reflexivity. }
  change ((N 0 :: p) ++ q) with ((N 0 :: p) ++ [] ++ q). change ((N 0 :: p) ++ K t :: q) with ((N 0 :: p) ++ [K t] ++ q) in *. assert (NN : nodes ((N 0 :: p) ++ [] ++ q) = nodes ((N 0 :: p) ++ [K t] ++ q)) by (rewrite !nodes_app; reflexivity).
  assert (IN : forall y, In (N y) ((N 0 :: p) ++ [] ++ q) <-> In (N y) ((N 0 :: p) ++ [K t] ++ q)) by (intros y; rewrite <- !nodes_in, NN; reflexivity).
  apply (frame_seg st st' t (N 0 :: p) [K t] [] q I); try rewrite AT; auto.
  - discriminate.
  - apply nodup_mid with [K t]; [exact ND|constructor|contradiction].
  - intros i [[<- | []] | []]. left. reflexivity.
  - intros X. apply in_app_or in X. destruct X; contradiction.
  - thr.
  - intros y u U. reflexivity.
  - intros y Y. change (In (N y) ((N 0 :: p) ++ [] ++ q)) in Y. apply IN in Y. split; [apply (i_data _ _ I), Y|reflexivity].
  - contradiction.
  - intros c u U OC. rewrite NN. reflexivity.
  - intros c C. right. rewrite NN. split; [apply IN, C|]. auto.
  - intros y. change (owner st' y) with (owner st y). rewrite (i_lock _ _ I), L. reflexivity.
  - split; [|apply IN, InX]. intros X. apply in_app_or in X. destruct X; contradiction.
  - intros y Y. discriminate.
  - change (result_list st') with (result_list st). rewrite (i_res _ _ I t), Pe. cbn -[upd app]. rewrite upd_eq. reflexivity.
  - change (content st') with (content st). rewrite (i_content _ _ I). apply settle_app; [reflexivity| |exact SK]. intros u U. apply at_same with t; [thr|]. intros ->. contradiction.
  - rewrite Pn. intros y [[Y | []] | Y]; discriminate.
Qed.

(** The thread goes past a node. *)
Lemma case_swap (st : state) B t o n v s' ow l : Inv st B -> opof st t = Some o -> adj B (K t) (N n) -> owner st n = Some t -> get_data st n = Some v ->
  (forall y u, u <> t -> ow y = Some u <-> owner st y = Some u) -> (forall y, ow y = Some t <-> y = n) -> (forall c, ~ hole (at_ st t) c) ->
  (forall p, o = Remove p -> p v = false) -> pend st B t (at_ st t) = [outc o l (v :: settle (get_data st) (opof st) (tl (after t B)))] ->
  (forall m, outc o l (v :: m) = outc o s' m) -> priv (at_ st t) = None ->
  exists B', Inv {| heap := heap st; owner := ow; threads := upd (threads st) t {| todo := todo (threads st t); here := At o n s'; results := results (threads st t) |}; order := order st |} B' /\ belt_step t KSwap B B'.
Proof.
  intros I Op A On Dn Ow1 Ow2 NH Rm Pe Ou Pn. destruct (token_split _ _ _ I (proj1 (adj_in _ _ _ A))) as (p & q & EB & NP & NQ). assert (ND := i_nodup _ _ I).
  assert (exists q', q = N n :: q') as (q' & Eq).
  { destruct A as (p' & q' & E'). rewrite EB in E', ND. destruct (nodup_split _ _ _ _ _ ND E') as [_ E2]. exists q'. exact E2. }
  subst q B. exists ((N 0 :: p) ++ N n :: K t :: q'). split; [|apply bs_swap]. set (st' := {| heap := _ |}). assert (AT : at_ st' t = At o n s') by ats.
  assert (NQ' : ~ In (K t) q') by (intros X; apply NQ; right; exact X).
  assert (ST : settle (get_data st) (opof st) q' = settle (get_data st') (opof st') q') by (apply settle_ext; [reflexivity|]; intros u U; apply at_same with t; [thr|]; intros ->; contradiction).
  assert (OT : opof st' t = Some o) by (unfold opof; rewrite AT; reflexivity).
  assert (SK : settle (get_data st) (opof st) ([K t; N n] ++ q') = settle (get_data st') (opof st') ([N n; K t] ++ q')).
  { cbn [app settle]. rewrite Op, OT, <- ST. change (get_data st' n) with (get_data st n). rewrite Dn. destruct o; try reflexivity. cbn [filter]. rewrite (Rm p0 eq_refl). reflexivity. }
  change ((N 0 :: p) ++ N n :: K t :: q') with ((N 0 :: p) ++ [N n; K t] ++ q'). change ((N 0 :: p) ++ K t :: N n :: q') with ((N 0 :: p) ++ [K t; N n] ++ q') in *.
  assert (NN : nodes ((N 0 :: p) ++ [N n; K t] ++ q') = nodes ((N 0 :: p) ++ [K t; N n] ++ q')) by (rewrite !nodes_app; reflexivity).
  assert (IN : forall y, In (N y) ((N 0 :: p) ++ [N n; K t] ++ q') <-> In (N y) ((N 0 :: p) ++ [K t; N n] ++ q')) by (intros y; rewrite <- !nodes_in, NN; reflexivity).
  apply (frame_seg st st' t (N 0 :: p) [K t; N n] [N n; K t] q' I); try rewrite AT; auto.
  - discriminate.
  - apply nodup_mid with [K t; N n]; [exact ND| |intros i; cbn; tauto]. constructor; [intros [X|[]]; discriminate|constructor; [intros []|constructor]].
  - intros i Hi. assert (Hi' : i = K t \/ i = N n) by (cbn in Hi; intuition auto). destruct Hi' as [-> | ->]; [left; reflexivity|right]. exists n. split; [reflexivity|]. split; [congruence|left]. rewrite !in_app_iff. right. left. right. left. reflexivity.
  - intros X. apply in_app_or in X. destruct X; contradiction.
  - thr.
  - intros y Y. split; [apply (i_data _ _ I); rewrite !in_app_iff in *; tauto|reflexivity].
  - intros y Y. assert (y = n) by (destruct Y as [Y|[Y|[]]]; congruence). subst y. apply (i_data _ _ I). rewrite !in_app_iff. right. left. right. left. reflexivity.
  - intros c u U OC. rewrite NN. reflexivity.
  - intros c C. right. rewrite NN. split; [apply IN, C|]. auto.
  - intros y. cbn [owner st' locks_]. rewrite Ow2. cbn. intuition congruence.
  - exists (N 0 :: p), q'. reflexivity.
  - intros y Y. discriminate.
  - change (result_list st') with (result_list st). rewrite (i_res _ _ I t), Pe. replace (results (threads st' t)) with (results (threads st t)) by (cbn -[upd]; rewrite upd_eq; reflexivity). apply f_equal. cbn [pend op_of seen_of]. unfold rest_of.
    change ((N 0 :: p) ++ [K t; N n] ++ q') with ((N 0 :: p) ++ K t :: N n :: q'). rewrite after_here by exact NP. cbn [tl]. change ((N 0 :: p) ++ [N n; K t] ++ q') with ((N 0 :: p) ++ [N n] ++ K t :: q'). rewrite app_assoc, after_here; [|intros X; apply in_app_or in X; destruct X as [X | [X | []]]; [contradiction|discriminate]]. rewrite ST, Ou. reflexivity.
  - change (content st') with (content st). rewrite (i_content _ _ I). apply settle_app; [reflexivity| |exact SK]. intros u U. apply at_same with t; [thr|]. intros ->. contradiction.
  - rewrite Pn. intros y [Y | Y]; [left; cbn in *; tauto|discriminate].
Qed.

(** The thread takes a node out. *)
Lemma case_del (st : state) B t o c n e e' : Inv st B -> at_ st t = Cut o c n -> heap st c = Some e -> heap st n = Some e' -> n <> c ->
  exists B', Inv {| heap := upd (upd (heap st) n (Some {| data := data e'; nxt := None |})) c (Some {| data := data e; nxt := nxt e' |}); owner := owner st; threads := upd (threads st) t {| todo := todo (threads st t); here := Drop o c n; results := results (threads st t) |}; order := order st |} B' /\ belt_step t KDel B B'.
Proof.
  intros I E Fc Fn NC. pose proof (i_thr _ _ I t) as Ok. rewrite E in Ok. destruct Ok as (A1 & A2 & pr & v & -> & Dn & Pv). assert (ND := i_nodup _ _ I).
  assert (exists p q, B = (p ++ [N c]) ++ K t :: N n :: q) as (p & q & EB).
  { destruct A1 as (p & q & E1). destruct A2 as (p' & q' & E2). assert (E1' : B = (p ++ [N c]) ++ K t :: q) by (rewrite <- app_assoc; exact E1). rewrite E1' in E2, ND. destruct (nodup_split _ _ _ _ _ ND E2) as [_ E3]. exists p, q'. rewrite E1', E3. reflexivity. }
  subst B. exists ((p ++ [N c]) ++ K t :: q). split; [|apply bs_del]. set (st' := {| heap := _ |}). assert (AT : at_ st' t = Drop (Remove pr) c n) by ats.
  assert (NK : ~ In (K t) (p ++ [N c]) /\ ~ In (K t) q) by (apply NoDup_remove_2 in ND; split; intros X; apply ND, in_or_app; [left; exact X|right; right; exact X]). destruct NK as [NP NQ].
  assert (Nn : ~ In (N n) (p ++ [N c]) /\ ~ In (N n) q).
  { replace ((p ++ [N c]) ++ K t :: N n :: q) with (((p ++ [N c]) ++ [K t]) ++ N n :: q) in ND by (rewrite <- app_assoc; reflexivity). apply NoDup_remove_2 in ND. split; intros X; apply ND, in_or_app; [left; apply in_or_app; left; exact X|right; exact X]. }
  destruct Nn as [Np Nq].
  assert (NF : forall y, y <> c -> y <> n -> heap st' y = heap st y) by (intros y Y Y'; cbn -[upd]; rewrite !upd_ne by assumption; reflexivity).
  assert (Hc : heap st' c = Some {| data := data e; nxt := nxt e' |}) by (cbn -[upd]; apply upd_eq). assert (Hn : heap st' n = Some {| data := data e'; nxt := None |}) by (cbn -[upd]; rewrite upd_ne by exact NC; apply upd_eq).
  assert (Oc : owner st c = Some t) by (apply (own_t _ _ _ _ I); rewrite E; left; reflexivity). assert (On : owner st n = Some t) by (apply (own_t _ _ _ _ I); rewrite E; right; left; reflexivity).
  assert (DD : forall y, get_data st' y = get_data st y).
  { intros y. unfold get_data. destruct (Nat.eq_dec y c) as [-> | Yc]; [rewrite Hc, Fc; reflexivity|]. destruct (Nat.eq_dec y n) as [-> | Yn]; [rewrite Hn, Fn; reflexivity|]. rewrite NF by assumption. reflexivity. }
  assert (OT : opof st' t = Some (Remove pr)) by (unfold opof; rewrite AT; reflexivity). assert (OT0 : opof st t = Some (Remove pr)) by (unfold opof; rewrite E; reflexivity).
  assert (ST : settle (get_data st) (opof st) q = settle (get_data st') (opof st') q) by (apply settle_ext; [intros y _; symmetry; apply DD|]; intros u U; apply at_same with t; [thr|]; intros ->; contradiction).
  assert (SK : settle (get_data st) (opof st) ([K t; N n] ++ q) = settle (get_data st') (opof st') ([K t] ++ q)).
  { cbn [app settle]. rewrite OT, OT0, <- ST, Dn. cbn [filter]. rewrite Pv. reflexivity. }
  change ((p ++ [N c]) ++ K t :: q) with ((p ++ [N c]) ++ [K t] ++ q). change ((p ++ [N c]) ++ K t :: N n :: q) with ((p ++ [N c]) ++ [K t; N n] ++ q) in *.
  assert (N1 : nodes ((p ++ [N c]) ++ [K t; N n] ++ q) = nodes p ++ c :: n :: nodes q) by (rewrite !nodes_app, <- app_assoc; reflexivity). assert (N2 : nodes ((p ++ [N c]) ++ [K t] ++ q) = nodes p ++ c :: nodes q) by (rewrite !nodes_app, <- app_assoc; reflexivity).
  assert (NDN := nodup_nodes _ ND). rewrite N1 in NDN.
  assert (SU : forall y, y <> c -> y <> n -> succ (nodes ((p ++ [N c]) ++ [K t] ++ q)) y = succ (nodes ((p ++ [N c]) ++ [K t; N n] ++ q)) y) by (intros y Y Y'; rewrite N1, N2; apply succ_del; assumption).
  assert (Cp : ~ In c (nodes p)) by (apply NoDup_remove_2 in NDN; intros X; apply NDN, in_or_app; left; exact X).
  assert (Sc : succ (nodes ((p ++ [N c]) ++ [K t] ++ q)) c = hd_error (nodes q)) by (rewrite N2; apply succ_at, Cp).
  assert (Sn : succ (nodes ((p ++ [N c]) ++ [K t; N n] ++ q)) n = hd_error (nodes q)).
  { rewrite N1. replace (nodes p ++ c :: n :: nodes q) with ((nodes p ++ [c]) ++ n :: nodes q) by (rewrite <- app_assoc; reflexivity). apply succ_at. intros X. apply Np. apply in_app_or in X. rewrite in_app_iff. destruct X as [X | [-> | []]]; [left; apply nodes_in, X|right; left; reflexivity]. }
  assert (Gn : nxt e' = hd_error (nodes q)).
  { assert (G : get_next st n = Some (succ (nodes ((p ++ [N c]) ++ [K t; N n] ++ q)) n)) by (apply chain_t with t; try assumption; [apply (adj_in _ _ _ A2)|rewrite E; exact NC]). rewrite Sn in G. unfold get_next in G. rewrite Fn in G. cbn in G. congruence. }
  assert (Inn : In (N n) ((p ++ [N c]) ++ [K t; N n] ++ q)) by (apply (adj_in _ _ _ A2)).
  apply (frame_seg st st' t (p ++ [N c]) [K t; N n] [K t] q I); try rewrite AT; auto.
  - discriminate.
  - assert (H := i_head _ _ I). destruct p; exact H.
  - apply nodup_mid with [K t; N n]; [exact ND| |intros i; cbn; tauto]. constructor; [intros []|constructor].
  - intros i Hi. assert (Hi' : i = K t \/ i = N n) by (cbn in Hi; intuition auto). destruct Hi' as [-> | ->]; [left; reflexivity|right]. exists n. split; [reflexivity|]. split; [congruence|left; exact Inn].
  - intros X. apply in_app_or in X. destruct X; contradiction.
  - thr.
  - intros y u U. reflexivity.
  - intros y u U H. apply NF; intros ->; (destruct H as [H | H]; [congruence|]); [apply (others_in_B _ _ _ u I (proj1 (adj_in _ _ _ A1)) H)|apply (others_in_B _ _ _ u I Inn H)].
  - intros y Y. split; [|apply DD]. destruct (Nat.eq_dec y c) as [-> | Yc]; [rewrite Hc; discriminate|]. rewrite NF; [|exact Yc|intros ->; apply in_app_or in Y; destruct Y; contradiction]. apply (i_data _ _ I). rewrite !in_app_iff in *. tauto.
  - intros y [Y | []]. discriminate.
  - intros y u U OC. apply SU; congruence.
  - intros y Y. destruct (Nat.eq_dec y c) as [-> | Yc].
    + left. rewrite Sc. unfold get_next. rewrite Hc. cbn. rewrite Gn. reflexivity.
    + right. assert (Yn : y <> n) by (intros ->; rewrite !in_app_iff in *; cbn in Y; intuition congruence). split; [rewrite !in_app_iff in *; cbn in *; intuition congruence|]. split; [unfold get_next; rewrite NF by assumption; reflexivity|]. split; [apply SU; assumption|]. rewrite E. exact Yc.
  - intros y. cbn [owner st']. rewrite (i_lock _ _ I), E. reflexivity.
  - split; [|exists pr; reflexivity]. exists p, q. rewrite <- app_assoc. reflexivity.
  - intros y Y. injection Y as <-. split; [intros X; rewrite !in_app_iff in X; cbn in X; rewrite in_app_iff in *; cbn in *; intuition congruence|]. split; [rewrite Hn; discriminate|]. intros u U. apply (others_in_B _ _ _ u I Inn).
  - change (result_list st') with (result_list st). rewrite (i_res _ _ I t), E. replace (results (threads st' t)) with (results (threads st t)) by (cbn -[upd]; rewrite upd_eq; reflexivity). reflexivity.
  - change (content st') with (content st). rewrite (i_content _ _ I). apply settle_app; [intros y _; symmetry; apply DD| |exact SK]. intros u U. apply at_same with t; [thr|]. intros ->. contradiction.
  - intros y Y. destruct (Nat.eq_dec y c) as [-> | Yc]; [congruence|]. destruct (Nat.eq_dec y n) as [-> | Yn]; [congruence|]. rewrite NF in Y by assumption. exact Y.
  - rewrite E. intros y [[Y | [Y | []]] | Y]; try discriminate. right. injection Y as <-. reflexivity.
Qed.

Lemma case_want (st : state) B t o c n s : Inv st B -> at_ st t = At o c s -> succ (nodes B) c = Some n -> Inv (with_pc st t (Want o c n s)) B.
Proof.
  intros I E S. pose proof (i_thr _ _ I t) as Ok. rewrite E in Ok. unfold with_pc. apply (step_pc st B t); rewrite ?E; auto; [split; [exact Ok|exact S]|]. apply f_equal. apply pend_pc; cbn; try reflexivity; [discriminate|]. apply rest_pc. rewrite E. reflexivity.
Qed.
(** The next node, if it is not locked, is the next thing on the belt. *)
Lemma next_adj (st : state) B t c n : Inv st B -> adj B (N c) (K t) -> succ (nodes B) c = Some n -> owner st n = None -> adj B (K t) (N n).
Proof.
  intros I (p & q & EB) S O. assert (ND := i_nodup _ _ I). rewrite EB in S, ND. rewrite succ_belt in S by exact ND.
  assert (Q : forall q' pre u, q = q' \/ True -> hd_error (nodes q') = Some n -> B = pre ++ K u :: q' -> (u = t \/ exists w, adj B (K w) (K u)) -> u = t /\ (exists q2, q' = N n :: q2) \/ exists u' , u' <> t /\ adj B (K u') (N n) /\ exists w, adj B (K w) (K u')).
  { induction q' as [|i q' IH]; intros pre u _ H EB' W; [discriminate|]. destruct i as [x|u'].
    - cbn in H. injection H as ->. destruct (Nat.eq_dec u t) as [-> | U]; [left; split; [reflexivity|exists q'; reflexivity]|]. right. exists u. split; [exact U|]. split; [exists pre, q'; exact EB'|]. destruct W as [W | W]; [contradiction|exact W].
    - destruct (IH (pre ++ [K u]) u' (or_intror Logic.I) H) as [(-> & q2 & E2) | R]; [rewrite <- app_assoc; exact EB'|right; exists u; exists pre, q'; exact EB'| |right; exact R].
      exfalso. assert (A : adj B (K u) (K t)) by (exists pre, q'; exact EB'). assert (A' : adj B (N c) (K t)) by (exists p, q; exact EB). assert (ND' := i_nodup _ _ I). pose proof (adj_left _ _ _ _ ND' A A'). discriminate. }
  destruct (Q q (p ++ [N c]) t (or_intror Logic.I) S) as [(_ & q2 & ->) | (u & U & A & w & W)]; [rewrite <- app_assoc; exact EB|left; reflexivity|exists (p ++ [N c]), q2; rewrite <- app_assoc; exact EB|].
  exfalso. assert (ND' := i_nodup _ _ I). assert (NL : forall y, ~ adj B (N y) (K u)) by (intros y Y; pose proof (adj_left _ _ _ _ ND' W Y); discriminate).
  pose proof (i_thr _ _ I u) as Ok. assert (In (K u) B) by apply (adj_in _ _ _ A). assert (L : forall y, In y (locks_ (at_ st u)) -> owner st y = Some u) by (intros y; apply (i_lock _ _ I)).
  destruct (at_ st u); cbn in Ok; repeat match goal with H : _ /\ _ |- _ => destruct H end; try contradiction; try (eapply NL; eassumption).
  match goal with H : adj B (K u) (N _) |- _ => pose proof (adj_right _ _ _ _ ND' A H) as X end. injection X as ->. rewrite (L nx) in O by (left; reflexivity). discriminate.
Qed.
Lemma case_both (st : state) B t o c n s : Inv st B -> at_ st t = Want o c n s -> owner st n = None ->
  Inv (with_pc {| heap := heap st; owner := upd (owner st) n (Some t); threads := threads st; order := order st |} t (Both o c n s)) B.
Proof.
  intros I E F. pose proof (i_thr _ _ I t) as Ok. rewrite E in Ok. destruct Ok as [A S]. destruct (own_lock st t n [c] [c; n] F) as [W1 W2].
  - intros y. rewrite (i_lock _ _ I), E. reflexivity.
  - intros y. cbn. intuition congruence.
  - unfold with_pc; cbn [heap owner threads order]. apply (step_own st B t); rewrite ?E; auto; [split; [exact A|apply next_adj with st c; assumption]|].
    apply f_equal. apply pend_pc; cbn; try reflexivity; [discriminate|]. apply (rest_own st B t). rewrite E. reflexivity.
Qed.
Lemma case_one (st : state) B t o c n s : Inv st B -> at_ st t = Both o c n s -> (forall p, o <> Remove p) -> n <> c ->
  Inv (with_pc {| heap := heap st; owner := upd (owner st) c None; threads := threads st; order := order st |} t (One o n s)) B.
Proof.
  intros I E F NC. pose proof (i_thr _ _ I t) as Ok. rewrite E in Ok. destruct Ok as [A A2]. destruct (own_unlock st t c [c; n] [n]) as [W1 W2].
  - apply (own_t _ _ _ _ I). rewrite E. left. reflexivity.
  - intros y. rewrite (i_lock _ _ I), E. reflexivity.
  - intros y. cbn. intuition congruence.
  - unfold with_pc; cbn [heap owner threads order]. apply (step_own st B t); rewrite ?E; auto; [split; [exact A2|exact F]|].
    apply f_equal. apply pend_pc; cbn; try reflexivity; [discriminate|]. apply (rest_own st B t). rewrite E. reflexivity.
Qed.
Lemma case_drop (st : state) B t o c n : Inv st B -> at_ st t = Drop o c n -> n <> c ->
  Inv (with_pc {| heap := heap st; owner := upd (owner st) n None; threads := threads st; order := order st |} t (Delete o c n)) B.
Proof.
  intros I E NC. pose proof (i_thr _ _ I t) as Ok. rewrite E in Ok. destruct (own_unlock st t n [c; n] [c]) as [W1 W2].
  - apply (own_t _ _ _ _ I). rewrite E. right. left. reflexivity.
  - intros y. rewrite (i_lock _ _ I), E. reflexivity.
  - intros y. cbn. intuition congruence.
  - unfold with_pc; cbn [heap owner threads order]. apply (step_own st B t); rewrite ?E; auto.
    apply f_equal. apply pend_pc; cbn; try reflexivity; [discriminate|]. apply (rest_own st B t). rewrite E. reflexivity.
Qed.
(** The nodes that only t may write: those it has locked, and its own. *)
Lemma case_cut (st : state) B t p c n s v e : Inv st B -> at_ st t = Both (Remove p) c n s -> get_data st n = Some v -> p v = true -> heap st c = Some e ->
  Inv (with_pc {| heap := upd (heap st) c (Some {| data := data e; nxt := None |}); owner := owner st; threads := threads st; order := order st |} t (Cut (Remove p) c n)) B.
Proof.
  intros I E D Pv F. set (st' := with_pc _ _ _). assert (AT : at_ st' t = Cut (Remove p) c n) by ats. pose proof (i_thr _ _ I t) as Ok. rewrite E in Ok. destruct Ok as [A1 A2].
  assert (O : owner st c = Some t) by (apply (own_t _ _ _ _ I); rewrite E; left; reflexivity). assert (Ic : In (N c) B) by apply (adj_in _ _ _ A1).
  assert (NF : forall y, y <> c -> heap st' y = heap st y) by (intros y Y; cbn -[upd]; rewrite !upd_ne by assumption; reflexivity). assert (Hc : heap st' c = Some {| data := data e; nxt := None |}) by (cbn -[upd]; apply upd_eq).
  assert (DD : forall y, get_data st' y = get_data st y) by (intros y; unfold get_data; destruct (Nat.eq_dec y c) as [-> | Yc]; [rewrite Hc, F; reflexivity|rewrite NF by assumption; reflexivity]).
  apply (frame_same st B st' t); try rewrite AT; auto.
  - thr.
  - intros y u U. reflexivity.
  - intros y u U H. apply NF. intros ->. destruct H as [H | H]; [congruence|apply (others_in_B _ _ _ u I Ic H)].
  - intros y Y. split; [|apply DD]. destruct (Nat.eq_dec y c) as [-> | Yc]; [rewrite Hc; discriminate|rewrite NF by exact Yc; apply (i_data _ _ I), Y].
  - intros _. unfold opof. rewrite AT, E. reflexivity.
  - intros y Y. destruct (Nat.eq_dec y c) as [-> | Yc]; [right; reflexivity|left]. split; [unfold get_next; rewrite NF by exact Yc; reflexivity|rewrite E; exact (fun x => x)].
  - intros y. cbn [owner st' with_pc]. rewrite (i_lock _ _ I), E. reflexivity.
  - split; [exact A1|]. split; [exact A2|]. exists p, v. rewrite DD. auto.
  - intros y Y. discriminate.
  - replace (results (threads st' t)) with (results (threads st t)) by (cbn -[upd]; rewrite upd_eq; reflexivity). rewrite E. reflexivity.
  - intros y Y. left. destruct (Nat.eq_dec y c) as [-> | Yc]; [congruence|]. rewrite NF in Y by assumption. exact Y.
  - rewrite E. discriminate.
Qed.
Lemma case_delete (st : state) B t o c n e : Inv st B -> at_ st t = Delete o c n -> heap st n = Some e ->
  owner st n = None /\ Inv (with_pc {| heap := upd (heap st) n None; owner := owner st; threads := threads st; order := order st |} t (At o c [])) B.
Proof.
  intros I E F. set (st' := with_pc _ _ _). assert (AT : at_ st' t = At o c []) by ats. pose proof (i_thr _ _ I t) as Ok. rewrite E in Ok. destruct Ok as (A1 & p & ->).
  assert (P : priv (at_ st t) = Some n) by (rewrite E; reflexivity). destruct (i_priv _ _ I t n P) as (P1 & P2 & P3). assert (NF : forall y, y <> n -> heap st' y = heap st y) by (intros y Y; cbn -[upd]; rewrite !upd_ne by assumption; reflexivity).
  assert (Cn : c <> n) by (intros ->; apply P1, (adj_in _ _ _ A1)).
  assert (ON : forall u, owner st n <> Some u) by (intros u U; destruct (lock_in _ _ _ _ I U) as [X | X]; [contradiction|]; rewrite (P3 u X) in U; apply (i_lock _ _ I) in U; rewrite E in U; destruct U as [U|[]]; contradiction).
  split; [destruct (owner st n) as [u|] eqn:X; [exfalso; apply (ON u); reflexivity|reflexivity]|].
  apply (frame_same st B st' t); try rewrite AT; auto.
  - thr.
  - intros y u U. reflexivity.
  - intros y u U H. apply NF. intros ->. destruct H as [H | H]; [apply (ON u H)|apply U, P3, H].
  - intros y Y. assert (y <> n) by (intros ->; contradiction). unfold get_data. rewrite NF by assumption. split; [apply (i_data _ _ I), Y|reflexivity].
  - intros _. unfold opof. rewrite AT, E. reflexivity.
  - intros y Y. left. assert (y <> n) by (intros ->; contradiction). split; [unfold get_next; rewrite NF by assumption; reflexivity|rewrite E; exact (fun x => x)].
  - intros y. cbn [owner st' with_pc]. rewrite (i_lock _ _ I), E. reflexivity.
  - intros y Y. discriminate.
  - replace (results (threads st' t)) with (results (threads st t)) by (cbn -[upd]; rewrite upd_eq; reflexivity). rewrite E. reflexivity.
  - intros y Y. left. destruct (Nat.eq_dec y n) as [-> | Yc]; [congruence|]. rewrite NF in Y by assumption. exact Y.
  - rewrite E. intros y Y. injection Y as <-. right. cbn -[upd]. apply upd_eq.
Qed.

Lemma belt_ne (st : state) B t c n : Inv st B -> adj B (N c) (K t) -> adj B (K t) (N n) -> n <> c.
Proof.
  intros I (p & q & E) A. intros ->. destruct A as (p' & q' & E'). assert (ND := i_nodup _ _ I). assert (E1 : B = (p ++ [N c]) ++ K t :: q) by (rewrite <- app_assoc; exact E). rewrite E1 in E', ND. destruct (nodup_split _ _ _ _ _ ND E') as [_ E3]. subst q.
  rewrite <- app_assoc in ND. cbn in ND. apply NoDup_remove_2 in ND. apply ND, in_or_app. right. right. left. reflexivity.
Qed.
Lemma right_nz (st : state) B t n : Inv st B -> adj B (K t) (N n) -> n <> 0.
Proof.
  intros I (p & q & E) ->. destruct (head_pre p (K t) (N 0 :: q)) as (p' & ->); [rewrite <- E; apply (i_head _ _ I)|discriminate|]. assert (ND := i_nodup _ _ I). rewrite E in ND. cbn in ND. inversion ND; subst. apply H1, in_or_app. right. right. left. reflexivity.
Qed.
Lemma right_data (st : state) B t n : Inv st B -> adj B (K t) (N n) -> exists e v, heap st n = Some e /\ get_data st n = Some v.
Proof.
  intros I A. pose proof (right_nz _ _ _ _ I A) as NZ. destruct (i_data _ _ I n) as [D1 D2]; [apply (adj_in _ _ _ A)|]. destruct (heap st n) as [e|] eqn:E; [|congruence]. destruct (get_data st n) as [v|]; [exists e, v; auto|]. exfalso. apply NZ, D2. reflexivity.
Qed.
Lemma after_adj (st : state) B t n : Inv st B -> adj B (K t) (N n) -> after t B = N n :: tl (after t B).
Proof.
  intros I (p & q & E). assert (ND := i_nodup _ _ I). rewrite E in *. rewrite after_here; [reflexivity|]. apply NoDup_remove_2 in ND. intros X. apply ND, in_or_app. left. exact X.
Qed.

Theorem step_inv (st : state) B t fresh : Inv st B ->
  step st t fresh <> Fault /\ forall st', step st t fresh = Go st' -> exists B', Inv st' B' /\ belt_step t (kind_of (at_ st t) (at_ st' t)) B B'.
Proof.
  intros I. pose proof (i_thr _ _ I t) as Ok. pose proof (head_in _ _ I) as H0. unfold step. fold (at_ st t). destruct (i_data _ _ I 0 H0) as [Z1 Z2]. destruct (heap st 0) as [e0|] eqn:F0; [|contradiction]. clear Z1.
  assert (LK : forall y, In y (locks_ (at_ st t)) -> owner st y = Some t) by (intros y; apply (i_lock _ _ I)).
  assert (IB : forall c, adj B (N c) (K t) -> exists e, heap st c = Some e) by (intros c A; destruct (i_data _ _ I c (proj1 (adj_in _ _ _ A))) as [D _]; destruct (heap st c) as [e|]; [exists e; reflexivity|congruence]).
  assert (SAME : forall st' : state, kind_of (at_ st t) (at_ st' t) = KSame -> Inv st' B -> exists B', Inv st' B' /\ belt_step t (kind_of (at_ st t) (at_ st' t)) B B') by (intros st' Kd X; exists B; rewrite Kd; split; [exact X|apply bs_same]).
  assert (OTHER : forall (st' : state) k, kind_of (at_ st t) (at_ st' t) = k -> (exists B', Inv st' B' /\ belt_step t k B B') -> exists B', Inv st' B' /\ belt_step t (kind_of (at_ st t) (at_ st' t)) B B') by (intros st' k <-; auto).
  destruct (at_ st t) eqn:E; cbn [okpc locks_] in *.
  - (* Ready *) destruct (todo (threads st t)) as [|o rest]; [split; discriminate|]. destruct o as [v|p|p|].
    + destruct (heap st fresh) eqn:F; [split; discriminate|]. split; [discriminate|]. intros st' G. injection G as <-. apply SAME; [ats|]. apply case_alloc; assumption.
    + split; [discriminate|]. intros st' G. injection G as <-. apply SAME; [ats|]. apply case_start; try assumption; discriminate.
    + split; [discriminate|]. intros st' G. injection G as <-. apply SAME; [ats|]. apply case_start; try assumption; discriminate.
    + split; [discriminate|]. intros st' G. injection G as <-. apply SAME; [ats|]. apply case_start; try assumption; discriminate.
  - (* PushNew *) unfold lock. rewrite F0. destruct (owner st 0) eqn:O; [split; discriminate|]. split; [discriminate|]. intros st' G. injection G as <-. apply SAME; [ats|]. apply case_push_lock; assumption.
  - (* PushHeld *) destruct Ok as [Ok1 Ok2]. assert (x <> 0) by (intros ->; destruct (i_priv _ _ I t 0) as (P1 & _); [rewrite E; reflexivity|contradiction]).
    unfold get_next, set_next. rewrite F0. cbn -[upd]. rewrite upd_ne by assumption. rewrite Ok2. cbn -[upd]. split; [discriminate|]. intros st' G. injection G as <-. apply SAME; [ats|]. apply (case_push_move st B t v x e0); assumption.
  - (* PushMoved *) destruct Ok as [Ok1 Ok2]. assert (x <> 0) by (intros ->; destruct (i_priv _ _ I t 0) as (P1 & _); [rewrite E; reflexivity|contradiction]).
    unfold set_next. rewrite F0. cbn -[upd]. split; [discriminate|]. intros st' G. injection G as <-. apply OTHER with KPush; [ats|]. apply (case_push_link st B t v x e0); assumption.
  - (* PushLinked *) rewrite (unlock_some st B t 0 I) by (apply LK; left; reflexivity). split; [discriminate|]. intros st' G. injection G as <-. apply SAME; [ats|]. apply case_push_end; assumption.
  - (* Start *) unfold lock. rewrite F0. destruct (owner st 0) eqn:O; [split; discriminate|]. split; [discriminate|]. cbn -[upd]. intros st' G. injection G as <-. apply OTHER with KEnter; [ats|]. apply case_enter; assumption.
  - (* At *) assert (G : get_next st cur = Some (succ (nodes B) cur)) by (apply chain_t with t; [exact I|apply LK; left; reflexivity|apply (adj_in _ _ _ Ok)|rewrite E; exact (fun x => x)]). rewrite G. destruct (succ (nodes B) cur) as [n|] eqn:S.
    + split; [discriminate|]. intros st' G'. injection G' as <-. apply SAME; [ats|]. apply case_want; assumption.
    + split; [discriminate|]. intros st' G'. injection G' as <-.
      assert (R : rest_of st B t = []).
      { destruct Ok as (p & q & EB). assert (ND := i_nodup _ _ I). unfold rest_of. rewrite EB in S, ND |- *. rewrite succ_belt in S by exact ND. replace (p ++ N cur :: K t :: q) with ((p ++ [N cur]) ++ K t :: q) in ND |- * by (rewrite <- app_assoc; reflexivity).
        rewrite after_here by (apply NoDup_remove_2 in ND; intros X; apply ND, in_or_app; left; exact X). assert (NQ : nodes q = []) by (destruct (nodes q); [reflexivity|discriminate]). clear -NQ. induction q as [|i q IH]; [reflexivity|]. destruct i as [x|u]; [discriminate|]. cbn. rewrite IH by exact NQ. destruct (opof st u) as [[]|]; reflexivity. }
      apply OTHER with KLeave; [ats|]. apply (case_leave st B t o); rewrite ?E; auto; try (unfold opof; rewrite E; reflexivity); try apply (adj_in _ _ _ Ok). cbn [pend op_of seen_of]. rewrite R. destruct o; cbn; rewrite ?app_nil_r; reflexivity.
  - (* Want *) destruct Ok as [A S]. unfold lock. assert (In (N nx) B).
    { destruct A as (p & q & EB). assert (ND := i_nodup _ _ I). rewrite EB in S, ND |- *. rewrite succ_belt in S by exact ND. apply in_or_app. right. right. right. apply nodes_in. destruct (nodes q); [discriminate|]. injection S as ->. left. reflexivity. }
    destruct (i_data _ _ I nx H) as [D _]. destruct (heap st nx) as [e|] eqn:F; [|contradiction]. destruct (owner st nx) eqn:O; [split; discriminate|]. split; [discriminate|]. intros st' G. injection G as <-. apply SAME; [ats|]. apply case_both; assumption.
  - (* Both *) destruct Ok as [A1 A2]. destruct (right_data _ _ _ _ I A2) as (e & v & F & D). destruct (IB cur A1) as (ec & Fc). pose proof (belt_ne _ _ _ _ _ I A1 A2) as NC. assert (U := unlock_some st B t cur I (LK cur (or_introl eq_refl))).
    assert (Go_one : forall o0, (forall p, o0 <> Remove p) -> o = o0 -> go (unlock st t cur) t (One o0 nx seen) <> Fault /\ forall st', go (unlock st t cur) t (One o0 nx seen) = Go st' -> exists B', Inv st' B' /\ belt_step t (kind_of (Both o cur nx seen) (at_ st' t)) B B').
    { intros o0 NR <-. rewrite U. split; [discriminate|]. intros st' G. injection G as <-. apply SAME; [ats|]. apply (case_one st B t o cur nx seen); assumption. }
    destruct o as [w|p|p|]; try (apply Go_one; [discriminate|reflexivity]). rewrite D. destruct (p v) eqn:Pv.
    + unfold set_next. rewrite Fc. cbn -[upd]. split; [discriminate|]. intros st' G. injection G as <-. apply SAME; [ats|]. apply (case_cut st B t p cur nx seen v ec); assumption.
    + rewrite U. split; [discriminate|]. intros st' G. injection G as <-. cbn -[upd].
      destruct (own_unlock st t cur [cur; nx] [nx] (LK cur (or_introl eq_refl))) as [W1 W2]; [intros y; rewrite (i_lock _ _ I), E; reflexivity|intros y; cbn; intuition congruence|].
      apply OTHER with KSwap; [ats|]. apply (case_swap st B t (Remove p) nx v seen (upd (owner st) cur None) seen); rewrite ?E; auto.
      * unfold opof. rewrite E. reflexivity.
      * apply LK. cbn. auto.
      * intros y. rewrite W2. cbn. intuition congruence.
      * intros q Eq. injection Eq as <-. exact Pv.
  - (* One *) destruct Ok as [A2 NR]. destruct (right_data _ _ _ _ I A2) as (e & v & F & D). rewrite D. assert (Pe : pend st B t (One o nx seen) = [outc o seen (v :: settle (get_data st) (opof st) (tl (after t B)))]) by (cbn [pend op_of seen_of]; unfold rest_of; rewrite (after_adj _ _ _ _ I A2) at 1; cbn [settle]; rewrite D; reflexivity).
    assert (Op : opof st t = Some o) by (unfold opof; rewrite E; reflexivity). assert (On : owner st nx = Some t) by (apply LK; left; reflexivity).
    assert (Go_at : forall s', (forall m, outc o seen (v :: m) = outc o s' m) -> exists B', Inv (with_pc st t (At o nx s')) B' /\ belt_step t (kind_of (One o nx seen) (at_ (with_pc st t (At o nx s')) t)) B B').
    { intros s' Ou. apply OTHER with KSwap; [ats|]. apply (case_swap st B t o nx v s' (owner st) seen); rewrite ?E; auto.
      - intros y u _. reflexivity.
      - intros y. rewrite (i_lock _ _ I), E. cbn. intuition congruence.
      - intros p Eo. exfalso. exact (NR p Eo). }
    destruct o as [w|p|p|].
    + split; [discriminate|]. intros st' G. injection G as <-. apply Go_at. reflexivity.
    + destruct (p v) eqn:Pv.
      * split; [discriminate|]. intros st' G. injection G as <-. apply OTHER with KLeave; [ats|]. apply (case_leave st B t (Find p)); rewrite ?E; auto; try apply (adj_in _ _ _ A2). rewrite Pe. cbn. rewrite Pv. reflexivity.
      * split; [discriminate|]. intros st' G. injection G as <-. apply Go_at. intros m. cbn. rewrite Pv. reflexivity.
    + exfalso. exact (NR p eq_refl).
    + split; [discriminate|]. intros st' G. injection G as <-. apply Go_at. intros m. cbn. rewrite <- app_assoc. reflexivity.
  - (* Cut *) destruct Ok as (A1 & A2 & Ex). destruct (right_data _ _ _ _ I A2) as (e & v & F & D). destruct (IB cur A1) as (ec & Fc). pose proof (belt_ne _ _ _ _ _ I A1 A2) as NC.
    unfold get_next, set_next. rewrite F. cbn -[upd]. rewrite upd_ne by auto. rewrite Fc. cbn -[upd]. split; [discriminate|]. intros st' G. injection G as <-. apply OTHER with KDel; [ats|]. apply (case_del st B t o cur nx ec e); assumption.
  - (* Drop *) destruct Ok as (A1 & Ex). assert (nx <> cur) by (intros ->; destruct (i_priv _ _ I t cur) as (P1 & _); [rewrite E; reflexivity|]; apply P1, (adj_in _ _ _ A1)). rewrite (unlock_some st B t nx I) by (apply LK; right; left; reflexivity).
    split; [discriminate|]. intros st' G. injection G as <-. apply SAME; [ats|]. apply (case_drop st B t o cur nx); assumption.
  - (* Delete *) destruct (i_priv _ _ I t nx) as (_ & P2 & _); [rewrite E; reflexivity|]. destruct (heap st nx) as [e|] eqn:F; [|contradiction]. destruct (case_delete st B t o cur nx e I E F) as [O I']. rewrite O. split; [discriminate|]. intros st' G. injection G as <-. apply SAME; [ats|]. exact I'.
  - (* Return *) rewrite (unlock_some st B t x I) by (apply LK; left; reflexivity). split; [discriminate|]. intros st' G. injection G as <-. apply SAME; [ats|]. apply case_return; assumption.
Qed.

Lemma start_inv progs : Inv (start progs : state) [N 0].
Proof.
  constructor.
  - reflexivity.
  - constructor; [intros []|constructor].
  - intros c [C | []]. injection C as <-. split; [discriminate|]. cbn. tauto.
  - intros c [C | []]. injection C as <-. right. reflexivity.
  - intros x t. cbn. split; [discriminate|contradiction].
  - intros t. cbn. intros [X|[]]. discriminate.
  - intros t x X. discriminate.
  - intros x X. cbn in *. destruct x; [left; left; reflexivity|contradiction].
  - intros t. reflexivity.
  - reflexivity.
  - cbn. lia.
Qed.
Theorem reach_inv progs k (st : state) : steps progs k st -> exists B, Inv st B.
Proof. induction 1 as [|k st st' t fresh H (B & I) G]; [exists [N 0]; apply start_inv|]. destruct (step_inv st B t fresh I) as [_ S]. destruct (S st' G) as (B' & I' & _). exists B'. exact I'. Qed.
End step.
