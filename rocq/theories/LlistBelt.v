(** Proofs for C78: the list as a belt on which nodes and threads are in a row. *)
From Coq Require Import List Arith Bool Lia.
From Verif Require Import LlistModel LlistSpec.
Import ListNotations.

Inductive item := N (x : nat) | K (t : nat).
Lemma item_eq_dec (a b : item) : {a = b} + {a <> b}. Proof. decide equality; apply Nat.eq_dec. Qed.
Definition nodes (B : list item) : list nat := flat_map (fun i => match i with N x => [x] | K _ => [] end) B.
Lemma nodes_app a b : nodes (a ++ b) = nodes a ++ nodes b. Proof. apply flat_map_app. Qed.
Lemma nodes_in x B : In x (nodes B) <-> In (N x) B.
Proof.
  unfold nodes. rewrite in_flat_map. split.
  - intros (i & I & H). destruct i; [|contradiction]. destruct H as [<-|[]]. exact I.
  - intros I. exists (N x). split; [exact I|left; reflexivity].
Qed.
Definition adj (B : list item) (a b : item) : Prop := exists pre post, B = pre ++ a :: b :: post.

Lemma adj_in B a b : adj B a b -> In a B /\ In b B.
Proof. intros (p & q & ->). split; apply in_or_app; right; [left; reflexivity|right; left; reflexivity]. Qed.
Lemma adj_app_l p a b q : adj p a b -> adj (p ++ q) a b.
Proof. intros (u & v & ->). exists u, (v ++ q). rewrite <- app_assoc. reflexivity. Qed.
Lemma adj_app_r p a b q : adj q a b -> adj (p ++ q) a b.
Proof. intros (u & v & ->). exists (p ++ u), v. rewrite <- app_assoc. reflexivity. Qed.
(** A pair that has nothing to do with the middle is on one side of it, unless the middle is empty. *)
Lemma adj_mid pre seg rest a b : seg <> [] -> ~ In a seg -> ~ In b seg -> adj (pre ++ seg ++ rest) a b -> adj pre a b \/ adj rest a b.
Proof.
  intros NE A B. induction pre as [|i pre IH]; intros (u & v & E).
  - right. cbn in E. revert u E. induction seg as [|s seg IHs]; intros u E; [contradiction|]. cbn in E. destruct u as [|i u].
    + exfalso. cbn in E. injection E as E _. apply A. left. exact E.
    + cbn in E. injection E as -> E. destruct seg as [|s' seg].
      * exists u, v. exact E.
      * apply IHs with u; [discriminate|intros I; apply A; right; exact I|intros I; apply B; right; exact I|exact E].
  - destruct u as [|j u].
    + cbn in E. injection E as -> E. destruct pre as [|k pre].
      * exfalso. destruct seg as [|s seg]; [contradiction|]. cbn in E. injection E as -> _. apply B. left. reflexivity.
      * cbn in E. injection E as -> E. left. exists [], pre. reflexivity.
    + cbn in E. injection E as -> E. destruct IH as [H | H]; [exists u, v; exact E| |right; exact H]. left. destruct H as (u' & v' & ->). exists (j :: u'), v'. reflexivity.
Qed.
Lemma nodup_split {A} (p q p' q' : list A) x : NoDup (p ++ x :: q) -> p ++ x :: q = p' ++ x :: q' -> p = p' /\ q = q'.
Proof.
  revert p'. induction p as [|a p IH]; intros p' ND E.
  - destruct p' as [|b p']; [injection E as ->; auto|]. cbn in E. injection E as <- E. exfalso. inversion ND; subst. apply H1. apply in_or_app. right. left. reflexivity.
  - destruct p' as [|b p']; cbn in E.
    + injection E as -> E. exfalso. inversion ND; subst. apply H1. apply in_or_app. right. left. reflexivity.
    + injection E as -> E. inversion ND; subst. destruct (IH p' H2 E) as [-> ->]. auto.
Qed.
Lemma adj_right B a b c : NoDup B -> adj B a b -> adj B a c -> b = c.
Proof. intros ND (p & q & E) (p' & q' & E'). rewrite E in E', ND. destruct (nodup_split _ _ _ _ _ ND E') as [_ H]. congruence. Qed.
Lemma adj_left B a b c : NoDup B -> adj B a c -> adj B b c -> a = b.
Proof.
  intros ND (p & q & E) (p' & q' & E'). rewrite E in E', ND. replace (p ++ a :: c :: q) with ((p ++ [a]) ++ c :: q) in E', ND by (rewrite <- app_assoc; reflexivity). replace (p' ++ b :: c :: q') with ((p' ++ [b]) ++ c :: q') in E' by (rewrite <- app_assoc; reflexivity).
  destruct (nodup_split _ _ _ _ _ ND E') as [H _]. apply app_inj_tail in H. tauto.
Qed.

Fixpoint after (t : nat) (B : list item) : list item :=
  match B with
  | [] => []
  | K u :: r => if Nat.eqb u t then r else after t r
  | _ :: r => after t r
  end.
Lemma after_app t p q : In (K t) p -> after t (p ++ q) = after t p ++ q.
Proof.
  induction p as [|i p IH]; [contradiction|]. intros I. destruct i as [x|u]; cbn.
  - apply IH. destruct I as [I|I]; [discriminate|exact I].
  - destruct (Nat.eqb u t) eqn:E; [reflexivity|]. apply IH. destruct I as [I|I]; [injection I as ->; rewrite Nat.eqb_refl in E; discriminate|exact I].
Qed.
Lemma after_skip t p q : ~ In (K t) p -> after t (p ++ q) = after t q.
Proof.
  induction p as [|i p IH]; intros I; [reflexivity|]. assert (I' : ~ In (K t) p) by (intros H; apply I; right; exact H). destruct i as [x|u]; cbn.
  - apply IH, I'.
  - destruct (Nat.eqb_spec u t) as [->|]; [exfalso; apply I; left; reflexivity|apply IH, I'].
Qed.
Lemma after_here t p q : ~ In (K t) p -> after t (p ++ K t :: q) = q.
Proof. intros I. rewrite after_skip by exact I. cbn. rewrite Nat.eqb_refl. reflexivity. Qed.

Section settle.
Context {T : Type}.
Fixpoint settle (hd : nat -> option T) (f : nat -> option (op T)) (B : list item) : list T :=
  match B with
  | [] => []
  | N x :: r => match hd x with Some v => v :: settle hd f r | None => settle hd f r end
  | K t :: r => match f t with Some (Remove p) => filter (fun v => negb (p v)) (settle hd f r) | _ => settle hd f r end
  end.
Lemma settle_ext hd f hd' f' B : (forall x, In (N x) B -> hd x = hd' x) -> (forall t, In (K t) B -> f t = f' t) -> settle hd f B = settle hd' f' B.
Proof.
  induction B as [|i B IH]; intros H F; [reflexivity|]. assert (E : settle hd f B = settle hd' f' B) by (apply IH; intros; [apply H|apply F]; right; assumption). destruct i as [x|t]; cbn.
  - rewrite (H x) by (left; reflexivity). rewrite E. reflexivity.
  - rewrite (F t) by (left; reflexivity). rewrite E. reflexivity.
Qed.
Lemma settle_app hd f hd' f' p a b : (forall x, In (N x) p -> hd x = hd' x) -> (forall t, In (K t) p -> f t = f' t) -> settle hd f a = settle hd' f' b -> settle hd f (p ++ a) = settle hd' f' (p ++ b).
Proof.
  induction p as [|i p IH]; intros H F E; [exact E|]. assert (E' : settle hd f (p ++ a) = settle hd' f' (p ++ b)) by (apply IH; [intros; apply H; right; assumption|intros; apply F; right; assumption|exact E]). destruct i as [x|t]; cbn.
  - rewrite (H x) by (left; reflexivity). rewrite E'. reflexivity.
  - rewrite (F t) by (left; reflexivity). rewrite E'. reflexivity.
Qed.
Lemma after_in t B i : In i (after t B) -> In i B.
Proof. induction B as [|j B IH]; [contradiction|]. destruct j as [x|u]; cbn; [intros I; right; apply IH, I|]. destruct (Nat.eqb u t); intros I; right; [exact I|apply IH, I]. Qed.
(** The middle of the belt changes, but not what it comes to. *)
Lemma settle_mid hd f hd' f' t pre seg seg' rest u :
  (forall x, In (N x) (pre ++ rest) -> hd x = hd' x) -> (forall v, v <> t -> f v = f' v) -> NoDup (pre ++ seg ++ rest) -> ~ In (K t) (pre ++ rest) ->
  (In (K u) pre -> settle hd f (seg ++ rest) = settle hd' f' (seg' ++ rest)) -> ~ In (K u) seg -> ~ In (K u) seg' ->
  settle hd f (after u (pre ++ seg ++ rest)) = settle hd' f' (after u (pre ++ seg' ++ rest)).
Proof.
  intros H F ND NT S NU NU'. assert (NTP : forall v, In (K v) (pre ++ rest) -> f v = f' v) by (intros v I; apply F; intros ->; contradiction).
  destruct (in_dec item_eq_dec (K u) pre) as [I | I].
  - rewrite !after_app by exact I. apply settle_app; [| |apply S, I].
    + intros x X. apply H, in_or_app. left. apply after_in with u, X.
    + intros v V. apply NTP, in_or_app. left. apply after_in with u, V.
  - rewrite !(after_skip u pre), !(after_skip u seg), (after_skip u seg') by assumption. apply settle_ext; intros; [apply H|apply NTP]; apply in_or_app; right; eapply after_in; eassumption.
Qed.
End settle.
