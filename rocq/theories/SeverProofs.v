(** Proofs about SeverModel. *)
From Coq Require Import List Arith Bool Lia Permutation.
From Verif Require Import CutModel CutProofs ClipModel PatchModel SeverModel SeverSpec.
Import ListNotations.

Lemma reverse_opp h : reverse h = opp h.
Proof. unfold reverse, opp. destruct (Nat.even h); lia. Qed.
Lemma sopp_opp h : opp (opp h) = h.
Proof.
  unfold opp. destruct (Nat.even h) eqn:E.
  - replace (Nat.even (S h)) with false by (rewrite Nat.even_succ, <- Nat.negb_even, E; reflexivity). reflexivity.
  - destruct h as [|h]; [discriminate|]. cbn [Nat.pred]. rewrite Nat.even_succ, <- Nat.negb_even in E. destruct (Nat.even h); [reflexivity|discriminate].
Qed.
Lemma opp_ne h : opp h <> h.
Proof. unfold opp. destruct (Nat.even h) eqn:E; [lia|]. destruct h; [discriminate|cbn; lia]. Qed.
Lemma even_opp h : Nat.even (opp h) = negb (Nat.even h).
Proof.
  unfold opp. destruct (Nat.even h) eqn:E.
  - rewrite Nat.even_succ, <- Nat.negb_even, E. reflexivity.
  - destruct h as [|h]; [discriminate|]. cbn [Nat.pred]. rewrite Nat.even_succ, <- Nat.negb_even in E. destruct (Nat.even h); [reflexivity|discriminate].
Qed.
Lemma div2_form h : h = 2 * Nat.div2 h + (if Nat.even h then 0 else 1).
Proof.
  pose proof (Nat.div2_odd h) as D. rewrite <- Nat.negb_even in D. destruct (Nat.even h); cbn [negb Nat.b2n] in D; lia.
Qed.
Lemma edge_opp h : edge (opp h) = edge h.
Proof. unfold edge. pose proof (div2_form h) as A. pose proof (div2_form (opp h)) as B. rewrite even_opp in B. unfold opp in *. destruct (Nat.even h); cbn [negb] in *; lia. Qed.
Lemma same_edge h k : edge h = edge k -> h = k \/ h = opp k.
Proof. unfold edge. intros E. pose proof (div2_form h) as A. pose proof (div2_form k) as B. unfold opp. destruct (Nat.even h), (Nat.even k); lia. Qed.
Lemma edge_double n : edge (2 * n) = n.
Proof. unfold edge. apply Nat.div2_double. Qed.
Lemma even_double n : Nat.even (2 * n) = true.
Proof. rewrite Nat.even_mul. reflexivity. Qed.
Lemma opp_double n : opp (2 * n) = 2 * n + 1.
Proof. unfold opp. rewrite even_double. lia. Qed.

Lemma lookup_some_In {A} (m : list (nat * A)) k a : lookup m k = Some a -> In (k, a) m.
Proof. induction m as [|[k' a'] m IH]; cbn; [discriminate|]. destruct (Nat.eqb_spec k k'); [intros E; injection E as ->; left; congruence|intros E; right; auto]. Qed.
Lemma mem_lookup {A} (m : list (nat * A)) k : mem m k = match lookup m k with Some _ => true | None => false end.
Proof. unfold mem. induction m as [|[k' a'] m IH]; cbn; [reflexivity|]. destruct (Nat.eqb k k'); cbn; auto. Qed.
Lemma existsb_In h l : existsb (Nat.eqb h) l = true <-> In h l.
Proof. rewrite existsb_exists. split; [intros (x & I & E); apply Nat.eqb_eq in E; congruence|intros I; exists h; rewrite Nat.eqb_refl; auto]. Qed.

(** consecutive sides *)
Lemma combine_nth {A B} (l : list A) (l' : list B) k a b : nth_error (combine l l') k = Some (a, b) <-> nth_error l k = Some a /\ nth_error l' k = Some b.
Proof.
  revert l' k. induction l as [|x l IH]; intros [|y l'] [|k]; cbn; try (split; [discriminate|intros [? ?]; discriminate]).
  - split; [intros E; injection E as -> ->; auto|intros [E F]; congruence].
  - apply IH.
Qed.
Lemma rotate_nth (p : list nat) k : k < length p -> nth_error (tl p ++ firstn 1 p) k = nth_error p (S k mod length p).
Proof.
  destruct p as [|x p]; cbn [length tl firstn]; [lia|]. intros L.
  destruct (Nat.eq_dec k (length p)) as [->|N].
  - rewrite Nat.mod_same by lia. rewrite nth_error_app2 by lia. rewrite Nat.sub_diag. reflexivity.
  - rewrite nth_error_app1 by lia. rewrite Nat.mod_small by lia. reflexivity.
Qed.
Lemma In_combine_follows p a b : In (a, b) (combine p (tl p ++ firstn 1 p)) <-> follows p a b.
Proof.
  unfold follows. split.
  - intros I. apply In_nth_error in I. destruct I as [k E]. apply combine_nth in E. destruct E as [A B]. exists k. split; [exact A|].
    rewrite rotate_nth in B; [exact B|]. apply nth_error_Some. congruence.
  - intros (k & A & B). apply nth_error_In with k. apply combine_nth. split; [exact A|]. rewrite rotate_nth; [exact B|]. apply nth_error_Some. congruence.
Qed.
Lemma concat_In {A} (ls : list (list A)) x : In x (concat ls) <-> exists l, In l ls /\ In x l.
Proof. induction ls as [|l ls IH]; cbn; [firstorder|]. rewrite in_app_iff, IH. firstorder congruence. Qed.
Lemma nodup_parts {A} (a b : list A) : NoDup (a ++ b) <-> NoDup a /\ NoDup b /\ forall x, In x a -> In x b -> False.
Proof.
  induction a as [|y a IH]; cbn.
  - split; [intros N; repeat split; [constructor|auto|intros ? []]|tauto].
  - rewrite !NoDup_cons_iff, IH, in_app_iff. firstorder congruence.
Qed.
Lemma concat_unique {A} (ls : list (list A)) : NoDup (concat ls) -> (forall l, In l ls -> NoDup l) /\ (forall i j l l' x, nth_error ls i = Some l -> nth_error ls j = Some l' -> In x l -> In x l' -> i = j).
Proof.
  induction ls as [|l ls IH]; cbn [concat]; intros N.
  - split; [intros ? []|intros [|i]; discriminate].
  - apply nodup_parts in N. destruct N as (N1 & N2 & D). destruct (IH N2) as [P Q]. split.
    + intros l' [<-|I]; auto.
    + intros [|i] [|j] a b x; cbn [nth_error]; intros E F I J.
      * reflexivity.
      * exfalso. injection E as <-. apply (D x I). apply concat_In. exists b. split; [eapply nth_error_In, F|exact J].
      * exfalso. injection F as <-. apply (D x J). apply concat_In. exists a. split; [eapply nth_error_In, E|exact I].
      * f_equal. eapply Q; eauto.
Qed.
Lemma follows_In p a b : follows p a b -> In a p /\ In b p.
Proof. intros (k & A & B). split; eapply nth_error_In; eauto. Qed.
Lemma succ_mod_inj n i j : i < n -> j < n -> S i mod n = S j mod n -> i = j.
Proof.
  intros I J E. destruct (Nat.eq_dec (S i) n) as [A|A], (Nat.eq_dec (S j) n) as [B|B]; [lia| | |].
  - rewrite A, Nat.mod_same, Nat.mod_small in E by lia. lia.
  - rewrite B, Nat.mod_same, Nat.mod_small in E by lia. lia.
  - rewrite !Nat.mod_small in E by lia. lia.
Qed.
