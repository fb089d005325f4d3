(** C65: the intersection curves are split into their connected curves. *)
From Coq Require Import List Arith Bool Lia Permutation Relations.
From Verif Require Import CutModel CutSpec CutProofs.
Import ListNotations.

(** For segments in general position and any iteration order of the hash maps, the search for cut paths ends; every segment is in exactly one
    path, once; every path runs along an open curve from end to end or once around a closed curve; and the table of the points says to
    which path they belong, a point belonging to one path only. *)
Theorem C65_paths ends shuffle edges : (forall m, Permutation (shuffle m) m) -> curves ends edges ->
  exists seqs vmap, cut_paths ends shuffle edges = Some (seqs, vmap) /\ Permutation (concat seqs) edges /\
    Forall (fun s => (exists a ws b, open_curve ends edges s a ws b) \/ (exists a ws, closed_curve ends s a ws)) seqs /\
    (forall v i, lookup vmap v = Some i <-> exists s e, nth_error seqs i = Some s /\ In e s /\ meets ends e v) /\
    (forall i j s t e e' v, nth_error seqs i = Some s -> nth_error seqs j = Some t -> In e s -> In e' t -> meets ends e v -> meets ends e' v -> i = j).
Proof.
  intros SH G. destruct (paths_spec ends shuffle SH edges G (S (length edges)) [] [] [] (state_start ends edges) ltac:(cbn; lia)) as (seqs & vm & em & E & [[d1 d2 d3 d4 d5] SE SC SM] & FU).
  exists seqs, vm. split; [exact E|]. split; [|split; [exact SC|]].
  - rewrite <- SE. apply NoDup_Permutation; [exact d2|apply G|]. intros x. split; [apply d1|apply FU].
  - assert (K : forall v i, lookup vm v = Some i <-> exists s e, nth_error seqs i = Some s /\ In e s /\ meets ends e v).
    { intros v i. rewrite <- SM. split; [apply lookup_In|apply In_lookup, d3]. }
    split; [exact K|]. intros i j s t e e' v Ei Ej I I' M M'. assert (A : lookup vm v = Some i) by (apply K; exists s, e; auto). assert (B : lookup vm v = Some j) by (apply K; exists t, e'; auto). congruence.
Qed.

(** The paths are the connected curves: two segments are in the same path exactly if one can go from one to the other along the segments. *)
Theorem C65_connected ends shuffle edges seqs vmap : (forall m, Permutation (shuffle m) m) -> curves ends edges -> cut_paths ends shuffle edges = Some (seqs, vmap) ->
  forall e e', In e edges -> In e' edges -> (connected ends edges e e' <-> exists s, In s seqs /\ In e s /\ In e' s).
Proof.
  intros SH G E. destruct (C65_paths ends shuffle edges SH G) as (seqs' & vm & E' & P & CU & LM & SEP). rewrite E in E'. injection E' as <- <-.
  assert (H : forall e e', connected ends edges e e' -> In e edges -> forall s, In s seqs -> In e s -> In e' s).
  { induction 1 as [x y T|x|x y z _ IH1 _ IH2]; intros Ie s Is Ix.
    - destruct T as (I1 & I2 & v & M1 & M2). apply (Permutation_in _ (Permutation_sym P)) in I2. apply in_concat in I2. destruct I2 as (t & It & Iy). destruct (In_nth_error _ _ Is) as [i Ei]. destruct (In_nth_error _ _ It) as [j Ej].
      assert (i = j) by (eapply (SEP i j s t x y v); eauto). subst j. rewrite Ei in Ej. injection Ej as ->. exact Iy.
    - exact Ix.
    - assert (Iy : In y s) by (apply (IH1 Ie s); assumption). apply (IH2 (Permutation_in _ P (proj2 (in_concat _ _) (ex_intro _ s (conj Is Iy)))) s); assumption. }
  intros e e' Ie Ie'. split.
  - intros C. apply (Permutation_in _ (Permutation_sym P)) in Ie. apply in_concat in Ie. destruct Ie as (s & Is & Ix). exists s. split; [exact Is|split; [exact Ix|]]. eapply H; eauto. apply (Permutation_in _ P), in_concat. exists s. auto.
  - intros (s & Is & I1 & I2). rewrite Forall_forall in CU. assert (IS : incl s edges) by (intros x Ix; apply (Permutation_in _ P), in_concat; exists s; auto).
    assert (CH : exists ws, chain ends ws s). { destruct (CU s Is) as [(a & ws & b & O)|(a & ws & O)]; eexists; apply O. }
    destruct CH as [ws CH]. apply (chain_closed ends (fun x => connected ends edges e x) ws s CH); [|exists e; split; [exact I1|apply rt_refl]|exact I2].
    intros x y v Ix Iy Mx My Cx. eapply rt_trans; [exact Cx|]. apply rt_step. split; [apply IS, Ix|split; [apply IS, Iy|exists v; auto]].
Qed.

(** A case: a triangle 10-11-12 and a curve 20-21-22, the segments mixed; the hypothesis holds and the result is as expected. *)
Definition case_ends (e : nat) : nat * nat := nth e [(11, 10); (21, 20); (11, 12); (21, 22); (10, 12)] (0, 1).
Theorem C65_case : curves case_ends [0; 1; 2; 3; 4] /\ cut_paths case_ends (fun m => m) [0; 1; 2; 3; 4] = Some ([[1; 3]; [0; 4; 2]], [(20, 0); (21, 0); (22, 0); (11, 1); (10, 1); (12, 1)]).
Proof.
  split; [|reflexivity]. split; [repeat constructor; cbn; intuition congruence|]. split; [intros e I; cbn in I; intuition (subst; cbn; discriminate)|].
  intros v. do 26 (destruct v as [|v]; [cbn; lia|]). cbn. lia.
Qed.

(** General position is needed: with three segments in one point, the point is in two of the paths found. *)
Definition star_ends (e : nat) : nat * nat := nth e [(10, 11); (10, 12); (10, 13)] (0, 1).
Theorem C65_star : cut_paths star_ends (fun m => m) [0; 1; 2] = Some ([[0; 2]; [1]], [(11, 0); (10, 0); (13, 0); (12, 1)]).
Proof. reflexivity. Qed.
