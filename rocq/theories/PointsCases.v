(** C73: cases.  Two source-mesh triangles 0, 1 with a common edge 2, and a cut-mesh triangle 2 that crosses both: edge 2 crosses face 2, edge 5 crosses face 0, edge 6 crosses face 1. *)
From Coq Require Import List Arith Bool Lia Permutation Sorting Reals Lra Ascii.
From Verif Require Import CutModel CutProofs SplitModel SplitProofs PointsModel PointsSpec PointsProofs PointsRun PointsProps GeoModel GeoSpec GeoProj GeoProps PointsGeo.
Import ListNotations.
Open Scope nat_scope.

Definition two_around (g : nat) : list nat := match g with 0 => [0; 1; 2] | 1 => [2; 3; 4] | 2 => [5; 6; 7] | _ => [] end.
Definition two_psf (e : nat) : option nat * option nat :=
  match e with 0 | 1 => (Some 0, None) | 2 => (Some 0, Some 1) | 3 | 4 => (None, Some 1) | 5 | 6 | 7 => (Some 2, None) | _ => (None, None) end.
Definition two_cut (e : nat) : bool := 5 <=? e.
Definition two_candidates : list (nat * list nat) := [(0, [2]); (1, [2]); (2, [1; 0])].
Definition two_tests (e f : nat) : result :=
  match e, f with 2, 2 => Hit (2, 1, 0)%R | 5, 0 => Hit (1, 1, 0)%R | 6, 1 => Hit (3, 1, 0)%R | _, _ => Miss end.
Definition two_sort (l : list nat) : list nat := fold_right (fun x m => (fix ins m := match m with [] => [x] | y :: r => if x <=? y then x :: m else y :: ins r end) m) [] l.
Definition plain A (l : list (nat * A)) := rev l.
Definition plain2 A (l : list ((nat * nat) * A)) := l.

Lemma two_scene : scene two_around two_psf 2 two_cut two_candidates.
Proof.
  constructor.
  - intros [|[|[|g]]] e I; cbn in I; repeat (destruct I as [<-|I]; [cbn; auto|]); destruct I.
  - intros e. do 8 (destruct e as [|e]; [cbn; repeat constructor; cbn; intuition discriminate|]). constructor.
  - intros e g. do 8 (destruct e as [|e]; [cbn; intros I; repeat (destruct I as [<-|I]; [reflexivity|]); destruct I|]). intros [].
  - intros g o I. cbn in I. destruct I as [[= <- <-]|[[= <- <-]|[[= <- <-]|[]]]]; (split; [repeat constructor; cbn; intuition discriminate|]); intros f I; cbn in I; repeat (destruct I as [<-|I]; [reflexivity|]); destruct I.
Qed.
Lemma two_sorts : sorts two_sort.
Proof.
  intros l. assert (I : forall x m, Sorted le m -> let r := (fix ins m := match m with [] => [x] | y :: r => if x <=? y then x :: m else y :: ins r end) m in Permutation r (x :: m) /\ Sorted le r /\ (forall z, HdRel le z m -> z <= x -> HdRel le z r)).
  { intros x m SM. induction SM as [|y m SM IH H]; cbv zeta in *; [repeat split; auto; repeat constructor; assumption|]. destruct (Nat.leb_spec x y).
    - split; [reflexivity|]. split; [constructor; [constructor; assumption|constructor; assumption]|]. intros z _ Z. constructor. exact Z.
    - destruct IH as (P & Q & R0). split; [etransitivity; [apply perm_skip, P|apply perm_swap]|]. split; [constructor; [exact Q|]; apply R0; [exact H|lia]|]. intros z Z _. inversion Z. constructor. assumption. }
  induction l as [|x l IH]; [split; constructor|]. destruct IH as [P Q]. destruct (I x (two_sort l) Q) as (A & B & _). split; [|exact B]. etransitivity; [exact A|]. apply perm_skip, P.
Qed.
Lemma plain_order : any_order plain. Proof. intros A m. apply Permutation_sym, Permutation_rev. Qed.
Lemma plain2_order : any_order plain2. Proof. intros A m. reflexivity. Qed.
Notation two_pairs := (cull (fun e f => negb (e =? 0)) (all_pairs two_around two_sort plain [[(0, [2])]] [(1, [2]); (2, [1; 0])])).

(** Three threads: the calling thread is the last to look and the first to be done. *)
Definition two_blocks : list (list (nat * list nat)) := [firstn 3 (plain _ two_pairs); firstn 2 (skipn 3 (plain _ two_pairs))].
Definition two_master : list (nat * list nat) := skipn 5 (plain _ two_pairs).
Definition two_events : list event := [Start 1; Start 0; Start 2; Finish 2; Finish 0; Merge; Finish 1; Merge].
(** The hypotheses of C73_points are met: the run ends with the three points, numbered from 9. *)
Theorem C73_case : ranges [[(0, [2])]] [(1, [2]); (2, [1; 0])] two_candidates /\ ranges two_blocks two_master (plain _ two_pairs) /\
  length two_blocks = 2 /\ Forall (fun b => b <> []) two_blocks /\ two_master <> [] /\
  exists r t, execute two_psf 2 two_cut two_tests 9 plain plain2 (two_blocks ++ [two_master]) two_events = Some r /\ PointsModel.outcome 9 r = Some (Some t) /\
    Permutation (registry t) [(2, 2); (5, 0); (6, 1)] /\ partial_cut t = true /\
    match find pair_eqb (PointsModel.between t) (0, 2), find pair_eqb (PointsModel.between t) (1, 2) with Some l, Some l' => length l = 2 /\ length l' = 2 | _, _ => False end.
Proof.
  split; [reflexivity|]. split; [reflexivity|]. split; [reflexivity|]. split; [repeat constructor; discriminate|]. split; [discriminate|].
  eexists. eexists. split; [vm_compute; reflexivity|]. split; [cbn; reflexivity|]. split; [|split; [reflexivity|cbn; auto]].
  cbn [registry]. apply NoDup_Permutation; [repeat constructor; cbn; intuition discriminate|repeat constructor; cbn; intuition discriminate|]. intros x. cbn. intuition.
Qed.
(** If one test violates general position, so that thread 0 sets the status and thread 2 does not even begin, the result is the status. *)
Theorem C73_violation_case : exists r, execute two_psf 2 two_cut (fun e f => match e, f with 6, 1 => Violation | _, _ => two_tests e f end) 9 plain plain2 (two_blocks ++ [two_master]) [Start 1; Start 0; Finish 0; Finish 1; Start 2; Merge; Merge] = Some r /\ PointsModel.outcome 9 r = Some None.
Proof. eexists. split; vm_compute; reflexivity. Qed.

(** A segment through a triangle. *)
Theorem C73_triangle_case : ~ on_a_line (0, 0, 0)%R (4, 0, 0)%R (2, 3, 0)%R /\ regular_triangle (0, 0, 0)%R (4, 0, 0)%R (2, 3, 0)%R /\
  exists res, triangle_test (0, 0, 0)%R (4, 0, 0)%R (2, 3, 0)%R (2, 1, -1)%R (2, 1, 1)%R res /\ res = Hit (2, 1, 0)%R.
Proof.
  Open Scope R_scope.
  assert (L1 : ~ on_a_line (0, 0, 0) (4, 0, 0) (2, 3, 0)) by (intros [X|(t & X)]; [injection X; lra|cbn in X; injection X; lra]).
  assert (R1 : regular_triangle (0, 0, 0) (4, 0, 0) (2, 3, 0)).
  { intros n dc c E. assert (X : cross_product (vsub (4, 0, 0) (0, 0, 0)) (vsub (2, 3, 0) (0, 0, 0)) = (0, 0, 12)) by (cbn; f_equal; [f_equal|]; ring). pose proof (proj1 (C63_coefficients _ _ _ _ E)) as [C M]. assert (Y : n = (0, 0, 12)) by (etransitivity; [|exact X]; exact (f_equal (fun x => match x with Some (n, _, _) => n | None => n end) (eq_trans (eq_sym E) (proj1 (C63_triangle (0, 0, 0) (4, 0, 0) (2, 3, 0)))))). clear E X. subst n.
    specialize (M 2%nat (le_n 2)). destruct c as [|[|[|k]]]; [cbn in M; rewrite Rabs_R0, (Rabs_pos_eq 12) in M; lra|cbn in M; rewrite Rabs_R0, (Rabs_pos_eq 12) in M; lra|cbn; lra|lia]. }
  split; [exact L1|]. split; [exact R1|]. destruct (C73_triangle_partial (0, 0, 0) (4, 0, 0) (2, 3, 0) (2, 1, -1) (2, 1, 1) L1 R1) as [(res & E) S]. exists res. split; [exact E|].
  assert (A : at3 (2, 1, -1) (2, 1, 1) (1/2) = (2, 1, 0)) by (cbn; f_equal; [f_equal|]; field).
  assert (I : in_triangle (0, 0, 0) (4, 0, 0) (2, 3, 0) (at3 (2, 1, -1) (2, 1, 1) (1/2))) by (rewrite A; exists (1/3), (1/3), (1/3); repeat (split; [lra|]); cbn; f_equal; [f_equal|]; field).
  assert (Z : forall x, in_triangle (0, 0, 0) (4, 0, 0) (2, 3, 0) x -> snd x = 0) by (intros x (u & v & w & _ & _ & _ & _ & ->); cbn; ring).
  specialize (S res E). destruct res as [| |p].
  - exfalso. destruct S as (_ & _ & S). apply (S ltac:(intros [(s & t & X) _]; cbn in X; injection X; lra) (1/2)); [lra|exact I].
  - exfalso. destruct S as [S|[S|(t & T & S)]]; [apply Z in S; cbn in S; lra|apply Z in S; cbn in S; lra|]. pose proof (boundary_in _ _ _ _ S) as B. apply Z in B. cbn in B. assert (t = 1/2) by lra. subst t. rewrite A in S.
    destruct S as ([u v] & J & w & W & X). cbn in J. destruct J as [J|[J|[J|[]]]]; injection J as <- <-; cbn in X; injection X; intros; lra.
  - destruct S as (_ & _ & S). rewrite <- (S (1/2)); [rewrite A; reflexivity|lra|exact I].
Qed.
