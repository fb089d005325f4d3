(** C70: a square with two points on one side, one on two others and none on the last; two edges cut it into three polygons. *)
From Coq Require Import List Arith Bool Lia Permutation Reals Lra Sorting.
From Verif Require Import CutModel CutProofs ClipModel ClipSpec ClipProps SplitModel SplitSpec SplitProofs SplitGeo SplitProps SplitClip SplitTies.
Import ListNotations.
Open Scope nat_scope.

Definition sq_src (h : nat) : nat := nth h [0; 1; 1; 2; 2; 3; 3; 0] 9.
Definition sq_tgt (h : nat) : nat := nth h [1; 0; 2; 1; 3; 2; 0; 3] 9.
Definition sq_face (h : nat) : option nat := if Nat.even h then Some 0 else None.
Definition sq_halfedge (a b : nat) : option nat := find (fun h => Nat.eqb (sq_src h) a && Nat.eqb (sq_tgt h) b) (seq 0 8).
Definition sq_ends (e : nat) : nat * nat := nth e [(1, 0); (2, 1); (3, 2); (0, 3)] (9, 9).
Definition sq_beside (e : nat) : option nat * option nat := (Some 0, None).
Definition sq_points : list (nat * list nat) := [(0, [4; 5]); (1, [6]); (3, [7])].
Definition sq_registry : list (nat * nat) := [(0, 8); (0, 9); (1, 9); (3, 8)].
Definition sq_way (e : nat) : list nat := nth e [[1; 5; 4; 0]; [2; 6; 1]; [3; 2]; [0; 7; 3]] [].
Definition sq_position (v : nat) : point := nth v [(0, 0, 0); (4, 0, 0); (4, 4, 0); (0, 4, 0); (1, 0, 0); (3, 0, 0); (4, 2, 0); (0, 2, 0)]%R (9, 9, 9)%R.
Definition sq_before : state := {| edges := [(4, 7); (5, 6)]; iface := [(0, [0; 1])]; incoming := [(4, [1]); (7, [0]); (5, [3]); (6, [2])]; along := []; same := [] |}.
Definition sq_after : state :=
  {| edges := [(4, 7); (5, 6); (1, 5); (5, 4); (4, 0); (0, 7); (7, 3); (2, 6); (6, 1); (2, 3)]; iface := [(0, [0; 1; 2; 3; 4; 5; 6; 7; 8; 9])];
     incoming := [(4, [1; 6; 9]); (7, [0; 10; 13]); (5, [3; 4; 7]); (6, [2; 14; 17])]; along := [(0, [2; 3; 4])]; same := [(2, 9)] |}.
Definition sq_sides : list (nat * list nat) := [(0, [9; 7; 5]); (2, [17; 15]); (4, [18]); (6, [13; 11])].
Definition sq_polygons : list (list nat) := [[5; 17; 3]; [15; 18; 13; 1; 7; 2]; [11; 9; 0]].

Lemma sq_straight : straight sq_position [1; 5; 4; 0].
Proof.
  exists 1, [5; 4], 0, (fun v => match v with S (S (S (S (S O)))) => / 4 | _ => 3 / 4 end)%R. split; [reflexivity|]. split; [unfold sq_position; cbn [nth]; intros E; injection E; lra|]. split.
  - intros v [<-|[<-|[]]]; (split; [lra|]); unfold sq_position, between_ratio; cbn [nth]; f_equal; try f_equal; lra.
  - repeat first [apply SSorted_cons | apply SSorted_nil | apply Forall_cons | apply Forall_nil]; lra.
Qed.
Lemma sq_given : given 4 sq_ends sq_beside sq_points 4 sq_before.
Proof.
  constructor.
  - cbn. repeat (constructor; [cbn; lia|]). constructor.
  - intros e l [E|[E|[E|[]]]]; injection E as <- <-; (split; [lia|]); intros v I; repeat (destruct I as [<-|I]; [lia|]); destruct I.
  - intros e L. destruct e as [|[|[|[|e]]]]; cbn; lia.
  - intros e L. repeat constructor. intros [].
  - intros e l f _ _ [<-|[]]. left. reflexivity.
  - split; [repeat constructor; intros []|]. split; [|split; reflexivity]. cbn. repeat (constructor; [cbn; lia|]). constructor.
Qed.
Lemma sq_ways e : e < 4 -> on_edge sq_ends sq_points e (sq_way e) /\ (3 < length (sq_way e) -> straight sq_position (sq_way e)).
Proof.
  intros L. destruct e as [|[|[|[|e]]]]; [| | | |lia]; (split; [|intros K; try (cbn in K; lia); try exact sq_straight]).
  - exists [5; 4]. split; [reflexivity|apply perm_swap].
  - exists [6]. split; reflexivity.
  - exists []. split; reflexivity.
  - exists [7]. split; reflexivity.
Qed.
Lemma sq_mesh : mesh 4 sq_src sq_tgt sq_face sq_halfedge sq_ends sq_beside.
Proof.
  constructor.
  - intros e L. destruct e as [|[|[|[|e]]]]; [| | | |lia]; cbn; repeat split; lia.
  - intros e L. destruct e as [|[|[|[|e]]]]; [| | | |lia]; reflexivity.
  - intros h L. destruct h as [|[|[|[|[|[|[|[|h]]]]]]]]; try reflexivity. unfold edge in L. cbn in L. lia.
Qed.
Lemma sq_face_of : face_of 4 sq_src sq_tgt sq_face 0 [0; 2; 4; 6].
Proof.
  constructor.
  - exists 0. cbn. repeat split; reflexivity.
  - cbn. repeat (constructor; [cbn; lia|]). constructor.
  - cbn. lia.
  - intros h I. repeat (destruct I as [<-|I]; [cbn; split; [lia|split; [reflexivity|discriminate]]|]). destruct I.
  - intros h L F. unfold edge in L. destruct h as [|[|[|[|[|[|[|[|h]]]]]]]]; try discriminate F; cbn; auto. cbn in L. lia.
Qed.
Notation sq_s := (src (seg_of sq_after)). Notation sq_t := (tgt (seg_of sq_after)).
Lemma sq_clipped : clipped sq_s sq_t opp (concat (map snd sq_sides)) sq_polygons [3; 1] [].
Proof.
  assert (F : forall v cuts, In v [0; 4; 5; 1; 6; 2; 3; 7] -> (forall h, In h cuts -> sq_s h <> v /\ sq_t h <> v) -> free sq_s sq_t (concat (map snd sq_sides)) cuts v) by (intros v cuts I H; split; [exact I|exact H]).
  apply through. apply (cut sq_s sq_t opp _ [] [7; 5; 17; 15; 18; 13; 1] [[11; 9; 0]] [1] [5; 17] [15; 18; 13; 1; 7] [3] 5 6).
  - apply (cut sq_s sq_t opp _ [] [9; 7; 5; 17; 15; 18; 13; 11] [] [] [7; 5; 17; 15; 18; 13] [11; 9] [1] 4 7).
    + apply whole.
    + exists [9], [7; 5; 17; 15; 18; 13; 11]. split; reflexivity.
    + cbn. repeat split; reflexivity.
    + cbn. repeat split; reflexivity.
    + lia.
    + apply F; [cbn; lia|intros h []].
    + apply F; [cbn; lia|intros h []].
    + discriminate.
    + cbn. split; reflexivity.
    + cbn. constructor; [intros []|constructor].
    + intros v [].
  - exists [7], [5; 17; 15; 18; 13; 1]. split; reflexivity.
  - cbn. repeat split; reflexivity.
  - cbn. repeat split; reflexivity.
  - lia.
  - apply F; [cbn; lia|]. intros h [<-|[]]. cbn. lia.
  - apply F; [cbn; lia|]. intros h [<-|[]]. cbn. lia.
  - discriminate.
  - cbn. split; reflexivity.
  - cbn. constructor; [intros []|constructor].
  - intros v [].
Qed.
(** Every hypothesis of C70_divided and C70_clipped holds, and this is what comes out. *)
Theorem C70_case sort : sorting sort ->
  mesh 4 sq_src sq_tgt sq_face sq_halfedge sq_ends sq_beside /\ given 4 sq_ends sq_beside sq_points 4 sq_before /\
  (forall e, e < 4 -> on_edge sq_ends sq_points e (sq_way e) /\ (3 < length (sq_way e) -> straight sq_position (sq_way e))) /\
  (forall e l v, In (e, l) sq_points -> In v l -> crossing sq_registry 4 v e) /\ NoDup (concat (map snd sq_points)) /\
  face_of 4 sq_src sq_tgt sq_face 0 [0; 2; 4; 6] /\
  divide_edges (fun x => x) sort sq_position sq_ends sq_beside sq_points 4 (fun _ m => m) [[0; 1]; [2]] [3] sq_before = Some sq_after /\
  (forall h, In h [3; 1] -> exists e e', crossing sq_registry 4 (sq_s h) e /\ crossing sq_registry 4 (sq_t h) e' /\ e <> e') /\
  clipped sq_s sq_t opp (concat (map snd sq_sides)) sq_polygons [3; 1] [] /\
  exists out, clip (seg_of sq_after) sq_src sq_face sq_halfedge sq_registry 4 (along sq_after) gnu_partition 0 [0; 1; 2; 3; 4; 5; 6; 7; 8; 9] = Some out /\ same_polygons sq_polygons out.
Proof.
  intros SO. split; [apply sq_mesh|]. split; [apply sq_given|]. split; [apply sq_ways|]. assert (RG : forall e l v, In (e, l) sq_points -> In v l -> crossing sq_registry 4 v e).
  { intros e l v [E|[E|[E|[]]]]; injection E as <- <-; intros I; repeat (destruct I as [<-|I]; [split; [lia|]; cbn; eexists; reflexivity|]); destruct I. }
  split; [exact RG|]. assert (PD : NoDup (concat (map snd sq_points))) by (cbn; repeat (constructor; [cbn; lia|]); constructor). split; [exact PD|]. split; [apply sq_face_of|].
  assert (DE : divide_edges (fun x => x) sort sq_position sq_ends sq_beside sq_points 4 (fun _ m => m) [[0; 1]; [2]] [3] sq_before = Some sq_after).
  { unfold divide_edges, part1. cbn [many sq_points filter snd length Nat.ltb Nat.leb fold_left bind]. 
    assert (SV : sorted_vertices (fun x => x) sort sq_position sq_ends (0, [4; 5]) = Some [1; 5; 4; 0]).
    { destruct sq_straight as (a & mid & b & ratio & E & N & M & S). destruct mid as [|m1 [|m2 [|m3 mid]]]; try discriminate E; [|destruct mid; discriminate E]. cbn in E. injection E as <- <- <- <-.
      change (Some [1; 5; 4; 0]) with (Some (fst (sq_ends 0) :: [5; 4] ++ [snd (sq_ends 0)])). apply (sorted_vertices_way (fun x => x) sort sq_position sq_ends 0 [4; 5] [5; 4]); [exact SO|apply perm_swap|]. apply (straight_sorted sq_position 1 [5; 4] 0 ratio N M S). }
    rewrite SV. reflexivity. }
  split; [exact DE|]. split; [|split; [exact sq_clipped|]].
  - intros h [<-|[<-|[]]]; [exists 1, 0|exists 3, 0]; (split; [|split; [|lia]]); (split; [cbn; lia|]); cbn; eexists; reflexivity.
  - exists [[18; 13; 1; 7; 2; 15]; [11; 9; 0]; [5; 17; 3]]. split; [reflexivity|]. exists [[15; 18; 13; 1; 7; 2]; [11; 9; 0]; [5; 17; 3]].
    split; [apply (Permutation_cons_append [[15; 18; 13; 1; 7; 2]; [11; 9; 0]] [5; 17; 3])|]. repeat apply Forall2_cons; [exists [15], [18; 13; 1; 7; 2]|exists [], [11; 9; 0]|exists [], [5; 17; 3]|apply Forall2_nil]; split; reflexivity.
Qed.
