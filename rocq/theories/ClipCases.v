(** C68: a face that meets the hypotheses, and faces on which the clipping goes wrong. *)
From Coq Require Import List Arith Bool Lia Permutation.
From Verif Require Import CutModel ClipModel ClipSpec ClipInv ClipProofs ClipFace ClipStart ClipProps.
Import ListNotations.

(** the triangle 0, 1, 2; its sides are the halfedges 0, 2, 4 of the input mesh *)
Definition tri_src (h : nat) : nat := nth h [0; 1; 1; 2; 2; 0] 0.
Definition tri_tgt (h : nat) : nat := nth h [1; 0; 2; 1; 0; 2] 0.
Definition tri_face (h : nat) : option nat := if Nat.even h then Some 0 else None.
Definition tri_halfedge (s t : nat) : option nat := find (fun h => Nat.eqb (tri_src h) s && Nat.eqb (tri_tgt h) t) [0; 1; 2; 3; 4; 5].

Ltac cut_points := let h := fresh in let I := fresh in intros h I; cbn in I; repeat (destruct I as [<-|I]; [cbn; lia|]); destruct I.
Ltac on_boundary := cbn; tauto.
Ltac is_free := split; [on_boundary|cut_points].
Ltac is_fresh := let v := fresh in let I := fresh in intros v I; cbn in I; repeat (destruct I as [<-|I]; [split; [cbn; lia|cut_points]|]); destruct I.
Ltac no_dup := cbn; repeat (apply NoDup_cons; [cbn; lia|]); apply NoDup_nil.
Ltac each_in := let x := fresh in let I := fresh in intros x I; cbn in I; repeat (destruct I as [<-|I]; [cbn; try lia|]); try destruct I.
Ltac the_path := cbn; repeat (split; [reflexivity|]); reflexivity.
Ltac in_registry := split; [cbn; lia|eexists; reflexivity].
Ltac side_ok := constructor; [the_path|discriminate|no_dup|reflexivity|discriminate|cbn; lia|each_in; in_registry| | ].

(** a point on every side, 3, 4 and 5; cut through from 4 to 3, and a slit from 5 to 6 *)
Definition one_seg (e : nat) : nat * nat := nth e [(4, 3); (5, 6); (0, 3); (3, 1); (1, 4); (4, 2); (2, 5); (5, 0)] (0, 0).
Definition one_sides : list (nat * list nat) := [(0, [4; 6]); (2, [8; 10]); (4, [12; 14])].
Definition one_registry : list (nat * nat) := [(0, 9); (1, 9); (2, 8); (50, 0)].
Ltac turn A B := exists A, B; split; reflexivity.
Theorem C68_case : divided_face one_seg tri_src tri_tgt tri_face tri_halfedge one_registry 3 [] 0 one_sides [2; 0] [5] [[6; 8; 0]; [14; 4; 1; 10; 12; 2; 3]] (seq 0 8) /\
  (forall ph hs, In (ph, hs) one_sides -> length hs <= 2) /\
  clip one_seg tri_src tri_face tri_halfedge one_registry 3 [] gnu_partition 0 (seq 0 8) = Some [[12; 2; 3; 14; 4; 1; 10]; [6; 8; 0]].
Proof.
  split; [|split; [|vm_compute; reflexivity]]; [constructor|].
  - intros ph hs I. cbn in I. repeat (destruct I as [I|I]; [injection I as <- <-; side_ok; cbn; lia|]). destruct I.
  - cbn. lia.
  - split; [discriminate|]. split; [exists 0; the_path|no_dup].
  - each_in; do 2 eexists; (split; [in_registry|split; [in_registry|lia]]).
  - apply (slit (src one_seg) (tgt one_seg) opp _ [[6; 8; 0]] [10; 12; 14; 4; 1] [] [0] [] [14; 4; 1; 10; 12] [2] 5 6).
    + apply through. apply (cut (src one_seg) (tgt one_seg) opp (concat (map snd one_sides)) [] [4; 6; 8; 10; 12; 14] [] [] [6; 8] [10; 12; 14; 4] [0] 3 4); [apply whole|turn [4] [6; 8; 10; 12; 14]|the_path|the_path|lia|is_free|is_free|discriminate|the_path|no_dup|is_fresh].
    + turn [10; 12] [14; 4; 1].
    + the_path.
    + discriminate.
    + is_free.
    + discriminate.
    + the_path.
    + no_dup.
    + is_fresh.
  - each_in.
  - apply NoDup_Permutation; [no_dup|no_dup|]. intros x. cbn. tauto.
  - apply seq_NoDup.
  - intros ph hs I. cbn in I. repeat (destruct I as [I|I]; [injection I as <- <-; cbn; lia|]). destruct I.
Qed.

(** Two points on every side: 3, 4, 5, 6, 7, 8; cut through from 8 to 3 and from 4 to 5, slits from 7 over 9 to 11 and from 6 to 10. *)
Definition two_seg (e : nat) : nat * nat := nth e [(8, 3); (4, 5); (7, 9); (9, 11); (6, 10); (0, 3); (3, 4); (4, 1); (1, 5); (5, 6); (6, 2); (2, 7); (7, 8); (8, 0)] (0, 0).
Definition two_sides : list (nat * list nat) := [(0, [10; 12; 14]); (2, [16; 18; 20]); (4, [22; 24; 26])].
Definition two_registry : list (nat * nat) := [(0, 9); (0, 8); (1, 9); (1, 8); (2, 9); (2, 8); (50, 0); (51, 0); (52, 0)].
Definition two_pieces : list (nat * list nat) := [(0, [5; 6; 7]); (1, [8; 9; 10]); (2, [11; 12; 13])].
Lemma two_face : divided_face two_seg tri_src tri_tgt tri_face tri_halfedge two_registry 3 two_pieces 0 two_sides [8; 4; 6; 2; 0] [6; 7] [[20; 22; 4; 6; 7; 5; 24; 0; 12; 2; 18; 8; 9]; [14; 16; 3]; [26; 10; 1]] (seq 0 14).
Proof.
  constructor.
  - intros ph hs I. cbn in I. repeat (destruct I as [I|I]; [injection I as <- <-; side_ok; [cbn; lia|intros _; left; reflexivity]|]). destruct I.
  - cbn. lia.
  - split; [discriminate|]. split; [exists 0; the_path|no_dup].
  - each_in; do 2 eexists; (split; [in_registry|split; [in_registry|lia]]).
  - apply (slit (src two_seg) (tgt two_seg) opp _ [] [24; 0; 12; 2; 18; 20; 22; 4; 6; 7; 5] [[14; 16; 3]; [26; 10; 1]] [4; 6; 2; 0] [7] [20; 22; 4; 6; 7; 5; 24; 0; 12; 2; 18] [8] 6 10).
    + apply (slit (src two_seg) (tgt two_seg) opp _ [] [18; 20; 22; 24; 0; 12; 2] [[14; 16; 3]; [26; 10; 1]] [2; 0] [] [24; 0; 12; 2; 18; 20; 22] [4; 6] 7 11).
      * apply through. apply (cut (src two_seg) (tgt two_seg) opp (concat (map snd two_sides)) [] [12; 14; 16; 18; 20; 22; 24; 0] [[26; 10; 1]] [0] [18; 20; 22; 24; 0; 12] [14; 16] [2] 5 4); [|turn [12; 14; 16] [18; 20; 22; 24; 0]|the_path|the_path|lia|is_free|is_free|discriminate|the_path|no_dup|is_fresh].
        apply (cut (src two_seg) (tgt two_seg) opp (concat (map snd two_sides)) [] [10; 12; 14; 16; 18; 20; 22; 24; 26] [] [] [12; 14; 16; 18; 20; 22; 24] [26; 10] [0] 3 8); [apply whole|turn [10] [12; 14; 16; 18; 20; 22; 24; 26]|the_path|the_path|lia|is_free|is_free|discriminate|the_path|no_dup|is_fresh].
      * turn [18; 20; 22] [24; 0; 12; 2].
      * the_path.
      * discriminate.
      * is_free.
      * discriminate.
      * the_path.
      * no_dup.
      * is_fresh.
    + turn [24; 0; 12; 2; 18] [20; 22; 4; 6; 7; 5].
    + the_path.
    + discriminate.
    + is_free.
    + discriminate.
    + the_path.
    + no_dup.
    + is_fresh.
  - each_in.
  - apply NoDup_Permutation; [no_dup|no_dup|]. intros x. cbn. tauto.
  - apply seq_NoDup.
Qed.
Lemma same_length Ps Qs : same_polygons Ps Qs -> length (concat Ps) = length (concat Qs) /\ length Ps = length Qs.
Proof.
  intros (Rs & P & F). rewrite (Permutation_length P). rewrite (Permutation_length (perm_concat _ _ P)). clear P. induction F as [|R Q Rs Qs H F IH]; [auto|]. cbn [concat length]. rewrite !app_length, (Permutation_length (rotation_perm _ _ H)). lia.
Qed.
(** The clipping starts on the side from 2 to 0, between its points 7 and 8, and so at the mouth of a slit: the slit is lost, and a polygon of no extent, there and back along
    the slit, is added. *)
Theorem C68_slit_refuted : exists f sides cuts mouths polygons edges out,
  divided_face two_seg tri_src tri_tgt tri_face tri_halfedge two_registry 3 two_pieces f sides cuts mouths polygons edges /\
  clip two_seg tri_src tri_face tri_halfedge two_registry 3 two_pieces gnu_partition f edges = Some out /\ In [6; 7; 5; 4] out /\ ~ same_polygons polygons out.
Proof.
  do 6 eexists. exists [[24; 0; 12; 2; 18; 8; 9; 20; 22]; [26; 10; 1]; [14; 16; 3]; [6; 7; 5; 4]]. split; [exact two_face|]. split; [vm_compute; reflexivity|]. split; [cbn; tauto|].
  intros K. apply same_length in K. cbn in K. lia.
Qed.
(** What the standard says of std::partition is not enough: when the pieces of a side are directed against the face and come first, the code follows an iterator past the end.
    The same face, with the side from 0 to 1 divided from 1 on. *)
Definition back_seg (e : nat) : nat * nat := nth e [(8, 3); (4, 5); (7, 9); (9, 11); (6, 10); (1, 4); (4, 3); (3, 0); (1, 5); (5, 6); (6, 2); (2, 7); (7, 8); (8, 0)] (0, 0).
Definition back_sides : list (nat * list nat) := [(0, [15; 13; 11]); (2, [16; 18; 20]); (4, [22; 24; 26])].
Definition stable_partition (p : nat -> bool) (l : list nat) : list nat := filter p l ++ filter (fun x => negb (p x)) l.
Lemma stable_conforming : conforming stable_partition.
Proof.
  intros p l. split.
  - unfold stable_partition. induction l as [|x l IH]; [constructor|]. cbn. destruct (p x); cbn; [constructor; exact IH|]. rewrite <- Permutation_middle. constructor. exact IH.
  - exists (filter p l), (filter (fun x => negb (p x)) l). split; [reflexivity|]. split; intros x I; apply filter_In in I; [apply I|apply negb_true_iff, I].
Qed.
Lemma back_face : divided_face back_seg tri_src tri_tgt tri_face tri_halfedge two_registry 3 two_pieces 0 back_sides [8; 4; 6; 2; 0] [6; 7] [[20; 22; 4; 6; 7; 5; 24; 0; 13; 2; 18; 8; 9]; [11; 16; 3]; [26; 15; 1]] (seq 0 14).
Proof.
  constructor.
  - intros ph hs I. cbn in I. repeat (destruct I as [I|I]; [injection I as <- <-; side_ok; [cbn; lia|intros _; first [left; reflexivity|right; reflexivity]]|]). destruct I.
  - cbn. lia.
  - split; [discriminate|]. split; [exists 0; the_path|no_dup].
  - each_in; do 2 eexists; (split; [in_registry|split; [in_registry|lia]]).
  - apply (slit (src back_seg) (tgt back_seg) opp _ [] [24; 0; 13; 2; 18; 20; 22; 4; 6; 7; 5] [[11; 16; 3]; [26; 15; 1]] [4; 6; 2; 0] [7] [20; 22; 4; 6; 7; 5; 24; 0; 13; 2; 18] [8] 6 10).
    + apply (slit (src back_seg) (tgt back_seg) opp _ [] [18; 20; 22; 24; 0; 13; 2] [[11; 16; 3]; [26; 15; 1]] [2; 0] [] [24; 0; 13; 2; 18; 20; 22] [4; 6] 7 11).
      * apply through. apply (cut (src back_seg) (tgt back_seg) opp (concat (map snd back_sides)) [] [13; 11; 16; 18; 20; 22; 24; 0] [[26; 15; 1]] [0] [18; 20; 22; 24; 0; 13] [11; 16] [2] 5 4); [|turn [13; 11; 16] [18; 20; 22; 24; 0]|the_path|the_path|lia|is_free|is_free|discriminate|the_path|no_dup|is_fresh].
        apply (cut (src back_seg) (tgt back_seg) opp (concat (map snd back_sides)) [] [15; 13; 11; 16; 18; 20; 22; 24; 26] [] [] [13; 11; 16; 18; 20; 22; 24] [26; 15] [0] 3 8); [apply whole|turn [15] [13; 11; 16; 18; 20; 22; 24; 26]|the_path|the_path|lia|is_free|is_free|discriminate|the_path|no_dup|is_fresh].
      * turn [18; 20; 22] [24; 0; 13; 2].
      * the_path.
      * discriminate.
      * is_free.
      * discriminate.
      * the_path.
      * no_dup.
      * is_fresh.
    + turn [24; 0; 13; 2; 18] [20; 22; 4; 6; 7; 5].
    + the_path.
    + discriminate.
    + is_free.
    + discriminate.
    + the_path.
    + no_dup.
    + is_fresh.
  - each_in.
  - apply NoDup_Permutation; [no_dup|no_dup|]. intros x. cbn. tauto.
  - apply seq_NoDup.
Qed.
Theorem C68_partition_refuted : exists partition f sides cuts mouths polygons edges, conforming partition /\
  divided_face back_seg tri_src tri_tgt tri_face tri_halfedge two_registry 3 two_pieces f sides cuts mouths polygons edges /\
  clip back_seg tri_src tri_face tri_halfedge two_registry 3 two_pieces partition f edges = None.
Proof. exists stable_partition. do 6 eexists. split; [exact stable_conforming|]. split; [exact back_face|]. vm_compute. reflexivity. Qed.
