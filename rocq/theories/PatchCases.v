(** C71, C72: a case.  A triangular prism through a slab: the corners u0 u1 u2 of the prism above the slab, w0 w1 w2 below, its edges cross the top of the slab (face 0) in a0 a1 a2 and the bottom (face 1) in b0 b1 b2. *)
From Coq Require Import List Arith Bool Lia Permutation Relations Reals Lra.
From Verif Require Import CutModel ClipModel SplitModel PatchModel PatchSpec PatchProofs PatchSeeds PatchProps.
Import ListNotations.
Open Scope nat_scope.

(** Edges 0-2 and 3-5: the curves a and b; 6-8: a to b; 9-11: u to a; 12-14: the top of the prism; 15-17: b to w; 18-20: its bottom.  Two polygons of the slab (those in the prism), then of the prism 3 above the slab, 3 inside, 3 below, top and bottom. *)
Definition prism : list (list nat) :=
  [[0; 2; 4]; [11; 9; 7];
   [18; 0; 21; 25]; [20; 2; 23; 27]; [22; 4; 19; 29];
   [1; 12; 6; 15]; [3; 14; 8; 17]; [5; 16; 10; 13];
   [7; 30; 36; 33]; [9; 32; 38; 35]; [11; 34; 40; 31];
   [24; 26; 28]; [41; 39; 37]].
Definition prism_seg (e : nat) : nat * nat :=
  nth e [(14, 15); (15, 16); (16, 14); (17, 18); (18, 19); (19, 17); (14, 17); (15, 18); (16, 19); (8, 14); (9, 15); (10, 16); (8, 9); (9, 10); (10, 8); (17, 11); (18, 12); (19, 13); (11, 12); (12, 13); (13, 11)] (0, 0).
Definition prism_registry : list (nat * nat) := [(20, 0); (21, 0); (22, 0); (20, 1); (21, 1); (22, 1)].
Definition prism_vertex0 (e : nat) : nat := match e with 20 => 8 | 21 => 9 | 22 => 10 | _ => 0 end.
Definition prism_psf (e : nat) : option nat * option nat := match e with 20 => (Some 6, Some 8) | 21 => (Some 7, Some 6) | 22 => (Some 8, Some 7) | _ => (None, None) end.
Definition height (v : nat) : R := if v <? 11 then 3%R else if v <? 14 then 0%R else if v <? 17 then 2%R else 1%R.
Definition prism_position (v : nat) : vec := (INR (v mod 3), INR (v mod 2), height v).
Definition prism_normal (f : nat) : vec := match f with O => (0, 0, 1)%R | S _ => (0, 0, -1)%R end.
Definition prism_vseq : list (nat * nat) := [(14, 0); (15, 0); (16, 0); (17, 1); (18, 1); (19, 1)].
Definition prism_sequences : list (list nat) := [[0; 1; 2]; [3; 4; 5]].
Definition prism_inside (p : nat) : bool := (5 <=? p) && (p <=? 7).
Notation cutP := (fun h => h < 2 * 6).

Definition sideb (p h : nat) : bool := match nth_error prism p with Some l => existsb (Nat.eqb h) l | None => false end.
Lemma sideb_ok p h : side prism p h <-> sideb p h = true.
Proof. unfold side, sideb. destruct (nth_error prism p) as [l|]; [rewrite existsb_In; split; [intros (l' & E & I); congruence|eauto]|split; [intros (l' & E & _); discriminate|discriminate]]. Qed.
Lemma side_bound p h : side prism p h -> p < 13 /\ h < 42.
Proof.
  intros (l & E & I). assert (P : p < 13) by (change 13 with (length prism); apply nth_error_Some; congruence). split; [exact P|].
  assert (F : forallb (fun l => forallb (fun h => h <? 42) l) prism = true) by reflexivity. rewrite forallb_forall in F. specialize (F l (nth_error_In _ _ E)). rewrite forallb_forall in F. apply Nat.ltb_lt, F, I.
Qed.
Definition allp (f : nat -> bool) (n : nat) : bool := forallb f (seq 0 n).
Lemma allp_ok f n i : allp f n = true -> i < n -> f i = true. Proof. intros F L. unfold allp in F. rewrite forallb_forall in F. apply F, in_seq. lia. Qed.
Lemma cm_iff p : cut_mesh_polygon prism 2 p <-> 2 <= p < 13. Proof. reflexivity. Qed.
Lemma prism_meshes : two_meshes prism 2 opp cutP.
Proof.
  constructor.
  - intros p q h S1 S2 C. destruct (side_bound _ _ S1) as [P H]. destruct (side_bound _ _ S2) as [Q _]. apply sideb_ok in S1, S2. rewrite !cm_iff in C.
    assert (F : allp (fun p => allp (fun q => allp (fun h => negb (sideb p h && sideb q h) || (p =? q) || ((h <? 12) && xorb (2 <=? p) (2 <=? q))) 42) 13) 13 = true) by (vm_compute; reflexivity).
    pose proof (allp_ok _ _ h (allp_ok _ _ q (allp_ok _ _ p F P) Q) H) as X. cbv beta in X. rewrite S1, S2 in X. cbn [negb andb orb] in X. apply orb_true_iff in X. destruct X as [X|X]; [apply Nat.eqb_eq, X|]. exfalso. apply andb_true_iff in X. destruct X as [X Y]. apply Nat.ltb_lt in X. specialize (C X). destruct (Nat.leb_spec 2 p), (Nat.leb_spec 2 q); cbn in Y; try discriminate; lia.
  - intros p q h NC C S1 S2. destruct (side_bound _ _ S1) as [P H]. destruct (side_bound _ _ S2) as [Q _]. apply sideb_ok in S1, S2. rewrite cm_iff in *.
    assert (F : allp (fun p => allp (fun q => allp (fun h => negb (sideb p h && sideb q (opp h)) || (h <? 12) || (p <? 2) || (2 <=? q)) 42) 13) 13 = true) by (vm_compute; reflexivity).
    pose proof (allp_ok _ _ h (allp_ok _ _ q (allp_ok _ _ p F P) Q) H) as X. cbv beta in X. rewrite S1, S2 in X. cbn [negb andb orb] in X. destruct (Nat.ltb_spec h 12); [lia|]. destruct (Nat.ltb_spec p 2); [lia|]. cbn [orb] in X. apply Nat.leb_le in X. lia.
Qed.
Lemma prism_located : located prism 2 opp cutP prism_inside.
Proof.
  constructor.
  - intros p q (C1 & C2 & h & S1 & S2 & NC). destruct (side_bound _ _ S1) as [P H]. destruct (side_bound _ _ S2) as [Q _]. apply sideb_ok in S1, S2. rewrite cm_iff in *.
    assert (F : allp (fun p => allp (fun q => allp (fun h => negb (sideb p h && sideb q (opp h)) || (h <? 12) || (p <? 2) || eqb (prism_inside p) (prism_inside q)) 42) 13) 13 = true) by (vm_compute; reflexivity).
    pose proof (allp_ok _ _ h (allp_ok _ _ q (allp_ok _ _ p F P) Q) H) as X. cbv beta in X. rewrite S1, S2 in X. cbn [negb andb orb] in X. destruct (Nat.ltb_spec h 12); [lia|]. destruct (Nat.ltb_spec p 2); [lia|]. cbn [orb] in X. apply eqb_prop, X.
  - intros p q h C1 C2 S1 S2 K. destruct (side_bound _ _ S1) as [P H]. destruct (side_bound _ _ S2) as [Q _]. apply sideb_ok in S1, S2. rewrite cm_iff in *.
    assert (F : allp (fun p => allp (fun q => allp (fun h => negb (sideb p h && sideb q (opp h)) || (12 <=? h) || (p <? 2) || (q <? 2) || xorb (prism_inside p) (prism_inside q)) 42) 13) 13 = true) by (vm_compute; reflexivity).
    pose proof (allp_ok _ _ h (allp_ok _ _ q (allp_ok _ _ p F P) Q) H) as X. cbv beta in X. rewrite S1, S2 in X. cbn [negb andb orb] in X. destruct (Nat.leb_spec 12 h); [lia|]. destruct (Nat.ltb_spec p 2); [lia|]. destruct (Nat.ltb_spec q 2); [lia|]. cbn [orb] in X. destruct (prism_inside p), (prism_inside q); cbn in X; congruence.
Qed.
Lemma prism_near p q h : 2 <= p < 13 -> 2 <= q < 13 -> sideb p h && sideb q (opp h) = true -> neighbours prism 2 opp p q /\ (12 <= h -> uncut_neighbours prism 2 opp cutP p q).
Proof. intros P Q S. apply andb_true_iff in S. destruct S as [S1 S2]. apply sideb_ok in S1, S2. split; [split; [exact P|]; split; [exact Q|]; exists h; auto|]. intros L. split; [exact P|]. split; [exact Q|]. exists h. split; [exact S1|]. split; [exact S2|]. lia. Qed.
Ltac near h := first [apply (prism_near _ _ h); [lia|lia|reflexivity|lia] | apply (prism_near _ _ h); [lia|lia|reflexivity]].
Lemma prism_connected p q : cut_mesh_polygon prism 2 p -> cut_mesh_polygon prism 2 q -> connected prism 2 opp p q.
Proof.
  assert (SY : forall p q, connected prism 2 opp p q -> connected prism 2 opp q p). { intros a b T. induction T as [a b (A & B & h & S1 & S2)| |a b d _ IH1 _ IH2]; [apply rt_step; split; [exact B|]; split; [exact A|]; exists (opp h); rewrite ClipProofs.opp_opp; auto|apply rt_refl|eapply rt_trans; eassumption]. }
  assert (G : forall p, 2 <= p < 13 -> connected prism 2 opp p 5).
  { assert (A6 : connected prism 2 opp 6 5) by (apply rt_step; near 14). assert (A7 : connected prism 2 opp 7 5) by (apply rt_step; near 13).
    assert (A2 : connected prism 2 opp 2 5) by (apply rt_step; near 0). assert (A3 : connected prism 2 opp 3 5) by (apply rt_trans with 6; [apply rt_step; near 2|exact A6]). assert (A4 : connected prism 2 opp 4 5) by (apply rt_trans with 7; [apply rt_step; near 4|exact A7]).
    assert (A8 : connected prism 2 opp 8 5) by (apply rt_step; near 7). assert (A9 : connected prism 2 opp 9 5) by (apply rt_trans with 6; [apply rt_step; near 9|exact A6]). assert (A10 : connected prism 2 opp 10 5) by (apply rt_trans with 7; [apply rt_step; near 11|exact A7]).
    assert (A11 : connected prism 2 opp 11 5) by (apply rt_trans with 2; [apply rt_step; near 24|exact A2]). assert (A12 : connected prism 2 opp 12 5) by (apply rt_trans with 8; [apply rt_step; near 37|exact A8]).
    intros p' P'. destruct P' as [P1 P2]. do 13 (destruct p' as [|p']; [first [lia|assumption|apply rt_refl]|]). lia. }
  intros P Q. apply rt_trans with 5; [apply G, P|apply SY, G, Q].
Qed.
Lemma prism_cover : curves_cover prism 2 opp cutP prism_sequences [0; 1].
Proof.
  assert (SY : forall p q, together prism 2 opp cutP p q -> together prism 2 opp cutP q p) by (intros; apply together_sym; assumption).
  assert (T3 : together prism 2 opp cutP 3 2) by (apply rt_step; near 20). assert (T4 : together prism 2 opp cutP 4 2) by (apply rt_step; near 19).
  assert (T6 : together prism 2 opp cutP 6 5) by (apply rt_step; near 14). assert (T7 : together prism 2 opp cutP 7 5) by (apply rt_step; near 13).
  assert (T9 : together prism 2 opp cutP 9 8) by (apply rt_step; near 32). assert (T10 : together prism 2 opp cutP 10 8) by (apply rt_step; near 31).
  assert (T2 : together prism 2 opp cutP 2 2) by apply rt_refl. assert (T5 : together prism 2 opp cutP 5 5) by apply rt_refl. assert (T8 : together prism 2 opp cutP 8 8) by apply rt_refl.
  assert (SB : forall p h, sideb p h = true -> side prism p h) by (intros; apply sideb_ok; assumption).
  assert (CA : forall p q, together prism 2 opp cutP p 2 -> together prism 2 opp cutP q 5 -> exists idx e h0 p0 q0, In idx [0; 1] /\ starts prism_sequences idx e /\ (h0 = 2 * e \/ h0 = 2 * e + 1) /\ cut_mesh_polygon prism 2 p0 /\ cut_mesh_polygon prism 2 q0 /\ side prism p0 h0 /\ side prism q0 (opp h0) /\ together prism 2 opp cutP p p0 /\ together prism 2 opp cutP q q0).
  { intros p q A B. exists 0, 0, 0, 2, 5. split; [left; reflexivity|]. split; [exists [1; 2]; reflexivity|]. split; [auto|]. split; [rewrite cm_iff; lia|]. split; [rewrite cm_iff; lia|]. split; [apply SB; reflexivity|]. split; [apply SB; reflexivity|]. auto. }
  assert (CA' : forall p q, together prism 2 opp cutP p 5 -> together prism 2 opp cutP q 2 -> exists idx e h0 p0 q0, In idx [0; 1] /\ starts prism_sequences idx e /\ (h0 = 2 * e \/ h0 = 2 * e + 1) /\ cut_mesh_polygon prism 2 p0 /\ cut_mesh_polygon prism 2 q0 /\ side prism p0 h0 /\ side prism q0 (opp h0) /\ together prism 2 opp cutP p p0 /\ together prism 2 opp cutP q q0).
  { intros p q A B. exists 0, 0, 1, 5, 2. split; [left; reflexivity|]. split; [exists [1; 2]; reflexivity|]. split; [auto|]. split; [rewrite cm_iff; lia|]. split; [rewrite cm_iff; lia|]. split; [apply SB; reflexivity|]. split; [apply SB; reflexivity|]. auto. }
  assert (CB : forall p q, together prism 2 opp cutP p 5 -> together prism 2 opp cutP q 8 -> exists idx e h0 p0 q0, In idx [0; 1] /\ starts prism_sequences idx e /\ (h0 = 2 * e \/ h0 = 2 * e + 1) /\ cut_mesh_polygon prism 2 p0 /\ cut_mesh_polygon prism 2 q0 /\ side prism p0 h0 /\ side prism q0 (opp h0) /\ together prism 2 opp cutP p p0 /\ together prism 2 opp cutP q q0).
  { intros p q A B. exists 1, 3, 6, 5, 8. split; [right; left; reflexivity|]. split; [exists [4; 5]; reflexivity|]. split; [auto|]. split; [rewrite cm_iff; lia|]. split; [rewrite cm_iff; lia|]. split; [apply SB; reflexivity|]. split; [apply SB; reflexivity|]. auto. }
  assert (CB' : forall p q, together prism 2 opp cutP p 8 -> together prism 2 opp cutP q 5 -> exists idx e h0 p0 q0, In idx [0; 1] /\ starts prism_sequences idx e /\ (h0 = 2 * e \/ h0 = 2 * e + 1) /\ cut_mesh_polygon prism 2 p0 /\ cut_mesh_polygon prism 2 q0 /\ side prism p0 h0 /\ side prism q0 (opp h0) /\ together prism 2 opp cutP p p0 /\ together prism 2 opp cutP q q0).
  { intros p q A B. exists 1, 3, 7, 8, 5. split; [right; left; reflexivity|]. split; [exists [4; 5]; reflexivity|]. split; [auto|]. split; [rewrite cm_iff; lia|]. split; [rewrite cm_iff; lia|]. split; [apply SB; reflexivity|]. split; [apply SB; reflexivity|]. auto. }
  intros p q h P Q S1 S2 K. rewrite cm_iff in P, Q. apply sideb_ok in S1, S2.
  assert (F : allp (fun p => allp (fun q => allp (fun h => negb (sideb p h && sideb q (opp h)) || (p <? 2) || (q <? 2) ||
    existsb (fun w => (p =? fst w) && (q =? snd w)) [(2, 5); (3, 6); (4, 7); (5, 2); (6, 3); (7, 4); (5, 8); (6, 9); (7, 10); (8, 5); (9, 6); (10, 7)]) 12) 13) 13 = true) by (vm_compute; reflexivity).
  pose proof (allp_ok _ _ h (allp_ok _ _ q (allp_ok _ _ p F (proj2 P)) (proj2 Q)) K) as X. cbv beta in X. rewrite S1, S2 in X. cbn [negb andb orb] in X. destruct (Nat.ltb_spec p 2); [lia|]. destruct (Nat.ltb_spec q 2); [lia|]. cbn [orb] in X. apply existsb_exists in X. destruct X as ([a b] & I & X). apply andb_true_iff in X. destruct X as [X Y]. apply Nat.eqb_eq in X, Y. cbn [fst snd] in X, Y. subst a b. clear S1 S2 P Q.
  repeat (destruct I as [I|I]; [injection I as <- <-; first [apply CA; assumption|apply CA'; assumption|apply CB; assumption|apply CB'; assumption]|]). destruct I.
Qed.
Lemma prism_bordered idx : In idx [0; 1] -> bordered prism 2 cutP prism_sequences idx.
Proof.
  assert (SB : forall p h, sideb p h = true -> side prism p h) by (intros; apply sideb_ok; assumption).
  intros [<-|[<-|[]]].
  - exists 0. split; [exists [1; 2]; reflexivity|]. split; [lia|]. split; [exists 2|exists 5]; (split; [rewrite cm_iff; lia|apply SB; reflexivity]).
  - exists 3. split; [exists [4; 5]; reflexivity|]. split; [lia|]. split; [exists 5|exists 8]; (split; [rewrite cm_iff; lia|apply SB; reflexivity]).
Qed.
Lemma prism_sides p : sides_known prism prism_seg prism_registry 14 8 6 prism_vertex0 prism_vseq p.
Proof.
  intros h v S V L. destruct (side_bound _ _ S) as [_ H].
  assert (F : allp (fun h => (src prism_seg h <? 20) && (tgt prism_seg h <? 20)) 42 = true) by reflexivity. pose proof (allp_ok _ _ h F H) as X. apply andb_true_iff in X. destruct X as [X Y]. apply Nat.ltb_lt in X, Y. assert (V' : v < 20) by (destruct V; subst; assumption). clear V X Y F.
  assert (G : forall e f idx, crossing 14 prism_registry v e f -> (8 <= prism_vertex0 e <-> f < 6) -> lookup prism_vseq v = Some idx -> exists e f, crossing 14 prism_registry v e f /\ (8 <= prism_vertex0 e <-> f < 6) /\ exists idx, lookup prism_vseq v = Some idx) by (intros e0 f0 idx0 A B C; exists e0, f0; split; [exact A|]; split; [exact B|]; exists idx0; exact C).
  do 14 (destruct v as [|v]; [lia|]).
  destruct v as [|v]; [apply (G 20 0 0); [split; [lia|reflexivity]|cbn; lia|reflexivity]|]. destruct v as [|v]; [apply (G 21 0 0); [split; [lia|reflexivity]|cbn; lia|reflexivity]|]. destruct v as [|v]; [apply (G 22 0 0); [split; [lia|reflexivity]|cbn; lia|reflexivity]|].
  destruct v as [|v]; [apply (G 20 1 1); [split; [lia|reflexivity]|cbn; lia|reflexivity]|]. destruct v as [|v]; [apply (G 21 1 1); [split; [lia|reflexivity]|cbn; lia|reflexivity]|]. destruct v as [|v]; [apply (G 22 1 1); [split; [lia|reflexivity]|cbn; lia|reflexivity]|]. lia.
Qed.
Notation prism_approaches := (approaches prism (src prism_seg) (tgt prism_seg) prism_position 14 prism_registry prism_normal (lookup prism_vseq) [0; 1]).
Lemma prism_outside p : prism_approaches p -> prism_inside p = false.
Proof.
  intros (h & e & f & idx & (S & (CR1 & CR2) & RU) & LK & II & D). destruct (side_bound _ _ S) as [P H]. apply sideb_ok in S.
  assert (F : allp (fun p => allp (fun h => negb (sideb p h) || negb (prism_inside p) || (h <? 12) || existsb (Nat.eqb h) [12; 13; 14; 15; 16; 17]) 42) 13 = true) by (vm_compute; reflexivity).
  pose proof (allp_ok _ _ h (allp_ok _ _ p F P) H) as X. cbv beta in X. rewrite S in X. destruct (prism_inside p) eqn:I; [|reflexivity]. cbn [negb orb] in X. exfalso. clear F S P I.
  destruct (Nat.ltb_spec h 12) as [L|L].
  - (* on a curve: source and target on different edges *)
    assert (DE : forall e' f', crossing 14 prism_registry (src prism_seg h) e' f' -> e' <> e).
    { intros e' f' [_ C'] E. subst e'. clear D LK II RU X. do 12 (destruct h as [|h]; [cbn in CR2, C'; congruence|]). lia. }
    destruct RU as [RU|(f' & RU)]; [|exact (DE e f' RU eq_refl)]. clear - L RU. do 12 (destruct h as [|h]; [cbn in RU; lia|]). lia.
  - cbn [orb] in X. apply existsb_In in X. clear - X CR2 D. assert (D' : (scalar_product (prism_normal f) (difference (prism_position (tgt prism_seg h)) (prism_position (src prism_seg h))) >= 0)%R).
    { do 6 (destruct X as [X|X]; [subst h; cbn in CR2; injection CR2 as _ <-; unfold scalar_product, difference, prism_normal, prism_position, height; cbn [tgt src opp prism_seg Nat.pred Nat.even edge Nat.div2 fst snd nth Nat.ltb Nat.leb]; match goal with |- (?a >= 0)%R => replace a with 1%R by ring end; lra|]). destruct X. }
    lra.
Qed.
Definition plain : forall A, list (nat * A) -> list (nat * A) := fun A m => m.
Definition backwards : forall A, list (nat * A) -> list (nat * A) := fun A m => rev m.
(** Three patches, whatever the order in which the tables are walked: below the slab with the bottom of the prism, in the slab, above with the top.  The one in the slab is inside. *)
Theorem C71_case : exists seeds s, seeds_of prism 2 [0; 1] prism_sequences = Some seeds /\ build_patches prism 12 seeds = Some s /\ patches s = [[8; 10; 12; 9]; [5; 7; 6]; [2; 4; 3; 11]] /\
  colours plain seeds s = Some ([0; 2], [1]) /\ colours backwards seeds s = Some ([0; 2], [1]).
Proof. eexists. eexists. repeat split; vm_compute; reflexivity. Qed.
Theorem C72_case shuffle : (forall A (m : list (nat * A)), Permutation (shuffle A m) m) ->
  exists s label, locate_patches prism 2 12 shuffle prism_seg prism_registry 14 8 6 prism_vertex0 prism_psf prism_normal prism_position (fun x => x) prism_vseq [0; 1] prism_sequences (seq 2 9) = Some (s, label) /\
    patches s = [[8; 10; 12; 9]; [5; 7; 6]; [2; 4; 3; 11]] /\ label 0 = false /\ label 1 = true /\ label 2 = false.
Proof.
  intros SH. destruct (C72_located prism 2 6 prism_sequences [0; 1] shuffle prism_inside prism_seg prism_registry 14 8 6 prism_vertex0 prism_psf prism_normal prism_position prism_vseq (seq 2 9)) as (s & label & E & _ & _ & L).
  - exact prism_meshes.
  - cbn. lia.
  - exact prism_bordered.
  - discriminate.
  - exact prism_cover.
  - exact prism_connected.
  - exact prism_located.
  - exact SH.
  - intros p I. apply in_seq in I. split; [rewrite cm_iff; lia|apply prism_sides].
  - intros p _. apply prism_outside.
  - intros N. exfalso. apply (N 2); [apply in_seq; lia|]. exists 18, 20, 0, 0. split; [split; [apply sideb_ok; reflexivity|]; split; [split; [cbn; lia|reflexivity]|left; cbn; lia]|]. split; [reflexivity|]. split; [left; reflexivity|].
    unfold scalar_product, difference, prism_normal, prism_position, height. cbn [tgt src opp prism_seg Nat.pred Nat.even edge Nat.div2 fst snd nth Nat.ltb Nat.leb]. lra.
  - exists s, label. split; [exact E|]. assert (PS : patches s = [[8; 10; 12; 9]; [5; 7; 6]; [2; 4; 3; 11]]).
    { destruct C71_case as (seeds & s' & A & B & C & _). unfold locate_patches in E. destruct (exterior_polygons _ _ _ _ _ _ _ _ _ _ _ _ _ _) as [ext|]; [|discriminate]. cbn [bind] in E. rewrite A in E. cbn [bind] in E. change (2 * 6) with 12 in E. rewrite B in E. cbn [bind] in E. destruct (colours shuffle seeds s') as [[red blue]|]; [|discriminate]. cbn [bind] in E. destruct (red_is_inside shuffle ext s' red blue); [|discriminate]. cbn [bind] in E. injection E as <- _. exact C. }
    split; [exact PS|]. rewrite PS in L. split; [apply (L 0 [8; 10; 12; 9] 8); [reflexivity|left; reflexivity]|]. split; [apply (L 1 [5; 7; 6] 5); [reflexivity|left; reflexivity]|apply (L 2 [2; 4; 3; 11] 2); [reflexivity|left; reflexivity]].
Qed.
