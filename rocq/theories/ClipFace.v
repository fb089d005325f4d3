(** Proofs about ClipModel: the way around the face, where it starts, and the whole function. *)
From Coq Require Import List Arith Bool Lia Permutation.
From Verif Require Import CutModel ClipModel ClipSpec ClipInv ClipProofs.
Import ListNotations.

Lemma perm_filter (g : nat -> bool) l l' : Permutation l l' -> Permutation (filter g l) (filter g l').
Proof. intros H; induction H; cbn; [constructor|destruct (g x); [constructor|]; assumption|destruct (g x), (g y); try reflexivity; apply perm_swap|etransitivity; eassumption]. Qed.

Section Face.
Variable seg : nat -> nat * nat.
Notation src := (src seg). Notation tgt := (tgt seg).
Variable b : list nat.
Hypothesis RB : ring src tgt b.
Hypothesis B2 : 2 <= length b.
Hypothesis DB : forall h, In h b -> ~ In (opp h) b.
Lemma b_cyc : cyc (fun h h' => tgt h = src h') b.
Proof.
  destruct RB as (NB & (a & PB) & _). unfold cyc. destruct b as [|x X]; [congruence|]. apply (path_steps src tgt a _ (tgt x)). apply (path_app src tgt). exists a. split; [exact PB|]. cbn. split; [apply (path_hd src tgt _ _ _ _ PB)|reflexivity].
Qed.
Lemma srcs_b' : NoDup (map src b).
Proof. apply RB. Qed.
Lemma nodup_b : NoDup b.
Proof. eapply NoDup_map_inv, srcs_b'. Qed.
Lemma b_src_uniq i j : In i b -> In j b -> src i = src j -> i = j.
Proof. apply (src_uniq src tgt b RB). Qed.
Lemma b_tgt_uniq i j : In i b -> In j b -> tgt i = tgt j -> i = j.
Proof. apply (tgt_uniq src tgt b RB). Qed.
Lemma b_proper h : In h b -> src h <> tgt h.
Proof.
  intros I E. destruct (rotation_at b h I) as (L & R). pose proof b_cyc as C. rewrite (cyc_rot _ _ _ R) in C. pose proof (Permutation_length (rotation_perm _ _ R)) as EL. destruct L as [|y L]; [cbn in EL; lia|].
  unfold cyc in C. destruct C as [C _]. assert (Iy : In y b) by (eapply Permutation_in; [symmetry; apply (rotation_perm _ _ R)|right; left; reflexivity]).
  assert (h = y) by (apply b_src_uniq; congruence). subst y. pose proof (Permutation_NoDup (rotation_perm _ _ R) nodup_b) as N. inversion_clear N as [|? ? K _]. apply K. left. reflexivity.
Qed.

(** ** Around the face *)
Section Walk.
Variable registry : list (nat * nat).
Variable cnt : nat.
Variable bd : list nat.
Hypothesis BD : forall e, In e bd <-> In e (map edge b).
Hypothesis BB : forall e, In e bd -> is_boundary seg registry cnt e = true.
Variable first : nat.
Variable L : list nat.
Hypothesis R : rotation b (first :: L).
Lemma fl_b x : In x (first :: L) <-> In x b.
Proof. split; apply Permutation_in; [symmetry|]; apply rotation_perm, R. Qed.
Lemma fl_nodup : NoDup (first :: L).
Proof. eapply Permutation_NoDup; [apply rotation_perm, R|apply nodup_b]. Qed.
Lemma fl_steps : steps (fun h h' => tgt h = src h') ((first :: L) ++ [first]).
Proof. pose proof b_cyc as C. rewrite (cyc_rot _ _ _ R) in C. exact C. Qed.
Lemma touching k v : tgt (2 * edge k) = v \/ src (2 * edge k) = v -> src k = v \/ tgt k = v.
Proof.
  intros H. destruct (halfedge_cases k) as [E|E].
  - rewrite <- E in H. tauto.
  - assert (EO : 2 * edge k = opp k) by (rewrite E at 2; rewrite (proj2 (opp_2 (edge k))); reflexivity). rewrite EO in H. rewrite tgt_opp, src_opp in H. tauto.
Qed.
Lemma pick nx v : In nx b -> src nx = v -> (if Nat.eqb (src (2 * edge nx)) v then 2 * edge nx else 2 * edge nx + 1) = nx.
Proof.
  intros I E. destruct (halfedge_cases nx) as [En|En].
  - rewrite <- En, E, Nat.eqb_refl. reflexivity.
  - rewrite <- En. assert (EO : 2 * edge nx = opp nx) by (rewrite En at 2; rewrite (proj2 (opp_2 (edge nx))); reflexivity). rewrite EO, src_opp. pose proof (b_proper nx I) as P. assert (Nat.eqb (tgt nx) v = false) as -> by (apply Nat.eqb_neq; congruence). reflexivity.
Qed.
Lemma walk post : forall pre cur walked fuel, first :: L = pre ++ cur :: post -> (forall e, In e walked <-> In e (map edge pre)) -> length post < fuel ->
  exterior_walk seg registry cnt fuel bd cur walked pre = Some (first :: L).
Proof.
  induction post as [|nx post IH]; intros pre cur walked fuel E HW F; (destruct fuel as [|fuel]; [lia|]); cbn [exterior_walk].
  all: assert (Ic : In cur b) by (apply fl_b; rewrite E; apply in_elt).
  all: set (pr := fun e => _ && _ && _).
  all: assert (HW' : forall e, existsb (Nat.eqb e) (edge cur :: walked) = true <-> In e (map edge (pre ++ [cur]))) by (intros e; fold (mem e (edge cur :: walked)); rewrite mem_iff, map_app, in_app_iff; cbn [In map]; rewrite HW; tauto).
  all: assert (PR : forall e, In e bd -> pr e = true -> exists k, e = edge k /\ In k b /\ ~ In e (map edge (pre ++ [cur])) /\ src k = tgt cur) by
    (intros e Ie P; unfold pr in P; apply andb_prop in P; destruct P as [P _]; apply andb_prop in P; destruct P as [P1 P2]; apply negb_true_iff in P1; apply BD, in_map_iff in Ie; destruct Ie as (k & <- & Ik); exists k; split; [reflexivity|]; split; [exact Ik|];
     assert (NW : ~ In (edge k) (map edge (pre ++ [cur]))) by (intros K; apply HW' in K; congruence); split; [exact NW|]; apply orb_prop in P2; rewrite !Nat.eqb_eq in P2; apply touching in P2; destruct P2 as [P2|P2]; [exact P2|]; exfalso; apply NW; rewrite (b_tgt_uniq k cur Ik Ic P2), map_app; apply in_elt).
  - destruct (find pr bd) as [e|] eqn:EF; [|f_equal; symmetry; exact E]. exfalso. apply find_some in EF. destruct EF as [Ie P]. destruct (PR e Ie P) as (k & -> & Ik & NW & S).
    pose proof fl_steps as ST. rewrite E, <- app_assoc in ST. cbn [app] in ST. apply steps_app in ST. destruct ST as [_ [ST _]].
    assert (k = first) by (apply b_src_uniq; [exact Ik|apply fl_b; left; reflexivity|congruence]). subst k. apply NW. rewrite <- E. left. reflexivity.
  - pose proof fl_steps as ST. rewrite E in ST. replace ((pre ++ cur :: nx :: post) ++ [first]) with (pre ++ cur :: nx :: (post ++ [first])) in ST by (rewrite <- app_assoc; reflexivity). apply steps_app in ST. destruct ST as [_ [ST _]].
    assert (In_nx : In nx b) by (apply fl_b; rewrite E; apply in_or_app; right; right; left; reflexivity).
    assert (P : pr (edge nx) = true).
    { unfold pr. assert (W : existsb (Nat.eqb (edge nx)) (edge cur :: walked) = false).
      { destruct (existsb (Nat.eqb (edge nx)) (edge cur :: walked)) eqn:EW; [|reflexivity]. exfalso. apply HW' in EW. apply in_map_iff in EW. destruct EW as (k & Ek & Ik).
        assert (Kb : In k b) by (apply fl_b; rewrite E; replace (pre ++ cur :: nx :: post) with ((pre ++ [cur]) ++ nx :: post) by (rewrite <- app_assoc; reflexivity); apply in_or_app; left; exact Ik).
        apply same_edge in Ek. destruct Ek as [-> | ->]; [|apply (DB nx); assumption]. pose proof fl_nodup as N. rewrite E in N. replace (pre ++ cur :: nx :: post) with ((pre ++ [cur]) ++ nx :: post) in N by (rewrite <- app_assoc; reflexivity). apply NoDup_remove_2 in N. apply N, in_or_app. left. exact Ik. }
      rewrite W. cbn [negb andb]. rewrite (BB (edge nx)) by (apply BD, in_map, In_nx). rewrite andb_true_r, orb_true_iff, !Nat.eqb_eq.
      destruct (halfedge_cases nx) as [En|En]; [right; rewrite <- En; congruence|left]. assert (EO : 2 * edge nx = opp nx) by (rewrite En at 2; rewrite (proj2 (opp_2 (edge nx))); reflexivity). rewrite EO, tgt_opp. congruence. }
    assert (EF : find pr bd = Some (edge nx)).
    { destruct (find pr bd) as [e|] eqn:EF.
      - apply find_some in EF. destruct EF as [Ie P']. destruct (PR e Ie P') as (k & -> & Ik & _ & S). f_equal. f_equal. apply b_src_uniq; [exact Ik|exact In_nx|congruence].
      - exfalso. pose proof (find_none _ _ EF (edge nx)) as K. rewrite K in P; [discriminate|]. apply BD, in_map, In_nx. }
    rewrite EF, (pick nx (tgt cur) In_nx (eq_sym ST)). apply IH.
    + rewrite <- app_assoc. exact E.
    + intros e. rewrite map_app, in_app_iff. cbn [In map]. rewrite HW. tauto.
    + cbn in F. lia.
Qed.
End Walk.

(** ** The whole function *)
Section Whole.
Variables (psrc : nat -> nat) (pface : nat -> option nat) (ps_halfedge : nat -> nat -> option nat) (registry : list (nat * nat)) (cnt : nat) (pieces : list (nat * list nat)).
Variable partition : (nat -> bool) -> list nat -> list nat.
Hypothesis PART : forall p l, Permutation (partition p l) l /\ exists A B, partition p l = A ++ B /\ (forall x, In x A -> p x = true) /\ (forall x, In x B -> p x = false).
Variables (f : nat) (edges cs ms : list nat) (ps : list (list nat)).
Hypothesis CL : clipped src tgt opp b ps cs ms.
Hypothesis SIZE : forall P, In P ps -> 3 <= length P.
Hypothesis ED : Permutation edges (map edge (b ++ cs)).
Hypothesis NE : NoDup edges.
Hypothesis EB : forall h, In h b -> is_boundary seg registry cnt (edge h) = true.
Hypothesis EC : forall h, In h cs -> is_boundary seg registry cnt (edge h) = false.
Notation isb := (is_boundary seg registry cnt).

Lemma edges_nodup : NoDup (map edge (b ++ cs)).
Proof. eapply Permutation_NoDup; [exact ED|exact NE]. Qed.
Lemma nodup_halfedges l : NoDup (map edge l) -> NoDup (l ++ map opp l).
Proof.
  intros N. induction l as [|x l IH]; [constructor|]. cbn [map] in *. inversion_clear N as [|? ? Nx N']. specialize (IH N').
  assert (K : forall y, edge y = edge x -> ~ In y (l ++ map opp l)). { intros y Ey I. apply Nx. apply in_app_or in I. destruct I as [I|I]; [rewrite <- Ey; apply in_map, I|]. apply in_map_iff in I. destruct I as (z & <- & I). rewrite edge_opp in Ey. rewrite <- Ey. apply in_map, I. }
  cbn [app]. constructor.
  - intros I. apply in_app_or in I. destruct I as [I|[I|I]]; [apply (K x eq_refl), in_or_app; left; exact I|apply (opp_neq x I)|apply (K x eq_refl), in_or_app; right; exact I].
  - apply (Permutation_NoDup (Permutation_middle _ _ _)). constructor; [apply K, edge_opp|exact IH].
Qed.
Lemma face_distinct : distinct opp b cs.
Proof.
  unfold distinct. pose proof (nodup_halfedges _ edges_nodup) as N. eapply Permutation_NoDup; [|exact N]. apply (Permutation_count_occ Nat.eq_dec). intros x. rewrite !map_app, !count_occ_app. lia.
Qed.
Lemma filter_b : Permutation (filter isb edges) (map edge b).
Proof.
  assert (P : Permutation (filter isb edges) (filter isb (map edge (b ++ cs)))) by (apply perm_filter, ED).
  rewrite P, map_app, filter_app. assert (E1 : filter isb (map edge b) = map edge b). { clear - EB. induction b as [|x l IH]; [reflexivity|]. cbn. rewrite (EB x (or_introl eq_refl)). f_equal. apply IH. intros h I. apply EB. right. exact I. }
  assert (E2 : filter isb (map edge cs) = []). { clear - EC. induction cs as [|x l IH]; [reflexivity|]. cbn. rewrite (EC x (or_introl eq_refl)). apply IH. intros h I. apply EC. right. exact I. }
  rewrite E1, E2, app_nil_r. reflexivity.
Qed.
Lemma filter_c : Permutation (filter (fun e => negb (isb e)) edges) (map edge cs).
Proof.
  assert (P : Permutation (filter (fun e => negb (isb e)) edges) (filter (fun e => negb (isb e)) (map edge (b ++ cs)))) by (apply perm_filter, ED).
  rewrite P, map_app, filter_app. assert (E1 : filter (fun e => negb (isb e)) (map edge b) = []). { clear - EB. induction b as [|x l IH]; [reflexivity|]. cbn. rewrite (EB x (or_introl eq_refl)). cbn. apply IH. intros h I. apply EB. right. exact I. }
  assert (E2 : filter (fun e => negb (isb e)) (map edge cs) = map edge cs). { clear - EC. induction cs as [|x l IH]; [reflexivity|]. cbn. rewrite (EC x (or_introl eq_refl)). cbn. f_equal. apply IH. intros h I. apply EC. right. exact I. }
  rewrite E1, E2. reflexivity.
Qed.
Definition bcount : nat := length (filter isb edges).
Definition bedges : list nat := firstn bcount (partition isb edges).
Definition cedges : list nat := skipn bcount (partition isb edges).
Lemma parts : Permutation bedges (map edge b) /\ Permutation cedges (map edge cs).
Proof.
  destruct (PART isb edges) as (P & A & B & E & HA & HB).
  assert (FA : forall l, (forall x, In x l -> isb x = true) -> filter isb l = l /\ filter (fun e => negb (isb e)) l = []) by (induction l as [|x l IH]; intros H; [auto|]; destruct IH as [I1 I2]; [intros y Iy; apply H; right; exact Iy|]; cbn; rewrite (H x (or_introl eq_refl)); cbn; rewrite I1, I2; auto).
  assert (FB : forall l, (forall x, In x l -> isb x = false) -> filter isb l = [] /\ filter (fun e => negb (isb e)) l = l) by (induction l as [|x l IH]; intros H; [auto|]; destruct IH as [I1 I2]; [intros y Iy; apply H; right; exact Iy|]; cbn; rewrite (H x (or_introl eq_refl)); cbn; rewrite I1, I2; auto).
  destruct (FA A HA) as [A1 A2], (FB B HB) as [B1 B2'].
  pose proof perm_filter as PF.
  assert (PA : Permutation A (map edge b)). { rewrite <- filter_b, <- (PF isb _ _ P), E, filter_app, A1, B1, app_nil_r. reflexivity. }
  assert (PB : Permutation B (map edge cs)). { rewrite <- filter_c, <- (PF (fun e => negb (isb e)) _ _ P), E, filter_app, A2, B2'. reflexivity. }
  assert (BC : bcount = length A). { unfold bcount. rewrite (Permutation_length filter_b), (Permutation_length PA). reflexivity. }
  unfold bedges, cedges. rewrite BC, E. rewrite firstn_app, Nat.sub_diag, firstn_all, firstn_O, app_nil_r. rewrite skipn_app, Nat.sub_diag, skipn_all. cbn. auto.
Qed.
Lemma two_sides l : Permutation (flat_map (fun e => [2 * e; 2 * e + 1]) (map edge l)) (l ++ map opp l).
Proof.
  induction l as [|x l IH]; [constructor|]. change (flat_map (fun e => [2 * e; 2 * e + 1]) (map edge (x :: l))) with ([2 * edge x; 2 * edge x + 1] ++ flat_map (fun e => [2 * e; 2 * e + 1]) (map edge l)). rewrite IH.
  assert (P : Permutation [2 * edge x; 2 * edge x + 1] [x; opp x]). { destruct (opp_2 (edge x)) as [O1 O2]. destruct (halfedge_cases x) as [E|E]; [rewrite E at 3 4; rewrite O1; reflexivity|rewrite E at 3 4; rewrite O2; apply perm_swap]. }
  rewrite P. cbn [app map]. constructor. apply Permutation_middle.
Qed.
Lemma length_concat : length ps <= length (concat ps).
Proof. clear - SIZE. induction ps as [|P l IH]; [constructor|]. cbn. rewrite app_length. pose proof (SIZE P (or_introl eq_refl)). assert (length l <= length (concat l)) by (apply IH; intros Q I; apply SIZE; right; exact I). lia. Qed.
Theorem clip_correct first : first_boundary seg psrc pface ps_halfedge registry cnt pieces f bedges = Some first -> In first b -> ~ In (src first) ms ->
  exists out, clip seg psrc pface ps_halfedge registry cnt pieces partition f edges = Some out /\ same_polygons ps out.
Proof.
  intros FB IF FM. destruct parts as [P1 P2]. destruct (rotation_at b first IF) as (L & R).
  assert (BD : forall e, In e bedges <-> In e (map edge b)) by (intros e; split; apply Permutation_in; [|symmetry]; exact P1).
  assert (W : exterior_walk seg registry cnt (S (length bedges)) bedges first [] [] = Some (first :: L)).
  { apply (walk registry cnt bedges BD) with (post := L); [intros e I; apply BD, in_map_iff in I; destruct I as (h & <- & I); apply EB, I|exact R|reflexivity|reflexivity|].
    rewrite (Permutation_length P1), map_length, (Permutation_length (rotation_perm _ _ R)). cbn. lia. }
  unfold clip. fold bcount. fold bedges. fold cedges. cbv zeta. rewrite FB. cbn [CutModel.bind]. rewrite W. cbn [CutModel.bind].
  assert (INT : Permutation (flat_map (fun e => [2 * e; 2 * e + 1]) cedges) (cs ++ map opp cs)). { rewrite <- two_sides. clear - P2. induction P2; [constructor|cbn [flat_map]; apply Permutation_app_head; assumption| |etransitivity; eassumption]. cbn [flat_map]. rewrite !app_assoc. apply Permutation_app_tail, Permutation_app_comm. }
  set (inter := flat_map _ cedges) in *. pose proof (clipped_inv src tgt opp opp_opp (src_opp seg) (tgt_opp seg) b RB ps cs ms CL face_distinct) as INV.
  destruct (trace_correct seg b cs ms ps RB face_distinct INV (first :: L) inter (rotation_perm _ _ R) INT SIZE first L eq_refl R FM (S (length ((first :: L) ++ inter)))) as (out & EO & SP); [|exists out; auto].
  pose proof (Permutation_length (i_perm _ _ _ _ _ _ _ INV)) as LP. pose proof length_concat as LC. pose proof (Permutation_length INT) as LI. pose proof (Permutation_length (rotation_perm _ _ R)) as LR. unfold ClipInv.all in LP. rewrite (app_length b) in LP. rewrite (app_length (first :: L)). lia.
Qed.
End Whole.
End Face.
