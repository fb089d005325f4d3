(** Proofs about ClipModel: tracing the polygons of a clipped face. *)
From Coq Require Import List Arith Bool Lia Permutation.
From Verif Require Import CutModel ClipModel ClipSpec ClipInv.
Import ListNotations.

Lemma even_split h : h = 2 * edge h + (if Nat.even h then 0 else 1).
Proof.
  unfold edge. rewrite <- Nat.negb_odd. pose proof (Nat.div2_odd h) as E. unfold Nat.b2n in E. destruct (Nat.odd h); cbn [negb]; lia.
Qed.
Lemma even_2 e : Nat.even (2 * e) = true /\ Nat.even (2 * e + 1) = false.
Proof. rewrite Nat.add_1_r, Nat.even_succ, <- Nat.negb_even, Nat.even_mul. auto. Qed.
Lemma edge_2 e : edge (2 * e) = e /\ edge (2 * e + 1) = e.
Proof. unfold edge. split; [apply Nat.div2_double|rewrite Nat.add_1_r; apply Nat.div2_succ_double]. Qed.
Lemma opp_2 e : opp (2 * e) = 2 * e + 1 /\ opp (2 * e + 1) = 2 * e.
Proof. unfold opp. destruct (even_2 e) as [-> ->]. lia. Qed.
Lemma halfedge_cases h : h = 2 * edge h \/ h = 2 * edge h + 1.
Proof. pose proof (even_split h). destruct (Nat.even h); lia. Qed.
Lemma opp_opp h : opp (opp h) = h.
Proof. destruct (halfedge_cases h) as [-> | ->]; destruct (opp_2 (edge h)) as [E1 E2]; rewrite ?E1, ?E2; auto. Qed.
Lemma edge_opp h : edge (opp h) = edge h.
Proof. destruct (halfedge_cases h) as [E|E]; rewrite E at 1; destruct (opp_2 (edge h)) as [E1 E2], (edge_2 (edge h)) as [F1 F2]; rewrite ?E1, ?E2, ?F1, ?F2; auto. Qed.
Lemma same_edge h k : edge h = edge k -> h = k \/ h = opp k.
Proof.
  intros E. destruct (halfedge_cases h) as [Eh|Eh], (halfedge_cases k) as [Ek|Ek]; rewrite E in Eh; [left; congruence| | |left; congruence]; right; rewrite Eh, Ek; destruct (opp_2 (edge k)) as [E1 E2], (edge_2 (edge k)) as [F1 F2]; rewrite ?F1, ?F2; congruence.
Qed.
Lemma opp_neq h : opp h <> h.
Proof. destruct (halfedge_cases h) as [E|E]; rewrite E; destruct (opp_2 (edge h)) as [E1 E2]; rewrite ?E1, ?E2; lia. Qed.

Section Proofs.
Variable seg : nat -> nat * nat.
Notation src := (src seg). Notation tgt := (tgt seg).
Lemma src_opp h : src (opp h) = tgt h.
Proof. reflexivity. Qed.
Lemma tgt_opp h : tgt (opp h) = src h.
Proof. unfold ClipModel.tgt. rewrite opp_opp. reflexivity. Qed.

Definition mem (h : nat) (l : list nat) : bool := existsb (Nat.eqb h) l.
Lemma mem_iff h l : mem h l = true <-> In h l.
Proof. unfold mem. rewrite existsb_exists. split; [intros (x & I & E); apply Nat.eqb_eq in E; subst; exact I|intros I; exists h; split; [exact I|apply Nat.eqb_refl]]. Qed.
Lemma mem_not h l : mem h l = false <-> ~ In h l.
Proof. rewrite <- mem_iff. destruct (mem h l); intuition congruence. Qed.

(** ** One polygon *)
Section Trace.
Variables b cs ms : list nat.
Variable ps : list (list nat).
Hypothesis RB : ring src tgt b.
Hypothesis D : distinct opp b cs.
Hypothesis INV : inv src tgt opp b ps cs ms.
Notation all := (all opp b). Notation good := (good src tgt opp b).
(** incident_halfedges *)
Variables b' inter : list nat.
Hypothesis B' : Permutation b b'.
Hypothesis INT : Permutation inter (cs ++ map opp cs).
Definition incident : list nat := b' ++ inter.
Definition minus (W : list nat) : list nat := filter (fun h => negb (mem h W)) incident.
Lemma incident_perm : Permutation incident (all cs).
Proof. unfold incident, ClipInv.all. apply Permutation_app; [symmetry; exact B'|exact INT]. Qed.
Lemma nodup_all : NoDup (all cs).
Proof. apply (distinct_facts opp opp_opp b cs D). Qed.
Lemma nodup_incident : NoDup incident.
Proof. eapply Permutation_NoDup; [symmetry; apply incident_perm|exact nodup_all]. Qed.
Lemma in_incident h : In h incident <-> In h (all cs).
Proof. split; apply Permutation_in; [|symmetry]; apply incident_perm. Qed.
Lemma in_b' h : In h b' <-> In h b.
Proof. split; apply Permutation_in; [symmetry|]; exact B'. Qed.
Lemma in_minus h W : In h (minus W) <-> In h (all cs) /\ ~ In h W.
Proof. unfold minus. rewrite filter_In, in_incident, negb_true_iff, mem_not. tauto. Qed.
Lemma nodup_minus W : NoDup (minus W).
Proof. apply NoDup_filter, nodup_incident. Qed.
Lemma erase_filter (l : list nat) f h : NoDup l -> In h l -> f h = true -> erase h (filter f l) = Some (filter (fun x => f x && negb (Nat.eqb x h)) l).
Proof.
  induction l as [|x l IH]; intros N I F; [destruct I|]. inversion_clear N as [|? ? Nx N']. cbn [filter]. destruct I as [-> | I].
  - rewrite F, Nat.eqb_refl. cbn [erase negb andb]. rewrite Nat.eqb_refl. f_equal. apply filter_ext_in. intros y Iy. assert (y <> h) by congruence. apply Nat.eqb_neq in H. rewrite H. cbn. rewrite andb_true_r. reflexivity.
  - assert (X : x <> h) by congruence. destruct (f x) eqn:Fx; cbn [andb].
    + cbn [erase]. assert (Nat.eqb h x = false) as -> by (apply Nat.eqb_neq; congruence). rewrite (IH N' I F). assert (Nat.eqb x h = false) as -> by (apply Nat.eqb_neq; exact X). reflexivity.
    + apply (IH N' I F).
Qed.
Lemma erase_minus h W : In h (all cs) -> ~ In h W -> erase h (minus W) = Some (minus (W ++ [h])).
Proof.
  intros I N. unfold minus. rewrite erase_filter; [|exact nodup_incident|apply in_incident, I|apply negb_true_iff, mem_not, N].
  f_equal. apply filter_ext. intros x. unfold mem. rewrite existsb_app. cbn [existsb]. rewrite negb_orb. rewrite orb_false_r. reflexivity.
Qed.
Lemma exterior_iff h : is_exterior incident (length b') h = mem h b'.
Proof. unfold is_exterior, incident. rewrite firstn_app, Nat.sub_diag, firstn_all, firstn_O, app_nil_r. reflexivity. Qed.

Definition candidates (cur : nat) (W : list nat) : list nat := filter (fun h => Nat.eqb (src h) (tgt cur)) (minus W).
Lemma in_candidates i cur W : In i (candidates cur W) <-> In i (all cs) /\ ~ In i W /\ src i = tgt cur.
Proof. unfold candidates. rewrite filter_In, in_minus, Nat.eqb_eq. tauto. Qed.
Lemma candidates_2 cur W : length (candidates cur W) <= 2.
Proof.
  pose proof (i_out _ _ _ _ _ _ _ INV (tgt cur)) as H. unfold outs in H. eapply Nat.le_trans; [|exact H]. apply NoDup_incl_length; [apply NoDup_filter, nodup_minus|]. intros i I. apply in_candidates in I. apply filter_In. rewrite Nat.eqb_eq. tauto.
Qed.
Lemma candidates_order cur W u v : candidates cur W = [u; v] -> In v b -> In u b.
Proof.
  unfold candidates, minus, incident. rewrite !filter_app. intros E Iv. apply in_b' in Iv. apply in_b'.
  set (L1 := filter _ (filter _ b')) in *. set (L2 := filter _ (filter _ inter)) in *. destruct L1 as [|w L1'] eqn:EL1.
  - exfalso. cbn in E. assert (K : In v inter) by (assert (K : In v L2) by (rewrite E; right; left; reflexivity); unfold L2 in K; apply filter_In in K; destruct K as [K _]; apply filter_In in K; apply K).
    pose proof nodup_incident as N. unfold incident in N. apply NoDup_app3 in N. destruct N as (_ & _ & N). apply (N v); assumption.
  - cbn in E. injection E as -> _. assert (K : In u L1) by (rewrite EL1; left; reflexivity). unfold L1 in K. apply filter_In in K. destruct K as [K _]. apply filter_In in K. apply K.
Qed.
Lemma out3 v (l : list nat) : NoDup l -> (forall x, In x l -> In x (all cs) /\ src x = v) -> length l <= 2.
Proof.
  intros N H. eapply Nat.le_trans; [|apply (i_out _ _ _ _ _ _ _ INV v)]. unfold outs. apply NoDup_incl_length; [exact N|]. intros x I. apply filter_In. rewrite Nat.eqb_eq. apply H, I.
Qed.

Definition choice (cur : nat) (cand : list nat) (prime : nat) : nat :=
  if Nat.eqb (length cand) 2 then
    if is_exterior incident (length b') cur then last cand prime else if Nat.eqb (opp cur) prime then last cand prime else prime
  else prime.
Lemma select h h' W : good cs h h' -> In h (all cs) -> In h' (all cs) -> ~ In h' W -> exists prime rest, candidates h W = prime :: rest /\ choice h (prime :: rest) prime = h'.
Proof.
  intros (G1 & G2 & G3) Ih Ih' N. assert (IC : In h' (candidates h W)) by (apply in_candidates; auto). pose proof (candidates_2 h W) as L2.
  assert (NC : NoDup (candidates h W)) by (apply NoDup_filter, nodup_minus).
  destruct (candidates h W) as [|u [|v [|w l]]] eqn:EC; [destruct IC| | |cbn in L2; lia].
  - exists u, []. split; [reflexivity|]. unfold choice. cbn. destruct IC as [E|[]]. exact E.
  - exists u, [v]. split; [reflexivity|]. unfold choice. cbn [length Nat.eqb last]. rewrite exterior_iff.
    assert (U : In u (all cs) /\ ~ In u W /\ src u = tgt h) by (apply in_candidates; rewrite EC; left; reflexivity).
    assert (V : In v (all cs) /\ ~ In v W /\ src v = tgt h) by (apply in_candidates; rewrite EC; right; left; reflexivity).
    assert (UV : u <> v) by (inversion_clear NC as [|? ? K _]; intros ->; apply K; left; reflexivity).
    destruct (mem h b') eqn:M.
    + apply mem_iff, in_b' in M. destruct IC as [<-|[<-|[]]]; [|reflexivity]. exfalso. destruct (G2 M v) as [K1 K2]; [tauto|tauto|congruence|]. apply K2. apply (candidates_order h W u v EC K1).
    + apply mem_not in M. rewrite in_b' in M. assert (NO : h' <> opp h). { intros E. pose proof (G3 M E u) as Ku. pose proof (G3 M E v) as Kv. apply UV. rewrite Ku, Kv; tauto. }
      destruct (Nat.eqb_spec (opp h) u) as [E|E]; [destruct IC as [<-|[<-|[]]]; congruence|].
      destruct IC as [<-|[<-|[]]]; [reflexivity|]. exfalso.
      assert (OA : In (opp h) (all cs)). { apply (in_all opp opp_opp b) in Ih. apply (in_all opp opp_opp b). rewrite opp_opp. tauto. }
      assert (length [u; v; opp h] <= 2); [|cbn in *; lia]. apply (out3 (tgt h)).
      * constructor; [cbn; intuition congruence|]. constructor; [cbn; intuition congruence|]. constructor; [intros []|constructor].
      * intros x [<-|[<-|[<-|[]]]]; [tauto|tauto|]. split; [exact OA|apply src_opp].
Qed.

Lemma trace_step fuel cur child W : In cur (all cs) -> ~ In cur W ->
  trace_one seg (S fuel) incident (length b') (minus W) child cur =
  (let child := child ++ [cur] in let front := hd cur child in
   let closed := Nat.leb 3 (length child) && Nat.eqb (src front) (tgt cur) in
   let cand := candidates cur (W ++ [cur]) in
   let premptive := if Nat.eqb (length cand) 2 && is_exterior incident (length b') cur then Some (last cand 0) else None in
   if closed && (negb (Nat.eqb cur (opp front)) || match premptive with Some h => existsb (Nat.eqb h) child | None => false end) then Some (true, child, minus (W ++ [cur]))
   else match cand with [] => Some (false, child, minus (W ++ [cur])) | prime :: rest => trace_one seg fuel incident (length b') (minus (W ++ [cur])) child (choice cur (prime :: rest) prime) end).
Proof. intros I N. cbn [trace_one]. rewrite (erase_minus cur W I N). cbv beta iota delta [CutModel.bind]. fold (candidates cur (W ++ [cur])). cbv zeta. destruct (candidates cur (W ++ [cur])); reflexivity. Qed.

Section Polygon.
Variable P : list nat.
Hypothesis IP : In P ps.
Hypothesis P3 : 3 <= length P.
Variable front : nat.
Variable L : list nat.
Hypothesis RP : rotation P (front :: L).
Hypothesis FB : In front b.
Hypothesis FM : ~ In (src front) ms.
Lemma nodup_concat : NoDup (concat ps).
Proof. eapply Permutation_NoDup; [symmetry; apply (i_perm _ _ _ _ _ _ _ INV)|exact nodup_all]. Qed.
Lemma nodup_P : NoDup P.
Proof.
  pose proof nodup_concat as N. destruct (in_split _ _ IP) as (A & B & E). rewrite E, concat_app in N. cbn [concat] in N. apply NoDup_app3 in N. destruct N as (_ & N & _). apply NoDup_app3 in N. apply N.
Qed.
Lemma P_all x : In x P -> In x (all cs).
Proof. intros I. eapply Permutation_in; [apply (i_perm _ _ _ _ _ _ _ INV)|]. apply in_concat. exists P. auto. Qed.
Lemma FL_P x : In x (front :: L) <-> In x P.
Proof. split; apply Permutation_in; [symmetry|]; apply rotation_perm, RP. Qed.
Lemma FL_nodup : NoDup (front :: L).
Proof. eapply Permutation_NoDup; [apply rotation_perm, RP|apply nodup_P]. Qed.
Lemma FL_steps : steps (good cs) ((front :: L) ++ [front]).
Proof. destruct (i_cyc _ _ _ _ _ _ _ INV P IP) as [_ C]. rewrite (cyc_rot _ _ _ RP) in C. exact C. Qed.
Lemma trace_polygon post : forall pre cur W fuel, front :: L = pre ++ cur :: post -> (forall x, In x (cur :: post) -> ~ In x W) -> length post < fuel ->
  trace_one seg fuel incident (length b') (minus W) pre cur = Some (true, front :: L, minus (W ++ cur :: post)).
Proof.
  induction post as [|nx post IH]; intros pre cur W fuel E NW F; (destruct fuel as [|fuel]; [lia|]); assert (Ic : In cur (front :: L)) by (rewrite E; apply in_elt);
    (rewrite trace_step; [|apply P_all, FL_P, Ic|apply NW; left; reflexivity]); cbv zeta.
  - rewrite <- E. cbn [hd]. pose proof FL_steps as S. rewrite E in S. rewrite <- app_assoc in S. cbn [app] in S. apply steps_app in S. destruct S as [_ [(G1 & _) _]]. rewrite <- G1, Nat.eqb_refl.
    assert (3 <= length (front :: L)) as L3 by (rewrite <- (Permutation_length (rotation_perm _ _ RP)); exact P3). apply Nat.leb_le in L3. rewrite L3. cbn [andb].
    assert (NO : cur <> opp front).
    { intros K. assert (Ka : In (opp front) (all cs)) by (rewrite <- K; apply P_all, FL_P, Ic). apply (in_all opp opp_opp b) in Ka. rewrite opp_opp in Ka. destruct (distinct_facts opp opp_opp b cs D) as (_ & D1 & D2 & _). specialize (D1 front FB). specialize (D2 front FB). tauto. }
    apply Nat.eqb_neq in NO. rewrite NO. cbn [negb orb]. reflexivity.
  - assert (HF : hd cur (pre ++ [cur]) = front) by (destruct pre; [cbn in *; congruence|cbn in *; congruence]). rewrite HF.
    assert (NCl : Nat.eqb (src front) (tgt cur) = false).
    { apply Nat.eqb_neq. intros K. destruct (exists_last (l := nx :: post) ltac:(discriminate)) as (post' & l & El).
      pose proof FL_steps as S. rewrite E in S. rewrite El in S. replace ((pre ++ cur :: post' ++ [l]) ++ [front]) with ((pre ++ cur :: post') ++ l :: [front]) in S by (rewrite <- !app_assoc; cbn [app]; rewrite <- !app_assoc; reflexivity). apply steps_app in S. destruct S as [_ [(G1 & _) _]].
      assert (Il : In l (front :: L)) by (rewrite E, El; apply in_or_app; right; right; apply in_elt).
      assert (cur = l). { apply (i_start _ _ _ _ _ _ _ INV P front); try assumption; try (apply FL_P; assumption); [apply FL_P; left; reflexivity|congruence]. }
      subst l. pose proof FL_nodup as N. rewrite E, El in N. apply NoDup_remove_2 in N. apply N. apply in_or_app. right. apply in_elt. }
    rewrite NCl, andb_false_r. cbn [andb].
    pose proof FL_steps as S. rewrite E in S. replace ((pre ++ cur :: nx :: post) ++ [front]) with (pre ++ cur :: nx :: (post ++ [front])) in S by (rewrite <- app_assoc; reflexivity). apply steps_app in S. destruct S as [_ [G _]].
    assert (In_nx : In nx (front :: L)) by (rewrite E; apply in_or_app; right; right; left; reflexivity).
    assert (Nnc : nx <> cur). { pose proof FL_nodup as N. rewrite E in N. apply NoDup_remove_2 in N. intros ->. apply N. apply in_or_app. right. left. reflexivity. }
    destruct (select cur nx (W ++ [cur]) G) as (prime & rest & EC & CH); [apply P_all, FL_P, Ic|apply P_all, FL_P, In_nx| |].
    { intros K. apply in_app_or in K. destruct K as [K|[K|[]]]; [|congruence]. apply (NW nx); [right; left; reflexivity|exact K]. }
    rewrite EC, CH. rewrite (IH (pre ++ [cur]) nx (W ++ [cur]) fuel).
    + rewrite <- app_assoc. reflexivity.
    + rewrite <- app_assoc. exact E.
    + intros x Ix K. apply in_app_or in K. destruct K as [K|[<-|[]]]; [apply (NW x); [right; exact Ix|exact K]|]. pose proof FL_nodup as N. rewrite E in N. apply NoDup_remove_2 in N. apply N, in_or_app. right. exact Ix.
    + cbn in F. lia.
Qed.
End Polygon.

(** ** All polygons *)
Hypothesis SIZE : forall P, In P ps -> 3 <= length P.
Variable x0 : nat.
Variable L0 : list nat.
Hypothesis EB' : b' = x0 :: L0.
Hypothesis RB' : rotation b b'.
Hypothesis XM : ~ In (src x0) ms.
Lemma minus_ext W W' : (forall x, In x (all cs) -> In x W <-> In x W') -> minus W = minus W'.
Proof.
  intros E. unfold minus. apply filter_ext_in. intros x I. f_equal. apply eq_true_iff_eq. rewrite !mem_iff. apply E, in_incident, I.
Qed.
Lemma pred_b' h : In h b -> h <> x0 -> exists U k V, b' = U ++ k :: h :: V /\ tgt k = src h /\ In k b.
Proof.
  intros I N. apply in_b' in I. rewrite EB' in I. destruct I as [I|I]; [congruence|]. destruct (in_split _ _ I) as (U & V & EL). destruct (exists_last (l := x0 :: U) ltac:(discriminate)) as (U' & k & EU).
  assert (E : b' = U' ++ k :: h :: V). { rewrite EB', EL. change (x0 :: U ++ h :: V) with ((x0 :: U) ++ h :: V). rewrite EU, <- app_assoc. reflexivity. }
  exists U', k, V. split; [exact E|]. split; [|apply in_b'; rewrite E; apply in_elt].
  assert (C : cyc (fun h h' => tgt h = src h') b).
  { destruct RB as (NB & (a & PB) & _). unfold cyc. destruct b as [|x X]; [congruence|]. apply (path_steps src tgt a _ (tgt x)). apply (path_app src tgt). exists a. split; [exact PB|]. cbn. split; [apply (path_hd src tgt _ _ _ _ PB)|reflexivity]. }
  rewrite (cyc_rot _ _ _ RB') in C. rewrite EB' in C. unfold cyc in C. rewrite <- EB', E in C. replace ((U' ++ k :: h :: V) ++ [x0]) with (U' ++ k :: h :: (V ++ [x0])) in C by (rewrite <- app_assoc; reflexivity). apply steps_app in C. apply C.
Qed.
Lemma head_minus W f rest : minus W = f :: rest -> (exists h, In h b /\ ~ In h W) -> In f b /\ (f <> x0 -> exists k, In k b /\ tgt k = src f /\ In k W).
Proof.
  intros E (h & Hb & Hw). assert (M : minus W = filter (fun h => negb (mem h W)) b' ++ filter (fun h => negb (mem h W)) inter) by (unfold minus, incident; apply filter_app).
  assert (Fb : In f b /\ exists r, filter (fun h => negb (mem h W)) b' = f :: r).
  { destruct (filter (fun h => negb (mem h W)) b') as [|g r] eqn:EF.
    - exfalso. assert (K : In h (filter (fun h => negb (mem h W)) b')) by (apply filter_In; split; [apply in_b', Hb|apply negb_true_iff, mem_not, Hw]). rewrite EF in K. destruct K.
    - rewrite E in M. injection M as -> _. split; [|exists r; reflexivity]. assert (K : In g (filter (fun h => negb (mem h W)) b')) by (rewrite EF; left; reflexivity). apply filter_In in K. apply in_b', K. }
  destruct Fb as (Fb & r & EF). split; [exact Fb|]. intros N0. destruct (pred_b' f Fb N0) as (U & k & V & Eb & T & Kb). exists k. split; [exact Kb|]. split; [exact T|].
  destruct (mem k W) eqn:Mk; [apply mem_iff, Mk|]. exfalso. rewrite Eb, filter_app in EF. cbn [filter] in EF. rewrite Mk in EF. cbn [negb] in EF.
  pose proof nodup_incident as ND. unfold incident in ND. apply NoDup_app3 in ND. destruct ND as (ND & _). rewrite Eb in ND.
  destruct (filter (fun h => negb (mem h W)) U) as [|g U'] eqn:EU.
  - cbn in EF. injection EF as -> _. apply NoDup_remove_2 in ND. apply ND, in_or_app. right. left. reflexivity.
  - cbn in EF. injection EF as -> _. assert (K : In f U) by (assert (K : In f (filter (fun h => negb (mem h W)) U)) by (rewrite EU; left; reflexivity); apply filter_In in K; apply K).
    apply NoDup_app3 in ND. destruct ND as (_ & _ & ND). apply (ND f); [exact K|right; left; reflexivity].
Qed.

Lemma perm_concat (l l' : list (list nat)) : Permutation l l' -> Permutation (concat l) (concat l').
Proof. induction 1; cbn [concat]; [reflexivity|apply Permutation_app_head; assumption|rewrite !app_assoc; apply Permutation_app_tail, Permutation_app_comm|etransitivity; eassumption]. Qed.
Lemma trace_rest n : forall Rs Ds W fuel, length Rs = S n -> Permutation ps (Ds ++ Rs) -> (forall x, In x (all cs) -> In x W <-> In x (concat Ds)) -> (Ds = [] \/ In x0 W) -> n < fuel ->
  exists out, trace_all seg fuel incident (length b') (minus W) = Some out /\ same_polygons Rs out.
Proof.
  induction n as [|n IH]; intros Rs Ds W fuel LR PR HW HD F; (destruct fuel as [|fuel]; [lia|]).
  all: assert (RI : forall P, In P Rs -> In P ps) by (intros P I; eapply Permutation_in; [symmetry; exact PR|]; apply in_or_app; right; exact I).
  all: assert (NC : NoDup (concat (Ds ++ Rs))) by (eapply Permutation_NoDup; [apply (perm_concat _ _ PR)|apply nodup_concat]).
  all: rewrite concat_app in NC; destruct (NoDup_app3 _ _ NC) as (_ & NR & NDR).
  all: assert (RW : forall P x, In P Rs -> In x P -> In x (all cs) /\ ~ In x W) by (intros P x I J; assert (Ka : In x (all cs)) by (apply (P_all P (RI P I)), J); split; [exact Ka|intros K; apply (HW x Ka) in K; apply (NDR x K); apply in_concat; exists P; auto]).
  all: assert (TODO : exists first rest, minus W = first :: rest).
  1, 3: destruct Rs as [|P Rs']; [discriminate|]; pose proof (SIZE P (RI P (or_introl eq_refl))) as L3; destruct P as [|x P']; [cbn in L3; lia|]; destruct (RW (x :: P') x (or_introl eq_refl) (or_introl eq_refl)) as [K1 K2]; assert (K : In x (minus W)) by (apply in_minus; auto); destruct (minus W) as [|f r]; [destruct K|exists f, r; reflexivity].
  all: destruct TODO as (first & rest & ET).
  all: assert (If : In first (all cs) /\ ~ In first W) by (apply in_minus; rewrite ET; left; reflexivity).
  all: assert (BH : exists h, In h b /\ ~ In h W) by (destruct Rs as [|P Rs']; [discriminate|]; destruct (i_b _ _ _ _ _ _ _ INV P (RI P (or_introl eq_refl))) as (h & Ih & Hb); exists h; split; [exact Hb|apply (RW P h (or_introl eq_refl) Ih)]).
  all: destruct (head_minus W first rest ET BH) as [Fb Fp].
  all: assert (FP : exists P, In P Rs /\ In first P) by (assert (K : In first (concat (Ds ++ Rs))) by (eapply Permutation_in; [apply (perm_concat _ _ PR)|eapply Permutation_in; [symmetry; apply (i_perm _ _ _ _ _ _ _ INV)|apply If]]); rewrite concat_app in K; apply in_app_or in K; destruct K as [K|K]; [exfalso; apply (proj2 If); apply HW; [apply If|exact K]|apply in_concat in K; destruct K as (P & K1 & K2); exists P; auto]).
  all: destruct FP as (P & IP & IfP).
  all: assert (FM : ~ In (src first) ms) by (intros K; destruct (Nat.eq_dec first x0) as [-> | N0]; [contradiction|]; destruct (Fp N0) as (k & Kb & Tk & Kw); destruct (RW P k IP) as [_ KK]; [apply (i_mouth _ _ _ _ _ _ _ INV (src first) P k first); try assumption; [apply RI, IP|reflexivity]|contradiction]).
  all: destruct (rotation_at P first IfP) as (L & RPL).
  all: pose proof (trace_polygon P (RI P IP) (SIZE P (RI P IP)) first L RPL Fb FM L [] first W (S (length (minus W))) eq_refl) as T.
  all: assert (PermL : Permutation P (first :: L)) by (apply rotation_perm, RPL).
  all: assert (T' : trace_one seg (S (length (minus W))) incident (length b') (minus W) [] first = Some (true, first :: L, minus (W ++ first :: L)))
    by (apply T; [intros x Ix; apply (RW P x IP); eapply Permutation_in; [symmetry; exact PermL|exact Ix]|]; assert (length (first :: L) <= length (minus W)) by (apply NoDup_incl_length; [eapply Permutation_NoDup; [exact PermL|apply (nodup_P P (RI P IP))]|intros x Ix; apply in_minus; apply (RW P x IP); eapply Permutation_in; [symmetry; exact PermL|exact Ix]]); cbn [length] in *; lia).
  all: destruct (in_split _ _ IP) as (R1 & R2 & ER).
  - cbn [trace_all]. assert (HE : hd_error (minus W) = Some first) by (rewrite ET; reflexivity). rewrite HE. cbn [CutModel.bind]. rewrite T'. cbn [CutModel.bind].
    assert (R1 = [] /\ R2 = []) as [-> ->] by (subst Rs; rewrite app_length in LR; cbn in LR; destruct R1, R2; cbn in LR; try lia; auto). cbn in ER. subst Rs.
    assert (EM : minus (W ++ first :: L) = []).
    { destruct (minus (W ++ first :: L)) as [|y l] eqn:EM; [reflexivity|]. exfalso. assert (K : In y (minus (W ++ first :: L))) by (rewrite EM; left; reflexivity). apply in_minus in K. destruct K as [K1 K2]. apply K2, in_or_app.
      assert (K : In y (concat (Ds ++ [P]))) by (eapply Permutation_in; [apply (perm_concat _ _ PR)|eapply Permutation_in; [symmetry; apply (i_perm _ _ _ _ _ _ _ INV)|exact K1]]).
      rewrite concat_app in K. apply in_app_or in K. destruct K as [K|K]; [left; apply HW; assumption|right]. cbn in K. rewrite app_nil_r in K. eapply Permutation_in; [exact PermL|exact K]. }
    rewrite EM. exists [first :: L]. split; [reflexivity|]. exists [P]. split; [reflexivity|]. constructor; [exact RPL|constructor].
  - cbn [trace_all]. assert (HE : hd_error (minus W) = Some first) by (rewrite ET; reflexivity). rewrite HE. cbn [CutModel.bind]. rewrite T'. cbn [CutModel.bind].
    destruct (IH (R1 ++ R2) (Ds ++ [P]) (W ++ first :: L) fuel) as (out & EO & SP).
    + subst Rs. rewrite app_length in *. cbn [length] in LR. lia.
    + rewrite PR. subst Rs. rewrite <- app_assoc. apply Permutation_app_head. cbn [app]. symmetry. apply Permutation_middle.
    + intros x Ix. rewrite concat_app, !in_app_iff. cbn [concat]. rewrite app_nil_r, (HW x Ix). assert (In x P <-> In x (first :: L)) by (split; apply Permutation_in; [|symmetry]; exact PermL). tauto.
    + right. destruct HD as [-> | K]; [|apply in_or_app; left; exact K].
      apply in_or_app. right. left. destruct (Nat.eq_dec first x0) as [E|N0]; [exact E|]. destruct (Fp N0) as (k & _ & _ & Kw). exfalso.
      assert (W0 : forall x, In x (all cs) -> ~ In x W) by (intros x Ix K; apply (HW x Ix) in K; destruct K).
      assert (Ex : In x0 b) by (apply in_b'; rewrite EB'; left; reflexivity). assert (X0a : In x0 (all cs)) by (apply (in_all opp opp_opp b); left; exact Ex).
      assert (EF : minus W = incident) by (unfold minus; clear - W0 INV D B' INT; assert (K : forall x, In x incident -> negb (mem x W) = true) by (intros x Ix; apply negb_true_iff, mem_not, W0, in_incident, Ix); revert K; induction incident as [|y l IHl]; intros K; [reflexivity|cbn [filter]; rewrite (K y (or_introl eq_refl)); f_equal; apply IHl; intros x Ix; apply K; right; exact Ix]).
      rewrite ET in EF. unfold incident in EF. rewrite EB' in EF. cbn in EF. congruence.
    + lia.
    + destruct (minus (W ++ first :: L)) as [|y l] eqn:EM.
      * exfalso. destruct (R1 ++ R2) as [|Q Qs] eqn:ERR; [subst Rs; rewrite app_length in LR; cbn in LR; apply app_eq_nil in ERR; destruct ERR as [-> ->]; cbn in LR; lia|].
        assert (IQ : In Q Rs) by (subst Rs; assert (K : In Q (R1 ++ R2)) by (rewrite ERR; left; reflexivity); apply in_app_or in K; apply in_or_app; cbn; tauto).
        pose proof (SIZE Q (RI Q IQ)) as LQ. destruct Q as [|z Q']; [cbn in LQ; lia|]. destruct (RW (z :: Q') z IQ (or_introl eq_refl)) as [Za Zw].
        assert (K : In z (minus (W ++ first :: L))).
        { apply in_minus. split; [exact Za|]. intros K. apply in_app_or in K. destruct K as [K|K]; [contradiction|]. assert (Zp : In z P) by (eapply Permutation_in; [symmetry; exact PermL|exact K]).
          subst Rs. assert (K' : In (z :: Q') (R1 ++ R2)) by (rewrite ERR; left; reflexivity). apply in_app_or in K'. apply (concat_disjoint R1 R2 P (z :: Q') z NR K' (or_introl eq_refl) Zp). }
        rewrite EM in K. destruct K.
      * cbv iota. rewrite EO. cbn [CutModel.bind]. exists ((first :: L) :: out). split; [reflexivity|]. destruct SP as (Ss & SP1 & SP2). exists (P :: Ss). split; [subst Rs; rewrite <- Permutation_middle; constructor; exact SP1|]. constructor; assumption.
Qed.
Theorem trace_correct fuel : length ps <= fuel -> exists out, trace_all seg fuel incident (length b') incident = Some out /\ same_polygons ps out.
Proof.
  intros F. destruct (length ps) as [|n] eqn:E.
  - exfalso. destruct ps as [|P ps']; [|discriminate]. pose proof (i_perm _ _ _ _ _ _ _ INV) as K. cbn in K. apply Permutation_nil in K. unfold ClipInv.all in K. apply app_eq_nil in K. destruct K as [K _]. destruct RB as (N & _). contradiction.
  - assert (EF : minus [] = incident) by (unfold minus; induction incident as [|y l IHl]; [reflexivity|cbn [filter mem existsb negb]; f_equal; exact IHl]).
    destruct (trace_rest n ps [] [] fuel E) as (out & EO & SP); [reflexivity|intros; reflexivity|left; reflexivity|lia|]. rewrite EF in EO. exists out. auto.
Qed.
End Trace.
End Proofs.
