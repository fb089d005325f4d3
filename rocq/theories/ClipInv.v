(** Proofs about ClipSpec: the polygons of a clipped face. *)
From Coq Require Import List Arith Bool Lia Permutation.
From Verif Require Import ClipSpec.
Import ListNotations.

Section Inv.
Variables src tgt opp : nat -> nat.
Hypothesis opp_opp : forall h, opp (opp h) = h.
Hypothesis src_opp : forall h, src (opp h) = tgt h.
Hypothesis tgt_opp : forall h, tgt (opp h) = src h.
Notation path := (path src tgt). Notation reverse := (reverse opp). Notation untouched := (untouched src tgt).

(** ** Sequences *)
Fixpoint steps (R : nat -> nat -> Prop) (L : list nat) : Prop :=
  match L with x :: ((y :: _) as L') => R x y /\ steps R L' | _ => True end.
Definition cyc (R : nat -> nat -> Prop) (P : list nat) : Prop := match P with [] => True | x :: _ => steps R (P ++ [x]) end.
Lemma steps_app R L1 y L2 : steps R (L1 ++ y :: L2) <-> steps R (L1 ++ [y]) /\ steps R (y :: L2).
Proof.
  induction L1 as [|x L1 IH]; cbn [app]; [cbn; tauto|]. destruct L1 as [|z L1]; [cbn; tauto|]. cbn [app] in *. cbn [steps]. cbn [steps] in IH. rewrite IH. tauto.
Qed.
Lemma steps_elim R L U h h' V : steps R L -> L = U ++ h :: h' :: V -> R h h'.
Proof. intros S ->. apply steps_app in S. apply S. Qed.
Lemma steps_intro (R : nat -> nat -> Prop) L : (forall U h h' V, L = U ++ h :: h' :: V -> R h h') -> steps R L.
Proof.
  induction L as [|x L IH]; intros H; [exact I|]. destruct L as [|y L]; [exact I|]. split; [exact (H [] x y L eq_refl)|]. apply IH. intros U h h' V E. apply (H (x :: U) h h' V). cbn. rewrite E. reflexivity.
Qed.
Lemma cyc_app R x X y Y : cyc R ((x :: X) ++ y :: Y) <-> steps R ((x :: X) ++ [y]) /\ steps R ((y :: Y) ++ [x]).
Proof. unfold cyc. change ((x :: X) ++ y :: Y) with (x :: (X ++ y :: Y)). cbv iota. assert (E : (x :: X ++ y :: Y) ++ [x] = (x :: X) ++ y :: (Y ++ [x])) by (cbn; rewrite <- app_assoc; reflexivity). rewrite E. apply (steps_app R (x :: X) y (Y ++ [x])). Qed.
Lemma cyc_rot R P Q : rotation P Q -> cyc R P <-> cyc R Q.
Proof.
  intros (X & Y & -> & ->). destruct X as [|x X]; [rewrite app_nil_r; reflexivity|]. destruct Y as [|y Y]; [rewrite app_nil_r; reflexivity|]. rewrite !cyc_app. tauto.
Qed.
Lemma rotation_perm P Q : rotation P Q -> Permutation P Q.
Proof. intros (X & Y & -> & ->). apply Permutation_app_comm. Qed.
Lemma rotation_sym P Q : rotation P Q -> rotation Q P.
Proof. intros (X & Y & -> & ->). exists Y, X. auto. Qed.
Lemma rotation_at P h : In h P -> exists L, rotation P (h :: L).
Proof. intros I. destruct (in_split _ _ I) as (X & Y & ->). exists (Y ++ X), X, (h :: Y). auto. Qed.

Lemma path_app a X Y b : path a (X ++ Y) b <-> exists m, path a X m /\ path m Y b.
Proof.
  revert a. induction X as [|x X IH]; intros a; cbn [app ClipSpec.path]; [split; [intros H; exists a; auto|intros (m & -> & H); exact H]|].
  rewrite IH. split; [intros (E & m & H1 & H2); exists m; auto|intros (m & (E & H1) & H2); split; [exact E|exists m; auto]].
Qed.
Lemma path_reverse a X b : path a X b -> path b (reverse X) a.
Proof.
  revert a. induction X as [|x X IH]; intros a; cbn [ClipSpec.path]; [intros ->; reflexivity|]. intros [E P]. unfold ClipSpec.reverse. cbn [rev]. rewrite map_app. apply path_app. exists (tgt x). split; [apply IH, P|]. cbn. rewrite src_opp, tgt_opp. auto.
Qed.
Lemma reverse_reverse X : reverse (reverse X) = X.
Proof. unfold ClipSpec.reverse. rewrite <- map_rev, rev_involutive, map_map. erewrite map_ext; [apply map_id|]. exact opp_opp. Qed.
Lemma In_reverse x X : In x (reverse X) <-> In (opp x) X.
Proof.
  unfold ClipSpec.reverse. rewrite in_map_iff. split; [intros (y & <- & I); rewrite opp_opp; apply in_rev, I|]. intros I. exists (opp x). split; [apply opp_opp|rewrite <- in_rev; exact I].
Qed.
Lemma path_snoc a X b : path a X b -> X <> [] -> exists X' x, X = X' ++ [x] /\ tgt x = b.
Proof. intros P N. destruct (exists_last N) as (X' & x & ->). exists X', x. split; [reflexivity|]. apply path_app in P. destruct P as (m & _ & P). cbn in P. apply P. Qed.
Lemma path_hd a x X b : path a (x :: X) b -> src x = a.
Proof. intros P. apply P. Qed.
Lemma path_tgts a X b : path a X b -> X <> [] -> map tgt X = tl (map src X) ++ [b].
Proof.
  revert a. induction X as [|x X IH]; intros a P N; [congruence|]. destruct X as [|y X]; [cbn in *; destruct P as (_ & ->); reflexivity|]. destruct P as [_ P]. pose proof (path_hd _ _ _ _ P) as E. specialize (IH (tgt x) P ltac:(discriminate)).
  cbn [map tl] in *. cbn [app]. rewrite IH, E. reflexivity.
Qed.
Lemma path_steps a X b : path a X b -> steps (fun h h' => tgt h = src h') X.
Proof. revert a. induction X as [|x X IH]; intros a P; [exact I|]. destruct X as [|y X]; [exact I|]. destruct P as [_ P]. split; [symmetry; apply (path_hd _ _ _ _ P)|apply (IH _ P)]. Qed.

(** ** The invariant *)
Variable b : list nat.
Hypothesis RB : ring src tgt b.
Lemma srcs_b : NoDup (map src b).
Proof. apply RB. Qed.
Lemma tgts_b : NoDup (map tgt b).
Proof.
  destruct RB as (N & (a & P) & S). rewrite (path_tgts a b a P N). destruct b as [|x X]; [congruence|]. cbn [map tl] in *. rewrite <- (path_hd _ _ _ _ P). eapply Permutation_NoDup; [|exact S]. apply Permutation_cons_append.
Qed.
Lemma NoDup_map_inj {A} (f : A -> nat) l : NoDup (map f l) -> forall x y, In x l -> In y l -> f x = f y -> x = y.
Proof.
  induction l as [|a l IH]; intros N x y Ix Iy E; [destruct Ix|]. cbn in N. inversion_clear N as [|? ? Na N']. destruct Ix as [<-|Ix], Iy as [<-|Iy]; auto.
  - exfalso. apply Na. rewrite E. apply in_map, Iy.
  - exfalso. apply Na. rewrite <- E. apply in_map, Ix.
Qed.
Lemma tgt_src_b v : In v (map tgt b) <-> In v (map src b).
Proof.
  destruct RB as (N & (a & P) & S). rewrite (path_tgts a b a P N). destruct b as [|x X]; [congruence|]. cbn [map tl] in *. rewrite <- (path_hd _ _ _ _ P). rewrite in_app_iff. cbn. tauto.
Qed.

Definition all (cs : list nat) : list nat := b ++ cs ++ map opp cs.
Definition distinct (cs : list nat) : Prop := NoDup (b ++ map opp b ++ cs ++ map opp cs).
Definition good (cs : list nat) (h h' : nat) : Prop :=
  tgt h = src h' /\ (In h b -> forall i, In i (all cs) -> src i = tgt h -> i <> h' -> In i b /\ ~ In h' b) /\ (~ In h b -> h' = opp h -> forall i, In i (all cs) -> src i = tgt h -> i = h').
Definition outs (v : nat) (l : list nat) : nat := length (filter (fun h => Nat.eqb (src h) v) l).

Record inv (ps : list (list nat)) (cs ms : list nat) : Prop := {
  i_perm : Permutation (concat ps) (all cs);
  i_cyc : forall P, In P ps -> P <> [] /\ cyc (good cs) P;
  i_out : forall v, outs v (all cs) <= 2;
  i_start : forall P h k1 k2, In P ps -> In h b -> In h P -> ~ In (src h) ms -> In k1 P -> In k2 P -> tgt k1 = src h -> tgt k2 = src h -> k1 = k2;
  i_b : forall P, In P ps -> exists h, In h P /\ In h b;
  i_mouth : forall s P k h, In s ms -> In P ps -> In k b -> In h b -> tgt k = s -> src h = s -> In h P -> In k P;
  i_ms : forall s, In s ms -> exists h, In h cs /\ src h = s }.

Lemma in_all x cs : In x (all cs) <-> In x b \/ In x cs \/ In (opp x) cs.
Proof.
  unfold all. rewrite !in_app_iff. split; intros [H|[H|H]]; auto; right; right; [apply in_map_iff in H; destruct H as (y & <- & I); rewrite opp_opp; exact I|]. apply in_map_iff. exists (opp x). auto.
Qed.
Lemma distinct_sub c cs : distinct (c ++ cs) -> distinct cs.
Proof.
  unfold distinct. rewrite map_app. intros N. assert (P : Permutation (b ++ map opp b ++ (c ++ cs) ++ map opp c ++ map opp cs) ((c ++ map opp c) ++ b ++ map opp b ++ cs ++ map opp cs)).
  { apply (Permutation_count_occ Nat.eq_dec). intros x. rewrite !count_occ_app. lia. }
  apply (Permutation_NoDup P) in N. clear - N. induction (c ++ map opp c) as [|x l IH]; [exact N|]. inversion_clear N. auto.
Qed.
Lemma NoDup_app3 {A} (l l' : list A) : NoDup (l ++ l') -> NoDup l /\ NoDup l' /\ forall x, In x l -> In x l' -> False.
Proof.
  induction l as [|a l IH]; intros N; [split; [constructor|split; [exact N|intros x []]]|]. cbn in N. inversion_clear N as [|? ? Na N']. destruct (IH N') as (A1 & A2 & A3). split; [constructor; [intros K; apply Na, in_or_app; left; exact K|exact A1]|]. split; [exact A2|].
  intros x [<-|I] I'; [apply Na, in_or_app; right; exact I'|apply (A3 x); assumption].
Qed.
Lemma distinct_facts cs : distinct cs -> NoDup (all cs) /\ (forall x, In x b -> ~ In (opp x) b) /\ (forall x, In x b -> ~ In x cs /\ ~ In (opp x) cs) /\ (forall x, In x cs -> ~ In (opp x) cs).
Proof.
  intros N. unfold distinct in N. destruct (NoDup_app3 _ _ N) as (N1 & N2 & D1). destruct (NoDup_app3 _ _ N2) as (N3 & N4 & D2). destruct (NoDup_app3 _ _ N4) as (N5 & N6 & D3).
  assert (OM : forall x l, In x l -> In (opp x) (map opp l)) by (intros; apply in_map; assumption).
  assert (OM' : forall x l, In (opp x) l -> In x (map opp l)) by (intros x l I; rewrite <- (opp_opp x); apply in_map; exact I).
  split; [|split; [|split]].
  - unfold all. clear - N1 N4 D1. induction b as [|x l IH]; [exact N4|]. cbn. inversion_clear N1 as [|? ? Nx N1']. constructor; [|apply IH; [exact N1'|intros y I I'; apply (D1 y); [right; exact I|]]].
    + intros K. apply in_app_or in K. destruct K as [K|K]; [contradiction|]. apply (D1 x); [left; reflexivity|]. apply in_or_app. right. exact K.
    + cbn [map]. apply in_app_or in I'. destruct I' as [I'|I']; [apply in_or_app; left; right; exact I'|apply in_or_app; right; exact I'].
  - intros x I I'. apply (D1 (opp x) I'). apply in_or_app. left. apply OM, I.
  - intros x I. split; intros I'; apply (D1 x I); apply in_or_app; right; apply in_or_app; [left; exact I'|right; apply OM', I'].
  - intros x I I'. apply (D3 x I). apply OM', I'.
Qed.

(** a boundary point without cuts has one way in and one way out *)
Lemma free_src cs v i : untouched cs v -> In i (all cs) -> src i = v -> In i b.
Proof. intros U I E. apply in_all in I. destruct I as [I|[I|I]]; [exact I| |]; exfalso; apply U in I; rewrite ?src_opp, ?tgt_opp in I; tauto. Qed.
Lemma free_tgt cs v i : untouched cs v -> In i (all cs) -> tgt i = v -> In i b.
Proof. intros U I E. apply in_all in I. destruct I as [I|[I|I]]; [exact I| |]; exfalso; apply U in I; rewrite ?src_opp, ?tgt_opp in I; tauto. Qed.
Lemma src_uniq i j : In i b -> In j b -> src i = src j -> i = j.
Proof. apply NoDup_map_inj, srcs_b. Qed.
Lemma tgt_uniq i j : In i b -> In j b -> tgt i = tgt j -> i = j.
Proof. apply NoDup_map_inj, tgts_b. Qed.
Lemma fresh_out cs v i : fresh src tgt b cs v -> In i (all cs) -> src i <> v /\ tgt i <> v.
Proof.
  intros [N U] I. split; intros E.
  - apply N. rewrite <- E. apply in_map, (free_src cs v); assumption.
  - apply N. apply tgt_src_b. rewrite <- E. apply in_map, (free_tgt cs v); assumption.
Qed.

Lemma good_mono c cs h h' : good cs h h' -> untouched c (tgt h) -> good (c ++ cs) h h'.
Proof.
  intros (G1 & G2 & G3) U. assert (K : forall i, In i (all (c ++ cs)) -> src i = tgt h -> In i (all cs)).
  { intros i I E. apply in_all in I. apply in_all. rewrite !in_app_iff in I. destruct I as [I|[[I|I]|[I|I]]]; auto; exfalso; apply U in I; rewrite ?src_opp, ?tgt_opp in I; tauto. }
  split; [exact G1|]. split; [intros Ib i I E N|intros Ib Eo i I E]; [apply G2; auto|apply G3; auto].
Qed.

(** the directed edges of a new cut *)
Section Cut.
Variables (c cs : list nat).
Hypothesis D : distinct (c ++ cs).
Lemma cut_facts : (forall x, In x b -> ~ In x c /\ ~ In (opp x) c) /\ (forall x, In x c -> ~ In (opp x) c).
Proof. destruct (distinct_facts _ D) as (_ & _ & D1 & D2). split; [intros x I; destruct (D1 x I) as [K1 K2]; rewrite in_app_iff in K1, K2; tauto|]. intros x I K. apply (D2 x); apply in_or_app; left; assumption. Qed.
Lemma inside_good c' a z : path a c' z -> (forall x, In x c' -> In x c \/ In (opp x) c) -> (forall x, In x c' -> ~ In (opp x) c') -> steps (good (c ++ cs)) c'.
Proof.
  intros P S DI. apply steps_intro. intros U h h' V E. assert (Ih : In h c') by (rewrite E; apply in_elt). assert (Ih' : In h' c') by (rewrite E; apply in_or_app; right; right; left; reflexivity).
  destruct cut_facts as [F1 F2]. assert (NB : ~ In h b) by (intros K; apply F1 in K; destruct (S h Ih); tauto).
  split; [exact (steps_elim _ _ _ _ _ _ (path_steps _ _ _ P) E)|]. split; [intros K; contradiction|]. intros _ -> i Ii Ei. exfalso. apply (DI h Ih Ih').
Qed.
(** the way into the cut *)
Lemma enter_good x y v : free src tgt b cs v -> In x (all cs) -> tgt x = v -> (In y c \/ In (opp y) c) -> src y = v -> (forall z, (In z c \/ In (opp z) c) -> src z = v -> z = y) -> good (c ++ cs) x y.
Proof.
  intros [_ U] Ix Tx Iy Sy Un. destruct cut_facts as [F1 F2]. assert (XB : In x b) by (apply (free_tgt cs v); assumption).
  split; [congruence|]. split; [|intros K; contradiction]. intros _ i Ii Ei Ni. rewrite Tx in Ei. split.
  - apply in_all in Ii. rewrite !in_app_iff in Ii. destruct Ii as [Ii|[[Ii|Ii]|[Ii|Ii]]]; [exact Ii| | | |].
    + exfalso. apply Ni, Un; auto.
    + exfalso. apply U in Ii. tauto.
    + exfalso. apply Ni, Un; auto.
    + exfalso. apply U in Ii. rewrite src_opp, tgt_opp in Ii. tauto.
  - intros K. apply F1 in K. tauto.
Qed.
(** the way out of the cut *)
Lemma leave_good y x v : free src tgt b cs v -> In x (all cs) -> src x = v -> (In y c \/ In (opp y) c) -> tgt y = v -> good (c ++ cs) y x.
Proof.
  intros [_ U] Ix Sx Iy Ty. destruct cut_facts as [F1 F2]. assert (XB : In x b) by (apply (free_src cs v); assumption). assert (YB : ~ In y b) by (intros K; apply F1 in K; tauto).
  split; [congruence|]. split; [intros K; contradiction|]. intros _ -> i Ii Ei. exfalso. apply F1 in XB. rewrite opp_opp in XB. tauto.
Qed.
End Cut.

Lemma outs_app v l l' : outs v (l ++ l') = outs v l + outs v l'.
Proof. unfold outs. rewrite filter_app, app_length. reflexivity. Qed.
Lemma outs_count v l : outs v l = count_occ Nat.eq_dec (map src l) v.
Proof. unfold outs. induction l as [|x l IH]; [reflexivity|]. cbn [filter map count_occ]. destruct (Nat.eqb_spec (src x) v), (Nat.eq_dec (src x) v); try congruence; cbn [length]; rewrite IH; reflexivity. Qed.
Lemma outs_opp v l : outs v (map opp l) = count_occ Nat.eq_dec (map tgt l) v.
Proof. rewrite outs_count, map_map. f_equal. apply map_ext, src_opp. Qed.
Lemma count_le1 v l : NoDup l -> count_occ Nat.eq_dec l v <= 1.
Proof. intros N. apply (proj1 (NoDup_count_occ Nat.eq_dec l) N). Qed.
Lemma count_0 v (l : list nat) : ~ In v l -> count_occ Nat.eq_dec l v = 0.
Proof. apply count_occ_not_In. Qed.
Lemma outs_all v c cs : outs v (all (c ++ cs)) = outs v (all cs) + outs v c + outs v (map opp c).
Proof. unfold all. rewrite map_app. rewrite !outs_app. lia. Qed.
Lemma outs_free v cs : untouched cs v -> outs v (all cs) <= 1.
Proof.
  intros U. unfold all. rewrite !outs_app. rewrite (outs_opp v cs), (outs_count v cs), (outs_count v b). rewrite (count_0 v (map src cs)), (count_0 v (map tgt cs)).
  - pose proof (count_le1 v _ srcs_b). lia.
  - intros K. apply in_map_iff in K. destruct K as (x & E & I). apply U in I. tauto.
  - intros K. apply in_map_iff in K. destruct K as (x & E & I). apply U in I. tauto.
Qed.
Lemma outs_fresh v cs : fresh src tgt b cs v -> outs v (all cs) = 0.
Proof.
  intros F. unfold outs. assert (N : forall x, In x (all cs) -> Nat.eqb (src x) v = false) by (intros x I; apply Nat.eqb_neq, (fresh_out cs v x F I)).
  induction (all cs) as [|x l IH]; [reflexivity|]. cbn [filter]. rewrite (N x (or_introl eq_refl)). apply IH. intros y I. apply N. right. exact I.
Qed.

(** ** One more cut, from a to z *)
Section Step.
Variables (c cs : list nat) (a z : nat).
Hypothesis D : distinct (c ++ cs).
Hypothesis PC : path a c z.
Hypothesis NC : c <> [].
Hypothesis SC : NoDup (map src c ++ [z]).
Hypothesis Fa : free src tgt b cs a.
Hypothesis Fz : free src tgt b cs z \/ fresh src tgt b cs z.
Hypothesis Fi : forall v, In v (tl (map src c)) -> fresh src tgt b cs v.
Lemma c_srcs : map src c = a :: tl (map src c).
Proof. destruct c as [|x X]; [congruence|]. cbn. rewrite (path_hd _ _ _ _ PC). reflexivity. Qed.
Lemma c_tgts : map tgt c = tl (map src c) ++ [z].
Proof. apply (path_tgts a); assumption. Qed.
Lemma c_tgts_nodup : NoDup (map tgt c).
Proof. rewrite c_tgts. pose proof SC as N. rewrite c_srcs in N. cbn [app] in N. inversion_clear N. assumption. Qed.
Lemma c_srcs_nodup : NoDup (map src c).
Proof. apply NoDup_app3 in SC. apply SC. Qed.
Lemma c_src x : In x c -> src x = a \/ fresh src tgt b cs (src x).
Proof. intros I. apply (in_map src) in I. rewrite c_srcs in I. destruct I as [<-|I]; [left; reflexivity|right; apply Fi, I]. Qed.
Lemma c_tgt x : In x c -> tgt x = z \/ fresh src tgt b cs (tgt x).
Proof. intros I. apply (in_map tgt) in I. rewrite c_tgts in I. apply in_app_or in I. destruct I as [I|[<-|[]]]; [right; apply Fi, I|left; reflexivity]. Qed.
Lemma src_not_z x : In x c -> src x <> z.
Proof. intros I E. apply NoDup_app3 in SC. destruct SC as (_ & _ & H). apply (H z); [rewrite <- E; apply in_map, I|left; reflexivity]. Qed.
Lemma tgt_not_a x : In x c -> tgt x <> a.
Proof. intros I E. pose proof SC as N. rewrite c_srcs in N. cbn [app] in N. inversion_clear N as [|? ? H _]. apply H. rewrite <- c_tgts, <- E. apply in_map, I. Qed.
Lemma joint_mono h h' : good cs h h' -> In h' (all cs) -> src h' <> a -> src h' <> z -> good (c ++ cs) h h'.
Proof.
  intros G I Na Nz. apply good_mono; [exact G|]. destruct G as (E & _). rewrite E. intros x Ix. split; intros K.
  - destruct (c_src x Ix) as [H|H]; [congruence|]. rewrite K in H. apply (fresh_out cs _ h') in H; tauto.
  - destruct (c_tgt x Ix) as [H|H]; [congruence|]. rewrite K in H. apply (fresh_out cs _ h') in H; tauto.
Qed.
Lemma arc_mono L : steps (good cs) L -> (forall x, In x L -> In x (all cs)) -> (forall x, In x (tl L) -> src x <> a /\ src x <> z) -> steps (good (c ++ cs)) L.
Proof.
  induction L as [|x L IH]; intros S I N; [exact Logic.I|]. destruct L as [|y L]; [exact Logic.I|]. destruct S as [G S]. cbn [tl] in N. split.
  - destruct (N y (or_introl eq_refl)). apply joint_mono; try assumption. apply I. right. left. reflexivity.
  - apply IH; [exact S|intros w Iw; apply I; right; exact Iw|]. intros w Iw. apply N. right. exact Iw.
Qed.
Lemma step_out : (forall v, outs v (all cs) <= 2) -> forall v, outs v (all (c ++ cs)) <= 2.
Proof.
  intros H v. rewrite outs_all, outs_opp, outs_count with (l := c).
  pose proof (count_le1 v _ c_srcs_nodup) as L1. pose proof (count_le1 v _ c_tgts_nodup) as L2. specialize (H v).
  destruct (in_dec Nat.eq_dec v (map src c)) as [I|I], (in_dec Nat.eq_dec v (map tgt c)) as [J|J].
  - assert (F : fresh src tgt b cs v). { rewrite c_srcs in I. destruct I as [<-|I]; [|apply Fi, I]. exfalso. apply in_map_iff in J. destruct J as (x & E & J). apply (tgt_not_a x J E). }
    rewrite (outs_fresh v cs F). lia.
  - rewrite (count_0 v _ J). assert (U : untouched cs v). { rewrite c_srcs in I. destruct I as [<-|I]; [apply Fa|apply (Fi v I)]. } pose proof (outs_free v cs U). lia.
  - rewrite (count_0 v _ I). assert (U : untouched cs v). { rewrite c_tgts in J. apply in_app_or in J. destruct J as [J|[<-|[]]]; [apply (Fi v J)|destruct Fz as [F|F]; apply F]. } pose proof (outs_free v cs U). lia.
  - rewrite (count_0 v _ I), (count_0 v _ J). lia.
Qed.
Lemma opp_in_c x : In x c \/ In (opp x) c -> In x (all (c ++ cs)).
Proof. intros H. apply in_all. rewrite !in_app_iff. tauto. Qed.
Lemma all_mono x : In x (all cs) -> In x (all (c ++ cs)).
Proof. intros H. apply in_all in H. apply in_all. rewrite !in_app_iff. tauto. Qed.
Lemma c_no_opp x : In x c -> ~ In (opp x) c.
Proof. apply (proj2 (cut_facts c cs D)). Qed.
Lemma c_src_uniq w x : (In w c \/ In (opp w) c) -> In x c -> src w = a -> src x = a -> w = x.
Proof.
  intros [I|I] J E E'; [apply (NoDup_map_inj src c c_srcs_nodup); congruence|]. exfalso. apply (tgt_not_a _ I). rewrite tgt_opp. exact E.
Qed.
Lemma c_tgt_uniq w x : (In w c \/ In (opp w) c) -> In x c -> tgt w = z -> tgt x = z -> w = x.
Proof.
  intros [I|I] J E E'; [apply (NoDup_map_inj tgt c c_tgts_nodup); congruence|]. exfalso. apply (src_not_z _ I). rewrite src_opp. exact E.
Qed.
End Step.

Lemma steps_imp (R R' : nat -> nat -> Prop) L : (forall x y, In x L -> In y L -> R x y -> R' x y) -> steps R L -> steps R' L.
Proof.
  induction L as [|x L IH]; intros H S; [exact S|]. destruct L as [|y L]; [exact S|]. destruct S as [S1 S2]. split; [apply H; [left; reflexivity|right; left; reflexivity|exact S1]|]. apply IH; [|exact S2]. intros u v Iu Iv. apply H; right; assumption.
Qed.
Lemma steps_snoc R L x y : steps R (L ++ [x]) -> R x y -> steps R ((L ++ [x]) ++ [y]).
Proof. intros S H. rewrite <- app_assoc. cbn [app]. apply steps_app. split; [exact S|]. cbn. auto. Qed.
Lemma good_ext cs1 cs2 h h' : (forall x, In x (all cs1) <-> In x (all cs2)) -> good cs1 h h' -> good cs2 h h'.
Proof. intros E (G1 & G2 & G3). split; [exact G1|]. split; [intros Ib i I; apply G2; [exact Ib|apply E, I]|intros Ib Eo i I; apply G3; [exact Ib|exact Eo|apply E, I]]. Qed.

Lemma whole_inv : distinct [] -> inv [b] [] [].
Proof.
  intros D. destruct RB as (N & (a & P) & S). assert (All : all [] = b) by (unfold all; cbn; apply app_nil_r). split.
  - cbn. rewrite All, app_nil_r. reflexivity.
  - intros Q [<-|[]]. split; [exact N|]. assert (C : cyc (fun h h' => tgt h = src h') b).
    { unfold cyc. destruct b as [|x X] eqn:Eb; [exact I|]. apply (path_steps a _ (tgt x)). apply path_app. exists a. split; [exact P|]. cbn. rewrite (path_hd _ _ _ _ P). auto. }
    unfold cyc in *. destruct b as [|x X] eqn:Eb; [exact I|]. rewrite <- Eb in *. revert C. apply steps_imp. intros h h' Ih Ih' E.
    assert (B : forall u, In u (b ++ [x]) -> In u b) by (intros u Iu; apply in_app_or in Iu; destruct Iu as [Iu|[<-|[]]]; [exact Iu|rewrite Eb; left; reflexivity]).
    split; [exact E|]. rewrite All. split; [intros _ i Ii Ei Ni; exfalso; apply Ni, src_uniq; [exact Ii|apply B, Ih'|congruence]|]. intros K. exfalso. apply K, B, Ih.
  - intros v. rewrite All. pose proof (outs_free v [] ltac:(intros ? [])) as H. rewrite All in H. lia.
  - intros Q h k1 k2 [<-|[]] _ _ _ I1 I2 E1 E2. apply tgt_uniq; congruence.
  - intros Q [<-|[]]. destruct b as [|x X]; [congruence|]. exists x. split; left; reflexivity.
  - intros s Q k h [].
  - intros s [].
Qed.

(** one half of a polygon that is cut through *)
Section Half.
Variables (c cs : list nat) (p q : nat).
Hypothesis D : distinct (c ++ cs).
Hypothesis PC : path q c p.
Hypothesis NC : c <> [].
Hypothesis SC : NoDup (map src c ++ [p]).
Hypothesis Fq : free src tgt b cs q.
Hypothesis Fp : free src tgt b cs p.
Hypothesis Fi : forall v, In v (tl (map src c)) -> fresh src tgt b cs v.
Variables X Y : list nat.
Hypothesis C : cyc (good cs) (X ++ Y).
Hypothesis IA : forall x, In x (X ++ Y) -> In x (all cs).
Hypothesis ND : NoDup (X ++ Y).
Hypothesis PX : path p X q.
Hypothesis PY : path q Y p.
Hypothesis pq : p <> q.
Lemma X_nonempty : X <> [].
Proof. intros E. rewrite E in PX. cbn in PX. contradiction. Qed.
Lemma Y_nonempty : Y <> [].
Proof. intros E. rewrite E in PY. cbn in PY. congruence. Qed.
Lemma free_src_all v i : free src tgt b cs v -> In i (all cs) -> src i = v -> In i b.
Proof. intros F. apply free_src, F. Qed.
Lemma free_tgt_all v i : free src tgt b cs v -> In i (all cs) -> tgt i = v -> In i b.
Proof. intros F. apply free_tgt, F. Qed.
Lemma half_b : exists h, In h (X ++ c) /\ In h b.
Proof. pose proof X_nonempty as N. destruct X as [|x X']; [congruence|]. exists x. split; [left; reflexivity|]. apply (free_src_all p); [exact Fp|apply IA; left; reflexivity|apply (path_hd _ _ _ _ PX)]. Qed.
Lemma half_cyc : cyc (good (c ++ cs)) (X ++ c).
Proof.
  pose proof X_nonempty as NX. pose proof Y_nonempty as NY.
  destruct (path_snoc _ _ _ PX NX) as (X1 & xl & EX & Txl). destruct (path_snoc _ _ _ PC NC) as (c1 & cl & Ec & Tcl).
  destruct X as [|x X'] eqn:EXX; [congruence|]. destruct Y as [|y Y'] eqn:EYY; [congruence|]. destruct c as [|d c'] eqn:Ecc; [congruence|].
  apply cyc_app in C. destruct C as [CX _]. apply cyc_app. split.
  - rewrite EX. apply steps_snoc.
    + rewrite <- EX. assert (S0 : steps (good cs) (x :: X')) by (rewrite EX in CX |- *; rewrite <- app_assoc in CX; cbn [app] in CX; apply steps_app in CX; apply CX).
      apply (arc_mono (d :: c') cs q p); try assumption; try (left; assumption).
      * intros w Iw. apply IA. apply in_or_app. left. exact Iw.
      * cbn [tl]. intros w Iw. assert (Wa : In w (all cs)) by (apply IA; right; apply in_or_app; left; exact Iw). split; intros E.
        -- assert (Wb : In w b) by (apply (free_src_all q); assumption). assert (Yb : In y b) by (apply (free_src_all q); [exact Fq|apply IA, in_or_app; right; left; reflexivity|apply (path_hd _ _ _ _ PY)]).
           assert (w = y) by (apply src_uniq; [exact Wb|exact Yb|rewrite (path_hd _ _ _ _ PY); exact E]). subst w. destruct (NoDup_app3 _ _ ND) as (_ & _ & H). apply (H y); [right; exact Iw|left; reflexivity].
        -- assert (Wb : In w b) by (apply (free_src_all p); assumption). assert (Xb : In x b) by (apply (free_src_all p); [exact Fp|apply IA; left; reflexivity|apply (path_hd _ _ _ _ PX)]).
           assert (w = x) by (apply src_uniq; [exact Wb|exact Xb|rewrite (path_hd _ _ _ _ PX); exact E]). subst w. cbn [app] in ND. inversion_clear ND as [|? ? K _]. apply K, in_or_app. left. exact Iw.
    + apply (enter_good (d :: c') cs D xl d q); try assumption.
      * apply IA, in_or_app. left. rewrite EX. apply in_elt.
      * left. left. reflexivity.
      * apply (path_hd _ _ _ _ PC).
      * intros w Iw Ew. apply (c_src_uniq (d :: c') cs q p D PC NC SC Fi); [exact Iw|left; reflexivity|exact Ew|apply (path_hd _ _ _ _ PC)].
  - rewrite Ec. apply steps_snoc.
    + rewrite <- Ec. apply (inside_good (d :: c') cs D (d :: c') q p PC); [intros w Iw; left; exact Iw|]. apply (c_no_opp (d :: c') cs D).
    + rewrite <- Ec. apply (leave_good (d :: c') cs D cl x p); try assumption.
      * apply IA. left. reflexivity.
      * apply (path_hd _ _ _ _ PX).
      * left. rewrite Ec. apply in_elt.
Qed.
Lemma half_start h k1 k2 : (forall k1 k2, In k1 X -> In k2 X -> tgt k1 = src h -> tgt k2 = src h -> k1 = k2) -> In h b -> In h (X ++ c) -> In k1 (X ++ c) -> In k2 (X ++ c) -> tgt k1 = src h -> tgt k2 = src h -> k1 = k2.
Proof.
  intros Old Hb Hi I1 I2 E1 E2.
  assert (K : forall k, In k c -> tgt k = src h -> tgt k = p).
  { intros k Ik Ek. destruct (c_tgt c cs q p PC NC Fi k Ik) as [E|F]; [exact E|]. exfalso. destruct F as [F _]. apply F. rewrite Ek. apply in_map, Hb. }
  assert (K' : forall k, In k X -> tgt k = p -> False).
  { intros k Ik Ek. destruct (path_snoc _ _ _ PY Y_nonempty) as (Y1 & yl & EY & Tyl). assert (k = yl).
    { apply tgt_uniq; [apply (free_tgt_all p); [exact Fp|apply IA, in_or_app; left; exact Ik|exact Ek]|apply (free_tgt_all p); [exact Fp|apply IA, in_or_app; right; rewrite EY; apply in_elt|exact Tyl]|congruence]. }
    subst k. destruct (NoDup_app3 _ _ ND) as (_ & _ & H). apply (H yl); [exact Ik|rewrite EY; apply in_elt]. }
  apply in_app_or in I1. apply in_app_or in I2. destruct I1 as [I1|I1], I2 as [I2|I2].
  - apply Old; assumption.
  - exfalso. apply (K' k1 I1). rewrite E1, <- E2. apply K; assumption.
  - exfalso. apply (K' k2 I2). rewrite E2, <- E1. apply K; assumption.
  - apply (NoDup_map_inj tgt c); [apply (c_tgts_nodup c cs q p); assumption|exact I1|exact I2|congruence].
Qed.
End Half.
Lemma concat_disjoint (A B : list (list nat)) P Q x : NoDup (concat (A ++ P :: B)) -> In Q A \/ In Q B -> In x Q -> In x P -> False.
Proof.
  rewrite concat_app. cbn [concat]. intros N [I|I] Ix Ip.
  - destruct (NoDup_app3 _ _ N) as (_ & _ & H). apply (H x); [apply in_concat; exists Q; auto|apply in_or_app; left; exact Ip].
  - destruct (NoDup_app3 _ _ N) as (_ & N' & _). destruct (NoDup_app3 _ _ N') as (_ & _ & H). apply (H x); [exact Ip|apply in_concat; exists Q; auto].
Qed.
Lemma other_cyc c cs a z Q : distinct (c ++ cs) -> path a c z -> c <> [] -> NoDup (map src c ++ [z]) -> free src tgt b cs z \/ fresh src tgt b cs z -> (forall v, In v (tl (map src c)) -> fresh src tgt b cs v) ->
  cyc (good cs) Q -> (forall x, In x Q -> In x (all cs) /\ src x <> a /\ src x <> z) -> cyc (good (c ++ cs)) Q.
Proof.
  intros D PC NC SC Fz Fi C H. unfold cyc in *. destruct Q as [|x Q]; [exact I|]. revert C. apply steps_imp. intros h h' _ Ih' G.
  assert (Ih : In h' (x :: Q)) by (apply in_app_or in Ih'; destruct Ih' as [K|[<-|[]]]; [exact K|left; reflexivity]). destruct (H h' Ih) as (H1 & H2 & H3). apply (joint_mono c cs a z); assumption.
Qed.
Lemma reverse_srcs c : map src (reverse c) = rev (map tgt c).
Proof. unfold ClipSpec.reverse. rewrite map_map, <- map_rev. apply map_ext, src_opp. Qed.
Lemma reverse_count c x : count_occ Nat.eq_dec (reverse c) x = count_occ Nat.eq_dec (map opp c) x.
Proof. apply (Permutation_count_occ Nat.eq_dec). unfold ClipSpec.reverse. apply Permutation_map. symmetry. apply Permutation_rev. Qed.
Lemma opp_reverse c : map opp (reverse c) = rev c.
Proof. unfold ClipSpec.reverse. rewrite map_map. erewrite map_ext; [apply map_id|exact opp_opp]. Qed.
Lemma distinct_reverse c cs : distinct (c ++ cs) -> distinct (reverse c ++ cs).
Proof.
  apply Permutation_NoDup. apply (Permutation_count_occ Nat.eq_dec). intros x. rewrite !map_app, opp_reverse, !count_occ_app, reverse_count.
  rewrite (proj1 (Permutation_count_occ Nat.eq_dec (rev c) c) (Permutation_sym (Permutation_rev c)) x). lia.
Qed.
Lemma all_reverse c cs x : In x (all (reverse c ++ cs)) <-> In x (all (c ++ cs)).
Proof. rewrite !in_all, !in_app_iff, !In_reverse, opp_opp. tauto. Qed.
Lemma cyc_imp (R R' : nat -> nat -> Prop) L : (forall x y, R x y -> R' x y) -> cyc R L -> cyc R' L.
Proof. intros H. unfold cyc. destruct L; [auto|]. apply steps_imp. auto. Qed.

Lemma cut_inv A P B cs X Y c p q : inv (A ++ P :: B) cs [] -> rotation P (X ++ Y) -> path p X q -> path q Y p -> p <> q ->
  free src tgt b cs p -> free src tgt b cs q -> c <> [] -> path q c p -> NoDup (map src c) -> (forall v, In v (tl (map src c)) -> fresh src tgt b cs v) ->
  distinct (c ++ cs) -> inv (A ++ (X ++ c) :: (Y ++ reverse c) :: B) (c ++ cs) [].
Proof.
  intros [Ip Ic Io Is Ib Im Ims] RP PX PY pq Fp Fq NC PC SC Fi D. pose proof (distinct_sub _ _ D) as D0. destruct (distinct_facts _ D0) as (NA & _).
  assert (NCC : NoDup (concat (A ++ P :: B))) by (eapply Permutation_NoDup; [symmetry; exact Ip|exact NA]).
  assert (PP : In P (A ++ P :: B)) by apply in_elt. destruct (Ic P PP) as [_ CP]. rewrite (cyc_rot _ _ _ RP) in CP. pose proof (rotation_perm _ _ RP) as RPP.
  assert (AL : forall Q x, In Q (A ++ P :: B) -> In x Q -> In x (all cs)) by (intros Q x IQ Ix; eapply Permutation_in; [exact Ip|]; apply in_concat; exists Q; auto).
  assert (IA : forall x, In x (X ++ Y) -> In x (all cs)) by (intros x Ix; apply (AL P x PP); eapply Permutation_in; [symmetry; exact RPP|exact Ix]).
  assert (ND : NoDup (X ++ Y)). { eapply Permutation_NoDup; [exact RPP|]. clear - NCC. rewrite concat_app in NCC. cbn [concat] in NCC. apply NoDup_app3 in NCC. destruct NCC as (_ & N & _). apply NoDup_app3 in N. apply N. }
  assert (SC' : NoDup (map src c ++ [p])).
  { assert (K : ~ In p (map src c)). { destruct c as [|d c']; [congruence|]. cbn. intros [E|I]; [rewrite (path_hd _ _ _ _ PC) in E; congruence|]. destruct (Fi p I) as [F _]. apply F, Fp. }
    apply (Permutation_NoDup (Permutation_cons_append _ _)). constructor; assumption. }
  assert (CR : forall v, In v (tl (map src (reverse c))) -> fresh src tgt b cs v).
  { intros v. rewrite reverse_srcs, (path_tgts q c p PC NC), rev_app_distr. cbn. rewrite <- in_rev. apply Fi. }
  assert (NR : reverse c <> []) by (intros E; apply (f_equal (@length nat)) in E; unfold ClipSpec.reverse in E; rewrite map_length, rev_length in E; destruct c; [congruence|discriminate]).
  assert (PR : path p (reverse c) q) by (apply path_reverse, PC).
  assert (SR : NoDup (map src (reverse c) ++ [q])).
  { rewrite reverse_srcs, (path_tgts q c p PC NC), rev_app_distr. cbn [rev app]. apply NoDup_rev in SC'. rewrite rev_app_distr in SC'. cbn [rev app] in SC'. assert (CS : map src c = q :: tl (map src c)) by (destruct c; [congruence|]; cbn; rewrite (path_hd _ _ _ _ PC); reflexivity). rewrite CS in SC'. cbn [rev] in SC'. exact SC'. }
  pose proof (distinct_reverse _ _ D) as DR.
  assert (CQ : cyc (good cs) (Y ++ X)) by (apply (cyc_rot _ (X ++ Y) (Y ++ X)); [exists X, Y; auto|exact CP]).
  assert (IA' : forall x, In x (Y ++ X) -> In x (all cs)) by (intros x Ix; apply IA; apply in_app_or in Ix; apply in_or_app; tauto).
  assert (ND' : NoDup (Y ++ X)) by (eapply Permutation_NoDup; [apply Permutation_app_comm|exact ND]).
  assert (qp : q <> p) by congruence.
  assert (CASE : forall Q, In Q (A ++ (X ++ c) :: (Y ++ reverse c) :: B) -> Q = X ++ c \/ Q = Y ++ reverse c \/ (In Q A \/ In Q B)) by (intros Q IQ; apply in_app_or in IQ; cbn [In] in IQ; intuition congruence).
  split.
  - rewrite concat_app in *. cbn [concat] in *. apply (Permutation_count_occ Nat.eq_dec). intros x. pose proof (proj1 (Permutation_count_occ Nat.eq_dec _ _) Ip x) as Ipx. unfold all in *. rewrite !map_app, !count_occ_app in *.
    pose proof (proj1 (Permutation_count_occ Nat.eq_dec _ _) RPP x) as RPx. rewrite !count_occ_app in RPx. rewrite reverse_count. lia.
  - intros Q IQ. apply CASE in IQ. destruct IQ as [-> | [-> | IQ]].
    + split; [intros E; apply app_eq_nil in E; tauto|]. apply (half_cyc c cs p q) with (Y := Y); assumption.
    + split; [intros E; apply app_eq_nil in E; tauto|]. apply (cyc_imp (good (reverse c ++ cs))); [intros x y; apply good_ext, all_reverse|]. apply (half_cyc (reverse c) cs q p) with (Y := X); assumption.
    + assert (IQ' : In Q (A ++ P :: B)) by (apply in_or_app; destruct IQ; [left|right; right]; assumption). destruct (Ic Q IQ') as [NQ CycQ]. split; [exact NQ|].
      apply (other_cyc c cs q p); try assumption; [left; exact Fp|]. intros x Ix. split; [apply (AL Q); assumption|].
      assert (K : forall v h, free src tgt b cs v -> In h (X ++ Y) -> src h = v -> src x <> v).
      { intros v h F Ih Eh E. apply (concat_disjoint A B P Q x NCC IQ Ix). eapply Permutation_in; [symmetry; exact RPP|]. assert (x = h); [|congruence]. apply src_uniq; [apply (free_src cs v); [apply F|apply (AL Q); assumption|exact E]|apply (free_src cs v); [apply F|apply IA, Ih|exact Eh]|congruence]. }
      split.
      * destruct Y as [|y Y']; [cbn in PY; congruence|]. apply (K q y Fq); [apply in_elt|apply (path_hd _ _ _ _ PY)].
      * destruct X as [|w X']; [cbn in PX; congruence|]. apply (K p w Fp); [left; reflexivity|apply (path_hd _ _ _ _ PX)].
  - apply (step_out c cs q p); try assumption. left. exact Fp.
  - intros Q h k1 k2 IQ Hb Hq Hm I1 I2 E1 E2. apply CASE in IQ.
    assert (OP : forall k1 k2, In h (X ++ Y) -> In k1 (X ++ Y) -> In k2 (X ++ Y) -> tgt k1 = src h -> tgt k2 = src h -> k1 = k2).
    { intros j1 j2 H0 J1 J2. apply (Is P h); try assumption; eapply Permutation_in; try (symmetry; exact RPP); assumption. }
    destruct (cut_facts c cs D) as [F1 _].
    destruct IQ as [-> | [-> | IQ]].
    + assert (Hx : In h X) by (apply in_app_or in Hq; destruct Hq as [K|K]; [exact K|exfalso; apply F1 in Hb; tauto]).
      apply (half_start c cs p q) with (X := X) (Y := Y) (h := h); try assumption. intros j1 j2 J1 J2. apply OP; apply in_or_app; left; assumption.
    + assert (Hx : In h Y) by (apply in_app_or in Hq; destruct Hq as [K|K]; [exact K|exfalso; apply F1 in Hb; apply In_reverse in K; tauto]).
      apply (half_start (reverse c) cs q p) with (X := Y) (Y := X) (h := h); try assumption. intros j1 j2 J1 J2. apply OP; apply in_or_app; right; assumption.
    + apply (Is Q h); try assumption. apply in_or_app. destruct IQ; [left|right; right]; assumption.
  - intros Q IQ. apply CASE in IQ. destruct IQ as [-> | [-> | IQ]].
    + apply (half_b c cs p q) with (Y := Y); assumption.
    + apply (half_b (reverse c) cs q p) with (Y := X); assumption.
    + apply Ib. apply in_or_app. destruct IQ; [left|right; right]; assumption.
  - intros s Q k h [].
  - intros s [].
Qed.

Lemma slit_inv A P B cs ms X c p t : inv (A ++ P :: B) cs ms -> rotation P X -> path p X p -> X <> [] ->
  free src tgt b cs p -> c <> [] -> path p c t -> NoDup (map src c ++ [t]) -> (forall v, In v (tl (map src c) ++ [t]) -> fresh src tgt b cs v) ->
  distinct (c ++ cs) -> inv (A ++ (X ++ c ++ reverse c) :: B) (c ++ cs) (p :: ms).
Proof.
  intros [Ip Ic Io Is Ib Im Ims] RP PX NX Fp NC PC SC Fi D. pose proof (distinct_sub _ _ D) as D0. destruct (distinct_facts _ D0) as (NA & _).
  assert (NCC : NoDup (concat (A ++ P :: B))) by (eapply Permutation_NoDup; [symmetry; exact Ip|exact NA]).
  assert (PP : In P (A ++ P :: B)) by apply in_elt. destruct (Ic P PP) as [_ CP]. rewrite (cyc_rot _ _ _ RP) in CP. pose proof (rotation_perm _ _ RP) as RPP.
  assert (AL : forall Q x, In Q (A ++ P :: B) -> In x Q -> In x (all cs)) by (intros Q x IQ Ix; eapply Permutation_in; [exact Ip|]; apply in_concat; exists Q; auto).
  assert (IA : forall x, In x X -> In x (all cs)) by (intros x Ix; apply (AL P x PP); eapply Permutation_in; [symmetry; exact RPP|exact Ix]).
  assert (ND : NoDup X). { eapply Permutation_NoDup; [exact RPP|]. clear - NCC. rewrite concat_app in NCC. cbn [concat] in NCC. apply NoDup_app3 in NCC. destruct NCC as (_ & N & _). apply NoDup_app3 in N. apply N. }
  assert (Ft : fresh src tgt b cs t) by (apply Fi, in_elt).
  assert (Fi' : forall v, In v (tl (map src c)) -> fresh src tgt b cs v) by (intros v Iv; apply Fi, in_or_app; left; exact Iv).
  destruct (cut_facts c cs D) as [F1 F2].
  assert (HX : exists x X', X = x :: X' /\ src x = p /\ In x b).
  { destruct X as [|x X']; [congruence|]. exists x, X'. split; [reflexivity|]. pose proof (path_hd _ _ _ _ PX) as E. split; [exact E|]. apply (free_src cs p); [apply Fp|apply IA; left; reflexivity|exact E]. }
  destruct HX as (x & X' & EX & Sx & Xb).
  assert (HL : exists X1 xl, X = X1 ++ [xl] /\ tgt xl = p /\ In xl b).
  { destruct (path_snoc _ _ _ PX NX) as (X1 & xl & E & T). exists X1, xl. split; [exact E|]. split; [exact T|]. apply (free_tgt cs p); [apply Fp|apply IA; rewrite E; apply in_elt|exact T]. }
  destruct HL as (X1 & xl & EL & Txl & Xlb).
  assert (cb : forall h, In h b -> In h (X ++ c ++ reverse c) -> In h X).
  { intros h Hb Hq. apply in_app_or in Hq. destruct Hq as [K|K]; [exact K|]. exfalso. apply F1 in Hb. apply in_app_or in K. rewrite In_reverse in K. tauto. }
  assert (XP : forall h, In h X -> In h P) by (intros h Ih; eapply Permutation_in; [symmetry; exact RPP|exact Ih]).
  assert (PX' : forall h, In h P -> In h X) by (intros h Ih; eapply Permutation_in; [exact RPP|exact Ih]).
  assert (CASE : forall Q, In Q (A ++ (X ++ c ++ reverse c) :: B) -> Q = X ++ c ++ reverse c \/ (In Q A \/ In Q B)) by (intros Q IQ; apply in_app_or in IQ; cbn [In] in IQ; intuition congruence).
  split.
  - rewrite concat_app in *. cbn [concat] in *. apply (Permutation_count_occ Nat.eq_dec). intros y. pose proof (proj1 (Permutation_count_occ Nat.eq_dec _ _) Ip y) as Ipx. unfold all in *. rewrite !map_app, !count_occ_app in *.
    pose proof (proj1 (Permutation_count_occ Nat.eq_dec _ _) RPP y) as RPx. rewrite reverse_count. lia.
  - intros Q IQ. apply CASE in IQ. destruct IQ as [-> | IQ].
    + split; [intros E; apply app_eq_nil in E; tauto|]. destruct (path_snoc _ _ _ PC NC) as (c1 & cl & Ec & Tcl).
      assert (ER : reverse c = opp cl :: reverse c1) by (rewrite Ec; unfold ClipSpec.reverse; rewrite rev_app_distr; reflexivity).
      assert (NRc : reverse c <> []) by (rewrite ER; discriminate). destruct (path_snoc _ _ _ (path_reverse _ _ _ PC) NRc) as (r1 & rl & Er & Trl).
      assert (Icl : In cl c) by (rewrite Ec; apply in_elt).
      assert (Irl : In (opp rl) c) by (apply In_reverse; rewrite Er; apply in_elt).
      assert (S1 : steps (good (c ++ cs)) X).
      { apply (arc_mono c cs p t); try assumption; [right; exact Ft| |].
        - rewrite EX in CP |- *. unfold cyc in CP. cbv iota in CP. destruct (exists_last (l := x :: X') ltac:(discriminate)) as (L & l & EL'). rewrite EL' in CP |- *. rewrite <- app_assoc in CP. cbn [app] in CP. apply steps_app in CP. apply CP.
        - rewrite EX. cbn [tl]. intros w Iw. assert (Wa : In w (all cs)) by (apply IA; rewrite EX; right; exact Iw). split; intros E.
          + assert (Wb : In w b) by (apply (free_src cs p); [apply Fp|exact Wa|exact E]). assert (w = x) by (apply src_uniq; [exact Wb|exact Xb|congruence]). subst w. rewrite EX in ND. inversion_clear ND. contradiction.
          + apply (proj1 (fresh_out cs t w Ft Wa)). exact E. }
      destruct c as [|d c'] eqn:Ecc; [congruence|]. rewrite <- Ecc in *.
      assert (Sd : src d = p) by (rewrite Ecc in PC; apply (path_hd _ _ _ _ PC)). assert (Id : In d c) by (rewrite Ecc; left; reflexivity).
      rewrite EX. assert (EE : (x :: X') ++ c ++ reverse c = (x :: X') ++ d :: (c' ++ reverse c)) by (rewrite Ecc; reflexivity). rewrite EE. apply cyc_app. split.
      * rewrite <- EX, EL. apply steps_snoc; [rewrite <- EL; exact S1|]. apply (enter_good c cs D xl d p); try assumption.
        -- apply IA. rewrite EL. apply in_elt.
        -- left. exact Id.
        -- intros w Iw Ew. apply (c_src_uniq c cs p t D PC NC SC Fi'); assumption.
      * assert (EE2 : (d :: c' ++ reverse c) ++ [x] = c1 ++ cl :: (opp cl :: reverse c1) ++ [x]). { change (d :: c' ++ reverse c) with ((d :: c') ++ reverse c). rewrite <- Ecc, ER, Ec, <- !app_assoc. reflexivity. }
        rewrite EE2. apply steps_app. split; [rewrite <- Ec; apply (inside_good c cs D c p t PC); [intros w Iw; left; exact Iw|exact F2]|].
        change (good (c ++ cs) cl (opp cl) /\ steps (good (c ++ cs)) ((opp cl :: reverse c1) ++ [x])). split.
        -- split; [rewrite src_opp; reflexivity|]. split; [intros K; exfalso; apply F1 in K; tauto|]. intros _ _ i Ii Ei. rewrite Tcl in Ei. apply in_all in Ii. rewrite !in_app_iff in Ii.
           assert (Ni : ~ In i (all cs)) by (intros K; apply (proj1 (fresh_out cs t i Ft K)); exact Ei). rewrite in_all in Ni.
           assert (Nc : ~ In i c) by (intros K; apply NoDup_app3 in SC; destruct SC as (_ & _ & H); apply (H t); [rewrite <- Ei; apply in_map, K|left; reflexivity]).
           assert (Oc : In (opp i) c) by tauto. rewrite <- (opp_opp i). f_equal. apply (NoDup_map_inj tgt c); [apply (c_tgts_nodup c cs p t); assumption|exact Oc|exact Icl|rewrite tgt_opp; congruence].
        -- rewrite <- ER, Er. apply steps_snoc; [rewrite <- Er|].
           ++ apply (inside_good c cs D (reverse c) t p); [apply path_reverse, PC|intros w Iw; right; apply In_reverse, Iw|]. intros w Iw Iw'. apply (proj1 (In_reverse _ _)) in Iw. apply (proj1 (In_reverse _ _)) in Iw'. rewrite opp_opp in Iw'. apply (F2 w); assumption.
           ++ apply (leave_good c cs D rl x p); try assumption; [apply IA; rewrite EX; left; reflexivity|right; exact Irl].
    + assert (IQ' : In Q (A ++ P :: B)) by (apply in_or_app; destruct IQ; [left|right; right]; assumption). destruct (Ic Q IQ') as [NQ CycQ]. split; [exact NQ|].
      apply (other_cyc c cs p t); try assumption; [right; exact Ft|]. intros w Iw. assert (Wa : In w (all cs)) by (apply (AL Q); assumption). split; [exact Wa|]. split; intros E.
      * apply (concat_disjoint A B P Q w NCC IQ Iw). apply XP. assert (w = x); [|subst w; rewrite EX; left; reflexivity]. apply src_uniq; [apply (free_src cs p); [apply Fp|exact Wa|exact E]|exact Xb|congruence].
      * apply (proj1 (fresh_out cs t w Ft Wa)). exact E.
  - apply (step_out c cs p t); try assumption. right. exact Ft.
  - intros Q h k1 k2 IQ Hb Hq Hm I1 I2 E1 E2. apply CASE in IQ. assert (Hm' : ~ In (src h) ms) by (intros K; apply Hm; right; exact K). destruct IQ as [-> | IQ].
    + assert (hs : In (src h) (map src b)) by (apply in_map, Hb).
      assert (K : forall k, In k (X ++ c ++ reverse c) -> tgt k = src h -> In k X).
      { intros k Ik Ek. apply in_app_or in Ik. destruct Ik as [Ik|Ik]; [exact Ik|]. exfalso. apply in_app_or in Ik. destruct Ik as [Ik|Ik].
        - destruct (c_tgt c cs p t PC NC Fi' k Ik) as [E|F]; [|apply F; rewrite Ek; exact hs]. destruct Ft as [Ft _]. apply Ft. rewrite <- E, Ek. exact hs.
        - apply In_reverse in Ik. destruct (c_src c cs p t D PC NC SC Fi' _ Ik) as [E|F]; rewrite src_opp in *; [apply Hm; left; congruence|]. apply F. rewrite Ek. exact hs. }
      apply (Is P h); try assumption; apply XP; [apply cb; assumption|apply K; assumption|apply K; assumption].
    + apply (Is Q h); try assumption. apply in_or_app. destruct IQ; [left|right; right]; assumption.
  - intros Q IQ. apply CASE in IQ. destruct IQ as [-> | IQ].
    + exists x. split; [rewrite EX; left; reflexivity|exact Xb].
    + apply Ib. apply in_or_app. destruct IQ; [left|right; right]; assumption.
  - intros s Q k h Ism IQ Kb Hb Ek Eh Hq. apply CASE in IQ. destruct Ism as [<-|Ism].
    + assert (h = x) by (apply src_uniq; congruence). assert (k = xl) by (apply tgt_uniq; congruence). subst h k. destruct IQ as [-> | IQ]; [rewrite EL; apply in_or_app; left; apply in_elt|]. exfalso. apply (concat_disjoint A B P Q x NCC IQ Hq). apply XP. rewrite EX. left. reflexivity.
    + destruct IQ as [-> | IQ].
      * apply in_or_app. left. apply PX'. apply (Im s P k h); try assumption. apply XP, cb; assumption.
      * apply (Im s Q k h); try assumption. apply in_or_app. destruct IQ; [left|right; right]; assumption.
  - intros s [<-|Ism].
    + destruct c as [|d c']; [congruence|]. exists d. split; [left; reflexivity|apply (path_hd _ _ _ _ PC)].
    + destruct (Ims s Ism) as (h & Ih & E). exists h. split; [apply in_or_app; right; exact Ih|exact E].
Qed.

Theorem clipped_inv ps cs ms : clipped src tgt opp b ps cs ms -> distinct cs -> inv ps cs ms.
Proof.
  induction 1 as [ps cs H|]; intros D.
  - revert D. induction H; intros D; [apply whole_inv, D|]. eapply cut_inv; try eassumption. apply IHdissected. eapply distinct_sub, D.
  - eapply slit_inv; try eassumption. apply IHclipped. eapply distinct_sub, D.
Qed.
End Inv.
