(** Cyclic lists and half-edge lookup. *)
From Coq Require Import List ZArith Lia Bool.
From Verif Require Import Vec VecLemmas HmeshModel HmeshSpec HmeshCore.
Import ListNotations.
Open Scope Z_scope.

(** ** cyclic pairs *)
Lemma combine_nth_error {A B} (l : list A) (r : list B) i x y :
  nth_error (combine l r) i = Some (x, y) <-> nth_error l i = Some x /\ nth_error r i = Some y.
Proof.
  revert r i; induction l as [|a l IH]; intros r i.
  - destruct i; cbn; (split; intros H; [discriminate | destruct H as [H _]; discriminate]).
  - destruct r as [|b r], i as [|i]; cbn; try (split; intros H; [discriminate | destruct H as [H1 H2]; discriminate]).
    + split; [intros E; injection E as -> ->; auto | intros [E1 E2]; congruence].
    + apply IH.
Qed.

Lemma cyc_pairs_length l : length (cyc_pairs l) = length l.
Proof. destruct l as [|a r]; [reflexivity|]. unfold cyc_pairs. rewrite combine_length, app_length. cbn [length]. lia. Qed.

Definition succ_mod (n i : nat) : nat := if (S i <? n)%nat then S i else O.

Lemma rot_nth {A} (a : A) r i : (i < S (length r))%nat ->
  nth_error (r ++ [a]) i = nth_error (a :: r) (succ_mod (S (length r)) i).
Proof.
  intros H. unfold succ_mod. destruct (Nat.ltb_spec (S i) (S (length r))).
  - rewrite nth_error_app1 by lia. reflexivity.
  - rewrite nth_error_app2 by lia. replace (i - length r)%nat with O by lia. reflexivity.
Qed.

Lemma cyc_nth l i x y : nth_error (cyc_pairs l) i = Some (x, y) <->
  nth_error l i = Some x /\ nth_error l (succ_mod (length l) i) = Some y /\ (i < length l)%nat.
Proof.
  destruct l as [|a r].
  - destruct i; cbn; (split; intros H; [discriminate | destruct H as [H _]; discriminate]).
  - unfold cyc_pairs. rewrite combine_nth_error. cbn [length]. split.
    + intros [H1 H2]. assert (L : (i < S (length r))%nat) by (apply (proj1 (nth_error_Some (a :: r) i)); congruence).
      rewrite rot_nth in H2 by exact L. auto.
    + intros (H1 & H2 & L). rewrite rot_nth by exact L. auto.
Qed.

Lemma cyc_In l x y : In (x, y) (cyc_pairs l) -> In x l /\ In y l.
Proof. intros H. apply In_nth_error in H. destruct H as [i H]. apply cyc_nth in H. destruct H as (H1 & H2 & _). split; eapply nth_error_In; eassumption. Qed.

Lemma cyc_fst_snd l : map fst (cyc_pairs l) = l /\ map snd (cyc_pairs l) = rotate1 l.
Proof.
  destruct l as [|a r]; [split; reflexivity|]. unfold cyc_pairs, rotate1.
  assert (X : forall (A B : Type) (u : list A) (w : list B), length u = length w -> map fst (combine u w) = u /\ map snd (combine u w) = w).
  { induction u as [|z u IH]; intros [|b w] H; cbn in *; try discriminate; [auto|]. destruct (IH w) as [E1 E2]; [lia|]. rewrite E1, E2. auto. }
  apply X. rewrite app_length. cbn [length]. lia.
Qed.

Lemma nodup_nth {A} (l : list A) i j x : NoDup l -> nth_error l i = Some x -> nth_error l j = Some x -> i = j.
Proof.
  intros N H1 H2. apply (proj1 (NoDup_nth_error l) N); [|congruence]. apply nth_error_Some. congruence.
Qed.

Lemma rotate1_NoDup l : NoDup l -> NoDup (rotate1 l).
Proof. intros N. destruct l as [|a r]; [exact N|]. inversion N; subst. apply NoDup_snoc; assumption. Qed.

Lemma cyc_NoDup l : NoDup l -> NoDup (cyc_pairs l).
Proof.
  intros N. apply (NoDup_map_inv fst). rewrite (proj1 (cyc_fst_snd l)). exact N.
Qed.

Lemma cyc_distinct l x y : NoDup l -> (3 <= length l)%nat -> In (x, y) (cyc_pairs l) -> x <> y /\ ~ In (y, x) (cyc_pairs l).
Proof.
  intros N L H. apply In_nth_error in H. destruct H as [i H]. apply cyc_nth in H. destruct H as (H1 & H2 & Li).
  split.
  - intros ->. pose proof (nodup_nth _ _ _ _ N H1 H2) as E. unfold succ_mod in E. destruct (Nat.ltb_spec (S i) (length l)); lia.
  - intros K. apply In_nth_error in K. destruct K as [j K]. apply cyc_nth in K. destruct K as (K1 & K2 & Lj).
    pose proof (nodup_nth _ _ _ _ N H2 K1) as E1. pose proof (nodup_nth _ _ _ _ N H1 K2) as E2.
    unfold succ_mod in *. destruct (Nat.ltb_spec (S i) (length l)), (Nat.ltb_spec (S j) (length l)); lia.
Qed.

Lemma cyc_all_fst l x : In x l -> exists y, In (x, y) (cyc_pairs l).
Proof.
  intros H. rewrite <- (proj1 (cyc_fst_snd l)) in H. apply in_map_iff in H. destruct H as ((a & b) & E & H). cbn in E. subst. eauto.
Qed.
Lemma In_rotate1 l x : In x (rotate1 l) <-> In x l.
Proof. destruct l as [|a r]; cbn; [tauto|]. rewrite in_app_iff. cbn. tauto. Qed.
Lemma cyc_all_snd l y : In y l -> exists x, In (x, y) (cyc_pairs l).
Proof.
  intros H. apply In_rotate1 in H. rewrite <- (proj2 (cyc_fst_snd l)) in H. apply in_map_iff in H. destruct H as ((a & b) & E & H). cbn in E. subst. eauto.
Qed.

Lemma Forall2_nth {A B} (R : A -> B -> Prop) l r i y : Forall2 R l r -> nth_error r i = Some y -> exists x, nth_error l i = Some x /\ R x y.
Proof.
  intros F. revert i. induction F as [|a b l r H F IH]; intros [|i] E; cbn in *; try discriminate.
  - injection E as <-. eauto.
  - apply IH. exact E.
Qed.
Lemma Forall2_nth' {A B} (R : A -> B -> Prop) l r i x : Forall2 R l r -> nth_error l i = Some x -> exists y, nth_error r i = Some y /\ R x y.
Proof.
  intros F. revert i. induction F as [|a b l r H F IH]; intros [|i] E; cbn in *; try discriminate.
  - injection E as <-. eauto.
  - apply IH. exact E.
Qed.

Lemma F2_length {A B} (R : A -> B -> Prop) l r : Forall2 R l r -> length l = length r.
Proof. induction 1; cbn; congruence. Qed.

Lemma cyc_consecutive (R : Z * Z -> Z -> Prop) vi hs a b : Forall2 R (cyc_pairs vi) hs -> In (a, b) (cyc_pairs hs) ->
  exists x y z, R (x, y) a /\ R (y, z) b.
Proof.
  intros F H. apply In_nth_error in H. destruct H as [i H]. apply cyc_nth in H. destruct H as (H1 & H2 & Li).
  assert (Ln : length hs = length vi) by (rewrite <- (cyc_pairs_length vi); symmetry; eapply F2_length; exact F).
  destruct (Forall2_nth _ _ _ _ _ F H1) as ((x & y) & E1 & R1). destruct (Forall2_nth _ _ _ _ _ F H2) as ((y' & z) & E2 & R2).
  apply cyc_nth in E1. apply cyc_nth in E2. destruct E1 as (_ & E1 & _), E2 as (E2 & _ & _).
  rewrite Ln in E2. assert (y' = y) by congruence. subst. eauto.
Qed.

(** ** arcs and lookup *)
Definition arc (m : hmesh) (s t h : Z) : Prop :=
  lh m h /\ exists d d', hget m h = Some d /\ hget m (opposite h) = Some d' /\ ht d = t /\ ht d' = s.

Lemma arc_fun m s t s' t' h : arc m s t h -> arc m s' t' h -> s = s' /\ t = t'.
Proof. intros (_ & d & d' & A & B & C & D) (_ & e & e' & A' & B' & C' & D'). split; congruence. Qed.

Lemma same_edge h h' : h / 2 = h' / 2 -> h <> h' -> h' = opposite h.
Proof. intros. unfold opposite. destruct (Z.eqb_spec (h mod 2) 0); lia. Qed.

Lemma halfedge_st_spec m s t : Core m -> lv m s -> lv m t -> s <> t ->
  (halfedge_st m s t true = Some null /\ (forall h, ~ arc m s t h)) \/
  (exists h d, halfedge_st m s t true = Some h /\ arc m s t h /\ hget m h = Some d /\
     halfedge_st m s t false = Some (if hf d =? null then null else h)).
Proof.
  intros C [Rs _] [Rt _] N. destruct (vget_range_Some _ _ Rs) as [sv Es]. destruct (vget_range_Some _ _ Rt) as [tv Et].
  unfold halfedge_st. rewrite Es, Et. cbn [obind].
  destruct (find _ (vhs sv)) as [h|] eqn:Ef.
  - right. apply find_some in Ef. destruct Ef as [Hi Hz]. apply zmem_In, in_map_iff in Hz. destruct Hz as (h2 & Eh & H2).
    apply (c_inc m C s sv Es) in Hi. destruct Hi as (L & hd & Ed & Ts).
    apply (c_inc m C t tv Et) in H2. destruct H2 as (L2 & hd2 & Ed2 & Tt).
    assert (Nh : h <> h2) by (intros ->; congruence).
    unfold edge_of in Eh. pose proof (same_edge h h2 (eq_sym Eh) Nh) as ->.
    destruct (source_target m h hd C L Ed) as (d' & E' & S1 & T1 & _).
    rewrite S1, T1. cbn [obind]. assert (d' = hd2) by congruence. subst d'.
    destruct (Z.eqb_spec (ht hd2) s); [congruence|]. cbn [andb]. unfold face. rewrite Ed2. cbn [obind].
    exists (opposite h), hd2. split; [reflexivity|]. split; [|split; [exact Ed2|destruct (hf hd2 =? null); reflexivity]].
    split; [exact L2|]. exists hd2, hd. rewrite opposite_opposite. auto.
  - left. split; [reflexivity|]. intros h (L & d & d' & E & E' & T & S).
    pose proof (find_none _ _ Ef (opposite h)) as K. cbn beta in K.
    assert (I1 : In (opposite h) (vhs sv)) by (apply (c_inc m C s sv Es); split; [apply lh_opposite; assumption|eauto]).
    assert (I2 : In h (vhs tv)) by (apply (c_inc m C t tv Et); split; [exact L|eauto]).
    specialize (K I1). apply zmem_notIn in K. apply K. unfold edge_of. rewrite opposite_div. apply in_map_iff. eauto.
Qed.

Lemma halfedge_st_null_false m s t : halfedge_st m s t true = Some null -> (forall d, hget m null = Some d -> False) -> halfedge_st m s t false = Some null.
Proof.
  unfold halfedge_st. destruct (vget (verts m) s), (vget (verts m) t); cbn [obind]; try discriminate.
  destruct (find _ _); [|auto]. destruct (source m z); cbn [obind]; [|discriminate]. destruct (target m z); cbn [obind]; [|discriminate].
  unfold face. match goal with |- context [hget m ?c] => destruct (hget m c) eqn:E end; cbn [obind]; [|discriminate].
  cbn. intros K N. injection K as K. rewrite K in E. exfalso. eapply N. exact E.
Qed.

(** is the ordered pair free for a new face? *)
Definition free (m : hmesh) (p : Z * Z) : bool :=
  match halfedge_st m (fst p) (snd p) false with Some x => x =? null | None => false end.

Lemma hget_null m d : hget m null = Some d -> False.
Proof. intros E. apply vget_Some_range in E. unfold null in E. lia. Qed.

Lemma insertable_free m ps : Core m -> (forall s t, In (s, t) ps -> lv m s /\ lv m t /\ s <> t) ->
  insertable_loop m ps = Some (forallb (free m) ps).
Proof.
  intros C. induction ps as [|(s, t) r IH]; intros H; [reflexivity|]. cbn [insertable_loop forallb].
  destruct (H s t (or_introl eq_refl)) as (Ls & Lt & N). assert (IH' := IH (fun a b K => H a b (or_intror K))). clear IH.
  unfold free at 1. cbn [fst snd]. destruct (halfedge_st_spec m s t C Ls Lt N) as [(E & _)|(h & d & E & A & Ed & F)].
  - rewrite (halfedge_st_null_false m s t E (hget_null m)). cbn [obind]. cbn. exact IH'.
  - rewrite F. cbn [obind]. destruct (Z.eqb_spec (hf d) null) as [K|K]; cbn [negb obind].
    + cbn. exact IH'.
    + assert (Hn : h <> null) by (intros ->; eapply hget_null; exact Ed).
      destruct (Z.eqb_spec h null); [contradiction|]. cbn [negb]. unfold face. rewrite Ed. cbn [obind].
      destruct (Z.eqb_spec (hf d) null); [contradiction|]. reflexivity.
Qed.
