(** Joining the intersection points: proofs. *)
From Coq Require Import List Arith Bool Lia Permutation Sorting Reals.
From Verif Require Import CutModel CutProofs SplitModel SplitSpec SplitProofs PointsSpec JoinModel JoinSpec.
Import ListNotations.
Open Scope nat_scope.

Section Join.
Variable rnd : R -> R.
Variable sort : list (nat * R) -> list (nat * R).
Variable position : nat -> vec.
Variable psf : nat -> option nat * option nat.
Variable registry : list (nat * nat).
Variable cnt : nat.
Variable faces_around : nat -> list nat.
Variable inside : nat -> vec -> bool.
Definition pon : nat -> nat -> Prop := lies_on (faces psf) cnt registry.
Definition pmiddle (f p q : nat) : Prop := inside f (midpoint rnd (position p) (position q)) = true.
Notation joins := (joins pon pmiddle).
Definition valid (v : nat) : Prop := cnt <= v < cnt + length registry.
(** the faces of a point are different *)
Hypothesis distinct : forall e f, In (e, f) registry -> NoDup (f :: faces psf e).

Lemma midpoint_sym a b : midpoint rnd a b = midpoint rnd b a.
Proof. destruct a as [[x y] z], b as [[x' y'] z']. cbn. rewrite (Rplus_comm x'), (Rplus_comm y'), (Rplus_comm z'). reflexivity. Qed.
Lemma joins_sym f p q : joins f p q -> joins f q p.
Proof. intros (A & B & C). split; [exact B|]. split; [exact A|]. unfold pmiddle in *. rewrite midpoint_sym. exact C. Qed.
Lemma valid_entry v : valid v -> exists e f, nth_error registry (v - cnt) = Some (e, f) /\ registry_faces psf registry cnt v = Some [Some f; fst (psf e); snd (psf e)].
Proof.
  intros [A B]. destruct (nth_error registry (v - cnt)) as [[e f]|] eqn:E; [|apply nth_error_None in E; lia]. exists e, f. split; [reflexivity|]. unfold registry_faces. rewrite (proj2 (Nat.leb_le cnt v) A), E. reflexivity.
Qed.
Lemma is_in_spec f l : is_in f l = true <-> In (Some f) l.
Proof. unfold is_in. rewrite existsb_exists. split; [intros ([g|] & I & E); [apply Nat.eqb_eq in E; subst; exact I|discriminate]|intros I; exists (Some f); split; [exact I|apply Nat.eqb_refl]]. Qed.
Lemma registry_on v fs f : valid v -> registry_faces psf registry cnt v = Some fs -> (In (Some f) fs <-> pon v f).
Proof.
  intros V E. destruct (valid_entry v V) as (e & g & N & E'). rewrite E in E'. injection E' as ->. unfold pon, lies_on, is_point.
  assert (FE : In f (faces psf e) <-> Some f = fst (psf e) \/ Some f = snd (psf e)).
  { unfold faces. destruct (fst (psf e)) as [a|], (snd (psf e)) as [b|]; cbn; split; intros H; intuition (try congruence); repeat match goal with X : Some _ = Some _ |- _ => injection X as -> end; auto. }
  cbn [In]. split.
  - intros H. exists e, g. split; [split; [apply V|exact N]|]. rewrite FE. destruct H as [H|[H|[H|[]]]]; [injection H as ->; auto|auto|auto].
  - intros (e' & g' & (_ & N') & H). rewrite N in N'. injection N' as <- <-. rewrite FE in H. destruct H as [->|[H|H]]; auto.
Qed.
Definition named (fs : list (option nat)) : list nat := flat_map (fun f => match f with Some f => [f] | None => [] end) fs.
Lemma shared_spec p q fp fq : valid p -> valid q -> registry_faces psf registry cnt p = Some fp -> registry_faces psf registry cnt q = Some fq ->
  let shared := flat_map (fun f => match f with Some f => if is_in f fq then [f] else [] | None => [] end) fp in NoDup shared /\ forall f, In f shared <-> pon p f /\ pon q f.
Proof.
  intros VP VQ EP EQ shared. assert (SF : shared = filter (fun f => is_in f fq) (named fp)).
  { unfold shared, named. clear. induction fp as [|[f|] l IH]; [reflexivity| |exact IH]. cbn [flat_map app filter]. rewrite IH. destruct (is_in f fq); reflexivity. }
  rewrite SF. split.
  - apply NoDup_filter. destruct (valid_entry p VP) as (e & g & N & E'). rewrite EP in E'. injection E' as ->. replace (named [Some g; fst (psf e); snd (psf e)]) with (g :: faces psf e); [apply distinct; eapply nth_error_In; exact N|].
    unfold named, faces. cbn [flat_map]. rewrite app_nil_r. reflexivity.
  - intros f. rewrite filter_In, is_in_spec, (registry_on q fq f VQ EQ), <- (registry_on p fp f VP EP). unfold named. rewrite in_flat_map. split.
    + intros [([g|] & I & J) K]; [destruct J as [->|[]]; auto|destruct J].
    + intros [I K]. split; [exists (Some f); split; [exact I|left; reflexivity]|exact K].
Qed.

Lemma exists_spec es p q : edge_exists es p q = true <-> exists e, edge_between es e p q.
Proof.
  unfold edge_exists. rewrite existsb_exists. unfold edge_between. split.
  - intros ([a b] & I & E). apply In_nth_error in I. destruct I as (e & N). exists e. rewrite N. cbn [fst snd] in E. apply orb_true_iff in E. destruct E as [E|E]; apply andb_true_iff in E; destruct E as [E1 E2]; apply Nat.eqb_eq in E1, E2; subst; auto.
  - intros (e & [N|N]); apply nth_error_In in N; eexists; (split; [exact N|]); cbn; rewrite !Nat.eqb_refl; cbn; rewrite ?orb_true_r; reflexivity.
Qed.

(** ** The invariant after the pairs [done] were tried *)
Definition tried (done : list (nat * nat)) (p q : nat) : Prop := exactly_two (fun f => joins f p q) /\ (In (p, q) done \/ In (q, p) done).
Record Inv (done : list (nat * nat)) (s : state) : Prop := {
  i_edges : forall p q, (exists e, edge_between (edges s) e p q) <-> tried done p q;
  i_once : forall e e' p q, edge_between (edges s) e p q -> edge_between (edges s) e' p q -> e = e';
  i_faces : lists (lookup (iface s)) (fun e f => exists p q, edge_between (edges s) e p q /\ joins f p q);
  i_incoming : forall v, get (incoming s) v = flat_map (ending_at v) (combine (seq 0 (length (edges s))) (edges s));
  i_keys : NoDup (map fst (iface s)) /\ NoDup (map fst (incoming s)) /\ same s = [] /\ along s = [] }.
Lemma Inv_start : Inv [] nothing.
Proof.
  constructor; cbn.
  - intros p q. split; [intros (e & [N|N]); destruct e; discriminate|intros [_ [[]|[]]]].
  - intros e e' p q [N|N]; destruct e; discriminate.
  - intros f. cbn. intros e (p & q & [N|N] & _); destruct e; discriminate.
  - reflexivity.
  - split; [constructor|]. split; [constructor|]. auto.
Qed.
Lemma exactly_two_iff (P Q : nat -> Prop) : (forall x, P x <-> Q x) -> exactly_two P -> exactly_two Q.
Proof. intros H (f & g & N & E). exists f, g. split; [exact N|]. intros x. rewrite <- H. apply E. Qed.
Lemma two_sym p q : exactly_two (fun f => joins f p q) -> exactly_two (fun f => joins f q p).
Proof. apply exactly_two_iff. intros x. split; apply joins_sym. Qed.
(** nothing to do *)
Lemma Inv_same done s p q : Inv done s -> (exactly_two (fun f => joins f p q) -> exists e, edge_between (edges s) e p q) -> Inv (done ++ [(p, q)]) s.
Proof.
  intros I H. constructor; try apply I. intros a b. rewrite (i_edges _ _ I). unfold tried. split.
  - intros [X Y]. split; [exact X|]. rewrite !in_app_iff. tauto.
  - intros [X Y]. rewrite !in_app_iff in Y. cbn in Y. split; [exact X|]. destruct Y as [[Y|[[= -> ->]|[]]]|[Y|[[= -> ->]|[]]]]; auto.
    + destruct (H X) as (e & E). apply (i_edges _ _ I a b). eauto.
    + destruct (H (two_sym _ _ X)) as (e & E). apply (i_edges _ _ I a b). exists e. unfold edge_between in *. tauto.
Qed.
(** a new edge *)
Lemma Inv_new done s p q m inc : Inv done s -> p <> q -> edge_exists (edges s) p q = false -> exactly_two (fun f => joins f p q) ->
  NoDup (map fst m) -> NoDup (map fst inc) ->
  (forall f, (joins f p q /\ lookup m f = Some (get (iface s) f ++ [length (edges s)])) \/ (~ joins f p q /\ lookup m f = lookup (iface s) f)) ->
  (forall v, get inc v = get (incoming s) v ++ ending_at v (length (edges s), (p, q))) ->
  Inv (done ++ [(p, q)]) {| edges := edges s ++ [(p, q)]; iface := m; incoming := inc; along := along s; same := same s |}.
Proof.
  intros I PQ EX TW NM NI M IN. set (n := length (edges s)) in *.
  assert (B : forall e a b, edge_between (edges s ++ [(p, q)]) e a b <-> edge_between (edges s) e a b \/ e = n /\ ((a, b) = (p, q) \/ (b, a) = (p, q))).
  { intros e a b. unfold edge_between. assert (N : forall x, nth_error (edges s ++ [(p, q)]) e = Some x <-> nth_error (edges s) e = Some x \/ e = n /\ x = (p, q)).
    { intros x. destruct (Nat.lt_ge_cases e n) as [L|L].
      - rewrite nth_error_app1 by exact L. split; [auto|intros [H|[H _]]; [exact H|lia]].
      - rewrite nth_error_app2 by exact L. rewrite (proj2 (nth_error_None (edges s) e) L). fold n. split.
        + destruct (e - n) as [|k] eqn:D; cbn; [intros [= <-]; right; split; [lia|reflexivity]|destruct k; discriminate].
        + intros [H|[-> ->]]; [discriminate|]. rewrite Nat.sub_diag. reflexivity. }
    rewrite !N. split; [intros [[H|[-> H]]|[H|[-> H]]]; auto|intros [[H|H]|[-> [H|H]]]; auto]. }
  assert (OLD : forall e a b, edge_between (edges s) e a b -> e < n).
  { intros e a b [H|H]; apply nth_error_Some; congruence. }
  assert (NEW : forall e, ~ edge_between (edges s) e p q) by (intros e H; apply not_true_iff_false in EX; apply EX, exists_spec; eauto).
  assert (SYM : forall e a b, edge_between (edges s) e a b -> edge_between (edges s) e b a) by (unfold edge_between; tauto).
  constructor; cbn [edges iface incoming along same].
  - intros a b. split.
    + intros (e & H). apply B in H. destruct H as [H|[-> H]].
      * assert (T : tried done a b) by (apply (i_edges _ _ I); eauto). destruct T as [T1 T2]. split; [exact T1|]. rewrite !in_app_iff. tauto.
      * unfold tried. rewrite !in_app_iff. cbn. destruct H as [[= -> ->]|[= -> ->]]; (split; [|auto]); [exact TW|apply two_sym, TW].
    + intros [T1 T2]. rewrite !in_app_iff in T2. cbn in T2. destruct T2 as [[T2|[T2|[]]]|[T2|[T2|[]]]].
      * destruct (proj2 (i_edges _ _ I a b)) as (e & E); [split; auto|]. exists e. apply B. auto.
      * exists n. apply B. right. auto.
      * destruct (proj2 (i_edges _ _ I a b)) as (e & E); [split; auto|]. exists e. apply B. auto.
      * exists n. apply B. right. auto.
  - intros e e' a b H H'. apply B in H, H'. destruct H as [H|[-> H]], H' as [H'|[-> H']].
    + exact (i_once _ _ I e e' a b H H').
    + exfalso. destruct H' as [[= -> ->]|[= -> ->]]; [exact (NEW e H)|exact (NEW e (SYM _ _ _ H))].
    + exfalso. destruct H as [[= -> ->]|[= -> ->]]; [exact (NEW e' H')|exact (NEW e' (SYM _ _ _ H'))].
    + reflexivity.
  - intros f. pose proof (i_faces _ _ I f) as F. destruct (M f) as [[J ->]|[NJ ->]].
    + split; [destruct (get (iface s) f); discriminate|].
      assert (SG : StronglySorted lt (get (iface s) f) /\ forall e, In e (get (iface s) f) <-> exists a b, edge_between (edges s) e a b /\ joins f a b).
      { unfold get. destruct (lookup (iface s) f) as [l|]; [apply F|]. split; [constructor|]. intros e. split; [intros []|intros H; exact (F e H)]. }
      destruct SG as [S1 S2]. split.
      * assert (LT : forall e, In e (get (iface s) f) -> e < n) by (intros e H; apply S2 in H; destruct H as (a & b & H & _); exact (OLD e a b H)).
        clear - S1 LT. induction S1 as [|x l S1 IH FA]; [repeat constructor|]. cbn. constructor; [apply IH; intros; apply LT; right; assumption|]. rewrite Forall_forall in *. intros y H. apply in_app_iff in H. destruct H as [H|[<-|[]]]; [apply FA, H|apply LT; left; reflexivity].
      * intros e. rewrite in_app_iff. cbn. rewrite S2. split.
        -- intros [(a & b & H & K)|[<-|[]]]; [exists a, b; split; [apply B; auto|exact K]|]. exists p, q. split; [apply B; right; auto|exact J].
        -- intros (a & b & H & K). apply B in H. destruct H as [H|[-> H]]; [left; eauto|auto].
    + assert (EQ : forall e, (exists a b, edge_between (edges s ++ [(p, q)]) e a b /\ joins f a b) <-> exists a b, edge_between (edges s) e a b /\ joins f a b).
      { intros e. split; intros (a & b & H & K); exists a, b; (split; [|exact K]); [|apply B; auto]. apply B in H. destruct H as [H|[_ H]]; [exact H|]. exfalso. apply NJ. destruct H as [[= -> ->]|[= -> ->]]; [exact K|apply joins_sym, K]. }
      destruct (lookup (iface s) f) as [l|].
      * destruct F as (F1 & F2 & F3). split; [exact F1|]. split; [exact F2|]. intros e. rewrite F3. symmetry. apply EQ.
      * intros e H. apply EQ in H. exact (F e H).
  - intros v. rewrite IN, (i_incoming _ _ I). rewrite app_length. cbn [length]. rewrite Nat.add_1_r, seq_S, combine_app by (rewrite seq_length; reflexivity). rewrite flat_map_app'. cbn. rewrite app_nil_r. reflexivity.
  - destruct (i_keys _ _ I) as (_ & _ & K). split; [exact NM|]. split; [exact NI|exact K].
Qed.

Lemma incoming_push (inc : list (nat * list nat)) p q e v : p <> q -> get (push (push inc q (2 * e)) p (2 * e + 1)) v = get inc v ++ ending_at v (e, (p, q)).
Proof.
  intros PQ. rewrite !push_get, <- app_assoc. f_equal. unfold ending_at. cbn [fst snd]. rewrite (Nat.eqb_sym q v), (Nat.eqb_sym p v). reflexivity.
Qed.

(** ** One step *)
Lemma join_next_spec done s p q : Inv done s -> valid p -> valid q -> p <> q -> exists s', join_next rnd position psf registry cnt inside s p q = Some s' /\ Inv (done ++ [(p, q)]) s'.
Proof.
  intros I VP VQ PQ. unfold join_next. destruct (edge_exists (edges s) p q) eqn:EX; [exists s; split; [reflexivity|]; apply Inv_same; [exact I|]; intros _; apply exists_spec, EX|].
  destruct (valid_entry p VP) as (e1 & f1 & _ & E1). destruct (valid_entry q VQ) as (e2 & f2 & _ & E2). pose proof (shared_spec p q _ _ VP VQ E1 E2) as SS. rewrite E1, E2. cbn [bind].
  set (shared := flat_map _ _) in *. destruct SS as [ND SS]. set (containing := filter _ shared).
  assert (NC : NoDup containing) by (apply NoDup_filter, ND). assert (IC : forall f, In f containing <-> joins f p q). { intros f. unfold containing. rewrite filter_In, SS. unfold JoinSpec.joins, pmiddle. tauto. }
  destruct (Nat.eqb_spec (length containing) 2) as [L|L].
  - assert (TW : exactly_two (fun f => joins f p q)). { destruct containing as [|f [|g [|? ?]]]; try discriminate. exists f, g. inversion_clear NC as [|? ? N1 _]. split; [intros ->; apply N1; left; reflexivity|]. intros x. rewrite <- IC. cbn. intuition. }
    eexists. split; [reflexivity|]. apply Inv_new; auto.
    + destruct (i_keys _ _ I) as (K & _). clear - K. revert K. generalize (iface s) as m, containing as l. intros m l. revert m. induction l as [|f l IH]; intros m K; [exact K|]. cbn. apply IH, push_NoDup, K.
    + apply push_NoDup, push_NoDup, I.
    + intros f. assert (LK : forall l m, NoDup l -> lookup (fold_left (fun m f => push m f (length (edges s))) l m) f = if existsb (Nat.eqb f) l then Some (get m f ++ [length (edges s)]) else lookup m f).
      { clear. intros l. induction l as [|g l IH]; intros m N; [reflexivity|]. cbn [fold_left existsb]. inversion_clear N as [|? ? N1 N2]. rewrite (IH _ N2), push_get, push_lookup. destruct (Nat.eqb_spec f g) as [->|D]; cbn [orb]; [|rewrite app_nil_r; reflexivity].
        destruct (existsb (Nat.eqb g) l) eqn:X; [|reflexivity]. exfalso. apply existsb_exists in X. destruct X as (y & Y & Z). apply Nat.eqb_eq in Z. subst y. contradiction. }
      rewrite (LK _ _ NC). destruct (existsb (Nat.eqb f) containing) eqn:X.
      * left. split; [|reflexivity]. apply IC. apply existsb_exists in X. destruct X as (y & Y & Z). apply Nat.eqb_eq in Z. subst y. exact Y.
      * right. split; [|reflexivity]. intros J. apply IC in J. apply not_true_iff_false in X. apply X, existsb_exists. exists f. split; [exact J|apply Nat.eqb_refl].
    + intros v. apply incoming_push, PQ.
  - eexists. split; [reflexivity|]. apply Inv_same; [exact I|]. intros (f & g & N & T). exfalso. apply L.
    assert (P : Permutation containing [f; g]) by (apply NoDup_Permutation; [exact NC|repeat constructor; cbn; intuition|]; intros x; rewrite IC, T; cbn; intuition). apply Permutation_length in P. exact P.
Qed.
(** two points whose common faces are the two faces, which contain the middle *)
Definition two_faces (g h p q : nat) : Prop := g <> h /\ (forall f, pon p f /\ pon q f <-> f = g \/ f = h) /\ pmiddle g p q /\ pmiddle h p q.
Lemma join_two_spec done s g h p q : Inv done s -> valid p -> valid q -> p <> q -> two_faces g h p q ->
  exists s', join_two psf registry cnt faces_around g h p q s = Some s' /\ Inv (done ++ [(p, q)]) s'.
Proof.
  intros I VP VQ PQ (GH & SH & MG & MH). unfold join_two. destruct (edge_exists (edges s) p q) eqn:EX; [exists s; split; [reflexivity|]; apply Inv_same; [exact I|]; intros _; apply exists_spec, EX|].
  assert (J : forall f, joins f p q <-> f = g \/ f = h). { intros f. unfold JoinSpec.joins. rewrite <- SH. split; [tauto|]. intros X. apply SH in X as Y. destruct X as [X1 X2]. split; [exact X1|]. split; [exact X2|]. destruct Y as [-> | ->]; assumption. }
  assert (TW : exactly_two (fun f => joins f p q)) by (exists g, h; auto).
  destruct (valid_entry p VP) as (e1 & f1 & _ & E1). destruct (valid_entry q VQ) as (e2 & f2 & _ & E2). unfold update_neighbours. rewrite E1, E2. cbn [bind].
  set (e := length (edges s)). set (m := push (push (iface s) g e) h e).
  assert (LM : forall f, lookup m f = if Nat.eqb f g || Nat.eqb f h then Some (get (iface s) f ++ [e]) else lookup (iface s) f).
  { intros f. unfold m, get. rewrite !push_lookup. destruct (Nat.eqb_spec h g); [congruence|]. destruct (Nat.eqb_spec f h) as [->|D]; [rewrite orb_true_r; destruct (Nat.eqb_spec h g); [congruence|reflexivity]|]. rewrite orb_false_r. destruct (Nat.eqb_spec f g) as [->|D']; reflexivity. }
  assert (NC : forall l, fold_left (fun m0 f => if is_in f [Some f1; fst (psf e1); snd (psf e1)] && is_in f [Some f2; fst (psf e2); snd (psf e2)] then match lookup m0 f with Some l0 => if existsb (Nat.eqb e) l0 then m0 else push m0 f e | None => push m0 f e end else m0) l m = m).
  { intros l. induction l as [|f l IH]; [reflexivity|]. cbn [fold_left]. destruct (is_in f _ && is_in f _) eqn:X; [|exact IH]. apply andb_true_iff in X. destruct X as [X1 X2]. apply is_in_spec in X1, X2. apply (registry_on p _ f VP E1) in X1. apply (registry_on q _ f VQ E2) in X2. pose proof (proj1 (SH f) (conj X1 X2)) as Y.
    rewrite LM. assert (YY : Nat.eqb f g || Nat.eqb f h = true) by (apply orb_true_iff; destruct Y as [-> | ->]; [left|right]; apply Nat.eqb_refl). rewrite YY. replace (existsb (Nat.eqb e) (get (iface s) f ++ [e])) with true; [exact IH|]. symmetry. apply existsb_exists. exists e. split; [apply in_app_iff; right; left; reflexivity|apply Nat.eqb_refl]. }
  rewrite NC. eexists. split; [reflexivity|]. apply Inv_new; auto.
  - apply push_NoDup, push_NoDup, I.
  - apply push_NoDup, push_NoDup, I.
  - intros f. fold e. rewrite LM. destruct (Nat.eqb f g || Nat.eqb f h) eqn:Y; [left|right]; (split; [|reflexivity]); rewrite J.
    + apply orb_true_iff in Y. destruct Y as [Y|Y]; apply Nat.eqb_eq in Y; auto.
    + intros Z. apply not_true_iff_false in Y. apply Y. apply orb_true_iff. destruct Z as [-> | ->]; [left|right]; apply Nat.eqb_refl.
  - intros v. apply incoming_push, PQ.
Qed.

(** ** All *)
Fixpoint neighbours (vs : list nat) : list (nat * nat) := match vs with v :: ((w :: _) as vs') => (v, w) :: neighbours vs' | _ => [] end.
Lemma neighbours_cons v w vs : neighbours (v :: w :: vs) = (v, w) :: neighbours (w :: vs). Proof. reflexivity. Qed.
Lemma neighbours_In vs p q : In (p, q) (neighbours vs) <-> exists l l', vs = l ++ p :: q :: l'.
Proof.
  induction vs as [|v vs IH]; [split; [intros []|intros (l & l' & E); destruct l; discriminate]|]. destruct vs as [|w vs]; [split; [intros []|intros (l & l' & E); destruct l as [|? [|? ?]]; discriminate]|].
  rewrite neighbours_cons. cbn [In]. rewrite IH. split.
  - intros [[= -> ->]|(l & l' & ->)]; [exists [], vs; reflexivity|exists (v :: l), l'; reflexivity].
  - intros ([|x l] & l' & E); cbn in E; [injection E as -> -> ->; left; reflexivity|injection E as -> E; right; eauto].
Qed.
Lemma join_row_spec vs : forall done s, Inv done s -> (forall v, In v vs -> valid v) -> NoDup vs -> exists s', join_row rnd position psf registry cnt inside s vs = Some s' /\ Inv (done ++ neighbours vs) s'.
Proof.
  induction vs as [|v vs IH]; intros done s I V N; [exists s; split; [reflexivity|cbn; rewrite app_nil_r; exact I]|]. destruct vs as [|w vs]; [exists s; split; [reflexivity|cbn; rewrite app_nil_r; exact I]|].
  assert (VW : v <> w) by (intros ->; inversion_clear N as [|? ? N1 _]; apply N1; left; reflexivity).
  destruct (join_next_spec done s v w I (V v (or_introl eq_refl)) (V w (or_intror (or_introl eq_refl))) VW) as (s1 & E1 & I1).
  destruct (IH _ s1 I1 (fun x X => V x (or_intror X)) ltac:(inversion N; assumption)) as (s2 & E2 & I2). exists s2.
  change (join_row rnd position psf registry cnt inside s (v :: w :: vs)) with (bind (join_next rnd position psf registry cnt inside s v w) (fun s => join_row rnd position psf registry cnt inside s (w :: vs))). rewrite E1. cbn [bind]. split; [exact E2|]. rewrite neighbours_cons. rewrite <- app_assoc in I2. exact I2.
Qed.
(** what is tried for an entry *)
Definition row_of (entry : (nat * nat) * list nat) : option (list nat) :=
  match snd entry with _ :: _ :: _ :: _ => linear_projection_sort rnd sort (map (fun v => (v, position v)) (snd entry)) | l => Some l end.
Lemma join_points_spec table rows : Forall2 (fun entry row => row_of entry = Some row /\ NoDup row /\ (forall v, In v row -> valid v) /\ forall p q, snd entry = [p; q] -> two_faces (fst (fst entry)) (snd (fst entry)) p q) table rows ->
  exists s, join_points rnd sort position psf registry cnt faces_around inside table = Some s /\ Inv (flat_map neighbours rows) s.
Proof.
  intros F. unfold join_points. assert (G : forall done s0, Inv done s0 -> exists s, fold_left (fun s entry => let* s := s in join_entry rnd sort position psf registry cnt faces_around inside s entry) table (Some s0) = Some s /\ Inv (done ++ flat_map neighbours rows) s).
  { induction F as [|entry row table rows (E & N & V & T) F IH]; intros done s0 I; [exists s0; split; [reflexivity|cbn; rewrite app_nil_r; exact I]|]. cbn [fold_left flat_map bind].
    assert (ST : exists s1, join_entry rnd sort position psf registry cnt faces_around inside s0 entry = Some s1 /\ Inv (done ++ neighbours row) s1).
    { unfold join_entry, row_of in *. destruct (snd entry) as [|p [|q [|r l]]] eqn:S.
      - injection E as <-. exists s0. split; [reflexivity|]. cbn. rewrite app_nil_r. exact I.
      - injection E as <-. exists s0. split; [reflexivity|]. cbn. rewrite app_nil_r. exact I.
      - injection E as <-. apply join_two_spec; auto; [apply V; left; reflexivity|apply V; right; left; reflexivity|]. intros ->. inversion_clear N as [|? ? N1 _]. apply N1. left. reflexivity.
      - rewrite E. cbn [bind]. apply join_row_spec; assumption. }
    destruct ST as (s1 & -> & I1). destruct (IH _ s1 I1) as (s2 & E2 & I2). exists s2. split; [exact E2|]. rewrite app_assoc. exact I2. }
  destruct (G [] nothing Inv_start) as (s & E & I). exists s. split; [exact E|exact I].
Qed.
End Join.
