(** Cyclic sequences: rotation, pairs of neighbours, subdivision. *)
From Coq Require Import List ZArith Lia Bool Permutation.
From Verif Require Import Vec HmeshModel HmeshSpec HmeshCyc InputSpec InputProofs PartModel PartSpec.
Import ListNotations.
Open Scope Z_scope.
Ltac Zify.zify_post_hook ::= idtac.

Definition rot {A} (l : list A) : list A := match l with [] => [] | a :: r => r ++ [a] end.

Lemma sc_refl {A} (a : list A) : same_cycle a a.
Proof. exists [], a. rewrite app_nil_r. auto. Qed.
Lemma sc_sym {A} (a b : list A) : same_cycle a b -> same_cycle b a.
Proof. intros (x & y & -> & ->). exists y, x. auto. Qed.
Lemma sc_rot {A} (a : list A) : same_cycle a (rot a).
Proof. destruct a as [|x a]; [apply sc_refl|]. exists [x], a. auto. Qed.

(** a property kept by one-step rotation is kept by rotation *)
Lemma sc_ind {A} (P : list A -> Prop) : (forall l, P l -> P (rot l)) -> forall a b, same_cycle a b -> P a -> P b.
Proof.
  intros H a b (x & y & -> & ->). revert y. induction x as [|c x IH]; intros y Pa; [rewrite app_nil_r; exact Pa|].
  apply H in Pa. cbn [app rot] in Pa. rewrite <- app_assoc in Pa. apply IH in Pa. rewrite <- app_assoc in Pa. exact Pa.
Qed.
Lemma sc_trans {A} (a b c : list A) : same_cycle a b -> same_cycle b c -> same_cycle a c.
Proof.
  intros H1 H2. revert H1. apply (sc_ind (fun l => same_cycle a l)) with (a := b); [|exact H2].
  intros l (x & y & E & ->). destruct y as [|z y]; [cbn [app] in *|].
  - rewrite app_nil_r in E. subst. apply sc_rot.
  - exists (x ++ [z]), y. rewrite <- app_assoc. cbn. split; [exact E|]. rewrite app_assoc. reflexivity.
Qed.
Lemma sc_perm {A} (a b : list A) : same_cycle a b -> Permutation a b.
Proof. intros (x & y & -> & ->). apply Permutation_app_comm. Qed.
Lemma sc_map {A B} (g : A -> B) a b : same_cycle a b -> same_cycle (map g a) (map g b).
Proof. intros (x & y & -> & ->). exists (map g x), (map g y). rewrite !map_app. auto. Qed.
Lemma sc_concat {A} (a b : list (list A)) : same_cycle a b -> same_cycle (concat a) (concat b).
Proof. intros (x & y & -> & ->). exists (concat x), (concat y). rewrite !concat_app. auto. Qed.
Lemma sc_flat {A B} (g : A -> list B) a b : same_cycle a b -> same_cycle (flat_map g a) (flat_map g b).
Proof. intros H. rewrite !flat_map_concat_map. apply sc_concat, sc_map, H. Qed.
Lemma sc_NoDup {A} (a b : list A) : same_cycle a b -> NoDup a -> NoDup b.
Proof. intros H. apply Permutation_NoDup, sc_perm, H. Qed.
Lemma sc_length {A} (a b : list A) : same_cycle a b -> length a = length b.
Proof. intros H. apply Permutation_length, sc_perm, H. Qed.
Lemma sc_In {A} (a b : list A) x : same_cycle a b -> (In x a <-> In x b).
Proof. intros H. split; apply Permutation_in; [|symmetry]; apply sc_perm, H. Qed.

(** consecutive pairs of a (linear) sequence *)
Fixpoint conn (l : list Z) : list (Z * Z) :=
  match l with
  | a :: r => match r with b :: _ => (a, b) :: conn r | [] => [] end
  | [] => []
  end.

Lemma conn_combine a l : conn (a :: l) = combine (a :: l) l.
Proof. revert a. induction l as [|b l IH]; intros a; [reflexivity|]. change (conn (a :: b :: l)) with ((a, b) :: conn (b :: l)). rewrite IH. reflexivity. Qed.

Lemma combine_longer {A B} (l : list A) x (r : list B) : length l = length r -> combine (l ++ [x]) r = combine l r.
Proof. revert r. induction l as [|a l IH]; intros [|b r] H; try discriminate; [reflexivity|]. cbn. rewrite IH; [reflexivity|]. cbn in H. lia. Qed.

Lemma cyc_conn a l : cyc_pairs (a :: l) = conn (a :: l ++ [a]).
Proof.
  unfold cyc_pairs. rewrite conn_combine. symmetry. change (a :: l ++ [a]) with ((a :: l) ++ [a]). apply combine_longer. rewrite app_length. cbn. lia.
Qed.

Lemma conn_app p x q : conn (p ++ x :: q) = conn (p ++ [x]) ++ conn (x :: q).
Proof.
  induction p as [|a p IH]; [reflexivity|]. destruct p as [|b p]; [reflexivity|].
  change (conn ((a :: b :: p) ++ x :: q)) with ((a, b) :: conn ((b :: p) ++ x :: q)). rewrite IH. reflexivity.
Qed.
Lemma conn_join p x y q : conn ((p ++ [x]) ++ y :: q) = conn (p ++ [x]) ++ (x, y) :: conn (y :: q).
Proof. rewrite <- app_assoc. cbn [app]. rewrite (conn_app p x (y :: q)). reflexivity. Qed.

Lemma cyc_rot l : cyc_pairs (rot l) = rot (cyc_pairs l).
Proof.
  destruct l as [|a l]; [reflexivity|]. destruct l as [|b l]; [reflexivity|]. cbn [rot].
  change ((b :: l) ++ [a]) with (b :: (l ++ [a])). rewrite (cyc_conn b), (cyc_conn a). change (conn (a :: (b :: l) ++ [a])) with ((a, b) :: conn ((b :: l) ++ [a])).
  cbn [rot]. change (b :: (l ++ [a]) ++ [b]) with (((b :: l) ++ [a]) ++ [b]). rewrite conn_join. reflexivity.
Qed.
Lemma sc_cyc a b : same_cycle a b -> same_cycle (cyc_pairs a) (cyc_pairs b).
Proof.
  intros H. apply (sc_ind (fun l => same_cycle (cyc_pairs a) (cyc_pairs l))) with (a := a); [|exact H|apply sc_refl].
  intros l K. rewrite cyc_rot. eapply sc_trans; [exact K|apply sc_rot].
Qed.
Lemma rot_rotate1 l : rotate1 l = rot l. Proof. reflexivity. Qed.

Lemma NoDup_app_intro {A} (r l : list A) : NoDup r -> NoDup l -> (forall x, In x r -> ~ In x l) -> NoDup (r ++ l).
Proof.
  intros H1 H2. induction r as [|x r IH]; intros D; [exact H2|]. inversion H1; subst. cbn. constructor.
  - rewrite in_app_iff. intros [K|K]; [contradiction|]. exact (D x (or_introl eq_refl) K).
  - apply IH; [assumption|]. intros y Hy. apply D. right. exact Hy.
Qed.

(** ** subdivision *)
Section Sub.
Variables a b v c d w : Z.
Definition ins (p : Z * Z) : list Z :=
  if (fst p =? a) && (snd p =? b) then [v] else if (fst p =? c) && (snd p =? d) then [w] else [].

Lemma subdivide_flat r : subdivide a b v c d w r = flat_map (fun p => fst p :: ins p) (cyc_pairs r).
Proof.
  unfold subdivide. rewrite directed_cyc, flat_map_concat_map. f_equal. apply map_ext. intros p. unfold ins.
  destruct ((fst p =? a) && (snd p =? b)); [reflexivity|]. destruct ((fst p =? c) && (snd p =? d)); reflexivity.
Qed.

Lemma sc_subdivide r r' : same_cycle r r' -> same_cycle (subdivide a b v c d w r) (subdivide a b v c d w r').
Proof. intros H. rewrite !subdivide_flat. apply sc_flat, sc_cyc, H. Qed.

(** a path: a list of pairs, each ending where the next starts *)
Fixpoint path (x : Z) (P : list (Z * Z)) (z : Z) : Prop :=
  match P with
  | [] => x = z
  | p :: P' => fst p = x /\ path (snd p) P' z
  end.
Lemma path_conn x l z : path x (conn (x :: l ++ [z])) z.
Proof. revert x. induction l as [|y l IH]; intros x; cbn; [auto|]. split; [reflexivity|]. apply IH. Qed.

Lemma path_pairs x P z : path x P z ->
  conn (flat_map (fun p => fst p :: ins p) P ++ [z]) = flat_map (fun p => conn (fst p :: ins p ++ [snd p])) P.
Proof.
  revert x. induction P as [|p P IH]; intros x H; [reflexivity|]. cbn [path] in H. destruct H as [<- H]. cbn [flat_map]. rewrite <- app_assoc.
  assert (Q : exists q, flat_map (fun p => fst p :: ins p) P ++ [z] = snd p :: q).
  { destruct P as [|p' P']; cbn [path] in H; [subst z; exists []; reflexivity|]. destruct H as [E _]. cbn [flat_map]. rewrite E. eexists. reflexivity. }
  specialize (IH _ H). destruct Q as [q Q]. rewrite Q in IH |- *. rewrite (conn_app (fst p :: ins p) (snd p) q). rewrite IH. reflexivity.
Qed.

(** the pairs of the subdivided cycle *)
Lemma subdivide_pairs r : (1 <= length r)%nat ->
  cyc_pairs (subdivide a b v c d w r) = flat_map (fun p => conn (fst p :: ins p ++ [snd p])) (cyc_pairs r).
Proof.
  intros L. destruct r as [|x r]; [cbn in L; lia|]. rewrite subdivide_flat, cyc_conn.
  pose proof (path_pairs x (conn (x :: r ++ [x])) x (path_conn x r x)) as H.
  assert (Q : exists q, flat_map (fun p => fst p :: ins p) (conn (x :: r ++ [x])) = x :: q).
  { destruct r as [|y r]; cbn [app conn flat_map fst]; eexists; reflexivity. }
  destruct Q as [q Q]. rewrite Q in H |- *. rewrite cyc_conn. exact H.
Qed.

Lemma In_subdivide_pairs r s t : (1 <= length r)%nat -> (a, b) <> (c, d) ->
  (In (s, t) (cyc_pairs (subdivide a b v c d w r)) <->
   (In (s, t) (cyc_pairs r) /\ (s, t) <> (a, b) /\ (s, t) <> (c, d)) \/
   (In (a, b) (cyc_pairs r) /\ ((s, t) = (a, v) \/ (s, t) = (v, b))) \/
   (In (c, d) (cyc_pairs r) /\ ((s, t) = (c, w) \/ (s, t) = (w, d)))).
Proof.
  intros L Nab. rewrite (subdivide_pairs r L), in_flat_map. unfold ins. split.
  - intros ((x, y) & Hp & Hin). cbn [fst snd] in Hin.
    destruct (Z.eqb_spec x a) as [->|N1]; [destruct (Z.eqb_spec y b) as [->|N2]|]; cbn [andb] in Hin.
    + cbn in Hin. right. left. split; [exact Hp|]. destruct Hin as [H|[H|[]]]; auto.
    + destruct (Z.eqb_spec a c) as [<-|N3]; [destruct (Z.eqb_spec y d) as [->|N4]|]; cbn [andb] in Hin; cbn in Hin.
      * right. right. split; [exact Hp|]. destruct Hin as [H|[H|[]]]; auto.
      * destruct Hin as [H|[]]. injection H as <- <-. left. split; [exact Hp|]. split; congruence.
      * destruct Hin as [H|[]]. injection H as <- <-. left. split; [exact Hp|]. split; congruence.
    + destruct (Z.eqb_spec x c) as [->|N3]; [destruct (Z.eqb_spec y d) as [->|N4]|]; cbn [andb] in Hin; cbn in Hin.
      * right. right. split; [exact Hp|]. destruct Hin as [H|[H|[]]]; auto.
      * destruct Hin as [H|[]]. injection H as <- <-. left. split; [exact Hp|]. split; congruence.
      * destruct Hin as [H|[]]. injection H as <- <-. left. split; [exact Hp|]. split; congruence.
  - intros [(Hp & N1 & N2)|[(Hp & H)|(Hp & H)]].
    + exists (s, t). split; [exact Hp|]. cbn [fst snd]. destruct (Z.eqb_spec s a) as [->|E1]; [destruct (Z.eqb_spec t b) as [->|E2]; [congruence|]|]; cbn [andb].
      * destruct (Z.eqb_spec a c) as [<-|E3]; [destruct (Z.eqb_spec t d) as [->|E4]; [congruence|]|]; cbn; auto.
      * destruct (Z.eqb_spec s c) as [->|E3]; [destruct (Z.eqb_spec t d) as [->|E4]; [congruence|]|]; cbn; auto.
    + exists (a, b). split; [exact Hp|]. cbn [fst snd]. rewrite !Z.eqb_refl. cbn. destruct H; auto.
    + exists (c, d). split; [exact Hp|]. cbn [fst snd]. rewrite !Z.eqb_refl.
      destruct (Z.eqb_spec c a) as [->|E1]; [destruct (Z.eqb_spec d b) as [->|E2]; [congruence|]|]; cbn; destruct H; auto.
Qed.

(** vertices of the subdivided cycle *)
Lemma subdivide_perm P : Permutation (flat_map (fun p => fst p :: ins p) P) (map fst P ++ flat_map ins P).
Proof.
  induction P as [|p P IH]; [constructor|]. cbn [flat_map map app]. apply perm_skip. rewrite IH, !app_assoc. apply Permutation_app_tail. apply Permutation_app_comm.
Qed.

Lemma In_ins P x : In x (flat_map ins P) -> x = v \/ x = w.
Proof.
  rewrite in_flat_map. intros (p & _ & H). unfold ins in H. destruct ((fst p =? a) && (snd p =? b)); [destruct H as [<-|[]]; auto|].
  destruct ((fst p =? c) && (snd p =? d)); [destruct H as [<-|[]]; auto|destruct H].
Qed.
Lemma In_subdivide r x : In x (subdivide a b v c d w r) -> In x r \/ x = v \/ x = w.
Proof.
  rewrite subdivide_flat. intros H. apply (Permutation_in _ (subdivide_perm _)) in H. apply in_app_iff in H. destruct H as [H|H].
  - left. rewrite (proj1 (cyc_fst_snd r)) in H. exact H.
  - right. eapply In_ins, H.
Qed.

Lemma In_subdivide_old r x : In x r -> In x (subdivide a b v c d w r).
Proof.
  rewrite subdivide_flat. intros H. apply (Permutation_in _ (Permutation_sym (subdivide_perm _))). apply in_app_iff. left. rewrite (proj1 (cyc_fst_snd r)). exact H.
Qed.

Lemma NoDup_ins P : v <> w -> NoDup P -> NoDup (flat_map ins P) /\ (In v (flat_map ins P) -> In (a, b) P) /\ (In w (flat_map ins P) -> In (c, d) P).
Proof.
  intros Nvw. induction P as [|p P IH]; intros H; [split; [constructor|split; intros []]|]. inversion H as [|? ? Np H']; subst. destruct (IH H') as (I1 & I2 & I3). cbn [flat_map].
  assert (Q : ins p = [] \/ (p = (a, b) /\ ins p = [v]) \/ (p = (c, d) /\ ins p = [w])).
  { unfold ins. destruct p as (x, y). cbn [fst snd]. destruct (Z.eqb_spec x a) as [->|]; [destruct (Z.eqb_spec y b) as [->|]|]; cbn [andb]; auto.
    - destruct (Z.eqb_spec a c) as [E1|E1]; [destruct (Z.eqb_spec y d) as [E2|E2]|]; cbn [andb]; [right; right; split; [congruence|reflexivity]|auto|auto].
    - destruct (Z.eqb_spec x c) as [E1|E1]; [destruct (Z.eqb_spec y d) as [E2|E2]|]; cbn [andb]; [right; right; split; [congruence|reflexivity]|auto|auto]. }
  destruct Q as [->|[[-> ->]|[-> ->]]]; cbn [app].
  - split; [exact I1|]. split; intros K; right; auto.
  - split; [constructor; [intros K; exact (Np (I2 K))|exact I1]|]. split; [left; reflexivity|]. intros [K|K]; [congruence|right; auto].
  - split; [constructor; [intros K; exact (Np (I3 K))|exact I1]|]. split; [|left; reflexivity]. intros [K|K]; [congruence|right; auto].
Qed.

Lemma NoDup_subdivide r : v <> w -> ~ In v r -> ~ In w r -> NoDup r -> NoDup (subdivide a b v c d w r).
Proof.
  intros Nvw Nv Nw H. rewrite subdivide_flat. eapply Permutation_NoDup; [symmetry; apply subdivide_perm|].
  pose proof (proj1 (NoDup_ins (cyc_pairs r) Nvw (cyc_NoDup r H))) as I1. rewrite (proj1 (cyc_fst_snd r)).
  assert (D : forall x, In x r -> ~ In x (flat_map ins (cyc_pairs r))). { intros x Hx K. apply In_ins in K. destruct K as [-> | ->]; auto. }
  apply NoDup_app_intro; assumption.
Qed.

Lemma subdivide_len r : (length r <= length (subdivide a b v c d w r))%nat.
Proof.
  rewrite subdivide_flat, (Permutation_length (subdivide_perm _)), app_length, (proj1 (cyc_fst_snd r)). lia.
Qed.

(** the code puts the new vertex before the end of the pair instead of after its start *)
Lemma path_shift x P z : path x P z ->
  flat_map (fun p => fst p :: ins p) P ++ [z] = x :: flat_map (fun p => ins p ++ [snd p]) P.
Proof.
  revert x. induction P as [|p P IH]; intros x H; cbn [path] in H; [subst; reflexivity|]. destruct H as [<- H]. cbn [flat_map]. rewrite <- !app_assoc. cbn [app].
  rewrite (IH _ H). reflexivity.
Qed.
End Sub.

(** ** a cycle made of two parts *)
Lemma cyc_two A B s0 t0 s1 t1 A' A'' B' B'' : A = t0 :: A' -> A = A'' ++ [s1] -> B = t1 :: B' -> B = B'' ++ [s0] ->
  forall p, In p (cyc_pairs (A ++ B)) <-> In p (conn A) \/ p = (s1, t1) \/ In p (conn B) \/ p = (s0, t0).
Proof.
  intros EA EA' EB EB' p. assert (Q : cyc_pairs (A ++ B) = conn A ++ (s1, t1) :: conn B ++ [(s0, t0)]).
  { assert (Q1 : cyc_pairs (A ++ B) = conn ((A ++ B) ++ [t0])). { rewrite EA. cbn [app]. apply cyc_conn. }
    rewrite Q1. rewrite <- app_assoc. rewrite EA' at 1. rewrite EB at 1. cbn [app]. rewrite conn_join. rewrite <- EA'. f_equal. f_equal.
    change (conn (t1 :: B' ++ [t0])) with (conn ((t1 :: B') ++ [t0])). rewrite <- EB, EB'. change (conn ((B'' ++ [s0]) ++ [t0])) with (conn ((B'' ++ [s0]) ++ t0 :: [])).
    rewrite conn_join. reflexivity. }
  rewrite Q. rewrite in_app_iff. cbn [In]. rewrite in_app_iff. cbn [In]. intuition congruence.
Qed.

Lemma cyc_child B s t u v B' B'' : B = t :: B' -> B = B'' ++ [s] ->
  forall p, In p (cyc_pairs (u :: v :: B)) <-> p = (u, v) \/ p = (v, t) \/ In p (conn B) \/ p = (s, u).
Proof.
  intros E E' p. assert (Q : cyc_pairs (u :: v :: B) = (u, v) :: (v, t) :: conn B ++ [(s, u)]).
  { rewrite cyc_conn. cbn [app]. change (conn (u :: v :: B ++ [u])) with ((u, v) :: conn (v :: B ++ [u])). f_equal.
    assert (Q1 : conn (v :: B ++ [u]) = (v, t) :: conn (B ++ [u])) by (rewrite E; reflexivity). rewrite Q1. f_equal.
    rewrite E'. rewrite conn_join. reflexivity. }
  rewrite Q. cbn [In]. rewrite in_app_iff. cbn [In]. intuition congruence.
Qed.

Lemma child_cycle u v (B : list Z) : same_cycle (v :: B ++ [u]) (u :: v :: B).
Proof. exists (v :: B), [u]. auto. Qed.
