(** C74: cases. *)
From Coq Require Import List Arith Bool Lia Permutation Sorting Reals Lra Ascii.
From Verif Require Import CutModel CutProofs SplitModel SplitSpec SplitProofs PointsSpec JoinModel JoinSpec JoinProofs JoinProps PointsCases.
From Verif Require GeoModel GeoSpec GeoSeg GeoPip GeoPip3Props.
Import ListNotations.
Open Scope nat_scope.

(** ** The edges of a face only become more *)
Lemma push_more m k e k' x : In x (get m k') -> In x (get (push m k e) k').
Proof. intros I. rewrite push_get. apply in_app_iff. auto. Qed.
Lemma pushes_more l e k' x : forall m, In x (get m k') -> In x (get (fold_left (fun m f => push m f e) l m) k').
Proof. induction l as [|f l IH]; intros m I; [exact I|]. cbn. apply IH, push_more, I. Qed.
Lemma join_next_more rnd position psf registry cnt inside s p q s' f e : join_next rnd position psf registry cnt inside s p q = Some s' ->
  In e (get (iface s) f) /\ e < length (edges s) -> In e (get (iface s') f) /\ nth_error (edges s') e = nth_error (edges s) e /\ e < length (edges s').
Proof.
  unfold join_next. intros E [I L]. destruct (edge_exists _ _ _); [injection E as <-; auto|]. destruct (registry_faces _ _ _ p) as [a|]; [|discriminate]. destruct (registry_faces _ _ _ q) as [b|]; [|discriminate]. cbn [bind] in E. cbv zeta in E.
  destruct (Nat.eqb _ 2); injection E as <-; [|auto]. cbn. split; [apply pushes_more, I|]. split; [apply nth_error_app1, L|rewrite app_length; lia].
Qed.
Lemma join_row_more rnd position psf registry cnt inside vs : forall s s' f e, join_row rnd position psf registry cnt inside s vs = Some s' ->
  In e (get (iface s) f) /\ e < length (edges s) -> In e (get (iface s') f) /\ nth_error (edges s') e = nth_error (edges s) e.
Proof.
  induction vs as [|p vs IH]; intros s s' f e E I; [injection E as <-; split; [apply I|reflexivity]|]. destruct vs as [|q vs]; [injection E as <-; split; [apply I|reflexivity]|]. change (join_row rnd position psf registry cnt inside s (p :: q :: vs)) with (bind (join_next rnd position psf registry cnt inside s p q) (fun s => join_row rnd position psf registry cnt inside s (q :: vs))) in E.
  destruct (join_next _ _ _ _ _ _ s p q) as [s1|] eqn:E1; [|discriminate]. cbn [bind] in E. destruct (join_next_more _ _ _ _ _ _ _ _ _ _ f e E1 I) as (A & B & C). destruct (IH s1 s' f e E (conj A C)) as [D F]. split; [exact D|]. congruence.
Qed.
Lemma join_row_defined rnd position psf registry cnt inside vs : (forall v, In v vs -> valid registry cnt v) -> forall s, exists s', join_row rnd position psf registry cnt inside s vs = Some s'.
Proof.
  induction vs as [|p vs IH]; intros V s; [eexists; reflexivity|]. destruct vs as [|q vs]; [eexists; reflexivity|]. change (join_row rnd position psf registry cnt inside s (p :: q :: vs)) with (bind (join_next rnd position psf registry cnt inside s p q) (fun s => join_row rnd position psf registry cnt inside s (q :: vs))).
  assert (E : exists s1, join_next rnd position psf registry cnt inside s p q = Some s1). { unfold join_next. destruct (edge_exists _ _ _); [eexists; reflexivity|]. destruct (valid_entry psf registry cnt p) as (e & f & _ & ->); [apply V; left; reflexivity|]. destruct (valid_entry psf registry cnt q) as (e' & f' & _ & ->); [apply V; right; left; reflexivity|]. cbn [bind]. cbv zeta. destruct (Nat.eqb _ 2); eexists; reflexivity. }
  destruct E as (s1 & ->). cbn [bind]. apply IH. intros v I. apply V. right. exact I.
Qed.

(** ** A face with a notch, and a face in it *)
(** Face 1 is a U: (0, 0), (6, 0), (6, 4), (4, 4), (4, 2), (2, 2), (2, 4), (0, 4); face 0 is the square in the notch.  Edges 0 to 7 are those of the U, in this order, edges 3, 4, 5 are also of the square, edge 8 is its top.
    Face 2, of the cut mesh, crosses them all at y = 3: in the points 20 (0, 3), 21 (2, 3), 22 (4, 3), 23 (6, 3), of the edges 7, 5, 3, 1. *)
Definition u_shape : list (R * R) := [(0, 0); (6, 0); (6, 4); (4, 4); (4, 2); (2, 2); (2, 4); (0, 4)]%R.
Definition notch : list (R * R) := [(2, 2); (4, 2); (4, 4); (2, 4)]%R.
Definition u_psf (e : nat) : option nat * option nat := match e with 3 | 4 | 5 => (Some 1, Some 0) | 0 | 1 | 2 | 6 | 7 => (Some 1, None) | 8 => (None, Some 0) | 9 | 10 | 11 => (Some 2, None) | _ => (None, None) end.
Definition u_around (f : nat) : list nat := match f with 0 => [1; 1; 1] | 1 => [0; 0; 0] | _ => [] end.
Definition u_registry : list (nat * nat) := [(7, 2); (5, 2); (3, 2); (1, 2)].
Definition u_position (v : nat) : vec := match v with O => (0, 0, 0) | S v => (2 * (INR v - 19), 3, 0) end%R.
Definition u_table : list ((nat * nat) * list nat) := [((0, 2), [21; 22]); ((1, 2), [20; 21; 22; 23])].

(** The line between points 21 and 22 is in the notch, outside the U; nevertheless it becomes an edge of the U, because the square has a smaller number, exactly two points and the U as a neighbour that both points are on: this branch does not test
    where the line is.  This is so for every answer of the test. *)
Theorem C74_notch_refuted : forall (sort : list (nat * R) -> list (nat * R)) (inside : nat -> vec -> bool), sorting sort ->
  GeoModel.point_in_polygon (3, 3)%R u_shape = "o"%char /\ GeoModel.point_in_polygon (3, 3)%R notch = "i"%char /\
  (forall g h l v, In ((g, h), l) u_table -> In v l -> lies_on (faces u_psf) 20 u_registry v g /\ lies_on (faces u_psf) 20 u_registry v h) /\
  Forall (fun entry => in_line u_position (snd entry)) u_table /\
  exists s e, join_points (fun x => x) sort u_position u_psf u_registry 20 u_around inside u_table = Some s /\ nth_error (edges s) e = Some (21, 22) /\ In e (get (iface s) 1).
Proof.
  intros sort inside SO. split; [unfold u_shape; GeoPip3Props.evalpip|]. split; [unfold notch; GeoPip3Props.evalpip|].
  assert (IL : forall l, StronglySorted (fun v w => (INR (v - 1) < INR (w - 1))%R) l -> (forall v, In v l -> 0 < v) -> in_line u_position l).
  { intros l SS P. exists (- 38, 3, 0)%R, (- 36, 3, 0)%R, (fun v => INR (v - 1)). split; [intros [=]; lra|]. split; [|exact SS]. intros v I. specialize (P v I). destruct v as [|v]; [lia|]. cbn - [INR]. rewrite Nat.sub_0_r. f_equal; [f_equal|]; ring. }
  split. { intros g h l v I J. assert (Z : forall e v0 g0, nth_error u_registry (v0 - 20) = Some (e, 2) -> 20 <= v0 -> g0 = 2 \/ In g0 (faces u_psf e) -> lies_on (faces u_psf) 20 u_registry v0 g0) by (intros e v0 g0 N L D; exists e, 2; split; [split; assumption|exact D]).
    cbn in I. destruct I as [I|[I|[]]]; injection I as <- <- <-; cbn in J; repeat (destruct J as [<-|J]; [split; eapply Z; try reflexivity; try lia; cbn; auto|]); destruct J. }
  assert (F : Forall (fun entry : (nat * nat) * list nat => in_line u_position (snd entry)) u_table).
  { repeat (apply Forall_cons); [| |apply Forall_nil]; cbn [snd]; (apply IL; [|intros v I; cbn in I; lia]); repeat (apply SSorted_cons); try apply SSorted_nil; repeat (apply Forall_cons); try apply Forall_nil; apply lt_INR; lia. }
  split; [exact F|]. inversion_clear F as [|? ? _ F']. inversion_clear F' as [|? ? F1 _]. cbn [snd] in F1.
  destruct (exact_row sort u_position [20; 21; 22; 23] [20; 21; 22; 23] SO (Permutation_refl _) F1 ltac:(cbn; lia)) as (r & E & D).
  set (s1 := {| edges := [(21, 22)]; iface := [(0, [0]); (2, [0]); (1, [0])]; incoming := [(22, [0]); (21, [1])]; along := []; same := [] |}).
  assert (E0 : join_points (fun x => x) sort u_position u_psf u_registry 20 u_around inside u_table = bind (linear_projection_sort (fun x => x) sort (map (fun v => (v, u_position v)) [20; 21; 22; 23])) (fun vs => join_row (fun x => x) u_position u_psf u_registry 20 inside s1 vs)) by reflexivity.
  assert (V : forall v, In v r -> valid u_registry 20 v) by (intros v I; unfold valid; destruct D as [-> | ->]; cbn in I; cbn; lia).
  destruct (join_row_defined (fun x => x) u_position u_psf u_registry 20 inside r V s1) as (s & E2). exists s, 0. split; [exact (eq_trans E0 (eq_trans (f_equal (fun o => bind o (fun vs => join_row (fun x => x) u_position u_psf u_registry 20 inside s1 vs)) E) E2))|].
  destruct (join_row_more (fun x => x) u_position u_psf u_registry 20 inside r s1 s 1 0 E2) as [A B]; [split; [left; reflexivity|cbn; lia]|]. split; [exact B|exact A].
Qed.


(** ** Cases that meet the hypotheses *)
(** The U alone, its four points in another order: 20 - 21 and 22 - 23 are joined. *)
Theorem C74_joined_case : forall (sort : list (nat * R) -> list (nat * R)) (inside : nat -> vec -> bool), sorting sort ->
  (forall x, inside 2 (x, 3, 0)%R = true) -> (forall x, inside 1 (x, 3, 0)%R = true <-> (0 < x < 2 \/ 4 < x < 6)%R) -> (forall x, inside 0 (x, 3, 0)%R = false) ->
  exists s, join_points (fun x => x) sort u_position u_psf u_registry 20 u_around inside [((1, 2), [22; 20; 23; 21])] = Some s /\
    (forall p q, (exists e, edge_between (edges s) e p q) <-> In (p, q) [(20, 21); (21, 20); (22, 23); (23, 22)]) /\
    (forall f, f = 1 \/ f = 2 -> exists l, lookup (iface s) f = Some l /\ Permutation l [0; 1]).
Proof.
  intros sort inside SO I2 I1 I0.
  assert (IL : in_line u_position [20; 21; 22; 23]).
  { exists (- 38, 3, 0)%R, (- 36, 3, 0)%R, (fun v => INR (v - 1)). split; [intros [=]; lra|]. split; [intros [|v] I; [cbn in I; lia|]; cbn - [INR]; rewrite Nat.sub_0_r; f_equal; [f_equal|]; ring|]. repeat (apply SSorted_cons); try apply SSorted_nil; repeat (apply Forall_cons); try apply Forall_nil; apply lt_INR; lia. }
  assert (MD : forall a b, 0 < a -> 0 < b -> midpoint (fun x => x) (u_position a) (u_position b) = ((INR (a - 1) + INR (b - 1) - 38)%R, 3%R, 0%R)).
  { intros [|a] [|b] A B; try lia. cbn - [INR]. rewrite !Nat.sub_0_r. f_equal; [f_equal|]; field. }
  assert (PT : forall v e f, is_point 20 u_registry v e f -> f = 2 /\ (v = 20 /\ e = 7 \/ v = 21 /\ e = 5 \/ v = 22 /\ e = 3 \/ v = 23 /\ e = 1)).
  { intros v e f (L & N). assert (V : v - 20 = 0 \/ v - 20 = 1 \/ v - 20 = 2 \/ v - 20 = 3 \/ exists k, v - 20 = S (S (S (S k)))) by (destruct (v - 20) as [|[|[|[|k]]]]; eauto 10). destruct V as [V|[V|[V|[V|(k & V)]]]]; rewrite V in N; cbn in N; [injection N as <- <-; split; [reflexivity|lia] ..|destruct k; discriminate]. }
  set (on := lies_on (faces u_psf) 20 u_registry).
  assert (ON : forall v f, on v f <-> 20 <= v <= 23 /\ (f = 2 \/ f = 1 \/ f = 0 /\ (v = 21 \/ v = 22))).
  { intros v f. split.
    - intros (e & g & P & D). apply PT in P. destruct P as (-> & P). destruct P as [[-> ->]|[[-> ->]|[[-> ->]|[-> ->]]]]; cbn in D; lia.
    - intros (V & D). assert (X : v = 20 \/ v = 21 \/ v = 22 \/ v = 23) by lia. destruct X as [-> |[-> |[-> | ->]]]; [exists 7, 2|exists 5, 2|exists 3, 2|exists 1, 2]; (split; [split; [lia|reflexivity]|]); cbn; lia. }
  destruct (C74_joined_partial sort u_position u_psf u_registry 20 u_around inside SO) with (table := [((1, 2), [22; 20; 23; 21])]) (rows := [[20; 21; 22; 23]]) as (s & E & J & _).
  - intros e f I. cbn in I. repeat (destruct I as [I|I]; [injection I as <- <-; cbn; repeat constructor; cbn; lia|]). destruct I.
  - intros g h l v [I|[]] V. injection I as <- <- <-. fold on. rewrite !ON. cbn in V. lia.
  - constructor; [|constructor]. split; [|exact IL]. cbn [snd]. apply NoDup_Permutation; [repeat constructor; cbn; lia|repeat constructor; cbn; lia|]. intros x. cbn. lia.
  - intros g h p q [I|[]]. injection I as _ _ X. discriminate.
  - exists s. split; [exact E|]. destruct J as [J1 J2 J3 _]. fold on in J1, J3.
    assert (JN : forall f p q, joins on (fun f p q => inside f (midpoint (fun x => x) (u_position p) (u_position q)) = true) f p q -> 20 <= p <= 23 /\ 20 <= q <= 23 /\ (f = 2 \/ f = 1)).
    { intros f p q (A & B & C). apply ON in A, B. split; [lia|]. split; [lia|]. destruct A as (A & [-> |[-> |[-> A']]]); auto. rewrite MD, I0 in C by lia. discriminate. }
    assert (J1' : forall p q, 20 <= p <= 23 -> 20 <= q <= 23 -> joins on (fun f p q => inside f (midpoint (fun x => x) (u_position p) (u_position q)) = true) 1 p q -> exactly_two (fun f => joins on (fun f p q => inside f (midpoint (fun x => x) (u_position p) (u_position q)) = true) f p q)).
    { intros p q P Q X. exists 1, 2. split; [lia|]. intros f. split; [intros Y; apply JN in Y; lia|]. intros [-> | ->]; [exact X|]. split; [apply ON; lia|]. split; [apply ON; lia|]. rewrite MD by lia. apply I2. }
    assert (J1'' : forall p q, exactly_two (fun f => joins on (fun f p q => inside f (midpoint (fun x => x) (u_position p) (u_position q)) = true) f p q) -> joins on (fun f p q => inside f (midpoint (fun x => x) (u_position p) (u_position q)) = true) 1 p q).
    { intros p q (f & g & FG & X). assert (A := proj2 (X f) (or_introl eq_refl)). assert (B := proj2 (X g) (or_intror eq_refl)). pose proof (JN _ _ _ A) as (_ & _ & A'). pose proof (JN _ _ _ B) as (_ & _ & B'). destruct A' as [-> | ->], B' as [-> | ->]; auto; congruence. }
    assert (EX : forall p q, (exists e, edge_between (edges s) e p q) <-> In (p, q) [(20, 21); (21, 20); (22, 23); (23, 22)]).
    { intros p q. rewrite J1. unfold wanted. split.
      - intros (X & row & [<-|[]] & l & l' & N). apply J1'' in X. destruct X as (_ & _ & X).
        assert (NN : In (p, q) [(20, 21); (21, 22); (22, 23)] \/ In (q, p) [(20, 21); (21, 22); (22, 23)]). { destruct N as [N|N]; [left|right]; change [(20, 21); (21, 22); (22, 23)] with (neighbours [20; 21; 22; 23]); apply neighbours_In; eauto. }
        assert (K : forall a b, 0 < a -> 0 < b -> a = 21 -> b = 22 -> inside 1 (midpoint (fun x => x) (u_position a) (u_position b)) = true -> False). { intros a b Pa Pb Ea Eb K. rewrite MD in K by assumption. apply I1 in K. rewrite Ea, Eb in K. change (21 - 1) with 20 in K. change (22 - 1) with 21 in K. rewrite (INR_IZR_INZ 20), (INR_IZR_INZ 21) in K. cbn in K. lra. }
        assert (X' : inside 1 (midpoint (fun x => x) (u_position q) (u_position p)) = true) by (rewrite midpoint_sym; exact X).
        cbn in NN |- *. destruct NN as [[N0|[N0|[N0|[]]]]|[N0|[N0|[N0|[]]]]]; injection N0 as <- <-; auto; exfalso; [apply (K 21 22)|apply (K 21 22)]; auto; lia.
      - intros I. assert (W : 20 <= p <= 23 /\ 20 <= q <= 23 /\ next_to p q [20; 21; 22; 23] /\ (p + q = 41 \/ p + q = 45)).
        { cbn in I. destruct I as [I|[I|[I|[I|[]]]]]; injection I as <- <-; (split; [lia|]); (split; [lia|]); (split; [|lia]); [exists [], [22; 23]; left|exists [], [22; 23]; right|exists [20; 21], []; left|exists [20; 21], []; right]; reflexivity. }
        destruct W as (P & Q & N & S0). split; [|exists [20; 21; 22; 23]; split; [left; reflexivity|exact N]]. apply J1'; auto. split; [apply ON; lia|]. split; [apply ON; lia|]. rewrite MD by lia. apply I1. rewrite <- plus_INR. assert (Z : p - 1 + (q - 1) = 39 \/ p - 1 + (q - 1) = 43) by lia. destruct Z as [-> | ->]; rewrite INR_IZR_INZ; cbn; lra. }
    split; [exact EX|].
    assert (LE : length (edges s) = 2).
    { destruct (proj2 (EX 20 21)) as (e1 & X1); [left; reflexivity|]. destruct (proj2 (EX 22 23)) as (e2 & X2); [right; right; left; reflexivity|].
      assert (ALL : forall e, e < length (edges s) -> e = e1 \/ e = e2). { intros e L. destruct (nth_error (edges s) e) as [[p q]|] eqn:N; [|apply nth_error_None in N; lia]. assert (I : In (p, q) [(20, 21); (21, 20); (22, 23); (23, 22)]) by (apply EX; exists e; left; exact N). assert (EB : edge_between (edges s) e 20 21 \/ edge_between (edges s) e 22 23) by (cbn in I; unfold edge_between; destruct I as [I|[I|[I|[I|[]]]]]; injection I as <- <-; auto). destruct EB as [EB|EB]; [left|right]; eapply J2; eassumption. }
      assert (e1 < length (edges s)) by (apply nth_error_Some; destruct X1 as [X1|X1]; congruence). assert (e2 < length (edges s)) by (apply nth_error_Some; destruct X2 as [X2|X2]; congruence).
      assert (e1 <> e2) by (intros ->; destruct X1 as [X1|X1], X2 as [X2|X2]; congruence). pose proof (ALL 0). pose proof (ALL 1). pose proof (ALL 2). lia. }
    intros f F. specialize (J3 f). assert (AL : forall e, e < 2 -> exists p q, edge_between (edges s) e p q /\ joins on (fun f p q => inside f (midpoint (fun x => x) (u_position p) (u_position q)) = true) f p q).
    { intros e L. destruct (nth_error (edges s) e) as [[p q]|] eqn:N; [|apply nth_error_None in N; lia]. exists p, q. split; [left; exact N|]. assert (W : wanted on (fun f p q => inside f (midpoint (fun x => x) (u_position p) (u_position q)) = true) [[20; 21; 22; 23]] p q) by (apply J1; exists e; left; exact N). destruct W as (W & _). pose proof W as W'. apply J1'' in W. destruct F as [-> | ->]; [exact W|]. destruct W' as (f1 & g1 & FG & X). pose proof (JN _ _ _ (proj2 (X f1) (or_introl eq_refl))) as (_ & _ & D1). pose proof (JN _ _ _ (proj2 (X g1) (or_intror eq_refl))) as (_ & _ & D2). apply X. lia. }
    destruct (lookup (iface s) f) as [l|]; [|exfalso; apply (J3 0), AL; lia]. exists l. split; [reflexivity|]. destruct J3 as (_ & SS & M).
    apply NoDup_Permutation; [|repeat constructor; cbn; lia|].
    + clear - SS. induction SS as [|x l SS IH FA]; constructor; [|exact IH]. intros I. rewrite Forall_forall in FA. specialize (FA x I). lia.
    + intros e. split; [intros I; apply M in I; destruct I as (p & q & I & _); assert (e < length (edges s)) by (apply nth_error_Some; destruct I as [I|I]; congruence); cbn; lia|]. intros I. apply M, AL. cbn in I. lia.
Qed.
(** Two triangles of the source mesh and one of the cut mesh (PointsCases): the points 9, 10, 11 of edges 2, 5, 6. *)
Theorem C74_triangles_case : forall rnd sort position inside, exists s, join_points rnd sort position two_psf [(2, 2); (5, 0); (6, 1)] 9 (fun f => match f with 0 => [1] | 1 => [0] | _ => [] end) inside [((0, 2), [9; 10]); ((1, 2), [9; 11])] = Some s /\
  edges s = [(9, 10); (9, 11)] /\ lookup (iface s) 0 = Some [0] /\ lookup (iface s) 1 = Some [1] /\ lookup (iface s) 2 = Some [0; 1] /\
  (forall e f g, In (e, f) [(2, 2); (5, 0); (6, 1)] -> In g (faces two_psf e) -> Nat.eqb g 2 = negb (Nat.eqb f 2)) /\
  (forall e e' g h, g <> h -> In g (faces two_psf e) -> In h (faces two_psf e) -> In g (faces two_psf e') -> In h (faces two_psf e') -> e = e').
Proof.
  intros rnd sort position inside. eexists. split; [reflexivity|]. do 4 (split; [reflexivity|]). split.
  - intros e f g I G. cbn in I. destruct I as [I|[I|[I|[]]]]; injection I as <- <-; cbn in G; repeat (destruct G as [<-|G]; [reflexivity|]); destruct G.
  - assert (K : forall e g h, g <> h -> In g (faces two_psf e) -> In h (faces two_psf e) -> e = 2). { intros e g h D G H. do 8 (destruct e as [|e]; [try reflexivity; cbn in G, H; exfalso; intuition congruence|]). destruct G. }
    intros e e' g h D A B C E. rewrite (K e g h D A B), (K e' g h D C E). reflexivity.
Qed.
