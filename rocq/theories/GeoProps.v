(** Theorems about the geometric functions, in exact arithmetic.  The specification is [GeoSpec], the
    model [GeoModel]. *)
From Coq Require Import List Reals Lra Lia Bool Ascii.
From Verif Require Import GeoModel GeoSpec GeoSeg GeoPlane GeoProj.
Import ListNotations.
Open Scope R_scope.

Ltac four := split; [split|split; [split|split; [split|split]]].

(** * C45: the intersection of two segments of the plane *)

(** For two segments that are not single points the code says exactly how they meet: '0' if they have no
    point in common, 'e' if they are parallel and meet, 'v' if they cross at an end point of one of them, '1'
    if they cross between their end points. *)
Theorem C45_code_partial : forall a b c d : R * R, a <> b -> c <> d ->
  let code := fst (fst (segment_intersection a b c d)) in
  (code = "0"%char <-> forall x, ~ common a b c d x) /\
  (code = "e"%char <-> parallel a b c d /\ exists x, common a b c d x) /\
  (code = "v"%char <-> ~ parallel a b c d /\ exists x, common a b c d x /\ (x = a \/ x = b \/ x = c \/ x = d)) /\
  (code = "1"%char <-> ~ parallel a b c d /\ exists x, common a b c d x /\ x <> a /\ x <> b /\ x <> c /\ x <> d).
Proof.
  intros a b c d Nab Ncd code. subst code.
  destruct (segment_intersection_cases a b c d Nab Ncd) as [(P & _ & [(x & X & E)|(X & E)])|(P & s & t & x & _ & X1 & X2 & U & C)].
  - rewrite E. cbn [fst]. four; intros H; try discriminate; try tauto; try (exfalso; apply (H x X)); split; eauto.
  - rewrite E. cbn [fst]. four; intros H; try discriminate; try tauto; destruct H as (_ & x & K); exfalso; eapply X; apply K.
  - assert (Uq : forall y, common a b c d y -> y = x /\ 0 <= s <= 1 /\ 0 <= t <= 1).
    { intros y [(s' & S & E1) (t' & T & E2)]. destruct (U s' t') as [-> ->]; [congruence|]. rewrite E1, <- X1. auto. }
    assert (Cx : 0 <= s <= 1 -> 0 <= t <= 1 -> common a b c d x) by (intros S T; split; [exists s|exists t]; auto).
    assert (Ea : x = a <-> s = 0) by (split; [intros K; apply (at2_inj a b); [exact Nab|rewrite at2_0; congruence]|intros ->; rewrite X1; apply at2_0]).
    assert (Eb : x = b <-> s = 1) by (split; [intros K; apply (at2_inj a b); [exact Nab|rewrite at2_1; congruence]|intros ->; rewrite X1; apply at2_1]).
    assert (Ec : x = c <-> t = 0) by (split; [intros K; apply (at2_inj c d); [exact Ncd|rewrite at2_0; congruence]|intros ->; rewrite X2; apply at2_0]).
    assert (Ed : x = d <-> t = 1) by (split; [intros K; apply (at2_inj c d); [exact Ncd|rewrite at2_1; congruence]|intros ->; rewrite X2; apply at2_1]).
    destruct C as [(S & T & E)|[(S & E)|(S & T & Z & E)]]; rewrite E; cbn [fst].
    + assert (K : common a b c d x) by (apply Cx; lra).
      four; intros H; try discriminate; try tauto; try (exfalso; apply (H x K)).
      * destruct H as (_ & y & Y & Q). destruct (Uq y Y) as [-> _]. rewrite Ea, Eb, Ec, Ed in Q. lra.
      * split; [exact P|]. exists x. split; [exact K|]. rewrite Ea, Eb, Ec, Ed. repeat split; lra.
    + assert (K : forall y, ~ common a b c d y) by (intros y Y; destruct (Uq y Y) as (_ & ? & ?); lra).
      four; intros H; try discriminate; try tauto; destruct H as (_ & y & Y); exfalso; apply (K y); tauto.
    + assert (K : common a b c d x) by (apply Cx; lra).
      four; intros H; try discriminate; try tauto; try (exfalso; apply (H x K)).
      * split; [exact P|]. exists x. split; [exact K|]. rewrite Ea, Eb, Ec, Ed. tauto.
      * destruct H as (_ & y & Y & Q). destruct (Uq y Y) as [-> _]. rewrite Ea, Eb, Ec, Ed in Q. tauto.
Qed.

(** The point returned with any other code than '0' is common to both segments; the parameters returned with
    'v' and '1' are those of the point on the two segments. *)
Theorem C45_point_partial : forall a b c d : R * R, a <> b -> c <> d -> forall code p st,
  segment_intersection a b c d = (code, p, st) -> code <> "0"%char ->
  exists x, p = Some x /\ common a b c d x /\
    (code <> "e"%char -> exists s t, st = Some (s, t) /\ x = at2 a b s /\ x = at2 c d t /\ 0 <= s <= 1 /\ 0 <= t <= 1).
Proof.
  intros a b c d Nab Ncd code p st E N.
  destruct (segment_intersection_cases a b c d Nab Ncd) as [(P & _ & [(x & X & F)|(X & F)])|(P & s & t & x & St & X1 & X2 & U & C)]; rewrite E in *; cbn [fst snd] in *.
  - injection F as -> ->. exists x. split; [reflexivity|]. split; [exact X|]. intros K; contradiction.
  - injection F as -> ->. contradiction.
  - destruct C as [(S & T & F)|[(S & F)|(S & T & Z & F)]]; injection F as -> ->; try contradiction;
      exists x; (split; [reflexivity|]); (split; [split; [exists s|exists t]; split; auto; lra|]); intros _; exists s, t; repeat split; auto; lra.
Qed.

(** Exchanging the end points of a segment, or the two segments, does not change the code. *)
Theorem C45_symmetric : forall a b c d : R * R, a <> b -> c <> d ->
  fst (fst (segment_intersection b a c d)) = fst (fst (segment_intersection a b c d)) /\
  fst (fst (segment_intersection c d a b)) = fst (fst (segment_intersection a b c d)).
Proof.
  assert (four : forall a b c d : R * R, a <> b -> c <> d -> let k := fst (fst (segment_intersection a b c d)) in k = "0"%char \/ k = "e"%char \/ k = "v"%char \/ k = "1"%char).
  { intros a b c d Nab Ncd. destruct (segment_intersection_cases a b c d Nab Ncd) as [(P & _ & [(x & X & F)|(X & F)])|(P & s & t & x & St & X1 & X2 & U & [(S & T & F)|[(S & F)|(S & T & Z & F)]])]; rewrite F; cbn; tauto. }
  assert (flip : forall a b x : R * R, on_segment a b x <-> on_segment b a x).
  { assert (K : forall a b x : R * R, on_segment a b x -> on_segment b a x).
    { intros a b x (t & T & ->). exists (1 - t). split; [lra|]. unfold at2. f_equal; ring. }
    split; apply K. }
  intros a b c d Nab Ncd. assert (Nba : b <> a) by congruence. split.
  - pose proof (C45_code_partial a b c d Nab Ncd) as H. pose proof (C45_code_partial b a c d Nba Ncd) as H'. cbn zeta in H, H'.
    assert (C : forall x, common b a c d x <-> common a b c d x) by (intros x; unfold common; rewrite flip; tauto).
    assert (P : parallel b a c d <-> parallel a b c d) by (unfold parallel; split; intros; lra).
    destruct H as (H0 & He & Hv & H1), H' as (H0' & He' & Hv' & H1').
    destruct (four a b c d Nab Ncd) as [E|[E|[E|E]]]; rewrite E.
    + apply (proj2 H0'). pose proof (proj1 H0 E) as K. intros x Y. apply (K x), C, Y.
    + apply He'. apply He in E. destruct E as (Q & x & X). split; [tauto|]. exists x. apply C, X.
    + apply Hv'. apply Hv in E. destruct E as (Q & x & X & Y). split; [tauto|]. exists x. split; [apply C, X|tauto].
    + apply H1'. apply H1 in E. destruct E as (Q & x & X & Y). split; [tauto|]. exists x. split; [apply C, X|tauto].
  - pose proof (C45_code_partial a b c d Nab Ncd) as H. pose proof (C45_code_partial c d a b Ncd Nab) as H'. cbn zeta in H, H'.
    assert (C : forall x, common c d a b x <-> common a b c d x) by (intros x; unfold common; tauto).
    assert (P : parallel c d a b <-> parallel a b c d) by (unfold parallel; split; intros; lra).
    destruct H as (H0 & He & Hv & H1), H' as (H0' & He' & Hv' & H1').
    destruct (four a b c d Nab Ncd) as [E|[E|[E|E]]]; rewrite E.
    + apply (proj2 H0'). pose proof (proj1 H0 E) as K. intros x Y. apply (K x), C, Y.
    + apply He'. apply He in E. destruct E as (Q & x & X). split; [tauto|]. exists x. apply C, X.
    + apply Hv'. apply Hv in E. destruct E as (Q & x & X & Y). split; [tauto|]. exists x. split; [apply C, X|tauto].
    + apply H1'. apply H1 in E. destruct E as (Q & x & X & Y). split; [tauto|]. exists x. split; [apply C, X|tauto].
Qed.

(** A segment that is a single point is not handled: a point away from another segment is said to overlap with it. *)
Theorem C45_degenerate_refuted : exists a b c d : R * R,
  a = b /\ c <> d /\ (forall x, ~ common a b c d x) /\
  fst (fst (segment_intersection a b c d)) = "e"%char.
Proof.
  exists (0, 0), (0, 0), (5, 0), (6, 1). split; [reflexivity|]. split; [intros E; injection E; lra|]. split.
  - intros x [(t & T & E) (u & U & F)]. rewrite E in F. unfold at2 in F. cbn [fst snd] in F. injection F as F1 F2. lra.
  - unfold segment_intersection, px, py. cbn [fst snd].
    destruct (eqb_spec' (0 * (1 - 0) + 0 * (0 - 1) + 6 * (0 - 0) + 5 * (0 - 0)) 0) as [[-> _]|[_ K]]; [|exfalso; apply K; ring].
    unfold parallel_int, collinear, orient2d, between, px, py. cbn [fst snd].
    destruct (eqb_spec' ((0 - 5) * (0 - 0) - (0 - 0) * (0 - 5)) 0) as [[-> _]|[_ K]]; [|exfalso; apply K; ring]. cbn [negb].
    destruct (eqb_spec' 0 0) as [[-> _]|[_ K]]; [|elim K; reflexivity]. cbn [negb].
    destruct (leb_spec' 0 0) as [[-> _]|[_ K]]; [|lra]. reflexivity.
Qed.

(** instances: one pair of segments for each code *)
Example C45_instance :
  fst (fst (segment_intersection (0, 0) (2, 2) (0, 2) (2, 0))) = "1"%char /\
  fst (fst (segment_intersection (0, 0) (2, 2) (1, 1) (2, 0))) = "v"%char /\
  fst (fst (segment_intersection (0, 0) (2, 2) (1, 1) (3, 3))) = "e"%char /\
  fst (fst (segment_intersection (0, 0) (2, 2) (3, 2) (2, 5))) = "0"%char.
Proof.
  assert (N : forall x y u v : R, x <> u -> (x, y) <> (u, v)) by (intros x y u v H E; injection E; auto).
  repeat split; apply C45_code_partial; try (apply N; lra); unfold parallel; cbn [fst snd].
  - split; [lra|]. exists (1, 1). split; [split; exists (1/2); (split; [lra|]); unfold at2; cbn [fst snd]; f_equal; field|]. repeat split; apply N; lra.
  - split; [lra|]. exists (1, 1). split; [split; [exists (1/2)|exists 0]; (split; [lra|]); unfold at2; cbn [fst snd]; f_equal; field|]. auto.
  - split; [lra|]. exists (1, 1). split; [exists (1/2)|exists 0]; (split; [lra|]); unfold at2; cbn [fst snd]; f_equal; field.
  - intros x [(t & T & E) (u & U & F)]. rewrite E in F. unfold at2 in F. cbn [fst snd] in F. injection F as F1 F2. lra.
Qed.

(** * C44: a segment and the plane of a polygon *)

(** A triangle: a code is returned and it is the right one, for every possible result. *)
Theorem C44_triangle : forall (a b d q r n : R * R * R) (c : nat), ~ on_a_line a b d ->
  (exists code, segment_plane_type q r [a; b; d] n c (Some code)) /\
  forall res, segment_plane_type q r [a; b; d] n c res -> exists code, res = Some code /\ meets (on_plane a b d) q r code.
Proof.
  intros a b d q r n c L. split.
  - eexists. constructor. apply tv_short. reflexivity.
  - intros res H. inversion H as [a' b' d' T|T]; subst.
    + inversion T as [a1 b1 d1 E|i j k a1 b1 d1 Ln|]; subst; [|cbn in Ln; lia]. injection E as -> -> ->.
      eexists. split; [reflexivity|]. apply side_code_ok; [intros x; apply orient3d_on_plane, L|intros t; apply orient3d_at3].
    + inversion T as [| |Ln]; subst. cbn in Ln. lia.
Qed.

(** A polygon with more than three vertices, in a plane with normal vector [n]: every code that is returned is
    the right one. *)
Theorem C44_polygon_partial : forall (ps : list (R * R * R)) (q r n : R * R * R) (c : nat) (code : ascii),
  (3 < length ps)%nat -> n <> (0, 0, 0) -> planar n ps -> segment_plane_type q r ps n c (Some code) ->
  forall p, In p ps -> meets (plane n (dot3 n p)) q r code.
Proof.
  intros ps q r n c code L N Pl H p P. inversion H as [a b d T|]; subst.
  destruct (three_vertices_ok n c ps a b d N Pl) as (_ & _ & _ & _ & K); [intros x y z ->; cbn in L; lia|exact T|].
  apply side_code_ok; [intros x; apply K, P|intros t; apply orient3d_at3].
Qed.

(** ... and a code is returned if the projection is one-to-one on the plane, the first two vertices differ and some
    vertex is not on their line. *)
Theorem C44_polygon_defined_partial : forall (ps : list (R * R * R)) (q r n : R * R * R) (c : nat) (p0 p1 : R * R * R),
  (3 < length ps)%nat -> planar n ps -> (c <= 2)%nat -> regular n c ->
  nth_error ps 0 = Some p0 -> nth_error ps 1 = Some p1 -> (exists p, In p ps /\ ~ on_a_line p0 p1 p) ->
  (exists code, segment_plane_type q r ps n c (Some code)) /\ ~ segment_plane_type q r ps n c None.
Proof.
  intros ps q r n c p0 p1 L Pl C Rg E0 E1 X. destruct (three_vertices_defined n c ps p0 p1 C Rg Pl L E0 E1 X) as ((a & b & d & T) & U). split.
  - eexists. constructor. exact T.
  - intros H. inversion H. contradiction.
Qed.

(** Only triples with the first two vertices are tried, so a repeated first vertex ends in undefined behaviour
    (front() of an empty vector) although the polygon has three vertices that are not on a line. *)
Theorem C44_repeated_vertex_refuted : exists (ps : list (R * R * R)) (n : R * R * R) (dc : R) (c : nat),
  plane_coefficients ps = Some (n, dc, c) /\ planar n ps /\ (exists a b d, In a ps /\ In b ps /\ In d ps /\ ~ on_a_line a b d) /\
  forall q r res, segment_plane_type q r ps n c res -> res = None.
Proof.
  set (ps := [(0, 0, 0); (0, 0, 0); (1, 0, 0); (0, 1, 0)]).
  exists ps, (0, 0, 1), 0, 2%nat. split; [|split; [|split]].
  - cbn. unfold largest_component. assert (E : (0 + (0 * 0 - 0 * 0) + (0 * 0 - 0 * 0), 0 + (0 * 0 - 0 * 0) + (0 * 0 - 0 * 0), 0 + (0 * 0 - 0 * 0)) = (0, 0, 0)) by (f_equal; [f_equal|]; ring).
    match goal with |- Some (?a, ?b, ?c) = _ => assert (A : a = (0, 0, 1)) by (f_equal; [f_equal|]; ring) end. rewrite A. cbn [comp].
    cbn [fold_left comp fst snd]. rewrite Rabs_R0, Rabs_R1. assert (Z : ltb 0 0 = false) by (apply ltb_false; lra). repeat (rewrite Z; cbn [fst snd]). destruct (ltb_spec 0 1) as [[-> _]|[_ K]]; [|lra]. cbn [fst]. f_equal. f_equal. f_equal. ring.
  - intros x y X Y. unfold ps in *. cbn in X, Y. repeat (destruct X as [<-|X] || destruct X); repeat (destruct Y as [<-|Y] || destruct Y); cbn; ring.
  - exists (0, 0, 0), (1, 0, 0), (0, 1, 0). unfold ps. cbn. split; [auto|]. split; [auto|]. split; [auto|]. intros [E|(t & E)]; [injection E; lra|]. cbn in E. injection E. lra.
  - intros q r res H. inversion H as [a b d T|]; subst; [exfalso|reflexivity].
    inversion T as [? ? ? E|i j k ? ? ? L B|]; subst; [discriminate|]. inversion B as [|? ? ? o I M]; subst. apply triplets_in in I; [|cbn; lia].
    destruct I as (k' & K & Nz & _). apply Nz. unfold cand, ps. cbn [map nth]. unfold orient2d. ring.
Qed.

(** The projection is not one-to-one on every plane: on the plane of the quadrilateral below, with normal vector
    along (1, 3, 4), no triple of projected vertices has an orientation, so the result is undefined behaviour. *)
Definition quad : list (R * R * R) := [(0, 0, 0); (4, 0, -1); (4, 4, -4); (0, 4, -3)].
Lemma quad_coefficients : plane_coefficients quad = Some ((8, 24, 32), 0, 2%nat).
Proof.
  cbn. match goal with |- Some (?a, ?b, ?c) = _ => assert (A : a = (8, 24, 32)) by (f_equal; [f_equal|]; ring) end. rewrite A.
  unfold largest_component. cbn [fold_left comp fst snd]. rewrite !Rabs_pos_eq by lra.
  destruct (ltb_spec 0 8) as [[-> _]|[_ K]]; [|lra]. cbn [fst snd]. destruct (ltb_spec 8 24) as [[-> _]|[_ K]]; [|lra]. cbn [fst snd]. destruct (ltb_spec 24 32) as [[-> _]|[_ K]]; [|lra]. cbn [fst]. f_equal. f_equal. f_equal. ring.
Qed.
Lemma quad_planar : planar (8, 24, 32) quad.
Proof. intros x y X Y. unfold quad in *. cbn in X, Y. repeat (destruct X as [<-|X] || destruct X); repeat (destruct Y as [<-|Y] || destruct Y); cbn; ring. Qed.
Lemma quad_singular : ~ regular (8, 24, 32) 2.
Proof. cbn. lra. Qed.

Theorem C44_singular_projection_refuted : exists (ps : list (R * R * R)) (n : R * R * R) (dc : R) (c : nat),
  plane_coefficients ps = Some (n, dc, c) /\ planar n ps /\
  (forall i j k, (i < j < k)%nat -> (k < length ps)%nat -> ~ on_a_line (nth i ps (0, 0, 0)) (nth j ps (0, 0, 0)) (nth k ps (0, 0, 0))) /\
  forall q r res, segment_plane_type q r ps n c res -> res = None.
Proof.
  exists quad, (8, 24, 32), 0, 2%nat. split; [apply quad_coefficients|]. split; [apply quad_planar|]. split.
  - intros i j k I K. cbn in K. intros O.
    assert (Q : (i = 0 /\ j = 1 /\ k = 2 \/ i = 0 /\ j = 1 /\ k = 3 \/ i = 0 /\ j = 2 /\ k = 3 \/ i = 1 /\ j = 2 /\ k = 3)%nat) by lia.
    destruct Q as [(-> & -> & ->)|[(-> & -> & ->)|[(-> & -> & ->)|(-> & -> & ->)]]]; cbn in O; destruct O as [E|(t & E)]; try (injection E; intros; lra).
  - intros q r res H. inversion H as [a b d T|]; subst; [exfalso|reflexivity].
    inversion T as [? ? ? E|i j k ? ? ? L B|]; subst; [discriminate|]. inversion B as [|? ? ? o I M]; subst.
    rewrite (project_singular (8, 24, 32) 2 quad) in I; [destruct I|lia|cbn; lra|apply quad_singular|apply quad_planar|cbn; lia].
Qed.

(** instance of the positive theorems: a square and a segment through it *)
Example C44_instance : let ps := [(0, 0, 0); (1, 0, 0); (1, 1, 0); (0, 1, 0)] in let q := (1/2, 1/2, -1) in let r := (1/2, 1/2, 1) in
  segment_plane_type q r ps (0, 0, 2) 2 (Some "1"%char) /\ meets (plane (0, 0, 2) 0) q r "1".
Proof.
  intros ps q r. subst ps q r.
  assert (Pl : planar (0, 0, 2) [(0, 0, 0); (1, 0, 0); (1, 1, 0); (0, 1, 0)]) by (intros x y X Y; cbn in X, Y; repeat (destruct X as [<-|X] || destruct X); repeat (destruct Y as [<-|Y] || destruct Y); cbn; ring).
  assert (M1 : meets (plane (0, 0, 2) 0) (1/2, 1/2, -1) (1/2, 1/2, 1) "1").
  { apply meets_1; unfold plane; cbn; [lra|lra|]. exists (1/2). split; [lra|]. field. }
  split; [|exact M1].
  set (ps := [(0, 0, 0); (1, 0, 0); (1, 1, 0); (0, 1, 0)]) in *.
  destruct (C44_polygon_defined_partial ps (1/2, 1/2, -1) (1/2, 1/2, 1) (0, 0, 2) 2 (0, 0, 0) (1, 0, 0) (le_n 4) Pl (le_n 2)) as ((code & H) & _); [cbn; lra|reflexivity|reflexivity| |].
  { exists (1, 1, 0). split; [cbn; auto|]. intros [E|(t & E)]; [injection E; lra|cbn in E; injection E; lra]. }
  pose proof (C44_polygon_partial ps (1/2, 1/2, -1) (1/2, 1/2, 1) (0, 0, 2) 2 code (le_n 4)) as M. assert (N : ((0, 0, 2) : R * R * R) <> (0, 0, 0)) by (intros E; injection E; lra).
  specialize (M N Pl H (0, 0, 0) (or_introl eq_refl)). replace (dot3 (0, 0, 2) (0, 0, 0)) with 0 in M by (cbn; ring).
  inversion M as [X Y|X Y|X Y|X Y Z|X]; subst; unfold plane in *; cbn in *; try lra; [exact H|exfalso]. apply (X (1/2)); lra.
Qed.

(** * C62: the projection of a polygon to two dimensions *)

(** If the normal vector is away from a cone, the projection is one-to-one on the plane of the polygon, and three
    points of the plane are on a line exactly if their projections have orientation zero. *)
Theorem C62_projection_partial : forall (n : R * R * R) (c : nat), (c <= 2)%nat -> regular n c ->
  (forall p q, dot3 n p = dot3 n q -> project n c p = project n c q -> p = q) /\
  (forall a b d, dot3 n a = dot3 n d -> dot3 n b = dot3 n d ->
     (orient2d (project n c a) (project n c b) (project n c d) = 0 <-> on_a_line a b d)) /\
  (forall p q t, project n c (at3 p q t) = at2 (project n c p) (project n c q) t).
Proof.
  intros n c C Rg. split; [|split].
  - intros p q. apply regular_injective; assumption.
  - intros a b d. apply regular_orient; assumption.
  - intros p q t. apply project_at3.
Qed.

(** Away from it all polygons collapse: for a normal vector on the cone, all projections of points of the plane are on a line. *)
Theorem C62_collapse : forall (n : R * R * R) (c : nat), (c <= 2)%nat -> comp n c <> 0 -> ~ regular n c ->
  forall a b d, dot3 n a = dot3 n d -> dot3 n b = dot3 n d -> orient2d (project n c a) (project n c b) (project n c d) = 0.
Proof.
  intros n c C N Rg a b d A B. rewrite orient2d_cross.
  assert (dsub : forall x y, dot3 n x = dot3 n y -> dot3 n (vsub x y) = 0) by (intros [[x1 x2] x3] [[y1 y2] y3]; destruct n as [[n1 n2] n3]; cbn; lra).
  destruct (project_cross n c (vsub a d) (vsub b d) C N (dsub _ _ A) (dsub _ _ B)) as (m & M & ->).
  destruct (Req_EM_T m 0) as [->|Z]; [ring|]. apply M in Z. contradiction.
Qed.

(** ... which happens for a triangle with the normal vector and the coordinate that the library computes: the
    three vertices are not on a line, their projections are, and the centre of the triangle is found to be
    outside it. *)
Theorem C62_triangle_refuted : exists (a b d : R * R * R) (n : R * R * R) (dc : R) (c : nat),
  plane_coefficients [a; b; d] = Some (n, dc, c) /\ ~ on_a_line a b d /\
  orient2d (project n c a) (project n c b) (project n c d) = 0 /\
  let centre := let '(ax, ay, az) := a in let '(bx, by_, bz) := b in let '(dx, dy, dz) := d in ((ax + bx + dx) / 3, (ay + by_ + dy) / 3, (az + bz + dz) / 3) in
  point_in_polygon_3d centre [a; b; d] n c = "o"%char.
Proof.
  exists (0, 0, 0), (4, 0, -1), (0, 4, -3), (4, 12, 16), 0, 2%nat.
  assert (S : ~ regular (4, 12, 16) 2) by (cbn; lra).
  split; [|split; [|split]].
  - cbn. match goal with |- Some (?a, ?b, ?c) = _ => assert (A : a = (4, 12, 16)) by (f_equal; [f_equal|]; ring) end. rewrite A.
    unfold largest_component. cbn [fold_left comp fst snd]. rewrite !Rabs_pos_eq by lra.
    destruct (ltb_spec 0 4) as [[-> _]|[_ K]]; [|lra]. cbn [fst snd]. destruct (ltb_spec 4 12) as [[-> _]|[_ K]]; [|lra]. cbn [fst snd]. destruct (ltb_spec 12 16) as [[-> _]|[_ K]]; [|lra]. cbn [fst]. f_equal. f_equal. f_equal. ring.
  - intros [E|(t & E)]; [injection E; lra|cbn in E; injection E; lra].
  - apply C62_collapse; [lia|cbn; lra|exact S|cbn; ring|cbn; ring].
  - cbn zeta iota beta. unfold point_in_polygon_3d. cbn [map].
    destruct (project_vec (4, 12, 16) 2) as [P|[Z _]]; [lia|cbn; lra| |specialize (Z 0%nat); cbn in Z; exfalso; assert (4 = 0) by (apply Z; lia); lra].
    rewrite !P by (cbn; lra). unfold proj_vec.
    assert (E : forall a b c d a' b' c' d' x y x' y', (a, b) = (a', b') -> (c, d) = (c', d') -> (x, y) = (x', y') -> forall q q' : vec2, q = q' -> point_in_polygon q [(a, b); (c, d); (x, y)] = point_in_polygon q' [(a', b'); (c', d'); (x', y')]) by (intros; congruence).
    rewrite (E _ _ _ _ 0 0 (-(9/2)) (-(3/2)) _ _ (-(3/2)) (-(1/2))) with (q' := (-2, -(2/3))) by (f_equal; field). clear E P.
    unfold point_in_polygon. cbn [map last px py fst snd pip_loop]. unfold rcross, lcross, rstrad, lstrad, px, py, crossing_x. cbn [fst snd].
    assert (Ep : forall a b, (0 < a <-> 0 < b) -> ltb 0 a = ltb 0 b) by (intros a b K; destruct (ltb_spec 0 a) as [[-> ?]|[-> ?]], (ltb_spec 0 b) as [[-> ?]|[-> ?]]; auto; tauto || lra).
    repeat match goal with
    | |- context [eqb ?a ?b] => let K := fresh in first [assert (K : eqb a b = false) by (apply eqb_false; unfold px, py; cbn [fst snd]; lra) | assert (K : eqb a b = true) by (apply eqb_true; unfold px, py; cbn [fst snd]; lra)]; rewrite K; clear K; cbn [andb]
    end.
    repeat match goal with
    | |- context [ltb ?a ?b] => let K := fresh in
        first [assert (K : ltb a b = false) by (apply ltb_false; unfold px, py; cbn [fst snd]; lra)
              | assert (K : ltb a b = true) by (apply ltb_true; unfold px, py; cbn [fst snd]; lra)
              | assert (K : ltb a b = false) by (apply ltb_false; unfold px, py; cbn [fst snd]; right; field)
              | assert (K : ltb a b = false) by (apply ltb_false; unfold px, py; cbn [fst snd]; right; symmetry; field)]; rewrite K; clear K; cbn [andb orb xorb]
    end.
    reflexivity.
Qed.

Example C62_instance : regular (1, 2, 5) 2 /\ regular (1, 3, 1) 1 /\ ~ regular (1, 3, 4) 2.
Proof. cbn. lra. Qed.

(** * C63: plane coefficients, segment and line against a plane *)

(** The plane computed for a planar polygon is the plane of the polygon: its normal vector is along every normal vector
    of the plane, all vertices are at its height, and the coordinate is one in which the normal vector is largest. *)
Theorem C63_coefficients : forall (ps : list (R * R * R)) (n : R * R * R) (dc : R) (c : nat),
  plane_coefficients ps = Some (n, dc, c) ->
  ((c <= 2)%nat /\ forall i, (i <= 2)%nat -> Rabs (comp n i) <= Rabs (comp n c)) /\
  forall m, m <> (0, 0, 0) -> planar m ps ->
    (exists k, n = let '(x, y, z) := m in (k * x, k * y, k * z)) /\ forall p, In p ps -> plane n dc p.
Proof.
  intros ps n dc c H. destruct ps as [|p0 ps]; [discriminate|]. cbn [plane_coefficients] in H.
  set (n' := normal_loop p0 (p0 :: ps) (0, 0, 0)) in *. injection H as Hn Hd Hc. subst c. rewrite <- Hn in *. split; [apply largest_ok|].
  intros m N Pl. destruct (normal_loop_along m p0 (p0 :: ps) N) with (k := 0) as (k & E).
  { intros p P. apply Pl; [exact P|left; reflexivity]. }
  replace (scaled 0 m) with ((0, 0, 0) : vec3) in E by (destruct m as [[x y] z]; cbn; f_equal; [f_equal|]; ring). fold n' in E.
  split; [exists k; exact E|]. intros p P. unfold plane. rewrite <- Hd, dot_product_dot, (dot_comm p0). rewrite E.
  pose proof (Pl p p0 P (or_introl eq_refl)) as Q. destruct m as [[x y] z], p as [[p1 p2] p3], p0 as [[q1 q2] q3]. cbn in *. transitivity (k * (x * p1 + y * p2 + z * p3)); [ring|]. rewrite Q. ring.
Qed.

(** A triangle: the normal vector is the cross product of two edges, not zero if the vertices are not on a line. *)
Theorem C63_triangle : forall a b d : R * R * R,
  plane_coefficients [a; b; d] = Some (cross_product (vsub b a) (vsub d a), dot_product a (cross_product (vsub b a) (vsub d a)), largest_component (cross_product (vsub b a) (vsub d a))) /\
  (~ on_a_line a b d -> cross_product (vsub b a) (vsub d a) <> (0, 0, 0)).
Proof.
  intros a b d. split.
  - unfold plane_coefficients. cbn [normal_loop].
    replace (vadd (vadd (0, 0, 0) (cross_product (vsub a a) (vsub b a))) (cross_product (vsub b a) (vsub d a))) with (cross_product (vsub b a) (vsub d a)); [reflexivity|].
    destruct a as [[a1 a2] a3], b as [[b1 b2] b3], d as [[d1 d2] d3]. cbn. f_equal; [f_equal|]; ring.
  - intros L E. apply not_on_a_line in L. cbn zeta in L. rewrite E in L. cbn in L. tauto.
Qed.

(** A segment against a plane given by normal vector and height: the code is right, and with 'q', 'r' and '1' the point
    is the one where the segment meets the plane. *)
Theorem C63_segment : forall (n q r : R * R * R) (dc : R) (code : ascii) (x : option (R * R * R)),
  segment_plane n dc q r = (code, x) ->
  meets (plane n dc) q r code /\
  (code = "q"%char -> x = Some q) /\ (code = "r"%char -> x = Some r) /\
  (code = "1"%char -> exists t, 0 < t < 1 /\ x = Some (at3 q r t) /\ plane n dc (at3 q r t)).
Proof.
  intros n q r dc code x. unfold segment_plane. rewrite !dot_product_dot.
  set (num := dc - dot3 q n). set (denom := dot3 (vsub r q) n).
  assert (Nq : plane n dc q <-> num = 0) by (unfold plane, num; rewrite (dot_comm q n); split; intros; lra).
  assert (Ds : denom = dot3 n r - dot3 n q) by (unfold denom; destruct n as [[n1 n2] n3], q as [[q1 q2] q3], r as [[r1 r2] r3]; cbn; ring).
  assert (Nr : plane n dc r <-> num = denom) by (unfold plane, num; rewrite Ds, (dot_comm q n); split; intros; lra).
  assert (Nt : forall t, plane n dc (at3 q r t) <-> num = t * denom) by (intros t; unfold plane, num; rewrite Ds, (dot_comm q n), dot_at3; split; intros; lra).
  clearbody num denom. clear Ds. change (along q r (num / denom)) with (at3 q r (num / denom)).
  destruct (eqb_spec' denom 0) as [[-> D]|[-> D]].
  - intros E. destruct (eqb_spec' num 0) as [[Q Z]|[Q Z]]; rewrite Q in E; injection E as <- <-; (split; [|repeat split; discriminate]).
    + apply meets_p; [apply Nq, Z|apply Nr; lra].
    + apply meets_0. intros t T. rewrite Nt, D. lra.
  - assert (Et : num = num / denom * denom) by (field; exact D). set (t := num / denom) in *. clearbody t.
    destruct (ltb 0 t && ltb t 1) eqn:C.
    + rewrite andb_true_iff, !ltb_true in C. intros E. injection E as <- <-. assert (Pt : plane n dc (at3 q r t)) by (apply Nt; exact Et).
      split; [apply meets_1; [rewrite Nq|rewrite Nr|]|].
      * rewrite Et. intros Z. apply Rmult_integral in Z. lra.
      * rewrite Et. intros Z. assert (t = 1) by (apply Rmult_eq_reg_r with denom; lra). lra.
      * eauto.
      * repeat split; try discriminate. intros _. eauto.
    + assert (C' : t <= 0 \/ 1 <= t) by (apply andb_false_iff in C; rewrite !ltb_false in C; tauto).
      destruct (eqb_spec' num 0) as [[-> Z]|[-> Z]].
      * intros E. injection E as <- <-. assert (t = 0) by (apply Rmult_eq_reg_r with denom; lra). subst t.
        split; [apply meets_q; [apply Nq, Z|rewrite Nr; lra]|]. split; [intros _; f_equal; apply at3_0|]. split; discriminate.
      * destruct (eqb_spec' num denom) as [[-> Z']|[-> Z']].
        -- intros E. injection E as <- <-. assert (t = 1) by (apply Rmult_eq_reg_r with denom; lra). subst t.
           split; [apply meets_r; [rewrite Nq; exact Z|apply Nr; lra]|]. split; [discriminate|]. split; [intros _; f_equal; apply at3_1|discriminate].
        -- intros E. injection E as <- <-. split; [|repeat split; discriminate]. apply meets_0. intros u U. rewrite Nt. intros K.
           assert (u = t) by (apply Rmult_eq_reg_r with denom; [congruence|exact D]). subst u.
           destruct C' as [C'|C']; [assert (t = 0) by lra; subst t; lra|assert (t = 1) by lra; subst t; lra].
Qed.

(** A line through two points against the plane of a polygon, if three vertices were found: the code says whether the line is
    in the plane, misses it or meets it, there is no division by zero, and the point is on the line and on the plane. *)
Theorem C63_line_partial : forall (ps : list (R * R * R)) (q r n : R * R * R) (dc : R) (c : nat) res,
  n <> (0, 0, 0) -> (exists p, In p ps) -> (forall p, In p ps -> plane n dc p) -> (forall a b d, ps = [a; b; d] -> ~ on_a_line a b d) ->
  ~ three_vertices n c ps None -> line_plane q r ps c n dc res ->
  exists code x, res = Some (code, x) /\
    (code = "p"%char -> forall t, plane n dc (at3 q r t)) /\
    (code = "0"%char -> forall t, ~ plane n dc (at3 q r t)) /\
    (code = "1"%char -> exists t, x = Some (at3 q r t) /\ plane n dc (at3 q r t) /\ (q <> r)) /\
    (code = "p"%char \/ code = "0"%char \/ code = "1"%char).
Proof.
  intros ps q r n dc c res N (p & P) Pl T3 U H. inversion H as [a b d T|T]; subst; [|contradiction].
  assert (Pn : planar n ps) by (intros x y X Y; pose proof (Pl x X); pose proof (Pl y Y); unfold plane in *; congruence).
  destruct (three_vertices_ok n c ps a b d N Pn T3 T) as (L & _ & _ & _ & K).
  assert (F : forall x, orient3d a b d x = 0 <-> plane n dc x) by (intros x; rewrite (K p x P); unfold plane; rewrite (Pl p P); reflexivity).
  assert (A : forall t, orient3d a b d (at3 q r t) = (1 - t) * orient3d a b d q + t * orient3d a b d r) by (intros t; apply orient3d_at3).
  assert (B : forall t, dot3 n (at3 q r t) = (1 - t) * dot3 n q + t * dot3 n r) by (intros t; apply dot_at3).
  unfold line_code. rewrite !dot_product_dot.
  assert (Ds : dot3 (vsub r q) n = dot3 n r - dot3 n q) by (destruct n as [[n1 n2] n3], q as [[q1 q2] q3], r as [[r1 r2] r3]; cbn; ring). rewrite Ds, (dot_comm q n).
  change along with at3.
  set (f := orient3d a b d) in *. 
  destruct (eqb_spec' (f q) 0) as [[-> Q]|[-> Q]], (eqb_spec' (f r) 0) as [[-> S]|[-> S]]; cbn [andb].
  1: { exists "p"%char, None. split; [reflexivity|]. split; [|repeat split; try discriminate; auto]. intros _ t. apply F. rewrite A, Q, S. ring. }
  all: assert (D0 : f q <> 0 \/ f r <> 0) by tauto; assert (Qr : q = r -> f q = f r) by congruence.
  all: assert (Par : dot3 n r - dot3 n q = 0 -> f q = f r).
  1, 3, 5: intros Z; destruct (Req_EM_T (f q) (f r)) as [|Ne]; [assumption|exfalso];
    assert (Zt : plane n dc (at3 q r (f q / (f q - f r)))) by (apply F; rewrite A; field; lra); unfold plane in Zt; rewrite B in Zt;
    assert (Q1 : dot3 n q = dc) by (replace (dot3 n r) with (dot3 n q) in Zt by lra; rewrite <- Zt; ring); assert (Q2 : dot3 n r = dc) by lra;
    apply Ne; transitivity 0; [apply F; exact Q1|symmetry; apply F; exact Q2].
  all: destruct (eqb_spec' (dot3 n r - dot3 n q) 0) as [[E D]|[E D]]; rewrite E; rewrite ?andb_true_r, ?andb_false_r.
  1: { exfalso. specialize (Par D). congruence. }
  2: { exfalso. specialize (Par D). congruence. }
  3: { specialize (Par D). rewrite <- Par.
       assert (X : (ltb (f q) 0 && ltb (f q) 0 || ltb 0 (f q) && ltb 0 (f q)) = true).
       { destruct (ltb_spec (f q) 0) as [[-> ?]|[-> ?]], (ltb_spec 0 (f q)) as [[-> ?]|[-> ?]]; cbn; try reflexivity. lra. }
       rewrite X. exists "0"%char, None. split; [reflexivity|]. split; [discriminate|]. split; [|repeat split; try discriminate; auto]. intros _ t. rewrite <- F, A, <- Par. intros Z. apply Q. lra. }
  all: exists "1"%char; eexists; split; [reflexivity|]; split; [discriminate|]; split; [discriminate|]; split; [|auto]; intros _; exists ((dc - dot3 n q) / (dot3 n r - dot3 n q)); split; [reflexivity|]; split; [unfold plane; rewrite B; field; exact D|intros Z; apply D; rewrite Z; ring].
Qed.

(** instances *)
Example C63_instance :
  (exists c, plane_coefficients [(0, 0, 0); (1, 0, 0); (1, 1, 0); (0, 1, 0)] = Some ((0, 0, 2), 0, c)) /\
  fst (segment_plane (0, 0, 2) 0 (0, 0, -1) (0, 0, 1)) = "1"%char /\
  snd (segment_plane (0, 0, 2) 0 (0, 0, -1) (0, 0, 1)) = Some (0, 0, 0).
Proof.
  split; [|].
  - eexists. unfold plane_coefficients. f_equal. f_equal. f_equal; [cbn; f_equal; [f_equal|]; ring|cbn; ring].
  - destruct (segment_plane (0, 0, 2) 0 (0, 0, -1) (0, 0, 1)) as [code x] eqn:E. apply C63_segment in E. destruct E as (M & _ & _ & K).
    inversion M as [X Y|X Y|X Y|X Y Z|X]; subst; unfold plane in *; cbn in *; try lra.
    + split; [reflexivity|]. destruct K as (t & T & -> & H); [reflexivity|]. assert (t = 1/2) by lra. subst t. f_equal. f_equal; [f_equal|]; field.
    + exfalso. apply (X (1/2)); lra.
Qed.
